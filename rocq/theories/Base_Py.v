(** Python-ish base: exceptions as values, index and slice normalisation,
    insertion-ordered dictionaries, ranges.  Nothing here is specific to
    doatools; it fixes the meaning of the Python constructs the models use. *)
From Coq Require Export List Arith ZArith Bool String Lia.
Export ListNotations.
Open Scope nat_scope.

(** Exceptions that the modelled code can raise. *)
Inductive exn :=
  | ValueError | TypeError | KeyError | IndexError | RuntimeError
  | AttributeError | LinAlgError | NotImplementedError | ZeroDivisionError.

Inductive res (A : Type) :=
  | Ok (a : A)
  | Raise (e : exn).
Arguments Ok {A} a.
Arguments Raise {A} e.

Definition bind {A B} (x : res A) (f : A -> res B) : res B :=
  match x with Ok a => f a | Raise e => Raise e end.
Definition rmap {A B} (f : A -> B) (x : res A) : res B :=
  match x with Ok a => Ok (f a) | Raise e => Raise e end.

Declare Scope py_scope.
Delimit Scope py_scope with py.
Notation "'let!' x ':=' e1 'in' e2" := (bind e1 (fun x => e2))
  (at level 200, x pattern, e1 at level 100, e2 at level 200, right associativity) : py_scope.
Notation "'raise_if' b 'as' e ';;' k" := (if b then Raise e else k)
  (at level 200, b at level 100, e at level 9, k at level 200, right associativity) : py_scope.
Open Scope py_scope.

Definition is_ok {A} (x : res A) : bool := match x with Ok _ => true | Raise _ => false end.

Lemma bind_Ok_inv {A B} (x : res A) (f : A -> res B) b :
  bind x f = Ok b -> exists a, x = Ok a /\ f a = Ok b.
Proof. destruct x; simpl; intros H; [eauto | discriminate]. Qed.

(** sequencing over a list, left to right, stopping at the first exception *)
Fixpoint mapM {A B} (f : A -> res B) (l : list A) : res (list B) :=
  match l with
  | [] => Ok []
  | a :: l' => let! b := f a in let! bs := mapM f l' in Ok (b :: bs)
  end.

(** *** Integers as Python indices *)

(** [norm_index n i]: position selected by the Python index [i] in a sequence of
    length [n]; None stands for IndexError. *)
Definition norm_index (n : nat) (i : Z) : option nat :=
  if (i <? 0)%Z
  then if (Z.of_nat n + i <? 0)%Z then None else Some (Z.to_nat (Z.of_nat n + i))
  else if (i <? Z.of_nat n)%Z then Some (Z.to_nat i) else None.

(** clip a slice bound (step 1) the way CPython's slice.indices does *)
Definition clip_bound (n : nat) (i : Z) : nat :=
  if (i <? 0)%Z
  then Z.to_nat (Z.max 0 (Z.of_nat n + i))
  else Z.to_nat (Z.min i (Z.of_nat n)).

(** [x[lo:hi]] with step 1; None = omitted bound *)
Definition slice_bounds (n : nat) (lo hi : option Z) : nat * nat :=
  (match lo with None => 0 | Some i => clip_bound n i end,
   match hi with None => n | Some i => clip_bound n i end).
Definition pslice {A} (l : list A) (lo hi : option Z) : list A :=
  let '(a, b) := slice_bounds (List.length l) lo hi in
  firstn (b - a) (skipn a l).

(** range(a, b) *)
Definition zrange (a b : Z) : list Z :=
  map (fun k => (a + Z.of_nat k)%Z) (seq 0 (Z.to_nat (b - a))).

(** *** Insertion-ordered dictionaries *)
Section Dict.
  Context {K V : Type} (eqb : K -> K -> bool).
  Definition dict := list (K * V).
  Fixpoint dget (d : list (K * V)) (k : K) : option V :=
    match d with
    | [] => None
    | (k', v) :: d' => if eqb k k' then Some v else dget d' k
    end.
  Definition dmem (d : list (K * V)) (k : K) : bool :=
    match dget d k with Some _ => true | None => false end.
  (** d[k] = v: an existing key keeps its position, a new one goes to the end *)
  Fixpoint dset (d : list (K * V)) (k : K) (v : V) : list (K * V) :=
    match d with
    | [] => [(k, v)]
    | (k', v') :: d' => if eqb k k' then (k', v) :: d' else (k', v') :: dset d' k v
    end.
  Definition dkeys (d : list (K * V)) := map fst d.
  Definition dvals (d : list (K * V)) := map snd d.
End Dict.

Section DictFacts.
  Context {K V : Type} (eqb : K -> K -> bool)
          (eqb_spec : forall a b, eqb a b = true <-> a = b).

  Lemma eqb_refl' a : eqb a a = true. Proof. now apply eqb_spec. Qed.
  Lemma eqb_neq' a b : a <> b -> eqb a b = false.
  Proof. intros H. destruct (eqb a b) eqn:E; [apply eqb_spec in E; contradiction | reflexivity]. Qed.

  Lemma dget_dset_eq (d : list (K * V)) k v : dget eqb (dset eqb d k v) k = Some v.
  Proof.
    induction d as [|[k' v'] d IH]; simpl; [now rewrite eqb_refl'|].
    destruct (eqb k k') eqn:E; simpl; rewrite E; [reflexivity | exact IH].
  Qed.
  Lemma dget_dset_neq (d : list (K * V)) k k2 v : k2 <> k -> dget eqb (dset eqb d k v) k2 = dget eqb d k2.
  Proof.
    intros H; induction d as [|[k' v'] d IH]; simpl.
    - now rewrite eqb_neq'.
    - destruct (eqb k k') eqn:E; simpl.
      + apply eqb_spec in E; subst k'. now rewrite eqb_neq'.
      + destruct (eqb k2 k'); [reflexivity | exact IH].
  Qed.
  Lemma dget_In (d : list (K * V)) k v : dget eqb d k = Some v -> In (k, v) d.
  Proof.
    induction d as [|[k' v'] d IH]; simpl; [discriminate|].
    destruct (eqb k k') eqn:E; intros H.
    - injection H as ->. apply eqb_spec in E; subst; now left.
    - right; auto.
  Qed.
  Lemma dget_None_notin (d : list (K * V)) k : dget eqb d k = None <-> ~ In k (dkeys d).
  Proof.
    induction d as [|[k' v'] d IH]; simpl; [tauto|].
    destruct (eqb k k') eqn:E.
    - apply eqb_spec in E; subst. split; [discriminate | intros H; exfalso; apply H; now left].
    - rewrite IH. split; intros H; [intros [->|H']; [rewrite eqb_refl' in E; discriminate | contradiction] | tauto].
  Qed.
  Lemma dkeys_dset (d : list (K * V)) k v :
    dkeys (dset eqb d k v) = if dmem eqb d k then dkeys d else dkeys d ++ [k].
  Proof.
    unfold dmem. induction d as [|[k' v'] d IH]; simpl; [reflexivity|].
    destruct (eqb k k') eqn:E; simpl; [reflexivity|].
    rewrite IH. destruct (dget eqb d k); reflexivity.
  Qed.
  Lemma dset_NoDup (d : list (K * V)) k v : NoDup (dkeys d) -> NoDup (dkeys (dset eqb d k v)).
  Proof.
    intros H. rewrite dkeys_dset. unfold dmem. destruct (dget eqb d k) eqn:E; [exact H|].
    apply dget_None_notin in E.
    clear -H E. induction (dkeys d) as [|a l IH]; simpl in *.
    - constructor; [tauto | constructor].
    - inversion H; subst. constructor.
      + rewrite in_app_iff; simpl. intros [?|[?|[]]]; [contradiction | subst; tauto].
      + apply IH; tauto.
  Qed.
  Lemma In_dget (d : list (K * V)) k v : NoDup (dkeys d) -> In (k, v) d -> dget eqb d k = Some v.
  Proof.
    induction d as [|[k' v'] d IH]; simpl; [tauto|]. intros Hn Hi. inversion Hn; subst.
    destruct Hi as [Hi|Hi].
    - injection Hi as -> ->. now rewrite eqb_refl'.
    - destruct (eqb k k') eqn:E; [|auto].
      apply eqb_spec in E; subst. exfalso. apply H1. apply (in_map fst) in Hi. exact Hi.
  Qed.
End DictFacts.

(** *** Facts about slices used by several models *)
Lemma pslice_prefix {A} (l : list A) k : pslice l None (Some (Z.of_nat k)) = firstn k l.
Proof.
  unfold pslice, slice_bounds, clip_bound. simpl.
  destruct (Z.of_nat k <? 0)%Z eqn:E; [apply Z.ltb_lt in E; lia|].
  rewrite Nat.sub_0_r. destruct (Nat.le_gt_cases k (List.length l)).
  - now rewrite Z.min_l, Nat2Z.id by lia.
  - rewrite Z.min_r, Nat2Z.id by lia. rewrite firstn_all, firstn_all2; [reflexivity|lia].
Qed.
Lemma pslice_suffix {A} (l : list A) k : pslice l (Some (Z.of_nat k)) None = skipn k l.
Proof.
  unfold pslice, slice_bounds, clip_bound. simpl.
  destruct (Z.of_nat k <? 0)%Z eqn:E; [apply Z.ltb_lt in E; lia|].
  destruct (Nat.le_gt_cases k (List.length l)).
  - rewrite Z.min_l, Nat2Z.id by lia. apply firstn_all2. rewrite skipn_length; lia.
  - rewrite Z.min_r, Nat2Z.id by lia. rewrite Nat.sub_diag. simpl.
    rewrite skipn_all2; [reflexivity|lia].
Qed.
(** [l[-k:]] is the last k entries for k >= 1 but the whole list for k = 0 *)
Lemma pslice_last {A} (l : list A) k : 1 <= k ->
  pslice l (Some (- Z.of_nat k)%Z) None = skipn (List.length l - k) l.
Proof.
  intros Hk. unfold pslice, slice_bounds, clip_bound. simpl.
  destruct (- Z.of_nat k <? 0)%Z eqn:E; [|apply Z.ltb_ge in E; lia].
  replace (Z.to_nat (Z.max 0 (Z.of_nat (List.length l) + - Z.of_nat k))) with (List.length l - k) by lia.
  apply firstn_all2. rewrite skipn_length; lia.
Qed.
Lemma pslice_last_0 {A} (l : list A) : pslice l (Some (- Z.of_nat 0)%Z) None = l.
Proof. exact (pslice_suffix l 0). Qed.
(** [l[:-k]] drops the last k entries for k >= 1 but is empty for k = 0 *)
Lemma pslice_droplast {A} (l : list A) k : 1 <= k ->
  pslice l None (Some (- Z.of_nat k)%Z) = firstn (List.length l - k) l.
Proof.
  intros Hk. unfold pslice, slice_bounds, clip_bound. simpl.
  destruct (- Z.of_nat k <? 0)%Z eqn:E; [|apply Z.ltb_ge in E; lia].
  replace (Z.to_nat (Z.max 0 (Z.of_nat (List.length l) + - Z.of_nat k))) with (List.length l - k) by lia.
  now rewrite Nat.sub_0_r.
Qed.
Lemma pslice_droplast_0 {A} (l : list A) : pslice l None (Some (- Z.of_nat 0)%Z) = [].
Proof. exact (pslice_prefix l 0). Qed.
