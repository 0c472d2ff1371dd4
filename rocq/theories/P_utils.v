(** Proofs about utils/math.py and utils/conversion.py *)
From Coq Require Import Sorting.Sorted Sorting.Permutation.
From Verif Require Import Base_Np Base_Trig M_utils S_utils.
Open Scope nat_scope.

(** *** vec *)
Lemma vec_shape {T} (d : T) x : nr (vec d x) = nr x * nc x /\ nc (vec d x) = 1.
Proof. unfold vec, as_column; simpl. rewrite length_flatF. split; lia. Qed.
Lemma vec_entry {T} (d : T) x i j : i < nr x -> j < nc x -> ent (vec d x) (i + j * nr x) 0 = ent x i j.
Proof. intros. unfold vec, as_column; simpl. now apply nth_flatF. Qed.
Lemma vec_index_surj m n k : k < m * n -> exists i j, i < m /\ j < n /\ k = i + j * m.
Proof.
  intros H. exists (k mod m), (k / m). assert (m <> 0) by lia.
  split; [now apply Nat.mod_upper_bound|]. split; [apply Nat.div_lt_upper_bound; lia|].
  pose proof (Nat.div_mod k m H0). lia.
Qed.
Lemma vec_index_inj m i j i' j' : i < m -> i' < m -> i + j * m = i' + j' * m -> i = i' /\ j = j'.
Proof.
  intros Hi Hi' E. assert (j = j').
  { assert ((i + j * m) / m = (i' + j' * m) / m) by congruence.
    rewrite !Nat.div_add, !Nat.div_small in H by lia. lia. }
  subst. lia.
Qed.

(** *** khatri_rao *)
Lemma kr_loop (f : nat -> list C) ks c :
  fold_left (fun c i => set_col (RtoC 0) c i (f i)) ks c =
  fold_left (fun c i => set_col (RtoC 0) c i (f i)) ks c. Proof. reflexivity. Qed.
Lemma fold_set_col (f : nat -> list C) ks c :
  let r := fold_left (fun c i => set_col (RtoC 0) c i (f i)) ks c in
  nr r = nr c /\ nc r = nc c /\
  forall i j, ent r i j = if existsb (Nat.eqb j) ks then nth i (f j) (RtoC 0) else ent c i j.
Proof.
  revert c. induction ks as [|k ks IH]; intros c; simpl; [repeat split|].
  destruct (IH (set_col (RtoC 0) c k (f k))) as (H1 & H2 & H3).
  split; [exact H1|]. split; [exact H2|]. intros i j. rewrite H3. simpl.
  destruct (existsb (Nat.eqb j) ks) eqn:E; [now rewrite orb_true_r|]. rewrite orb_false_r.
  destruct (Nat.eqb j k) eqn:E2; [apply Nat.eqb_eq in E2; subst; reflexivity | reflexivity].
Qed.
Lemma existsb_seq j n : existsb (Nat.eqb j) (seq 0 n) = Nat.ltb j n.
Proof.
  destruct (Nat.ltb_spec j n) as [H|H].
  - apply existsb_exists. exists j. split; [apply in_seq; lia | apply Nat.eqb_refl].
  - destruct (existsb _ _) eqn:E; [|reflexivity]. apply existsb_exists in E.
    destruct E as (x & H1 & H2). apply in_seq in H1. apply Nat.eqb_eq in H2. lia.
Qed.
Lemma khatri_rao_raise a b : nc a <> nc b -> khatri_rao a b = Raise ValueError.
Proof. intros H. unfold khatri_rao. rewrite (proj2 (Nat.eqb_neq _ _) H). reflexivity. Qed.
Lemma khatri_rao_ok a b : nc a = nc b ->
  exists c, khatri_rao a b = Ok c /\ nr c = nr a * nr b /\ nc c = nc a /\
    forall i j k, i < nr a -> j < nr b -> k < nc a ->
      ent c (i * nr b + j) k = (ent a i k * ent b j k)%C.
Proof.
  intros H. unfold khatri_rao. rewrite (proj2 (Nat.eqb_eq _ _) H). cbn [negb].
  eexists. split; [reflexivity|].
  match goal with |- context [fold_left ?F ?L ?C0] => destruct (fold_set_col (fun i =>
     flatC (outer Cmult (nr a) (nr b) (fun r => ent a r i) (fun r => ent b r i))) L C0) as (H1 & H2 & H3) end.
  split; [exact H1|]. split; [exact H2|]. intros i j k Hi Hj Hk. rewrite H3, existsb_seq.
  rewrite (proj2 (Nat.ltb_lt _ _) Hk).
  rewrite (nth_flatC (outer Cmult (nr a) (nr b) (fun r => ent a r k) (fun r => ent b r k)) i j) by assumption.
  reflexivity.
Qed.

(** *** projm *)
Lemma gram_zero A y : (forall i, i < nc A -> mvec (mher A *m A) y i = RtoC 0) ->
  forall i, i < nr A -> mvec A y i = RtoC 0.
Proof.
  intros H. apply vnorm2_0.
  assert (E : qform (mher A *m A) y = RtoC 0).
  { unfold qform. simpl. apply csum_0. intros i Hi.
    rewrite (csum_ext _ _ (fun j => Cconj (y i) * (ent (mher A *m A) i j * y j)))%C by (intros; simpl; ring).
    rewrite csum_scal. change (csum (nc A) (fun j => ent (mher A *m A) i j * y j)%C) with (mvec (mher A *m A) y i).
    rewrite H by exact Hi. ring. }
  rewrite qform_gram in E. injection E. auto.
Qed.
Lemma gram_zero_mat A Y : nr Y = nc A ->
  mher A *m A *m Y ==m Mat (nc A) (nc Y) (fun _ _ => RtoC 0) -> A *m Y ==m Mat (nr A) (nc Y) (fun _ _ => RtoC 0).
Proof.
  intros S H. repeat split. simpl. intros i j Hi Hj.
  apply (gram_zero A (fun k => ent Y k j)); [|exact Hi].
  intros k Hk. apply (meq_ent _ _ k j) in H; [exact H | exact Hk | exact Hj].
Qed.
(** the normal equations give the orthogonal projector *)
Lemma normal_eq_projector A X : nr X = nc A -> nc X = nr A ->
  mher A *m A *m X ==m mher A -> orth_projector_onto A (A *m X).
Proof.
  intros S1 S2 H.
  assert (HPA : A *m X *m A ==m A).
  { assert (Z : A *m (X *m A -m mid (nc A)) ==m Mat (nr A) (nc A) (fun _ _ => RtoC 0)).
    { assert (Hz := gram_zero_mat A (X *m A -m mid (nc A))). simpl in Hz. apply Hz; [exact S1|].
      clear Hz. etransitivity; [apply mmul_sub_r|].
      etransitivity; [apply msub_eq|].
      3:{ etransitivity; [symmetry; apply mmul_assoc|]. etransitivity; [apply mmul_eq_l; exact H|]. reflexivity. }
      1:{ reflexivity. } 1:{ reflexivity. }
      1:{ apply mmul_id_r. reflexivity. }
      repeat split. simpl. intros. ring. }
    etransitivity; [apply mmul_assoc|].
    repeat split. intros i j Hi Hj. simpl in Hi, Hj.
    assert (Z' := meq_ent _ _ i j Z Hi Hj).
    assert (Z'' : ent (A *m (X *m A -m mid (nc A))) i j = (ent (A *m (X *m A)) i j - ent (A *m mid (nc A)) i j)%C).
    { apply (meq_ent _ _ i j (mmul_sub_r A (X *m A) (mid (nc A)))); assumption. }
    rewrite Z' in Z''. simpl ent in Z'' at 1.
    assert (Z3 : ent (A *m mid (nc A)) i j = ent A i j)
      by (apply (meq_ent _ _ i j (mmul_id_r A (nc A) eq_refl)); assumption).
    rewrite Z3 in Z''. replace (ent A i j) with (ent (A *m (X *m A)) i j - (ent (A *m (X *m A)) i j - ent A i j))%C by ring.
    rewrite <- Z''. ring. }
  (* P^H P = P^H *)
  assert (HHP : mher (A *m X) *m (A *m X) ==m mher (A *m X)).
  { transitivity (mher X *m mher A *m (A *m X)); [apply mmul_eq_l, mher_mmul; lia|].
    transitivity (mher X *m mher A); [|symmetry; apply mher_mmul; lia].
    etransitivity; [apply mmul_assoc|]. apply mmul_eq_r; [simpl; lia|].
    etransitivity; [symmetry; apply mmul_assoc|]. exact H. }
  assert (Hherm : mher (A *m X) ==m A *m X).
  { transitivity (mher (mher (A *m X) *m (A *m X))).
    - transitivity (mher (A *m X) *m (A *m X)); [symmetry; exact HHP|].
      symmetry. apply hermitian_mher. apply hermitian_gram.
    - transitivity (mher (mher (A *m X))); [apply mher_proper; exact HHP | apply mher_mher]. }
  split.
  - simpl; lia.
  - transitivity (mher (A *m X) *m (A *m X)).
    + apply mmul_eq_l. symmetry. exact Hherm.
    + transitivity (mher (A *m X)); [exact HHP | exact Hherm].
  - exact Hherm.
  - exact HPA.
  - exists X. repeat split; assumption || reflexivity.
Qed.
(** contract of numpy.linalg.solve: a returned X solves M X = B *)
Definition solve_ok (solve : cmat -> cmat -> res cmat) : Prop :=
  forall M B X, solve M B = Ok X -> nr X = nc M /\ nc X = nc B /\ M *m X ==m B.
(** contract of numpy.linalg.pinv: Moore-Penrose conditions used *)
Definition pinv_ok (pinv : cmat -> res cmat) : Prop :=
  forall A X, pinv A = Ok X -> nr X = nc A /\ nc X = nr A /\
    A *m X *m A ==m A /\ mher (A *m X) ==m A *m X.
Definition real_mat (A : cmat) : Prop := forall i j, i < nr A -> j < nc A -> Im (ent A i j) = 0%R.
Lemma projm_correct solve pinv use_pinv iscomplex A P :
  solve_ok solve -> pinv_ok pinv -> (iscomplex = false -> real_mat A) ->
  projm solve pinv use_pinv iscomplex A = Ok P -> orth_projector_onto A P.
Proof.
  intros Hs Hp Hr. unfold projm. destruct use_pinv.
  - intros H. apply bind_Ok_inv in H. destruct H as (X & HX & H). unfold matmul in H.
    destruct (Hp _ _ HX) as (S1 & S2 & E1 & E2).
    destruct (Nat.eqb _ _); [|discriminate]. injection H as <-. split.
    + simpl; lia.
    + etransitivity; [symmetry; apply mmul_assoc|]. apply mmul_eq_l. exact E1.
    + exact E2.
    + exact E1.
    + exists X. repeat split; assumption || reflexivity.
  - intros H.
    assert (EH : (if iscomplex then mtr (mconj A) else mtr A) ==m mher A).
    { destruct iscomplex; [repeat split|]. repeat split. simpl. intros i j Hi Hj.
      apply C_eq; [now rewrite Re_conj|]. rewrite Im_conj, (Hr eq_refl j i) by assumption. ring. }
    set (AH := if iscomplex then mtr (mconj A) else mtr A) in *.
    apply bind_Ok_inv in H. destruct H as (G & HG & H).
    apply bind_Ok_inv in H. destruct H as (X & HX & H).
    unfold matmul in *.
    destruct (Nat.eqb (nc AH) (nr A)) eqn:EA; [|discriminate]. injection HG as <-.
    destruct (Nat.eqb (nc A) (nr X)) eqn:EX; [|discriminate]. injection H as <-.
    apply Nat.eqb_eq in EA, EX.
    destruct (Hs _ _ _ HX) as (S1 & S2 & E). simpl in S1.
    apply normal_eq_projector; [lia | lia |].
    transitivity (AH *m A *m X); [|transitivity AH; [exact E | exact EH]].
    apply mmul_eq_l, mmul_eq_l. symmetry. exact EH.
Qed.
Lemma projm_complement solve pinv use_pinv iscomplex A P :
  solve_ok solve -> pinv_ok pinv -> (iscomplex = false -> real_mat A) ->
  projm solve pinv use_pinv iscomplex A = Ok P ->
  (mid (nr A) -m P) *m A ==m Mat (nr A) (nc A) (fun _ _ => RtoC 0).
Proof.
  intros Hs Hp Hr H. destruct (projm_correct _ _ _ _ _ _ Hs Hp Hr H) as [(S1 & S2) _ _ Hf _].
  etransitivity; [apply mmul_sub_l; simpl; auto|].
  etransitivity; [apply msub_eq|].
  3:{ apply mmul_id_l. reflexivity. }
  3:{ exact Hf. }
  - simpl; auto.
  - reflexivity.
  - repeat split. simpl. intros. ring.
Qed.

(** *** cartesian *)
Lemma in_shape_nth s idx a : in_shape s idx -> a < List.length s -> nth a idx 0 < nth a s 0.
Proof.
  revert idx a; induction s as [|n s IH]; intros [|i idx] a; simpl; try tauto; try lia.
  intros (H1 & H2) Ha. destruct a; [exact H1|]. apply IH; [exact H2 | lia].
Qed.
Lemma in_shape_length s idx : in_shape s idx -> List.length idx = List.length s.
Proof. revert idx; induction s as [|n s IH]; intros [|i idx]; simpl; try tauto. intros (_ & H). f_equal. auto. Qed.
Lemma cartesian_spec {T} (d : T) xi rows : cartesian d xi = Ok rows ->
  List.length rows = prod_list (map (@List.length T) xi) /\
  forall r, r < prod_list (map (@List.length T) xi) ->
    List.length (nth r rows []) = List.length xi /\
    forall a, a < List.length xi ->
      nth a (nth r rows []) d = nth (nth a (unravel (map (@List.length T) xi) r) 0) (nth a xi []) d.
Proof.
  intros H. assert (Hlen : 0 < List.length xi) by (destruct xi; [discriminate H | simpl; lia]).
  assert (H' : rows = transpose_rows d (meshgrid_flat d xi)) by (destruct xi; [discriminate H | now injection H]).
  clear H. subst rows. set (shape := map (@List.length T) xi).
  unfold transpose_rows.
  assert (Hm : exists r0 rs, meshgrid_flat d xi = r0 :: rs /\ List.length r0 = prod_list shape).
  { unfold meshgrid_flat. destruct (List.length xi) eqn:E; [lia|]. simpl.
    eexists. eexists. split; [reflexivity|]. rewrite map_length. apply length_all_indices. }
  destruct Hm as (r0 & rs & Em & El). rewrite Em, El. rewrite <- Em. clear rs Em.
  split; [now rewrite map_length, seq_length|].
  intros r Hr. rewrite nth_map_seq by exact Hr.
  split; [unfold meshgrid_flat; now rewrite !map_length, seq_length|].
  intros a Ha. unfold meshgrid_flat. rewrite map_map. rewrite nth_map_seq by exact Ha. fold shape.
  set (g := fun idx => nth (nth a idx 0) (nth a xi []) d).
  change d with d. rewrite nth_indep with (d' := g []) by (rewrite map_length, length_all_indices; exact Hr).
  rewrite map_nth. rewrite nth_all_indices by exact Hr. reflexivity.
Qed.
Lemma cartesian_total {T} (d : T) xi : (exists rows, cartesian d xi = Ok rows) <-> xi <> [].
Proof. unfold cartesian. destruct xi; split; intros; try congruence; try (destruct H; discriminate); eauto. Qed.

(** *** unique_rows *)
Lemma Rleb_spec a b : Rleb a b = true <-> (a <= b)%R.
Proof. unfold Rleb. destruct (Rle_dec a b); split; intros; auto; discriminate. Qed.
Lemma Rltb_spec a b : Rltb a b = true <-> (a < b)%R.
Proof. unfold Rltb. destruct (Rlt_dec a b); split; intros; auto; discriminate. Qed.
Lemma row_close_spec x tol i k : row_close x tol i k = true <-> rows_within x tol i k.
Proof.
  unfold row_close, rows_within. rewrite forallb_forall. split.
  - intros H l Hl. apply Rleb_spec. apply H. apply in_seq. lia.
  - intros H l Hl. apply Rleb_spec. apply H. apply in_seq in Hl. lia.
Qed.

Lemma fold_Rmax_spec l a : (forall b, In b (a :: l) -> b <= fold_left Rmax l a)%R /\ In (fold_left Rmax l a) (a :: l).
Proof.
  revert a; induction l as [|c l IH]; intros a; simpl.
  - split; [intros b [->|[]]; lra | auto].
  - destruct (IH (Rmax a c)) as (H1 & H2). split.
    + intros b [->|[->|Hb]].
      * apply Rle_trans with (Rmax b c); [apply Rmax_l | apply H1; now left].
      * apply Rle_trans with (Rmax a b); [apply Rmax_r | apply H1; now left].
      * apply H1; now right.
    + destruct H2 as [H2|H2]; [|auto]. rewrite <- H2. unfold Rmax. destruct (Rle_dec a c); auto.
Qed.
Lemma fold_Rmin_spec l a : (forall b, In b (a :: l) -> fold_left Rmin l a <= b)%R /\ In (fold_left Rmin l a) (a :: l).
Proof.
  revert a; induction l as [|c l IH]; intros a; simpl.
  - split; [intros b [->|[]]; lra | auto].
  - destruct (IH (Rmin a c)) as (H1 & H2). split.
    + intros b [->|[->|Hb]].
      * apply Rle_trans with (Rmin b c); [apply H1; now left | apply Rmin_l].
      * apply Rle_trans with (Rmin a b); [apply H1; now left | apply Rmin_r].
      * apply H1; now right.
    + destruct H2 as [H2|H2]; [|auto]. rewrite <- H2. unfold Rmin. destruct (Rle_dec a c); auto.
Qed.
Lemma in_flatC {T} (x : mat T) v : In v (flatC x) <-> exists i j, i < nr x /\ j < nc x /\ ent x i j = v.
Proof.
  unfold flatC. rewrite in_flat_map. split.
  - intros (i & Hi & H). apply in_map_iff in H. destruct H as (j & E & Hj).
    apply in_seq in Hi, Hj. exists i, j. repeat split; auto; lia.
  - intros (i & j & Hi & Hj & E). exists i. split; [apply in_seq; lia|].
    apply in_map_iff. exists j. split; [exact E | apply in_seq; lia].
Qed.
Lemma ur_tol_spec x atol rtol M : is_max_abs x M -> ur_tol x atol rtol = (atol + rtol * M)%R.
Proof.
  intros (H1 & i & j & Hi & Hj & HM). unfold ur_tol. f_equal. f_equal.
  assert (Hin : In (ent x i j) (flatC x)) by (apply in_flatC; eauto 6).
  assert (Hb : forall v, In v (flatC x) -> (Rabs v <= M)%R).
  { intros v Hv. apply in_flatC in Hv. destruct Hv as (i' & j' & Hi' & Hj' & <-). auto. }
  unfold nanmin, nanmax. destruct (flatC x) as [|a l]; [destruct Hin|].
  destruct (fold_Rmax_spec l a) as (X1 & X2). destruct (fold_Rmin_spec l a) as (N1 & N2).
  pose proof (Hb _ X2). pose proof (Hb _ N2). pose proof (X1 _ Hin). pose proof (N1 _ Hin).
  apply Rle_antisym.
  - apply Rmax_lub; assumption.
  - destruct (Rle_dec 0 (ent x i j)).
    + rewrite Rabs_right in HM by lra. apply Rle_trans with (Rabs (fold_left Rmax l a)); [|apply Rmax_r].
      rewrite Rabs_right by lra. lra.
    + rewrite Rabs_left in HM by lra. apply Rle_trans with (Rabs (fold_left Rmin l a)); [|apply Rmax_l].
      rewrite Rabs_left by lra. lra.
Qed.

Lemma ur_inner_spec close a n processed next :
  let '(p', nx) := ur_inner close (seq a n) processed next in
  (forall k, p' k = processed k || (Nat.leb a k && Nat.ltb k (a + n) && close k)) /\
  (match next with
   | Some v => nx = Some v
   | None => match nx with
             | None => forall k, a <= k < a + n -> p' k = true
             | Some v => a <= v < a + n /\ p' v = false /\ forall k, a <= k < v -> p' k = true
             end
   end).
Proof.
  revert a processed next. induction n as [|n IH]; intros a processed next; cbn [seq ur_inner].
  - split.
    + intros k. replace (Nat.leb a k && Nat.ltb k (a + 0)) with false; [simpl; now rewrite orb_false_r|].
      symmetry. apply andb_false_iff. destruct (Nat.leb_spec a k); [right; apply Nat.ltb_ge; lia | auto].
    + destruct next; [reflexivity|]. intros; lia.
  - (* the three cases of the loop body *)
    assert (step : forall processed1 next1,
      (forall k, processed1 k = processed k || (Nat.eqb k a && close k)) ->
      (next1 = match next with Some _ => next | None => if processed1 a then None else Some a end) ->
      let '(p', nx) := ur_inner close (seq (S a) n) processed1 next1 in
      (forall k, p' k = processed k || (Nat.leb a k && Nat.ltb k (a + S n) && close k)) /\
      (match next with
       | Some v => nx = Some v
       | None => match nx with
             | None => forall k, a <= k < a + S n -> p' k = true
             | Some v => a <= v < a + S n /\ p' v = false /\ forall k, a <= k < v -> p' k = true
             end
       end)).
    { intros processed1 next1 Hp Hn. specialize (IH (S a) processed1 next1).
      destruct (ur_inner close (seq (S a) n) processed1 next1) as [p' nx].
      destruct IH as (I1 & I2).
      assert (J1 : forall k, p' k = processed k || (Nat.leb a k && Nat.ltb k (a + S n) && close k)).
      { intros k. rewrite I1, Hp. destruct (processed k); [reflexivity|]. cbn [orb].
        destruct (Nat.eqb_spec k a) as [->|Hk].
        - rewrite (proj2 (Nat.leb_le a a)), (proj2 (Nat.ltb_lt a (a + S n))) by lia. 
          rewrite (proj2 (Nat.leb_gt (S a) a)) by lia. cbn [andb]. now rewrite orb_false_r.
        - cbn [andb orb]. f_equal. f_equal; [|f_equal; lia].
          destruct (Nat.leb_spec (S a) k), (Nat.leb_spec a k); auto; lia. }
      split; [exact J1|].
      assert (Pa : p' a = processed1 a).
      { rewrite I1. rewrite (proj2 (Nat.leb_gt (S a) a)) by lia. simpl. apply orb_false_r. }
      destruct next as [v|].
      - subst next1. exact I2.
      - destruct (processed1 a) eqn:Epa; subst next1.
        + destruct nx as [v|].
          * destruct I2 as (K1 & K2 & K3). split; [lia|]. split; [exact K2|].
            intros k Hk. destruct (Nat.eq_dec k a) as [->|]; [exact Pa | apply K3; lia].
          * intros k Hk. destruct (Nat.eq_dec k a) as [->|]; [exact Pa | apply I2; lia].
        + subst nx. split; [lia|]. split; [exact Pa|]. intros; lia. }
    destruct (processed a) eqn:Ea.
    + apply step.
      * intros k. destruct (Nat.eqb_spec k a) as [->|]; [now rewrite Ea | now rewrite orb_false_r].
      * rewrite Ea. destruct next; reflexivity.
    + destruct (close a) eqn:Ec.
      * apply step.
        -- intros k. destruct (Nat.eqb_spec k a) as [->|]; [now rewrite Ec, orb_true_r | now rewrite orb_false_r].
        -- rewrite Nat.eqb_refl. destruct next; reflexivity.
      * apply step.
        -- intros k. destruct (Nat.eqb_spec k a) as [->|]; [now rewrite Ec, Ea | now rewrite orb_false_r].
        -- rewrite Ea. destruct next; reflexivity.
Qed.

Lemma SSorted_snoc l a : StronglySorted lt l -> (forall i, In i l -> i < a) -> StronglySorted lt (l ++ [a]).
Proof.
  induction l as [|b l IH]; simpl; intros H Ha; [repeat constructor|].
  inversion H; subst. constructor.
  - apply IH; auto.
  - apply Forall_app. split; [assumption|]. constructor; [apply Ha; now left | constructor].
Qed.

(** generic statement for the while loop *)
Record cover_gen (close : nat -> nat -> bool) (n : nat) (idx : list nat) : Prop := {
  cg_inc : StronglySorted lt idx;
  cg_range : forall i, In i idx -> i < n;
  cg_sep : forall p q, p < q -> q < List.length idx -> close (nth p idx 0) (nth q idx 0) = false;
  cg_cover : forall k, k < n -> exists i, In i idx /\ i <= k /\ (i = k \/ close i k = true)
}.
Lemma ur_while_spec close n fuel ii processed acc :
  ii < n -> n - ii <= fuel ->
  StronglySorted lt acc -> (forall i, In i acc -> i < ii) ->
  (forall p q, p < q -> q < List.length acc -> close (nth p acc 0) (nth q acc 0) = false) ->
  (forall k, processed k = true -> exists i, In i acc /\ i < k /\ close i k = true) ->
  (forall k, k < ii -> In k acc \/ processed k = true) ->
  (forall i k, In i acc -> ii <= k < n -> processed k = false -> close i k = false) ->
  processed ii = false ->
  exists l, ur_while close n fuel ii processed acc = Some (acc ++ ii :: l) /\ cover_gen close n (acc ++ ii :: l).
Proof.
  revert ii processed acc. induction fuel as [|fuel IH]; intros ii processed acc Hii Hf Hs Hr Hsep Hp Hc Hn Hpi; [lia|].
  cbn [ur_while].
  pose proof (ur_inner_spec (close ii) (ii + 1) (n - (ii + 1)) processed None) as HI.
  destruct (ur_inner (close ii) (seq (ii + 1) (n - (ii + 1))) processed None) as [p' nx].
  destruct HI as (I1 & I2).
  assert (Hs' : StronglySorted lt (acc ++ [ii])) by (apply SSorted_snoc; assumption).
  assert (Hsep' : forall p q, p < q -> q < List.length (acc ++ [ii]) ->
     close (nth p (acc ++ [ii]) 0) (nth q (acc ++ [ii]) 0) = false).
  { intros p q Hpq Hq. rewrite app_length in Hq; simpl in Hq.
    rewrite (app_nth1 acc) by lia.
    destruct (Nat.eq_dec q (List.length acc)) as [->|].
    - rewrite app_nth2, Nat.sub_diag by lia. simpl. apply Hn; [apply nth_In; lia | lia | exact Hpi].
    - rewrite app_nth1 by lia. apply Hsep; lia. }
  assert (Hp' : forall k, p' k = true -> exists i, In i (acc ++ [ii]) /\ i < k /\ close i k = true).
  { intros k Hk. rewrite I1 in Hk. apply orb_true_iff in Hk. destruct Hk as [Hk|Hk].
    - destruct (Hp k Hk) as (i & A1 & A2 & A3). exists i. rewrite in_app_iff. auto.
    - apply andb_true_iff in Hk. destruct Hk as (Hk & Hk3). apply andb_true_iff in Hk. destruct Hk as (Hk1 & Hk2).
      apply Nat.leb_le in Hk1. exists ii. rewrite in_app_iff. simpl. repeat split; auto; lia. }
  destruct nx as [v|].
  - destruct I2 as (V1 & V2 & V3).
    destruct (IH v p' (acc ++ [ii])) as (l & E & Hcov); try assumption.
    + lia.
    + lia.
    + intros i Hi. apply in_app_iff in Hi. destruct Hi as [Hi|[<-|[]]]; [specialize (Hr _ Hi); lia | lia].
    + intros k Hk. rewrite in_app_iff. simpl.
      destruct (Nat.lt_ge_cases k ii) as [L|L].
      * destruct (Hc k L) as [|Hpk]; [auto|]. right. rewrite I1, Hpk. reflexivity.
      * destruct (Nat.eq_dec k ii) as [->|]; [auto|]. right. apply V3; lia.
    + intros i k Hi Hk Hpk. rewrite I1 in Hpk. apply orb_false_iff in Hpk. destruct Hpk as (Q1 & Q2).
      apply in_app_iff in Hi. destruct Hi as [Hi|[<-|[]]]; [apply Hn; auto; lia|].
      rewrite (proj2 (Nat.leb_le _ _)), (proj2 (Nat.ltb_lt _ _)) in Q2 by lia. exact Q2.
    + exists (v :: l). rewrite <- app_assoc in E, Hcov. simpl in E, Hcov. split; assumption.
  - exists []. split; [reflexivity|]. split; [exact Hs' | | exact Hsep' |].
    + intros i Hi. apply in_app_iff in Hi. destruct Hi as [Hi|[<-|[]]]; [specialize (Hr _ Hi); lia | exact Hii].
    + intros k Hk. destruct (Nat.lt_ge_cases k ii) as [L|L].
      * destruct (Hc k L) as [Hk'|Hpk].
        -- exists k. rewrite in_app_iff. auto.
        -- destruct (Hp _ Hpk) as (i & A1 & A2 & A3). exists i. rewrite in_app_iff. repeat split; auto. lia.
      * destruct (Nat.eq_dec k ii) as [->|].
        -- exists ii. rewrite in_app_iff. simpl. auto.
        -- assert (Hpk : p' k = true) by (apply I2; lia).
           destruct (Hp' _ Hpk) as (i & A1 & A2 & A3). exists i. repeat split; auto. lia.
Qed.
Lemma ur_while_top close n : 0 < n ->
  exists l, ur_while close n n 0 (fun _ => false) [] = Some (0 :: l) /\ cover_gen close n (0 :: l).
Proof.
  intros Hn. apply (ur_while_spec close n n 0 (fun _ => false) []); try lia; simpl; try tauto; try discriminate; try constructor; intros; lia.
Qed.
Lemma cover_gen_sep x tol idx rest : idx = 0 :: rest ->
  cover_gen (row_close x tol) (nr x) idx -> separated_cover x tol idx.
Proof.
  intros Hi [H1 H2 H3 H4]. split.
  - eauto.
  - exact H1.
  - exact H2.
  - intros p q Hpq Hq Hc. apply row_close_spec in Hc. rewrite H3 in Hc by assumption. discriminate.
  - intros k Hk. destruct (H4 k Hk) as (i & A & B & D). exists i. split; [exact A|]. split; [exact B|].
    destruct D as [D|D]; [auto | right; now apply row_close_spec].
Qed.
(** sorting *)
Lemma ins_by_perm {A} le (a : A) l : Permutation (ins_by le a l) (a :: l).
Proof.
  induction l as [|b l IH]; simpl; [reflexivity|]. destruct (le a b); [reflexivity|].
  rewrite IH. apply perm_swap.
Qed.
Lemma sort_by_perm {A} le (l : list A) : Permutation (sort_by le l) l.
Proof. induction l as [|a l IH]; simpl; [reflexivity|]. rewrite ins_by_perm. now constructor. Qed.
Lemma ins_by_sorted {A} (le : A -> A -> bool) a l :
  (forall x y, le x y = false -> le y x = true) ->
  (forall x y z, le x y = true -> le y z = true -> le x z = true) ->
  StronglySorted (fun x y => le x y = true) l -> StronglySorted (fun x y => le x y = true) (ins_by le a l).
Proof.
  intros Htot Htr. induction l as [|b l IH]; simpl; intros H; [repeat constructor|].
  inversion H as [|? ? H1 H2]; subst. destruct (le a b) eqn:E.
  - constructor; [exact H|]. constructor; [exact E|]. rewrite Forall_forall in *. intros y Hy. eapply Htr; eauto.
  - constructor; [apply IH; exact H1|]. rewrite Forall_forall in *. intros y Hy.
    apply (Permutation_in _ (ins_by_perm le a l)) in Hy. destruct Hy as [<-|Hy]; [now apply Htot | auto].
Qed.
Lemma sort_by_sorted {A} (le : A -> A -> bool) l :
  (forall x y, le x y = false -> le y x = true) ->
  (forall x y z, le x y = true -> le y z = true -> le x z = true) ->
  StronglySorted (fun x y => le x y = true) (sort_by le l).
Proof. intros H1 H2. induction l as [|a l IH]; simpl; [constructor|]. now apply ins_by_sorted. Qed.
Lemma lex_le_total a b : lex_le a b = false -> lex_le b a = true.
Proof.
  revert b; induction a as [|u a IH]; intros [|v b]; simpl; try discriminate.
  unfold Rltb. destruct (Rlt_dec u v), (Rlt_dec v u); intros H; try discriminate; try reflexivity; try lra. auto.
Qed.
Lemma lex_le_trans a b c : List.length a = List.length b -> List.length b = List.length c ->
  lex_le a b = true -> lex_le b c = true -> lex_le a c = true.
Proof.
  revert b c; induction a as [|u a IH]; intros [|v b] [|w c]; simpl; try discriminate; try reflexivity; try lia.
  intros L1 L2. unfold Rltb. destruct (Rlt_dec u v), (Rlt_dec v u), (Rlt_dec v w), (Rlt_dec w v), (Rlt_dec u w), (Rlt_dec w u);
    intros; try discriminate; try reflexivity; try lra. apply (IH b c); (lia || assumption).
Qed.
Lemma lex_le_spec x i k : lex_le (row_list x i) (row_list x k) = true -> row_lex_le x i k.
Proof.
  unfold row_list, row_lex_le.
  enough (G : forall m a, lex_le (map (ent x i) (seq a m)) (map (ent x k) (seq a m)) = true ->
    (forall l, a <= l < a + m -> ent x i l = ent x k l) \/
    (exists l, a <= l < a + m /\ (forall l', a <= l' < l -> ent x i l' = ent x k l') /\ (ent x i l < ent x k l)%R)).
  { intros H. destruct (G _ _ H) as [H1|(l & H1 & H2 & H3)].
    - left. intros; apply H1; lia.
    - right. exists l. split; [lia|]. split; [intros; apply H2; lia | exact H3]. }
  induction m as [|m IH]; intros a; simpl; intros H; [left; intros; lia|].
  unfold Rltb in H. destruct (Rlt_dec (ent x i a) (ent x k a)) as [L|L].
  - right. exists a. split; [lia|]. split; [intros; lia | exact L].
  - destruct (Rlt_dec (ent x k a) (ent x i a)) as [L2|L2]; [discriminate|].
    destruct (IH _ H) as [H1|(l & H1 & H2 & H3)].
    + left. intros l Hl. destruct (Nat.eq_dec l a) as [->|]; [lra | apply H1; lia].
    + right. exists l. split; [lia|]. split; [|exact H3].
      intros l' Hl'. destruct (Nat.eq_dec l' a) as [->|]; [lra | apply H2; lia].
Qed.
Lemma lexsort_rows_spec y : Permutation (lexsort_rows y) (seq 0 (nr y)) /\
  StronglySorted (row_lex_le y) (lexsort_rows y).
Proof.
  split; [apply sort_by_perm|].
  unfold lexsort_rows.
  pose proof (sort_by_sorted (fun i j => lex_le (row_list y i) (row_list y j)) (seq 0 (nr y))) as H.
  assert (H' : StronglySorted (fun i j => lex_le (row_list y i) (row_list y j) = true)
      (sort_by (fun i j => lex_le (row_list y i) (row_list y j)) (seq 0 (nr y)))).
  { apply H.
    - intros; now apply lex_le_total.
    - intros a b c. apply lex_le_trans; unfold row_list; now rewrite !map_length. }
  clear H. induction H' as [|a l Hl IH Hf]; constructor; [exact IH|].
  rewrite Forall_forall in *. intros b Hb. apply lex_le_spec. auto.
Qed.
Lemma take_rows_rows_of x idx : rows_of x (take_rows x idx) idx.
Proof. repeat split. Qed.

Lemma unique_rows_noindex x atol rtol sort y oi :
  unique_rows x atol rtol true sort = Ok (y, oi) -> unique_rows x atol rtol false sort = Ok (y, None).
Proof.
  unfold unique_rows. destruct (Nat.eqb (nr x) 0); [congruence|]. destruct (Nat.eqb (nc x) 0); [discriminate|].
  destruct (ur_while _ _ _ _ _ _); [|discriminate]. destruct sort; congruence.
Qed.
Lemma unique_rows_unsorted x atol rtol M : 0 < nr x -> is_max_abs x M ->
  exists y idx, unique_rows x atol rtol true false = Ok (y, Some (idx_vector idx)) /\
    rows_of x y idx /\ separated_cover x (atol + rtol * M)%R idx.
Proof.
  intros Hn HM. unfold unique_rows.
  rewrite (proj2 (Nat.eqb_neq (nr x) 0)) by lia.
  assert (Hm : nc x <> 0) by (destruct HM as (_ & i & j & _ & Hj & _); lia).
  rewrite (proj2 (Nat.eqb_neq (nc x) 0)) by exact Hm.
  rewrite (ur_tol_spec _ _ _ _ HM).
  destruct (ur_while_top (row_close x (atol + rtol * M)%R) (nr x) Hn) as (l & E & Hc). rewrite E.
  eexists. eexists. split; [reflexivity|]. split; [apply take_rows_rows_of|].
  eapply cover_gen_sep; eauto.
Qed.
Lemma map_nth_perm (l : list nat) p : Permutation p (seq 0 (List.length l)) ->
  Permutation (map (fun i => nth i l 0) p) l.
Proof.
  intros H. rewrite (Permutation_map (fun i => nth i l 0) H).
  assert (E : map (fun i => nth i l 0) (seq 0 (List.length l)) = l); [|now rewrite E].
  apply nth_ext with (d := 0) (d' := 0); [now rewrite map_length, seq_length|].
  intros n Hn. rewrite map_length, seq_length in Hn. now rewrite nth_map_seq.
Qed.
Lemma unique_rows_sorted x atol rtol M : 0 < nr x -> is_max_abs x M ->
  exists y idx idx0, unique_rows x atol rtol true true = Ok (y, Some (idx_vector idx)) /\
    rows_of x y idx /\ Permutation idx idx0 /\ separated_cover x (atol + rtol * M)%R idx0 /\
    (forall p q, p < q -> q < nr y -> row_lex_le y p q).
Proof.
  intros Hn HM. unfold unique_rows.
  rewrite (proj2 (Nat.eqb_neq (nr x) 0)) by lia.
  assert (Hm : nc x <> 0) by (destruct HM as (_ & i & j & _ & Hj & _); lia).
  rewrite (proj2 (Nat.eqb_neq (nc x) 0)) by exact Hm.
  rewrite (ur_tol_spec _ _ _ _ HM).
  destruct (ur_while_top (row_close x (atol + rtol * M)%R) (nr x) Hn) as (l & E & Hc). rewrite E.
  set (idx0 := 0 :: l) in *.
  destruct (lexsort_rows_spec (take_rows x idx0)) as (P1 & P2).
  set (perm := lexsort_rows (take_rows x idx0)) in *.
  exists (take_rows (take_rows x idx0) perm), (map (fun i => nth i idx0 0) perm), idx0.
  split; [reflexivity|]. split.
  { split; [simpl; now rewrite map_length|]. split; [reflexivity|]. intros p j Hp Hj. rewrite map_length in Hp. simpl.
    rewrite (nth_indep (map _ perm) 0 (nth 0 idx0 0)) by (rewrite map_length; exact Hp).
    now rewrite (map_nth (fun i => nth i idx0 0) perm 0). }
  split; [apply map_nth_perm; exact P1|].
  split; [eapply cover_gen_sep; eauto; reflexivity|].
  intros p q Hpq Hq. simpl in Hq.
  assert (G : row_lex_le (take_rows x idx0) (nth p perm 0) (nth q perm 0)).
  { clear -P2 Hpq Hq. revert p q Hpq Hq. induction P2 as [|a s Hs IH Hf]; intros p q Hpq Hq; simpl in Hq; [lia|].
    destruct q; [lia|]. destruct p.
    - simpl. rewrite Forall_forall in Hf. apply Hf. apply nth_In. lia.
    - simpl. apply IH; lia. }
  destruct G as [G|(c & G1 & G2 & G3)].
  - left. exact G.
  - right. exists c. split; [exact G1|]. split; [exact G2 | exact G3].
Qed.
Lemma unique_rows_empty x atol rtol sort : nr x = 0 ->
  unique_rows x atol rtol true sort = Ok (x, Some (IdxArr [0; nc x] [] false)).
Proof. intros H. unfold unique_rows. now rewrite H. Qed.

(** *** conversions *)
Open Scope R_scope.
Lemma ae2broad_sin az el : sin (asin (cos az * cos el)) = cos az * cos el.
Proof.
  apply sin_asin. pose proof (COS_bound az). pose proof (COS_bound el). nra.
Qed.
Lemma ae2broad_spec doas i p : nth_error doas i = Some p ->
  exists b, nth_error (ae2broad doas) i = Some b /\ - (PI / 2) <= b <= PI / 2 /\ sin b = cos (fst p) * cos (snd p).
Proof.
  intros H. unfold ae2broad. rewrite nth_error_map, H. simpl. eexists. split; [reflexivity|].
  split; [apply asin_bound | apply ae2broad_sin].
Qed.

Lemma deg2rad_rad2deg x : deg2rad (rad2deg x) = x.
Proof. unfold deg2rad, rad2deg. field. apply PI_neq0. Qed.
Lemma rad2deg_deg2rad x : rad2deg (deg2rad x) = x.
Proof. unfold deg2rad, rad2deg. field. apply PI_neq0. Qed.
Lemma rad2deg_range x : - (PI / 2) <= x <= PI / 2 -> -90 <= rad2deg x <= 90.
Proof.
  intros [H1 H2]. pose proof PI_RGT_0. unfold rad2deg.
  replace (x * (180 / PI)) with (180 * x / PI) by (field; lra).
  assert (- PI <= 2 * x <= PI) by lra.
  split.
  - apply Rmult_le_reg_r with PI; [lra|]. replace (180 * x / PI * PI) with (180 * x) by (field; lra). lra.
  - apply Rmult_le_reg_r with PI; [lra|]. replace (180 * x / PI * PI) with (180 * x) by (field; lra). lra.
Qed.
Lemma deg2rad_range x : -90 <= x <= 90 -> - (PI / 2) <= deg2rad x <= PI / 2.
Proof. intros [H1 H2]. pose proof PI_RGT_0. unfold deg2rad. split; nra. Qed.

Lemma to_rad_range u x : valid_angle u x -> - (PI / 2) <= to_rad u x <= PI / 2.
Proof.
  intros [(-> & H)|[(-> & H)|(-> & H)]]; unfold to_rad; simpl.
  - exact H. - now apply deg2rad_range. - apply asin_bound.
Qed.
Lemma of_rad_valid u x : known_unit u -> - (PI / 2) <= x <= PI / 2 -> valid_angle u (of_rad u x).
Proof.
  intros [-> | [-> | -> ]] H; unfold of_rad, valid_angle; simpl.
  - auto. - right; left. split; [reflexivity | now apply rad2deg_range].
  - right; right. split; [reflexivity | apply SIN_bound].
Qed.
Lemma to_of_rad u x : known_unit u -> - (PI / 2) <= x <= PI / 2 -> to_rad u (of_rad u x) = x.
Proof.
  intros [-> | [-> | -> ]] H; unfold of_rad, to_rad; simpl; [reflexivity | apply deg2rad_rad2deg | apply asin_sin; lra].
Qed.
Lemma of_to_rad u x : valid_angle u x -> of_rad u (to_rad u x) = x.
Proof.
  intros [(-> & H)|[(-> & H)|(-> & H)]]; unfold of_rad, to_rad; simpl; [reflexivity | apply rad2deg_deg2rad | apply sin_asin; lra].
Qed.
Lemma convert_angles_via_rad xs u v : known_unit u -> known_unit v ->
  Forall (valid_angle u) xs -> convert_angles xs u v = Ok (map (fun x => of_rad v (to_rad u x)) xs).
Proof.
  intros Hu Hv Hx. unfold convert_angles.
  destruct (String.eqb u v) eqn:E.
  - apply String.eqb_eq in E. subst v. f_equal. symmetry. rewrite <- (map_id xs) at 2. apply map_ext_in.
    intros x Hi. rewrite Forall_forall in Hx. apply of_to_rad. auto.
  - destruct Hu as [-> | [-> | -> ]], Hv as [-> | [-> | -> ]]; try discriminate E; reflexivity.
Qed.
Lemma convert_angles_keyerror xs u v : u <> v -> ~ (known_unit u /\ known_unit v) -> convert_angles xs u v = Raise KeyError.
Proof.
  intros Hn Hk. unfold convert_angles. rewrite (proj2 (String.eqb_neq u v) Hn).
  unfold ANGULAR_COV_MAT, dget.
  repeat match goal with |- context [String.eqb ?a ?b] => destruct (String.eqb_spec a b); subst end; try reflexivity;
    exfalso; try (now apply Hn); apply Hk; unfold known_unit; auto.
Qed.
Lemma convert_angles_range xs u v ys : known_unit u -> known_unit v -> Forall (valid_angle u) xs ->
  convert_angles xs u v = Ok ys -> Forall (valid_angle v) ys /\ List.length ys = List.length xs.
Proof.
  intros Hu Hv Hx H. rewrite convert_angles_via_rad in H by assumption. injection H as <-.
  split; [|now rewrite map_length]. rewrite Forall_forall in *. intros y Hy. apply in_map_iff in Hy.
  destruct Hy as (x & <- & Hi). apply of_rad_valid; [exact Hv | apply to_rad_range; auto].
Qed.
Lemma convert_angles_compose xs u v w ys : known_unit u -> known_unit v -> known_unit w ->
  Forall (valid_angle u) xs -> convert_angles xs u v = Ok ys -> convert_angles ys v w = convert_angles xs u w.
Proof.
  intros Hu Hv Hw Hx H. destruct (convert_angles_range _ _ _ _ Hu Hv Hx H) as (Hy & _).
  rewrite !convert_angles_via_rad by assumption. rewrite convert_angles_via_rad in H by assumption. injection H as <-.
  f_equal. rewrite map_map. apply map_ext_in. intros x Hi. rewrite to_of_rad; [reflexivity | exact Hv |].
  rewrite Forall_forall in Hx. apply to_rad_range; auto.
Qed.
Lemma convert_angles_roundtrip xs u v ys : known_unit u -> known_unit v ->
  Forall (valid_angle u) xs -> convert_angles xs u v = Ok ys -> convert_angles ys v u = Ok xs.
Proof.
  intros Hu Hv Hx H. rewrite (convert_angles_compose xs u v u ys); try assumption.
  unfold convert_angles. now rewrite String.eqb_refl.
Qed.

(** *** cart2spherical *)
Lemma cart2spherical_1d coords : nc coords = 1%nat ->
  exists s, cart2spherical coords = Ok s /\ nr s = nr coords /\ nc s = 3%nat /\
    forall i, (i < nr coords)%nat -> spherical_of (ent coords i 0) 0 0 (ent s i 0) (ent s i 1) (ent s i 2).
Proof.
  intros H. unfold cart2spherical. rewrite H. simpl. eexists. split; [reflexivity|]. repeat split; simpl.
  all: pose proof PI_RGT_0; try lra; try apply Rabs_pos; try (rewrite sin_0; ring).
  - rewrite cos_0. pose proof (atan2_cos 0 (ent coords i 0)) as E.
    replace (ent coords i 0 * ent coords i 0 + 0 * 0) with (Rsqr (ent coords i 0)) in E by (unfold Rsqr; ring).
    rewrite sqrt_Rsqr_abs in E. lra.
  - rewrite cos_0. pose proof (atan2_sin 0 (ent coords i 0)) as E.
    replace (ent coords i 0 * ent coords i 0 + 0 * 0) with (Rsqr (ent coords i 0)) in E by (unfold Rsqr; ring).
    rewrite sqrt_Rsqr_abs in E. lra.
  - apply atan2_range. - apply atan2_range.
Qed.
Lemma cart2spherical_2d coords : nc coords = 2%nat ->
  exists s, cart2spherical coords = Ok s /\ nr s = nr coords /\ nc s = 3%nat /\
    forall i, (i < nr coords)%nat -> spherical_of (ent coords i 0) (ent coords i 1) 0 (ent s i 0) (ent s i 1) (ent s i 2).
Proof.
  intros H. unfold cart2spherical. rewrite H. simpl. eexists. split; [reflexivity|]. repeat split; simpl.
  all: pose proof PI_RGT_0; try lra; try apply sqrt_pos; try (rewrite sin_0; ring).
  - rewrite cos_0. pose proof (atan2_cos (ent coords i 1) (ent coords i 0)). lra.
  - rewrite cos_0. pose proof (atan2_sin (ent coords i 1) (ent coords i 0)). lra.
  - apply atan2_range. - apply atan2_range.
Qed.
Lemma cart2spherical_3d coords : nc coords = 3%nat ->
  exists s, cart2spherical coords = Ok s /\ nr s = nr coords /\ nc s = 3%nat /\
    forall i, (i < nr coords)%nat ->
      spherical_of (ent coords i 0) (ent coords i 1) (ent coords i 2) (ent s i 0) (ent s i 1) (ent s i 2).
Proof.
  intros H. unfold cart2spherical. rewrite H. simpl. eexists. split; [reflexivity|].
  split; [reflexivity|]. split; [reflexivity|]. intros i Hi. simpl.
  set (x := ent coords i 0). set (y := ent coords i 1). set (z := ent coords i 2).
  assert (Hxy : 0 <= x * x + y * y) by nra.
  pose proof (atan2_cos y x) as Ec. pose proof (atan2_sin y x) as Es.
  pose proof (atan2_cos z (sqrt (x * x + y * y))) as Fc. pose proof (atan2_sin z (sqrt (x * x + y * y))) as Fs.
  rewrite sqrt_sqrt in Fc, Fs by exact Hxy.
  unfold spherical_of. rewrite Fc, Fs. repeat split.
  - symmetry; exact Ec. - symmetry; exact Es. - apply sqrt_pos.
  - apply atan2_range. - apply atan2_range.
  - apply atan2_range_half, sqrt_pos. - apply atan2_range_half, sqrt_pos.
Qed.
Lemma cart2spherical_many coords : (3 < nc coords)%nat ->
  exists s, cart2spherical coords = Ok s /\ forall i j, ent s i j = 0.
Proof.
  intros H. unfold cart2spherical.
  rewrite (proj2 (Nat.eqb_neq _ _)) by lia. rewrite (proj2 (Nat.leb_gt _ _)) by lia.
  eexists; split; reflexivity.
Qed.
