(** Proofs about the spectrum-based estimators. *)
From Coq Require Import Sorting.Sorted Sorting.Permutation.
From Verif Require Import Base_Np Base_Trig S_utils M_utils P_utils M_sources M_array M_designs S_sources P_sources P_sources3 M_coarray M_heap M_grid M_core S_grid P_grid.
From Verif Require Export P_core0.
Open Scope nat_scope.

(** *** selection of the k largest peaks *)
Lemma sorted_app {A} (Q : A -> A -> Prop) l1 l2 : StronglySorted Q (l1 ++ l2) -> forall a b, In a l1 -> In b l2 -> Q a b.
Proof.
  induction l1 as [|x l1 IH]; intros H a b Ha Hb; [destruct Ha|]. cbn [app] in H. inversion H as [|? ? H1 H2]; subst.
  destruct Ha as [<-|Ha]; [|now apply IH]. rewrite Forall_forall in H2. apply H2. apply in_or_app. now right.
Qed.
Lemma seq_nth_map {A} (l : list A) d : map (fun t => nth t l d) (seq 0 (List.length l)) = l.
Proof. symmetry. apply (nth_ext _ _ d d); [now rewrite map_length, seq_length|]. intros n Hn. now rewrite nth_map_seq. Qed.
Lemma leb_sorted_le l : StronglySorted (fun x y => Nat.leb x y = true) l -> StronglySorted le l.
Proof. induction 1 as [|a l H1 IH H2]; constructor; [exact IH|]. rewrite Forall_forall in *. intros y Hy. apply Nat.leb_le. auto. Qed.
Lemma sort_nat_sorted l : StronglySorted le (sort_by Nat.leb l).
Proof.
  apply leb_sorted_le, sort_by_sorted.
  - intros x y H. apply Nat.leb_gt in H. apply Nat.leb_le. lia.
  - intros x y z H1 H2. apply Nat.leb_le in H1, H2. apply Nat.leb_le. lia.
Qed.
Definition top_flat (argsort : list R -> list nat) (shape : list nat) (sp : list R) (peaks : list (list nat)) (k : Z) : list nat :=
  sort_by Nat.leb (map (fun t => ravel shape (nth t peaks [])) (pslice (argsort (map (at_idx shape sp) peaks)) (Some (- k)%Z) None)).
Lemma top_spec argsort shape sp peaks k : is_argsort (map (at_idx shape sp) peaks) (argsort (map (at_idx shape sp) peaks)) ->
  (forall p, In p peaks -> in_shape shape p) -> 1 <= k -> k <= List.length peaks ->
  exists chosen rest, Permutation (chosen ++ rest) peaks /\ List.length chosen = k /\
    top_flat argsort shape sp peaks (Z.of_nat k) = map (ravel shape) chosen /\ StronglySorted le (map (ravel shape) chosen) /\
    forall a b, In a chosen -> In b rest -> (at_idx shape sp b <= at_idx shape sp a)%R.
Proof.
  intros (HP & HS) HI Hk1 Hk. rewrite map_length in HP. set (p := argsort (map (at_idx shape sp) peaks)) in *.
  unfold top_flat. fold p. rewrite (pslice_last p k Hk1). assert (Lp : List.length p = List.length peaks) by (rewrite (Permutation_length HP); apply seq_length).
  set (top := skipn (List.length p - k) p). set (low := firstn (List.length p - k) p).
  set (c0 := map (fun t => nth t peaks []) top). set (rest := map (fun t => nth t peaks []) low).
  assert (Hp0 : Permutation (c0 ++ rest) peaks).
  { unfold c0, rest. rewrite Permutation_app_comm, <- map_app. unfold low, top. rewrite firstn_skipn. transitivity (map (fun t => nth t peaks []) (seq 0 (List.length peaks))); [now apply Permutation_map | now rewrite seq_nth_map]. }
  assert (Hc0 : forall a, In a c0 -> in_shape shape a) by (intros a Ha; apply HI; apply (Permutation_in _ Hp0); apply in_or_app; now left).
  replace (map (fun t => ravel shape (nth t peaks [])) top) with (map (ravel shape) c0) by (unfold c0; now rewrite map_map).
  set (fl := sort_by Nat.leb (map (ravel shape) c0)).
  assert (Pf : Permutation fl (map (ravel shape) c0)) by apply sort_by_perm.
  assert (Hfl : forall r, In r fl -> exists a, In a c0 /\ r = ravel shape a).
  { intros r Hr. apply (Permutation_in _ Pf) in Hr. apply in_map_iff in Hr as (a & <- & Ha). eauto. }
  exists (map (unravel shape) fl), rest.
  assert (Pc : Permutation (map (unravel shape) fl) c0).
  { rewrite Pf. rewrite map_map. rewrite (map_ext_in _ (fun a => a)); [now rewrite map_id|]. intros a Ha. apply unravel_ravel. now apply Hc0. }
  assert (Ec : map (ravel shape) (map (unravel shape) fl) = fl).
  { rewrite map_map. rewrite (map_ext_in _ (fun a => a)); [now rewrite map_id|]. intros r Hr. apply Hfl in Hr as (a & Ha & ->).
    rewrite unravel_ravel; [reflexivity | now apply Hc0]. }
  split; [rewrite Pc; exact Hp0|]. split.
  { rewrite (Permutation_length Pc). unfold c0, top. rewrite map_length, skipn_length. lia. }
  split; [now rewrite Ec|]. split; [rewrite Ec; apply sort_nat_sorted|].
  intros a b Ha Hb. apply (Permutation_in _ Pc) in Ha. unfold c0 in Ha. unfold rest in Hb.
  apply in_map_iff in Ha as (ta & <- & Hta). apply in_map_iff in Hb as (tb & <- & Htb).
  assert (HS' : StronglySorted (fun a b => (nth a (map (at_idx shape sp) peaks) 0 <= nth b (map (at_idx shape sp) peaks) 0)%R) (low ++ top)) by (unfold low, top; rewrite firstn_skipn; exact HS).
  pose proof (sorted_app _ _ _ HS' tb ta Htb Hta) as Hle. cbv beta in Hle.
  assert (Bd : forall t, In t p -> t < List.length peaks) by (intros t Ht; apply (Permutation_in _ HP) in Ht; apply in_seq in Ht; lia).
  assert (Ba : ta < List.length peaks) by (apply Bd; unfold top in Hta; rewrite <- (firstn_skipn (List.length p - k) p); apply in_or_app; now right).
  assert (Bb : tb < List.length peaks) by (apply Bd; unfold low in Htb; rewrite <- (firstn_skipn (List.length p - k) p); apply in_or_app; now left).
  rewrite !(nth_indep (map (at_idx shape sp) peaks) 0%R (at_idx shape sp [])) in Hle by (now rewrite map_length).
  rewrite !map_nth in Hle. exact Hle.
Qed.

Lemma idx_ok_spec s idx : idx_ok s idx = true <-> in_shape s idx.
Proof.
  unfold idx_ok. revert idx; induction s as [|n s IH]; intros [|i idx]; cbn [List.length Nat.eqb combine forallb andb in_shape fst snd]; try (split; [discriminate | tauto]); [tauto|].
  rewrite <- (IH idx). rewrite !andb_true_iff, Nat.ltb_lt. tauto.
Qed.
Lemma forallb_false_exists {A} (f : A -> bool) l : forallb f l = false <-> exists a, In a l /\ f a = false.
Proof.
  induction l as [|a l IH]; cbn [forallb In]; [split; [discriminate | intros (? & [] & _)]|]. rewrite andb_false_iff, IH. split.
  - intros [H|(b & Hb & H)]; eauto.
  - intros (b & [<-|Hb] & H); eauto.
Qed.

(** *** the cache *)
Lemma get_atom_spec {T} (e : estimator T) h A : est_ok e h -> e_atom e (e_grid e) = Ok A ->
  get_atom_matrix e None = (Ok A, e) \/ get_atom_matrix e None = (Ok A, set_cache e (Some A)).
Proof.
  intros (_ & _ & _ & [Hc|(A' & Hc & HA)]) E; unfold get_atom_matrix; rewrite Hc.
  - rewrite E. destruct (e_caching e); [now right | now left].
  - left. congruence.
Qed.
Lemma estimate_from_cache {T} (e : estimator T) c A h f k o : estimate_from (set_cache e c) A h f k o = estimate_from e A h f k o.
Proof. reflexivity. Qed.
Lemma estimate_ok {T} (e : estimator T) h A f k o : est_ok e h -> e_atom e (e_grid e) = Ok A ->
  exists e', (e' = e \/ e' = set_cache e (Some A)) /\
    estimate e h f k o = match estimate_from e A h f k o with Raise x => (Raise x, e', h) | Ok (oc, h') => (Ok oc, e', h') end.
Proof.
  intros H E. rewrite estimate_eq. destruct (get_atom_spec e h A H E) as [->| ->].
  - exists e. split; [now left|]. reflexivity.
  - exists (set_cache e (Some A)). split; [now right|]. rewrite estimate_from_cache. reflexivity.
Qed.

(** estimate without refinement *)
Lemma flat_rows {T} (e : estimator T) h flat : est_ok e h -> (forall r, In r flat -> r < sg_size (e_grid e)) ->
  exists est h', getitem h (e_pl e) (KIndexList (map Z.of_nat flat)) = Ok (IPlacement est, h') /\ p_class est = p_class (e_pl e) /\ p_units est = p_units (e_pl e) /\
    p_addr est = List.length h /\ List.length h' = S (List.length h) /\
    buf h' est = map (fun r => grid_point (e_grid e) (unravel (sg_shape (e_grid e)) r)) flat /\ (forall b, b < List.length h -> nth b h' [] = nth b h []).
Proof.
  intros (V & Ha & Hb & _) Hf. set (g := e_grid e) in *.
  assert (Lb : List.length (buf h (e_pl e)) = sg_size g) by (rewrite Hb; apply length_points).
  assert (K : key_rows (List.length (buf h (e_pl e))) (KIndexList (map Z.of_nat flat)) = Ok flat).
  { rewrite key_rows_list.
    - f_equal. rewrite map_map. rewrite (map_ext _ (fun a => a)); [apply map_id|]. intros a. destruct (Z.ltb_spec (Z.of_nat a) 0); [lia|]. apply Nat2Z.id.
    - intros i Hi. apply in_map_iff in Hi as (r & <- & Hr). apply Hf in Hr. lia. }
  unfold getitem. rewrite K. cbn [bind]. eexists _, _. split; [reflexivity|]. split; [reflexivity|]. split; [reflexivity|]. cbn [p_addr]. split; [reflexivity|].
  split; [rewrite app_length; cbn; lia|]. split.
  - unfold buf at 1. cbn [p_addr]. rewrite app_nth2 by lia. rewrite Nat.sub_diag. cbn [nth]. rewrite (flat_map_nth _ []) by (intros i Hi; rewrite Lb; now apply Hf).
    apply map_ext_in. intros r Hr. rewrite Hb. apply nth_points. now apply Hf.
  - intros b Hb'. now rewrite app_nth1.
Qed.

(** *** argmax *)
Lemma argmax_aux_spec l i best b (pre : list R) : i = List.length pre -> best < List.length pre -> nth best pre 0%R = b ->
  (forall x, In x pre -> (x <= b)%R) ->
  let p := argmax_aux l i best b in p < List.length (pre ++ l) /\ forall x, In x (pre ++ l) -> (x <= nth p (pre ++ l) 0)%R.
Proof.
  revert i best b pre; induction l as [|a l IH]; intros i best b pre Hi Hb Hn Hx; cbn [argmax_aux].
  - rewrite app_nil_r. split; [exact Hb|]. intros x Hx'. rewrite Hn. auto.
  - unfold Rltb. destruct (Rlt_dec b a) as [L|L].
    + replace (pre ++ a :: l) with ((pre ++ [a]) ++ l) by (now rewrite <- app_assoc). apply IH.
      * rewrite app_length. cbn. lia.
      * rewrite app_length. cbn. lia.
      * rewrite Hi. rewrite app_nth2 by lia. now rewrite Nat.sub_diag.
      * intros x Hx'. apply in_app_or in Hx' as [Hx'|[<-|[]]]; [apply Hx in Hx'; lra | lra].
    + replace (pre ++ a :: l) with ((pre ++ [a]) ++ l) by (now rewrite <- app_assoc). apply IH.
      * rewrite app_length. cbn. lia.
      * rewrite app_length. cbn. lia.
      * rewrite app_nth1 by exact Hb. exact Hn.
      * intros x Hx'. apply in_app_or in Hx' as [Hx'|[<-|[]]]; [auto | lra].
Qed.
Lemma argmax_spec l : l <> [] -> exists p, argmax l = Ok p /\ p < List.length l /\ forall x, In x l -> (x <= nth p l 0)%R.
Proof.
  destruct l as [|a l]; [congruence|]. intros _. eexists. split; [reflexivity|].
  apply (argmax_aux_spec l 1 0 a [a]); [reflexivity | cbn; lia | reflexivity |]. intros x [<-|[]]. lra.
Qed.

Local Ltac feed_in H := match type of H with ?A -> _ => let h := fresh in assert (h : A) by (apply nth_In; lia); specialize (H h); clear h end.
(** *** refinement invariant *)
Section Refine.
  Context {T : Type} (e : estimator T) (f : T -> res (list R)) (F : list R -> R) (density : Z).
  Hypothesis HF : spectrum_of e f F.
  Hypothesis Hd : (1 <= density)%Z.
  Hypothesis Hdt : sg_dt (e_grid e) = DFloat.
  (** current point [q] of the estimate with coarse multi-index [idx0], on the sub-grid [g] *)
  Definition bound_lo (idx0 : list nat) (j : nat) : R :=
    let ax := axis (e_grid e) j in Rmin (nth (nth j idx0 0 - 1) ax 0%R) (nth (Nat.min (List.length ax - 1) (nth j idx0 0 + 1)) ax 0%R).
  Definition bound_hi (idx0 : list nat) (j : nat) : R :=
    let ax := axis (e_grid e) j in Rmax (nth (nth j idx0 0 - 1) ax 0%R) (nth (Nat.min (List.length ax - 1) (nth j idx0 0 + 1)) ax 0%R).
  Definition in_box (idx0 : list nat) (q : list R) : Prop :=
    List.length q = sg_ndim (e_grid e) /\ forall j, j < sg_ndim (e_grid e) -> (bound_lo idx0 j <= nth j q 0 <= bound_hi idx0 j)%R.
  Definition Q (idx0 : list nat) (g : sgrid) (q : list R) : Prop :=
    valid_grid g /\ sg_class g = sg_class (e_grid e) /\ sg_unit g = sg_unit (e_grid e) /\ uniform_grid g /\
    (exists idx, in_shape (sg_shape g) idx /\ grid_point g idx = q) /\
    (F (grid_point (e_grid e) idx0) <= F q)%R /\ in_box idx0 q /\
    (forall j, j < sg_ndim (e_grid e) -> forall x, In x (axis g j) -> (bound_lo idx0 j <= x <= bound_hi idx0 j)%R).
  Lemma same_ndim g : valid_grid g -> valid_grid (e_grid e) -> sg_class g = sg_class (e_grid e) -> sg_ndim g = sg_ndim (e_grid e).
  Proof. intros ((_ & H1) & _) ((_ & H2) & _) E. now rewrite H1, H2, E. Qed.

  Hypothesis HV : valid_grid (e_grid e).
  Lemma point_in_box idx0 g idx : Q idx0 g (grid_point g idx) \/ (valid_grid g /\ sg_class g = sg_class (e_grid e) /\
      (forall j, j < sg_ndim (e_grid e) -> forall x, In x (axis g j) -> (bound_lo idx0 j <= x <= bound_hi idx0 j)%R)) ->
    in_shape (sg_shape g) idx -> in_box idx0 (grid_point g idx).
  Proof.
    intros H HI. assert (H' : valid_grid g /\ sg_class g = sg_class (e_grid e) /\
      (forall j, j < sg_ndim (e_grid e) -> forall x, In x (axis g j) -> (bound_lo idx0 j <= x <= bound_hi idx0 j)%R)) by (unfold Q in H; tauto).
    clear H. destruct H' as (V & C & B). pose proof (same_ndim g V HV C) as N. split; [now rewrite length_grid_point|].
    intros j Hj. rewrite nth_grid_point by lia. apply B; [exact Hj|]. apply nth_In. apply (plain_in_shape g idx (proj1 V)) in HI as (_ & HX). apply HX. lia.
  Qed.
  Lemma Q_step idx0 g q last : Q idx0 g q -> exists A i_max s q' g',
    fst (get_atom_matrix e (Some g)) = Ok A /\ f A = Ok (map F (map (grid_point g) (all_indices (sg_shape g)))) /\
    argmax (map F (map (grid_point g) (all_indices (sg_shape g)))) = Ok i_max /\
    create_source_placement g = Ok s /\ nth_error (src_rows s) i_max = Some q' /\
    (if last : bool then g' = g else create_refined_grid_at g (map Z.of_nat (unravel (sg_shape g) i_max)) density 1 = Ok g') /\
    Q idx0 g' q' /\ (F q <= F q')%R.
  Proof.
    intros (V & C & U & Ev & (idx & HI & Hq) & Hle & Hbox & HB).
    destruct (HF g V C U) as (A & HA & HfA). destruct (placement_spec g (proj1 V)) as (HP1 & HP2).
    destruct (proj1 HP1 V) as (s & Hs). pose proof (HP2 s Hs) as Hr.
    set (pts := map (grid_point g) (all_indices (sg_shape g))) in *.
    assert (Hin : In q pts) by (rewrite <- Hq; apply in_map; now apply in_all_indices).
    destruct (argmax_spec (map F pts)) as (p & Ep & Hp & Hmax).
    { intros E0. apply map_eq_nil in E0. rewrite E0 in Hin. destruct Hin. }
    rewrite map_length in Hp. assert (Hp' : p < sg_size g) by (unfold pts in Hp; now rewrite length_points in Hp).
    assert (Hq' : nth p pts [] = grid_point g (unravel (sg_shape g) p)) by (apply nth_points; exact Hp').
    assert (HU : in_shape (sg_shape g) (unravel (sg_shape g) p)) by (apply unravel_in_shape; exact Hp').
    assert (HFq : (F q <= F (grid_point g (unravel (sg_shape g) p)))%R).
    { specialize (Hmax (F q) (in_map F _ _ Hin)). rewrite (nth_indep _ 0%R (F [])) in Hmax by (now rewrite map_length). rewrite map_nth, Hq' in Hmax. exact Hmax. }
    destruct (refined_grid g (unravel (sg_shape g) p) density (proj1 V) HU Hd) as (g' & Eg' & P' & C' & U' & N' & Ev' & Hc' & B').
    pose proof (refined_valid g _ density g' V HU Hd Eg') as V'.
    pose proof (same_ndim g V HV C) as N.
    assert (Hbox' : in_box idx0 (grid_point g (unravel (sg_shape g) p))) by (apply point_in_box; [right; auto | exact HU]).
    exists A, p, s, (grid_point g (unravel (sg_shape g) p)), (if last then g else g').
    split; [exact HA|]. split; [exact HfA|]. split; [exact Ep|]. split; [exact Hs|].
    split; [rewrite Hr, (nth_error_nth' pts []) by exact Hp; f_equal; exact Hq'|].
    split; [destruct last; [reflexivity | exact Eg']|]. split; [|exact HFq].
    destruct last.
    - repeat (split; [eassumption || (exists (unravel (sg_shape g) p); split; [exact HU | reflexivity]) || lra |]). exact HB.
    - split; [exact V'|]. split; [congruence|]. split; [congruence|]. split; [exact Ev'|]. split; [apply Hc'; exact Ev|]. split; [lra|]. split; [exact Hbox'|].
      intros j Hj x Hx. specialize (B' j ltac:(lia) x Hx). cbv zeta in B'.
      pose proof (proj1 (plain_in_shape g _ (proj1 V)) HU) as (_ & HX). specialize (HX j ltac:(lia)).
      assert (B1 := HB j Hj (nth (nth j (unravel (sg_shape g) p) 0 - 1) (axis g j) 0%R)). feed_in B1.
      assert (B2 := HB j Hj (nth (Nat.min (List.length (axis g j) - 1) (nth j (unravel (sg_shape g) p) 0 + 1)) (axis g j) 0%R)). feed_in B2.
      revert B'. unfold Rmin at 1, Rmax at 1. destruct (Rle_dec _ _); lra.
  Qed.

  (** the whole state: buffer of the estimates and sub-grids *)
  Definition Inv (est : placement) (idxs : list (list nat)) (h0 h : lheap) (gs : list sgrid) : Prop :=
    List.length gs = List.length idxs /\ List.length h = List.length h0 /\ List.length (buf h est) = List.length idxs /\
    (forall b, b <> p_addr est -> nth b h [] = nth b h0 []) /\
    forall i, i < List.length idxs -> exists g q, nth_error gs i = Some g /\ nth_error (buf h est) i = Some q /\ Q (nth i idxs []) g q.
  Lemma nth_error_set_nth {A} (l : list A) n x i : nth_error (set_nth l n x) i = if Nat.eqb i n then option_map (fun _ => x) (nth_error l i) else nth_error l i.
  Proof.
    revert n i; induction l as [|a l IH]; intros [|n] [|i]; cbn [set_nth nth_error Nat.eqb option_map]; try reflexivity.
    - destruct (Nat.eqb _ _); reflexivity.
    - apply IH.
  Qed.
  Lemma length_set_nth {A} (l : list A) n x : List.length (set_nth l n x) = List.length l.
  Proof. revert n; induction l as [|a l IH]; intros [|n]; cbn [set_nth List.length]; auto. Qed.
  Lemma length_set_buf (h : lheap) est i v : List.length (buf (set_location h est i v) est) = List.length (buf h est).
  Proof. unfold buf, set_location. rewrite nth_set_row, Nat.eqb_refl, map_length, combine_length, seq_length. lia. Qed.
  Lemma refine_one_inv est idxs h0 h gs i last : Inv est idxs h0 h gs -> i < List.length idxs ->
    exists h' gs', refine_one e f density last est i (h, gs) = Ok (h', gs') /\ Inv est idxs h0 h' gs'.
  Proof.
    intros (L1 & L2 & L3 & HO & HI) Hi. destruct (HI i Hi) as (g & q & Hg & Hq & HQ).
    destruct (Q_step (nth i idxs []) g q last HQ) as (A & p & s & q' & g' & E1 & E2 & E3 & E4 & E5 & E6 & E7 & _).
    unfold refine_one. rewrite Hg, E1. cbn [bind]. rewrite E2. cbn [bind]. rewrite E3. cbn [bind]. rewrite E4. cbn [bind]. rewrite E5.
    rewrite Hdt. cbn [cast].
    assert (Main : forall gs', List.length gs' = List.length idxs -> (forall i', nth_error gs' i' = if Nat.eqb i' i then Some g' else nth_error gs i') -> Inv est idxs h0 (set_location h est i q') gs').
    { intros gs' L' Hn. split; [exact L'|]. split; [unfold set_location; now rewrite set_row_length|]. split; [now rewrite length_set_buf|]. split.
      - intros b Hb. unfold set_location. rewrite nth_set_row. destruct (Nat.eqb_spec b (p_addr est)); [contradiction | auto].
      - intros i' Hi'. unfold buf, set_location. rewrite nth_set_row_row, Hn. destruct (Nat.eqb_spec i' i) as [->|Ni].
        + exists g', q'. split; [reflexivity|]. fold (buf h est). rewrite Hq. cbn [option_map]. split; [reflexivity | exact E7].
        + destruct (HI i' Hi') as (g1 & q1 & A1 & A2 & A3). exists g1, q1. auto. }
    destruct last.
    - subst g'. eexists _, _. split; [reflexivity|]. apply Main; [exact L1|]. intros i'. destruct (Nat.eqb_spec i' i) as [->|]; [exact Hg | reflexivity].
    - rewrite E6. cbn [bind]. eexists _, _. split; [reflexivity|]. apply Main; [now rewrite length_set_nth|].
      intros i'. rewrite nth_error_set_nth. destruct (Nat.eqb_spec i' i) as [->|]; [rewrite Hg; reflexivity | reflexivity].
  Qed.
  Lemma inner_inv est idxs h0 last l : (forall i, In i l -> i < List.length idxs) -> forall h gs, Inv est idxs h0 h gs ->
    exists h' gs', foldM (refine_one e f density last est) l (h, gs) = Ok (h', gs') /\ Inv est idxs h0 h' gs'.
  Proof.
    induction l as [|i l IH]; intros Hl h gs H; cbn [foldM]; [eauto|].
    destruct (refine_one_inv est idxs h0 h gs i last H (Hl i (or_introl eq_refl))) as (h1 & gs1 & E1 & H1). rewrite E1. cbn [bind].
    apply IH; [intros; apply Hl; now right | exact H1].
  Qed.
  Lemma loop_inv est idxs h0 n h gs : Inv est idxs h0 h gs ->
    exists h' gs', refine_loop e f density n est (h, gs) = Ok (h', gs') /\ Inv est idxs h0 h' gs'.
  Proof.
    unfold refine_loop. intros H. assert (G : forall l h gs, Inv est idxs h0 h gs -> exists h' gs',
      foldM (fun r st => foldM (refine_one e f density (Nat.eqb r (n - 1)) est) (seq 0 (List.length (snd st))) st) l (h, gs) = Ok (h', gs') /\ Inv est idxs h0 h' gs').
    { clear h gs H. induction l as [|r l IH]; intros h gs H; cbn [foldM]; [eauto|]. cbn [snd].
      destruct (inner_inv est idxs h0 (Nat.eqb r (n - 1)) (seq 0 (List.length gs))) with (h := h) (gs := gs) as (h1 & gs1 & E1 & H1); [|exact H|].
      - intros i Hi. apply in_seq in Hi. destruct H as (L1 & _). lia.
      - rewrite E1. cbn [bind]. now apply IH. }
    apply G. exact H.
  Qed.
  Hypothesis HU : uniform_grid (e_grid e).
  Lemma refine_inv est h flat n : (forall r, In r flat -> r < sg_size (e_grid e)) ->
    buf h est = map (fun r => grid_point (e_grid e) (unravel (sg_shape (e_grid e)) r)) flat ->
    exists h', refine_estimates e f h est flat density n = Ok h' /\ List.length h' = List.length h /\ List.length (buf h' est) = List.length flat /\
      (forall b, b <> p_addr est -> nth b h' [] = nth b h []) /\
      forall i, i < List.length flat -> exists q, nth_error (buf h' est) i = Some q /\
        let idx0 := unravel (sg_shape (e_grid e)) (nth i flat 0) in in_box idx0 q /\ (F (grid_point (e_grid e) idx0) <= F q)%R.
  Proof.
    intros Hf Hb. unfold refine_estimates. set (shape := sg_shape (e_grid e)) in *. set (idxs := map (unravel shape) flat).
    assert (Hx : forall i, i < List.length flat -> in_shape shape (nth i idxs []) /\ nth i idxs [] = unravel shape (nth i flat 0)).
    { intros i Hi. unfold idxs. rewrite (nth_indep _ [] (unravel shape 0)) by (now rewrite map_length). rewrite map_nth. split; [|reflexivity].
      apply unravel_in_shape. apply Hf. now apply nth_In. }
    assert (Hgs : exists gs, create_refined_grids_at (e_grid e) (map (fun p => map Z.of_nat (unravel shape p)) flat) density = Ok gs /\ List.length gs = List.length flat /\
      forall i, i < List.length flat -> exists g, nth_error gs i = Some g /\ create_refined_grid_at (e_grid e) (map Z.of_nat (unravel shape (nth i flat 0))) density 1 = Ok g).
    { unfold create_refined_grids_at. clear Hb Hx idxs. induction flat as [|r flat IH].
      - exists []. split; [reflexivity|]. split; [reflexivity|]. intros i Hi. cbn in Hi. lia.
      - destruct IH as (gs & E & L & H); [intros; apply Hf; now right|].
        destruct (refined_grid (e_grid e) (unravel shape r) density (proj1 HV)) as (g & Eg & _); [apply unravel_in_shape; apply Hf; now left | exact Hd |].
        exists (g :: gs). cbn [map mapM]. rewrite Eg. cbn [bind]. rewrite E. cbn [bind]. split; [reflexivity|]. split; [cbn; lia|].
        intros [|i] Hi; cbn [nth_error nth].
        + exists g. split; [reflexivity | exact Eg].
        + apply H. cbn in Hi. lia. }
    destruct Hgs as (gs & Egs & Lgs & Hgs). rewrite Egs. cbn [bind].
    assert (H0 : Inv est idxs h h gs).
    { assert (Li : List.length idxs = List.length flat) by (unfold idxs; now rewrite map_length).
      split; [lia|]. split; [reflexivity|]. split; [rewrite Hb, map_length; lia|]. split; [reflexivity|]. rewrite Li. intros i Hi.
      destruct (Hgs i Hi) as (g & Hg & Eg). destruct (Hx i Hi) as (HI & Ei). rewrite <- Ei in Eg.
      destruct (refined_grid (e_grid e) (nth i idxs []) density (proj1 HV) HI Hd) as (g2 & Eg2 & P' & C' & U' & N' & Ev' & Hc' & B').
      rewrite Eg in Eg2. injection Eg2 as <-.
      pose proof (refined_valid _ _ density g HV HI Hd Eg) as V'.
      exists g, (grid_point (e_grid e) (nth i idxs [])). split; [exact Hg|]. split.
      { rewrite Hb. rewrite (nth_error_nth' _ []) by (now rewrite map_length). f_equal. rewrite (nth_indep _ [] (grid_point (e_grid e) (unravel shape 0))) by (now rewrite map_length).
        rewrite (map_nth (fun r => grid_point (e_grid e) (unravel shape r))). now rewrite Ei. }
      assert (HB : forall j, j < sg_ndim (e_grid e) -> forall x, In x (axis g j) -> (bound_lo (nth i idxs []) j <= x <= bound_hi (nth i idxs []) j)%R).
      { intros j Hj x Hx'. exact (B' j Hj x Hx'). }
      destruct (Hc' HU) as (idx' & HI' & Epp).
      split; [exact V'|]. split; [exact C'|]. split; [exact U'|]. split; [exact Ev'|]. split; [eauto|]. split; [lra|]. split; [|exact HB].
      rewrite <- Epp. apply point_in_box; [right; auto | exact HI']. }
    destruct (loop_inv est idxs h n h gs H0) as (h' & gs' & El & (L1 & L2 & L3 & HO & HI)). rewrite El. cbn [bind fst].
    exists h'. split; [reflexivity|]. split; [exact L2|]. split; [rewrite L3; unfold idxs; now rewrite map_length|]. split; [exact HO|].
    intros i Hi. destruct (HI i) as (g & q & _ & Hq & HQ); [unfold idxs; now rewrite map_length|]. exists q. split; [exact Hq|]. cbv zeta.
    destruct (Hx i Hi) as (_ & Ei). rewrite <- Ei. unfold Q in HQ. tauto.
  Qed.
End Refine.
