(** Proofs about the Min-Norm vector, the beamformers, the root-MUSIC polynomial and the root selection. *)
From Coq Require Import Sorting.Sorted Sorting.Permutation.
From Verif Require Import Base_Np Base_Mem Base_Lin Base_Trig M_utils P_utils S_grid M_heap M_core P_core P_core2 M_subspace S_subspace P_subspace P_heap.
Open Scope C_scope.

(** *** Min-Norm *)
Lemma bform_mid n x y : bform (mid n) x y = vdot n x y.
Proof. rewrite bform_vdot. cbn [mid nr]. apply vdot_ext; [auto|]. intros i Hi. now apply mvec_mid. Qed.
Lemma vdot_cs n x y : (Cnorm2 (vdot n x y) <= vnorm2 n x * vnorm2 n y)%R.
Proof. pose proof (cauchy_schwarz (mid n) x y (psd_mid n)) as H. rewrite bform_mid, !qform_mid, !Re_RtoC in H. exact H. Qed.
Lemma vnorm2_ext n x y : (forall i, (i < n)%nat -> x i = y i) -> vnorm2 n x = vnorm2 n y.
Proof. intros H. apply rsum_ext. intros i Hi. now rewrite H. Qed.
(** orthonormal columns preserve norms *)
Lemma orth_norm En y : orthonormal En -> vnorm2 (nr En) (mvec En y) = vnorm2 (nc En) y.
Proof.
  intros H. pose proof (qform_gram En y) as G. rewrite (qform_eq _ _ y H), qform_mid in G. apply (f_equal Re) in G. rewrite !Re_RtoC in G. now symmetry.
Qed.
Lemma row_norm En : rsum (nc En) (fun j => (Cmod (ent En 0 j) * Cmod (ent En 0 j))%R) = vnorm2 (nc En) (fun j => ent En 0 j).
Proof. apply rsum_ext. intros. apply Cmod_norm2. Qed.
Lemma vnorm2_scal n c x : vnorm2 n (fun i => c * x i) = (Cnorm2 c * vnorm2 n x)%R.
Proof. unfold vnorm2. rewrite <- rsum_scal. apply rsum_ext. intros. apply Cnorm2_mult. Qed.
Lemma vnorm2_conj n x : vnorm2 n (fun i => Cconj (x i)) = vnorm2 n x.
Proof. apply rsum_ext. intros. apply Cnorm2_conj. Qed.

Lemma min_norm_spec En : (0 < nr En)%nat -> orthonormal En ->
  let c := fun j => ent En 0 j in
  (vnorm2 (nc En) c = 0%R -> min_norm_vector En = Ok None) /\
  (vnorm2 (nc En) c <> 0%R -> exists d, min_norm_vector En = Ok (Some d) /\ d 0%nat = RtoC 1 /\
     (exists y, forall i, (i < nr En)%nat -> Cconj (d i) = mvec En y i) /\
     forall y, mvec En y 0 = RtoC 1 -> (vnorm2 (nr En) d <= vnorm2 (nr En) (mvec En y))%R).
Proof.
  intros Hr HO c. unfold min_norm_vector. destruct (Nat.eqb_spec (nr En) 0) as [E|_]; [lia|]. cbv zeta. rewrite row_norm. fold c.
  split; intros H; (destruct (Req_EM_T (vnorm2 (nc En) c) 0) as [Z|Z]; [|]); try reflexivity; try contradiction.
  set (n2 := vnorm2 (nc En) c) in *. set (w := fun j => Cconj (ent En 0 j) / RtoC n2). eexists. split; [reflexivity|].
  assert (N2 : RtoC n2 <> RtoC 0) by (now apply RtoC_neq_0).
  assert (P2 : (0 < n2)%R) by (destruct (vnorm2_nonneg (nc En) c) as [L|L]; [exact L | exfalso; apply Z; symmetry; exact L]).
  split; [|split].
  - unfold mvec. rewrite (csum_ext _ _ (fun j => / RtoC n2 * (Cconj (c j) * c j))) by (intros; unfold w, c; field; exact N2). rewrite csum_scal. change (csum (nc En) (fun j => Cconj (c j) * c j)) with (vdot (nc En) c c).
    rewrite vdot_self. fold n2. replace (/ RtoC n2 * RtoC n2) with (RtoC 1) by (field; exact N2). apply Cconj_RtoC.
  - exists w. intros i Hi. now rewrite Cconj_conj.
  - intros y Hy. rewrite vnorm2_conj. fold w. rewrite !orth_norm by exact HO.
    assert (W : vnorm2 (nc En) w = (/ n2)%R).
    { rewrite (vnorm2_ext _ w (fun j => / RtoC n2 * Cconj (c j))) by (intros; unfold w, c; field; exact N2). rewrite vnorm2_scal, vnorm2_conj. fold n2.
      rewrite <- RtoC_inv by exact Z. unfold Cnorm2. cbn [RtoC Re Im fst snd]. field. exact Z. }
    rewrite W. pose proof (vdot_cs (nc En) (fun j => Cconj (c j)) y) as CS. rewrite vnorm2_conj in CS. fold n2 in CS.
    replace (vdot (nc En) (fun j => Cconj (c j)) y) with (mvec En y 0) in CS by (unfold mvec, vdot; apply csum_ext; intros; unfold c; now rewrite Cconj_conj).
    rewrite Hy in CS. replace (Cnorm2 (RtoC 1)) with 1%R in CS by (unfold Cnorm2; cbn; ring).
    apply (Rmult_le_reg_l n2); [exact P2|]. rewrite Rinv_r by exact Z. exact CS.
Qed.

(** *** the selection of roots *)
Lemma Rltb_true' a b : Rltb a b = true <-> (a < b)%R. Proof. unfold Rltb. destruct (Rlt_dec a b); split; intros; easy || lra. Qed.
Definition off_circle (z : list C) : Prop := Forall (fun w => Cmod w <> 1%R) z.
Definition inside (w : C) : bool := if Rlt_dec (Cmod w) 1 then true else false.
Lemma nth_repeat' {A} (a d : A) n i : (i < n)%nat -> nth i (repeat a n) d = a.
Proof. revert i; induction n; intros [|i] H; cbn; try lia; auto. apply IHn. lia. Qed.
Lemma mask_loop_off (z : list C) : off_circle z -> forall is mask, (forall i, In i is -> (i < List.length z)%nat) ->
  exists mask', mask_loop z is mask = Ok mask' /\ List.length mask' = List.length mask /\
    forall i, (i < List.length mask)%nat -> nth i mask' false = (if in_dec Nat.eq_dec i is then if Rlt_dec 1 (Cmod (nth i z (RtoC 0))) then false else nth i mask false else nth i mask false).
Proof.
  intros HO is. induction is as [|a is IH]; intros mask HI; cbn [mask_loop].
  - exists mask. split; [reflexivity|]. split; [reflexivity|]. intros. destruct (in_dec _ _ _) as [[]|]; reflexivity.
  - assert (Ha : Cmod (nth a z (RtoC 0)) <> 1%R) by (unfold off_circle in HO; rewrite Forall_forall in HO; apply HO, nth_In, HI; now left).
    unfold mask_step. unfold Rltb. destruct (Rlt_dec 1 (Cmod (nth a z (RtoC 0)))) as [L|L]; cbn [bind].
    + destruct (IH (set_nth mask a false)) as (mask' & E & HL & HN); [intros; apply HI; now right|]. exists mask'. rewrite set_nth_length in HL, HN. split; [exact E|]. split; [exact HL|]. intros i Hi. rewrite HN by exact Hi.
      destruct (Nat.eq_dec i a) as [->|N].
      * rewrite nth_set_nth by exact Hi. rewrite Nat.eqb_refl. replace (a <? List.length mask)%nat with true by (symmetry; now apply Nat.ltb_lt). cbn [andb]. destruct (in_dec _ _ (a :: is)) as [_|X]; [|exfalso; apply X; now left]. destruct (Rlt_dec _ _); [|contradiction]. destruct (in_dec _ _ _); reflexivity.
      * rewrite nth_set_nth by exact Hi. replace (Nat.eqb i a) with false by (symmetry; now apply Nat.eqb_neq). destruct (in_dec Nat.eq_dec i is) as [Y|Y], (in_dec Nat.eq_dec i (a :: is)) as [X|X]; try reflexivity; exfalso; [apply X; now right | destruct X as [X|X]; [congruence | contradiction]].
    + unfold Reqb. destruct (Req_EM_T _ _) as [X|_]; [contradiction|]. cbn [bind]. destruct (IH mask) as (mask' & E & HL & HN); [intros; apply HI; now right|]. exists mask'. split; [exact E|]. split; [exact HL|]. intros i Hi. rewrite HN by exact Hi.
      destruct (Nat.eq_dec i a) as [->|N].
      * destruct (Rlt_dec _ _); [contradiction|]. destruct (in_dec _ _ _), (in_dec _ _ _); reflexivity.
      * destruct (in_dec Nat.eq_dec i is) as [Y|Y], (in_dec Nat.eq_dec i (a :: is)) as [X|X]; try reflexivity; exfalso; [apply X; now right | destruct X as [X|X]; [congruence | contradiction]].
Qed.
Lemma masked_filter {A} (d : A) (p : A -> bool) : forall (z : list A) mask, List.length mask = List.length z ->
  (forall i, (i < List.length z)%nat -> nth i mask false = p (nth i z d)) -> masked z mask = filter p z.
Proof.
  induction z as [|a z IH]; intros [|b mask] HL HN; try discriminate; [reflexivity|]. unfold masked in *. cbn [combine filter snd].
  pose proof (HN 0%nat ltac:(cbn; lia)) as H0. cbn [nth] in H0. subst b.
  assert (E : map fst (filter (fun q : A * bool => snd q) (combine z mask)) = filter p z).
  { apply IH; [cbn in HL; lia|]. intros i Hi. apply (HN (S i)). cbn. lia. }
  destruct (p a); cbn [map fst]; now rewrite E.
Qed.
Lemma root_mask_off (z : list C) : off_circle z -> exists mask, mask_loop z (seq 0 (List.length z)) (repeat true (List.length z)) = Ok mask /\ masked z mask = filter inside z.
Proof.
  intros HO. destruct (mask_loop_off z HO (seq 0 (List.length z)) (repeat true (List.length z))) as (mask & E & HL & HN); [intros i Hi; apply in_seq in Hi; lia|].
  exists mask. split; [exact E|]. rewrite repeat_length in HL, HN. apply (masked_filter (RtoC 0)); [exact HL|]. intros i Hi. rewrite HN by exact Hi. rewrite nth_repeat' by exact Hi.
  destruct (in_dec Nat.eq_dec i (seq 0 (List.length z))) as [_|X]; [|exfalso; apply X, in_seq; lia].
  unfold inside. assert (Ha : Cmod (nth i z (RtoC 0)) <> 1%R) by (unfold off_circle in HO; rewrite Forall_forall in HO; apply HO, nth_In, Hi).
  destruct (Rlt_dec 1 _), (Rlt_dec _ 1); reflexivity || lra.
Qed.
Lemma root_select_off argsort (z : list C) k : off_circle z ->
  let kept := filter inside z in
  is_argsort (map (fun w => 1 - Cmod w)%R kept) (argsort (map (fun w => 1 - Cmod w)%R kept)) ->
  ((List.length kept < k)%nat -> root_select argsort z (Z.of_nat k) = Ok None) /\
  ((k <= List.length kept)%nat -> exists chosen rest, root_select argsort z (Z.of_nat k) = Ok (Some chosen) /\
     Permutation (chosen ++ rest) kept /\ List.length chosen = k /\ forall a b, In a chosen -> In b rest -> (Cmod b <= Cmod a)%R).
Proof.
  intros HO kept HA. unfold root_select. destruct (root_mask_off z HO) as (mask & -> & HM). cbn [bind]. rewrite HM. fold kept.
  set (key := fun w : C => (1 - Cmod w)%R) in *. set (p := argsort (map key kept)) in *. destruct HA as [HP HS]. rewrite map_length in HP.
  split; intros Hk.
  - destruct (Z.ltb_spec (Z.of_nat (List.length kept)) (Z.of_nat k)); [reflexivity | lia].
  - destruct (Z.ltb_spec (Z.of_nat (List.length kept)) (Z.of_nat k)); [lia|].
    assert (LP : List.length p = List.length kept) by (rewrite (Permutation_length HP), seq_length; reflexivity).
    rewrite pslice_prefix. exists (map (fun i => nth i kept (RtoC 0)) (firstn k p)), (map (fun i => nth i kept (RtoC 0)) (skipn k p)).
    split; [reflexivity|]. split; [|split].
    + rewrite <- map_app, firstn_skipn. rewrite (Permutation_map _ HP). rewrite seq_nth_map. apply Permutation_refl.
    + rewrite map_length, firstn_length. lia.
    + intros a b Ia Ib. apply in_map_iff in Ia as (i & <- & Ii). apply in_map_iff in Ib as (j & <- & Ij).
      rewrite <- (firstn_skipn k p) in HS. pose proof (sorted_app _ _ _ HS i j Ii Ij) as HK. cbv beta in HK.
      assert (Bi : (i < List.length kept)%nat) by (assert (X : In i p) by (rewrite <- (firstn_skipn k p); apply in_or_app; now left); apply (Permutation_in _ HP), in_seq in X; lia).
      assert (Bj : (j < List.length kept)%nat) by (assert (X : In j p) by (rewrite <- (firstn_skipn k p); apply in_or_app; now right); apply (Permutation_in _ HP), in_seq in X; lia).
      rewrite !(nth_indep (map key kept) 0%R (key (RtoC 0))) in HK by (now rewrite map_length). rewrite !map_nth in HK. unfold key in HK. lra.
Qed.

(** *** the root-MUSIC polynomial *)
Lemma poly_sum c z : poly c z = csum (List.length c) (fun i => nth i c (RtoC 0) * cpow z (List.length c - 1 - i)).
Proof.
  induction c as [|a c IH]; [reflexivity|]. cbn [poly List.length]. rewrite csum_S_l. cbn [nth]. rewrite IH. f_equal; [f_equal; f_equal; lia|].
  apply csum_ext. intros i Hi. f_equal. f_equal. lia.
Qed.
(** sum of a square array by diagonals *)
Lemma csum_diagonals m (f : nat -> nat -> C) : csum m (fun r => csum m (fun q => f r q)) =
  csum m (fun r => f r r) + csum (m - 1) (fun i => csum (m - S i) (fun r => f r (r + S i)%nat + f (r + S i)%nat r)).
Proof.
  induction m as [|m IH]; [cbn; ring|].
  replace (csum (S m) (fun r => csum (S m) (fun q => f r q))) with (csum m (fun r => csum m (fun q => f r q)) + csum m (fun r => f r m) + csum m (fun q => f m q) + f m m).
  2:{ cbn [csum]. rewrite csum_plus. ring. }
  rewrite IH. cbn [csum]. replace (S m - 1)%nat with m by lia.
  assert (G : csum m (fun i => csum (S m - S i) (fun r => f r (r + S i)%nat + f (r + S i)%nat r)) =
              csum (m - 1) (fun i => csum (m - S i) (fun r => f r (r + S i)%nat + f (r + S i)%nat r)) + csum m (fun r => f r m + f m r)).
  { replace (csum (m - 1) (fun i => csum (m - S i) (fun r => f r (r + S i)%nat + f (r + S i)%nat r))) with (csum m (fun i => csum (m - S i) (fun r => f r (r + S i)%nat + f (r + S i)%nat r))).
    2:{ destruct m as [|m]; [reflexivity|]. replace (S m - 1)%nat with m by lia. change (csum (S m) ?f) with (csum m f + f m). cbv beta. replace (S m - S m)%nat with 0%nat by lia. cbn [csum]. ring. }
    rewrite <- (csum_rev m (fun r => f r m + f m r)), <- csum_plus. apply csum_ext. intros i Hi. replace (S m - S i)%nat with (S (m - S i)) by lia. cbn [csum].
    replace (m - S i + S i)%nat with m by lia. replace (m - 1 - i)%nat with (m - S i)%nat by lia. reflexivity. }
  rewrite G, csum_plus. set (X := csum m (fun q => f m q)). change (csum m (f m)) with X. ring.
Qed.
Lemma root_coeffs_length Cm : (0 < nr Cm)%nat -> List.length (root_coeffs Cm) = (2 * nr Cm - 1)%nat.
Proof. intros H. unfold root_coeffs. rewrite !app_length, rev_length, !map_length, seq_length. cbn [List.length]. lia. Qed.
(** coefficient i of the vector: diagonal sum of index m-1-i, conjugated beyond the middle *)
Lemma root_coeffs_nth Cm i : (i < 2 * nr Cm - 1)%nat ->
  nth i (root_coeffs Cm) (RtoC 0) = if (i <=? nr Cm - 1)%nat then diag_sum Cm (nr Cm - 1 - i) else Cconj (diag_sum Cm (i - (nr Cm - 1))).
Proof.
  intros Hi. unfold root_coeffs. set (m := nr Cm) in *. set (cf := map (fun i => diag_sum Cm i) (seq 1 (m - 1))). assert (L : List.length cf = (m - 1)%nat) by (unfold cf; now rewrite map_length, seq_length).
  assert (N : forall j, (j < m - 1)%nat -> nth j cf (RtoC 0) = diag_sum Cm (S j)).
  { intros j Hj. unfold cf. rewrite (nth_indep _ (RtoC 0) (diag_sum Cm 0)) by (rewrite map_length, seq_length; exact Hj). rewrite (map_nth (fun i => diag_sum Cm i)). now rewrite seq_nth. }
  destruct (Nat.leb_spec i (m - 1)) as [Le|Gt].
  - destruct (Nat.eq_dec i (m - 1)) as [->|Ne].
    + rewrite app_nth2 by (rewrite rev_length; lia). rewrite rev_length, L, Nat.sub_diag. reflexivity.
    + rewrite app_nth1 by (rewrite rev_length; lia). rewrite rev_nth by lia. rewrite L, N by lia. f_equal. lia.
  - rewrite app_nth2 by (rewrite rev_length; lia). rewrite rev_length, L. rewrite app_nth2 by (cbn; lia). cbn [List.length].
    rewrite (nth_indep _ (RtoC 0) (Cconj (RtoC 0))) by (rewrite map_length; lia). rewrite map_nth, N by lia. f_equal. f_equal. lia.
Qed.
Lemma diag_sum_0_real Cm : hermitian Cm -> Cconj (diag_sum Cm 0) = diag_sum Cm 0.
Proof.
  intros (H1 & H2). unfold diag_sum. rewrite csum_conj. apply csum_ext. intros r Hr. rewrite Nat.add_0_r. symmetry. apply H2; lia.
Qed.
Lemma root_coeffs_sym Cm i : hermitian Cm -> (i < 2 * nr Cm - 1)%nat -> nth (2 * nr Cm - 2 - i) (root_coeffs Cm) (RtoC 0) = Cconj (nth i (root_coeffs Cm) (RtoC 0)).
Proof.
  intros HH Hi. rewrite !root_coeffs_nth by lia. set (m := nr Cm) in *. destruct (Nat.leb_spec i (m - 1)), (Nat.leb_spec (2 * m - 2 - i) (m - 1)).
  - assert (i = m - 1)%nat by lia. subst i. replace (m - 1 - (2 * m - 2 - (m - 1)))%nat with 0%nat by lia. rewrite Nat.sub_diag. symmetry. now apply diag_sum_0_real.
  - f_equal. f_equal. lia.
  - rewrite Cconj_conj. f_equal. lia.
  - lia.
Qed.
(** for every z: the polynomial is the sum of C[r,q] z^(m-1+q-r) *)
Lemma poly_laurent Cm z : hermitian Cm -> (0 < nr Cm)%nat ->
  poly (root_coeffs Cm) z = csum (nr Cm) (fun r => csum (nr Cm) (fun q => ent Cm r q * cpow z (nr Cm - 1 + q - r))).
Proof.
  intros HH Hm. rewrite poly_sum, root_coeffs_length by exact Hm. set (m := nr Cm) in *. destruct m as [|n] eqn:Em; [lia|]. fold m in Em.
  rewrite csum_diagonals. replace (2 * S n - 1)%nat with (n + S n)%nat by lia. rewrite csum_app, csum_S_l. rewrite Nat.add_0_r.
  replace (S n - 1)%nat with n by lia.
  rewrite (csum_ext n (fun i => nth i (root_coeffs Cm) (RtoC 0) * cpow z (n + S n - 1 - i)) (fun i => (fun j => diag_sum Cm (S j) * cpow z (n + S j)) (n - 1 - i)%nat)).
  2:{ intros i Hi. rewrite root_coeffs_nth by (fold m; lia). fold m. rewrite Em. replace (S n - 1)%nat with n by lia. destruct (Nat.leb_spec i n); [|lia]. f_equal; f_equal; lia. }
  rewrite (csum_rev n (fun j => diag_sum Cm (S j) * cpow z (n + S j))).
  rewrite (csum_ext n (fun i => nth (n + S i) (root_coeffs Cm) (RtoC 0) * cpow z (n + S n - 1 - (n + S i))) (fun i => Cconj (diag_sum Cm (S i)) * cpow z (n - S i))).
  2:{ intros i Hi. rewrite root_coeffs_nth by (fold m; lia). fold m. rewrite Em. replace (S n - 1)%nat with n by lia. destruct (Nat.leb_spec (n + S i) n); [lia|]. f_equal; f_equal; [f_equal; lia | lia]. }
  rewrite root_coeffs_nth by (fold m; lia). fold m. rewrite Em. replace (S n - 1)%nat with n by lia. rewrite Nat.leb_refl, Nat.sub_diag.
  rewrite (csum_ext n (fun i => csum (S n - S i) _) (fun i => diag_sum Cm (S i) * cpow z (n + S i) + Cconj (diag_sum Cm (S i)) * cpow z (n - S i))).
  2:{ intros i Hi. rewrite csum_plus. f_equal.
      - unfold diag_sum. rewrite <- csum_scal_r. fold m. rewrite Em. apply csum_ext. intros r Hr. f_equal. f_equal. lia.
      - unfold diag_sum. rewrite csum_conj, <- csum_scal_r. fold m. rewrite Em. apply csum_ext. intros r Hr. f_equal; [|f_equal; lia]. destruct HH as (H1 & H2). apply H2; fold m; lia. }
  rewrite csum_plus. unfold diag_sum at 2. fold m. rewrite Em, Nat.sub_0_r.
  rewrite (csum_ext (S n) (fun r => ent Cm r r * cpow z (n + r - r)) (fun r => ent Cm r (r + 0) * cpow z n)) by (intros r Hr; f_equal; f_equal; lia).
  rewrite csum_scal_r. replace (n + S n - 1 - n)%nat with n by lia. ring.
Qed.
Lemma cpow_1_conj z n : Cmod z = 1%R -> cpow z n * Cconj (cpow z n) = RtoC 1.
Proof.
  intros H. rewrite Cmult_conj_norm2. f_equal. induction n as [|n IH]; [unfold Cnorm2; cbn; ring|]. cbn [cpow]. rewrite Cnorm2_mult, IH, <- Cmod_norm2, H. ring.
Qed.
Lemma poly_on_circle Cm z : hermitian Cm -> (0 < nr Cm)%nat -> Cmod z = 1%R -> poly (root_coeffs Cm) z = cpow z (nr Cm - 1) * form_at Cm z.
Proof.
  intros HH Hm Hz. rewrite poly_laurent by assumption. unfold form_at, qform. destruct HH as (H1 & _). rewrite <- H1. rewrite <- csum_scal. apply csum_ext. intros r Hr. rewrite <- csum_scal. apply csum_ext. intros q Hq.
  replace (nr Cm - 1 + q - r)%nat with ((nr Cm - 1 - r) + q)%nat by lia. rewrite cpow_add. replace (nr Cm - 1)%nat with ((nr Cm - 1 - r) + r)%nat at 2 by lia. rewrite cpow_add.
  replace (cpow z (nr Cm - 1 - r) * cpow z r * (Cconj (cpow z r) * ent Cm r q * cpow z q)) with (cpow z r * Cconj (cpow z r) * (ent Cm r q * (cpow z (nr Cm - 1 - r) * cpow z q))) by ring.
  rewrite cpow_1_conj by exact Hz. ring.
Qed.
Lemma cpow_conj z n : Cconj (cpow z n) = cpow (Cconj z) n.
Proof. induction n as [|n IH]; cbn [cpow]; [apply Cconj_RtoC|]. now rewrite Cmult_conj, IH. Qed.
Lemma cpow_inv z n : z <> RtoC 0 -> cpow z n * cpow (/ z) n = RtoC 1.
Proof. intros H. induction n as [|n IH]; cbn [cpow]; [ring|]. replace (z * cpow z n * (/ z * cpow (/ z) n)) with (z * / z * (cpow z n * cpow (/ z) n)) by ring. rewrite IH. field. exact H. Qed.
Lemma poly_reflect Cm z : hermitian Cm -> (0 < nr Cm)%nat -> z <> RtoC 0 ->
  poly (root_coeffs Cm) z = cpow z (2 * nr Cm - 2) * Cconj (poly (root_coeffs Cm) (/ Cconj z)).
Proof.
  intros HH Hm Hz. rewrite !poly_sum, root_coeffs_length by exact Hm. set (L := (2 * nr Cm - 1)%nat).
  rewrite <- (csum_rev L (fun i => nth i (root_coeffs Cm) (RtoC 0) * cpow z (L - 1 - i))). rewrite csum_conj, <- csum_scal. apply csum_ext. intros i Hi.
  replace (nth (L - 1 - i) (root_coeffs Cm) (RtoC 0)) with (Cconj (nth i (root_coeffs Cm) (RtoC 0))).
  2:{ rewrite <- root_coeffs_sym by (assumption || exact Hi). f_equal. unfold L. lia. }
  rewrite Cmult_conj, cpow_conj. assert (Nz : Cconj z <> RtoC 0) by (intros X; apply Hz; now apply Cconj_eq_0). rewrite Cconj_inv', Cconj_conj by exact Nz.
  set (t := (L - 1 - i)%nat). replace (2 * nr Cm - 2)%nat with (i + t)%nat by (unfold t, L in *; lia). replace (L - 1 - t)%nat with i by (unfold t, L in *; lia).
  rewrite cpow_add. transitivity (Cconj (nth i (root_coeffs Cm) (RtoC 0)) * cpow z i * (cpow z t * cpow (/ z) t)); [|ring]. rewrite cpow_inv by exact Hz. ring.
Qed.
