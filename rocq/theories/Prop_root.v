(** Properties of root-MUSIC and ESPRIT (C61-C64). *)
From Coq Require Import Sorting.Sorted Sorting.Permutation.
From Verif Require Import Base_Np Base_Mem Base_Lin Base_Trig M_utils P_utils S_utils M_sources M_array S_sources S_grid M_coarray M_heap M_core P_core P_core2 P_sources3 M_subspace S_subspace P_subspace P_subspace2 P_subspace3 P_subspace4 P_subspace5.
From Verif Require Import Prop_subspace.
Open Scope C_scope.

(** C61: coefficients (highest power first) are the sums along the diagonals m-1, ..., 0 of C, then conjugate-symmetric. *)
Theorem C61_coefficients : forall Cm m, hermitian Cm -> nr Cm = m -> (0 < m)%nat ->
  List.length (root_coeffs Cm) = (2 * m - 1)%nat /\
  (forall i, (i <= m - 1)%nat -> nth i (root_coeffs Cm) (RtoC 0) = csum (m - (m - 1 - i)) (fun r => ent Cm r (r + (m - 1 - i)))) /\
  (forall i, (i < 2 * m - 1)%nat -> nth (2 * m - 2 - i) (root_coeffs Cm) (RtoC 0) = Cconj (nth i (root_coeffs Cm) (RtoC 0))).
Proof.
  intros Cm m HH Hm H0. subst m. split; [now apply root_coeffs_length|]. split.
  - intros i Hi. rewrite root_coeffs_nth by lia. rewrite (proj2 (Nat.leb_le _ _) Hi). reflexivity.
  - intros i Hi. now apply root_coeffs_sym.
Qed.
Theorem C61_on_unit_circle : forall Cm m z, hermitian Cm -> nr Cm = m -> (0 < m)%nat -> Cmod z = 1%R ->
  poly (root_coeffs Cm) z = cpow z (m - 1) * form_at Cm z.
Proof. intros Cm m z HH <- H0 Hz. now apply poly_on_circle. Qed.
Theorem C61_reciprocal_pairs : forall Cm z, hermitian Cm -> (0 < nr Cm)%nat -> z <> RtoC 0 ->
  (poly (root_coeffs Cm) z = RtoC 0 <-> poly (root_coeffs Cm) (/ Cconj z) = RtoC 0).
Proof.
  intros Cm z HH H0 Hz. rewrite (poly_reflect Cm z HH H0 Hz). split.
  - intros H. destruct (Cmult_0 _ _ H) as [X|X]; [exfalso; exact (cpow_neq_0 _ _ Hz X) | now apply Cconj_eq_0].
  - intros ->. rewrite Cconj_RtoC. ring.
Qed.
(** what root-MUSIC hands to the root finder: the coefficients of En En^H; on the unit circle its roots are exactly the sources *)
Theorem C61_true_directions : forall eigh Rm P s w E zs m z, NoDup zs -> (1 <= List.length zs < m)%nat -> pd P -> Cmod z = 1%R ->
  exact_cov Rm (ula_matrix m zs) P s -> eigh Rm = Ok (w, E) -> eigh_ok Rm w E ->
  exists En, get_noise_subspace eigh Rm (Z.of_nat (List.length zs)) = Ok En /\
    (poly (root_coeffs (En *m mher En)) z = RtoC 0 <-> In z zs) /\
    forall roots argsort lam d0 unit, root_music eigh roots argsort lam Rm (Z.of_nat (List.length zs)) d0 unit =
      let! rs := roots (root_coeffs (En *m mher En)) in let! sel := root_select argsort rs (Z.of_nat (List.length zs)) in
      match sel with None => Ok (false, None) | Some c => let! p := from_z c lam (match d0 with None => (lam / 2)%R | Some d => d end) unit in Ok (true, Some p) end.
Proof.
  intros eigh Rm P s w E zs m z HD Hk HP Hz HX HE OE.
  destruct (exact_noise eigh Rm (ula_matrix m zs) P s w E HX (ula_inj m zs HD ltac:(lia)) HP ltac:(cbn; lia) HE OE) as (En & EN & N1 & N2 & N3 & N4). cbn [ula_matrix nc nr] in EN, N1.
  exists En. split; [exact EN|]. split.
  - assert (HH : hermitian (En *m mher En)) by apply (psd_gram' En). rewrite (C61_on_unit_circle _ m z HH) by (cbn [mmul nr]; assumption || lia).
    unfold form_at. rewrite <- proj_power_qform. rewrite <- (ula_span m zs z HD ltac:(lia)), <- N4. split.
    + intros H. destruct (Cmult_0 _ _ H) as [X|X].
      * exfalso. apply (cpow_neq_0 z (m - 1)); [|exact X]. intros ->. rewrite Cmod_0 in Hz. lra.
      * now injection X.
    + intros ->. ring.
  - intros roots argsort lam d0 unit. destruct (ex_dims Rm _ P s HX) as [D1 D2]. cbn [ula_matrix nr] in D1, D2. unfold root_music. rewrite D1, D2, Nat.eqb_refl. cbn [negb]. unfold ensure_n_resolvable_sources. rewrite Z.gtb_ltb.
    destruct (Z.ltb_spec (Z.of_nat m - 1) (Z.of_nat (List.length zs))); [lia|]. cbn [bind]. rewrite EN. cbn [bind]. rewrite matmul_ok by reflexivity. reflexivity.
Qed.
Theorem C61_checks : forall eigh roots argsort lam Rm k d0 unit, nr Rm <> nc Rm \/ (k >= Z.of_nat (nr Rm))%Z ->
  root_music eigh roots argsort lam Rm k d0 unit = Raise ValueError.
Proof.
  intros eigh roots argsort lam Rm k d0 unit H. unfold root_music. destruct (Nat.eqb_spec (nr Rm) (nc Rm)) as [E|E]; [|reflexivity]. cbn [negb]. unfold ensure_n_resolvable_sources. rewrite Z.gtb_ltb.
  destruct (Z.ltb_spec (Z.of_nat (nr Rm) - 1) k); [reflexivity|]. exfalso. destruct H; [contradiction | lia].
Qed.
Example C61_example : exists En, get_noise_subspace ex_eigh ex_R 1 = Ok En /\ poly (root_coeffs (En *m mher En)) (RtoC 1) = RtoC 0.
Proof.
  destruct (C61_true_directions ex_eigh ex_R ex_P 1 ex_w ex_E [RtoC 1] 2 (RtoC 1)) as (En & E & H & _); [repeat constructor; intros [] | cbn; lia | apply pd_mid | rewrite Cmod_1; reflexivity | exact ex_exact | reflexivity | exact ex_eig |].
  exists En. split; [exact E|]. apply H. now left.
Qed.

(** C62: without roots on the unit circle the roots inside are kept; resolved iff there are at least k, then k of largest modulus are used. *)
Theorem C62_selection : forall argsort (z : list C) k, Forall (fun w => Cmod w <> 1%R) z -> (forall v, is_argsort v (argsort v)) ->
  let kept := filter (fun w => if Rlt_dec (Cmod w) 1 then true else false) z in
  ((List.length kept < k)%nat -> root_select argsort z (Z.of_nat k) = Ok None) /\
  ((k <= List.length kept)%nat -> exists chosen rest, root_select argsort z (Z.of_nat k) = Ok (Some chosen) /\
     Permutation (chosen ++ rest) kept /\ List.length chosen = k /\ forall a b, In a chosen -> In b rest -> (Cmod b <= Cmod a)%R).
Proof. intros argsort z k HO HA kept. exact (root_select_off argsort z k HO (HA _)). Qed.
(** roots in reciprocal-conjugate pairs (as C61 shows), none on the circle, all 2(m-1) of them: one of every pair is kept, so every k <= m-1 is resolved *)
Theorem C62_pairs_resolved : forall argsort (z : list C) m k, Forall (fun w => Cmod w <> 1%R) z -> ~ In (RtoC 0) z -> Permutation (map (fun w => / Cconj w) z) z ->
  List.length z = (2 * (m - 1))%nat -> (forall v, is_argsort v (argsort v)) ->
  List.length (filter (fun w => if Rlt_dec (Cmod w) 1 then true else false) z) = (m - 1)%nat /\
  ((exists chosen, root_select argsort z (Z.of_nat k) = Ok (Some chosen)) <-> (k <= m - 1)%nat).
Proof.
  intros argsort z m k HO H0 HP HL HA. pose proof (half_inside z HO H0 HP) as H. fold inside. change (fun w => if Rlt_dec (Cmod w) 1 then true else false) with inside. split; [lia|].
  destruct (C62_selection argsort z k HO HA) as (S1 & S2). change (fun w => if Rlt_dec (Cmod w) 1 then true else false) with inside in S1, S2. split.
  - intros (c & E). destruct (Nat.le_gt_cases k (m - 1)) as [L|L]; [exact L|]. rewrite S1 in E by lia. discriminate.
  - intros L. destruct S2 as (c & r & E & _); [lia|]. now exists c.
Qed.
(** Finding: an exact double root on the unit circle is lost altogether (the code removes the closest neighbour of each of the two),
    so only roots strictly inside survive. *)
Theorem C62_double_roots_lost_defect : forall argsort (z : list C) par k,
  (forall i, (i < List.length z)%nat -> Cmod (nth i z (RtoC 0)) = 1%R ->
     (par i < List.length z)%nat /\ par i <> i /\ nth (par i) z (RtoC 0) = nth i z (RtoC 0) /\ forall j, (j < List.length z)%nat -> j <> i -> nth j z (RtoC 0) = nth i z (RtoC 0) -> j = par i) ->
  (forall v, is_argsort v (argsort v)) ->
  (forall chosen w, root_select argsort z (Z.of_nat k) = Ok (Some chosen) -> In w chosen -> (Cmod w < 1)%R) /\
  ((List.length (filter (fun w => if Rlt_dec (Cmod w) 1 then true else false) z) < k)%nat -> root_select argsort z (Z.of_nat k) = Ok None).
Proof.
  intros argsort z par k HC HA. change (fun w => if Rlt_dec (Cmod w) 1 then true else false) with inside. destruct (root_mask_pairs z par HC) as (mask & E & M).
  destruct (root_select_kept argsort z k mask E (HA _)) as (S1 & S2). rewrite M in S1, S2. split; [|exact S1]. intros chosen w Ec Iw.
  destruct (Nat.le_gt_cases k (List.length (filter inside z))) as [L|L]; [|rewrite S1 in Ec by lia; discriminate].
  destruct (S2 L) as (c & r & E2 & PM & _). rewrite E2 in Ec. injection Ec as <-. assert (I : In w (filter inside z)) by (apply (Permutation_in _ PM), in_or_app; now left).
  apply filter_In in I as (_ & I). unfold inside in I. destruct (Rlt_dec _ _); [assumption | discriminate].
Qed.
(** hence root-MUSIC fails on an exact covariance: two sensors, one source at broadside; the polynomial is -(z-1)^2/2, its roots are [1; 1], and the answer is "not resolved" *)
Theorem C62_exact_covariance_defect : forall argsort lam d0 unit, (forall v, is_argsort v (argsort v)) ->
  exact_cov ex_R (ula_matrix 2 [RtoC 1]) (mid 1) 1 /\ eigh_ok ex_R ex_w ex_E /\
  root_music ex_eigh (fun c => if Req_EM_T (Cmod (poly c (RtoC 1))) 0 then Ok [RtoC 1; RtoC 1] else Ok []) argsort lam ex_R 1 d0 unit = Ok (false, None) /\
  exists En, get_noise_subspace ex_eigh ex_R 1 = Ok En /\ forall x, poly (root_coeffs (En *m mher En)) x = RtoC (- / 2) * ((x - RtoC 1) * (x - RtoC 1)).
Proof.
  intros argsort lam d0 unit HA. split; [exact ex_exact|]. split; [exact ex_eig|].
  destruct (C61_true_directions ex_eigh ex_R ex_P 1 ex_w ex_E [RtoC 1] 2 (RtoC 1)) as (En & E & H & RM); [repeat constructor; intros [] | cbn; lia | apply pd_mid | rewrite Cmod_1; reflexivity | exact ex_exact | reflexivity | exact ex_eig |].
  split.
  - change (Z.of_nat (List.length [RtoC 1])) with 1%Z in RM. rewrite RM. cbv beta. rewrite (proj2 H) by (now left). rewrite Cmod_0. destruct (Req_EM_T 0 0); [|contradiction]. cbn [bind].
    destruct (C62_double_roots_lost_defect argsort [RtoC 1; RtoC 1] (fun i => (1 - i)%nat) 1) as (_ & S); [|exact HA|].
    + intros [|[|i]] Hi _; cbn in Hi; try lia; (split; [cbn; lia|]; split; [cbn; lia|]; split; [reflexivity|]); intros [|[|j]] Hj Nj _; cbn in *; lia.
    + change (Z.of_nat 1) with 1%Z in S. rewrite S; [reflexivity|]. cbn [filter]. rewrite Cmod_1. destruct (Rlt_dec 1 1); [lra | cbn; lia].
  - exists En. split; [exact E|]. intros x. pose proof r2_sq as Q. unfold get_noise_subspace, ex_eigh in E. cbn [bind] in E. injection E as <-.
    set (q := (/ sqrt 2)%R) in *. transitivity (RtoC (- (q * q)) * cpow x 2 + RtoC (2 * (q * q)) * cpow x 1 + RtoC (- (q * q)) * cpow x 0).
    + replace (col_slice ex_E None (Some (-1)%Z)) with (Mat 2 1 (fun i j => ent ex_E i j)) by reflexivity. apply C_eq; cbn -[sqrt]; fold q; ring.
    + rewrite Q. apply C_eq; cbn -[sqrt]; field.
Qed.
(** and a single unit-modulus root raises RuntimeError *)
Theorem C62_single_unit_root_defect : forall argsort z k, Cmod z = 1%R -> root_select argsort [z] k = Raise RuntimeError.
Proof.
  intros argsort z k H. unfold root_select. cbn [List.length seq repeat mask_loop]. unfold mask_step. cbn [nth]. unfold Rltb, Reqb. rewrite H. destruct (Rlt_dec 1 1); [lra|]. destruct (Req_EM_T 1 1); [|contradiction]. reflexivity.
Qed.
Example C62_example : exists c, root_select argsort_R [RtoC (/ 2); RtoC 2] 1 = Ok (Some c) /\ c = [RtoC (/ 2)].
Proof.
  assert (M1 : Cmod (RtoC (/ 2)) = (/ 2)%R) by (rewrite Cmod_R, Rabs_right; lra). assert (M2 : Cmod (RtoC 2) = 2%R) by (rewrite Cmod_R, Rabs_right; lra).
  destruct (C62_selection argsort_R [RtoC (/ 2); RtoC 2] 1) as (_ & H); [repeat constructor; rewrite ?M1, ?M2; lra | exact argsort_R_ok|].
  assert (F : filter (fun w => if Rlt_dec (Cmod w) 1 then true else false) [RtoC (/ 2); RtoC 2] = [RtoC (/ 2)]).
  { cbn [filter]. rewrite M1, M2. destruct (Rlt_dec (/ 2) 1); [|lra]. destruct (Rlt_dec 2 1); [lra | reflexivity]. }
  rewrite F in H. destruct H as (c & r & E & PM & L & _); [cbn; lia|]. exists c. split; [exact E|]. destruct c as [|a [|? ?]]; try discriminate. assert (X : In a [RtoC (/ 2)]) by (apply (Permutation_in _ PM); now left). destruct X as [<-|[]]. reflexivity.
Qed.
Print Assumptions C61_coefficients.
Print Assumptions C61_on_unit_circle.
Print Assumptions C61_reciprocal_pairs.
Print Assumptions C61_true_directions.
Print Assumptions C61_checks.
Print Assumptions C62_selection.
Print Assumptions C62_pairs_resolved.
Print Assumptions C62_double_roots_lost_defect.
Print Assumptions C62_exact_covariance_defect.
Print Assumptions C62_single_unit_root_defect.
