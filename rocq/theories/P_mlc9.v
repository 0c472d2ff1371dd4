(** Near-optimal AML fits have directions near the true ones, for fewer than m/2 sources. *)
From Coq Require Import Lra Sorting.Permutation.
From Verif Require Import Base_Np Base_Lin M_utils M_core M_ml S_utils S_model S_subspace S_stable S_ml P_utils P_subspace P_subspace3 P_spectral P_perf3 P_perf5 P_courant P_ml3 P_ml4 P_ml5 P_ml6 P_ml7 P_ml9 P_oracles P_stable P_stable3 P_invar P_mlc P_mlc2 P_mlc3 P_mlc7 P_mlc8 P_pipeline.
Open Scope C_scope.

Lemma weyl_q A B w E w' E' t i : hermitian A -> hermitian B -> nr A = nr B -> eigh_ok A w E -> eigh_ok B w' E' -> (forall x, (Re (qform A x) <= Re (qform B x) + t * vnorm2 (nr A) x)%R) -> (i < nr A)%nat ->
  (nth i w 0 <= nth i w' 0 + t)%R.
Proof.
  intros HA HB N OA OB HX Hi. pose proof HA as (SA & _). pose proof HB as (SB & _). pose proof (eigh_shift B w' E' t OB) as OB'. set (B' := B +m _) in OB'.
  assert (HB' : hermitian B') by (apply hermitian_madd; [reflexivity | exact HB | apply hermitian_mscal, hermitian_mid]).
  pose proof (eig_mono A B' w E (map (fun x => (x + t)%R) w') E' HA HB' N) as M.
  rewrite <- (map_nth (fun x => (x + t)%R)). rewrite (nth_indep _ (0 + t)%R 0%R) by (rewrite map_length; destruct OB as (_ & _ & _ & L & _); lia).
  apply M; [|exact OA | exact OB' | exact Hi]. intros x. unfold B'. rewrite qform_madd by (cbn; congruence). rewrite qform_mscal, qform_mid, <- RtoC_mult, Re_plus, Re_RtoC. rewrite <- N. apply HX.
Qed.
Lemma eig_val X w E i : hermitian X -> eigh_ok X w E -> (i < nr X)%nat -> nth i w 0%R = Re (qform X (col E i)) /\ vnorm2 (nr X) (col E i) = 1%R.
Proof.
  intros HX OE Hi. pose proof (eigh_orth X w E i i OE Hi Hi) as O. rewrite Nat.eqb_refl, vdot_self in O. injection O as O. split; [|exact O].
  rewrite (qform_eig X w E (col E i) HX OE). rewrite (rsum_single _ _ i); [|exact Hi|].
  - pose proof (eigh_orth X w E i i OE Hi Hi) as Q. rewrite Nat.eqb_refl in Q. rewrite Q. unfold Cnorm2, RtoC. cbn. ring.
  - intros j Hj Nj. pose proof (eigh_orth X w E j i OE Hj Hi) as Q. destruct (Nat.eqb_spec j i); [lia|]. rewrite Q. unfold Cnorm2, RtoC. cbn. ring.
Qed.
Lemma logdet_mono n (u v : list R) : (forall i, (i < n)%nat -> (0 < nth i u 0 <= nth i v 0)%R) -> (logdet u n <= logdet v n)%R.
Proof. intros H. unfold logdet. apply rsum_le. intros i Hi. destruct (H i Hi). destruct (Req_dec (nth i u 0%R) (nth i v 0%R)) as [->|]; [lra|]. left. apply ln_increasing; lra. Qed.
Lemma logdet_diff n (u v w : list R) s t1 t2 : (0 < s)%R -> (0 <= t1)%R -> (0 <= t2 <= s / 2)%R -> (forall i, (i < n)%nat -> (s <= nth i w 0)%R) ->
  (forall i, (i < n)%nat -> (0 < nth i u 0 <= nth i w 0 + t1)%R) -> (forall i, (i < n)%nat -> (nth i w 0 - t2 <= nth i v 0)%R) ->
  (logdet u n - logdet v n <= INR n * (2 * (t1 + t2) / s))%R.
Proof.
  intros Hs H1 H2 W U V. unfold logdet. rewrite <- rsum_minus, <- rsum_const. apply rsum_le. intros i Hi. specialize (W i Hi). specialize (U i Hi). specialize (V i Hi). set (x := nth i u 0%R) in *. set (y := nth i v 0%R) in *. set (z := nth i w 0%R) in *.
  rewrite <- Rcomplements.ln_div by lra. pose proof (ln_le_sub (x / y)%R ltac:(apply Rdiv_lt_0_compat; lra)) as L. eapply Rle_trans; [exact L|]. apply Rmult_le_reg_r with y; [lra|]. replace ((x / y - 1) * y)%R with (x - y)%R by (field; lra).
  apply Rle_trans with (t1 + t2)%R; [lra|]. apply Rle_trans with (2 * (t1 + t2) / s * (s / 2))%R; [right; field; lra|]. apply Rmult_le_compat_l; [|lra]. apply Rmult_le_pos; [lra|]. left. now apply Rinv_0_lt_compat.
Qed.

Lemma aml_conv m zs (Rm P0 : cmat) s tol : NoDup zs -> (1 <= List.length zs)%nat -> (2 * List.length zs < m)%nat -> exact_cov Rm (ula_matrix m zs) P0 s -> pd P0 -> (0 < s)%R -> (0 < tol)%R ->
  exists eps, (0 < eps)%R /\ forall (Rm' P P' : cmat) zs' mu F mu' F', hermitian Rm' -> nr Rm' = m -> (distance Rm Rm' < eps)%R -> List.length zs' = List.length zs -> (forall w, In w zs' -> Cmod w = 1%R) ->
    orth_projector_onto (ula_matrix m zs) P -> orth_projector_onto (ula_matrix m zs') P' ->
    eigh_ok (concentrated P Rm' m (List.length zs)) mu F -> eigh_ok (concentrated P' Rm' m (List.length zs)) mu' F' ->
    (forall i, (i < m)%nat -> (0 < nth i mu 0 /\ 0 < nth i mu' 0)%R) /\ ((logdet mu' m <= logdet mu m + eps)%R ->
    exists z0, Permutation z0 zs' /\ Forall2 (fun a b => (Cmod (a - b)%C < tol)%R) zs z0).
Proof.
  intros ND Hk1 Hk2 HX HP Hs Ht. set (k := List.length zs) in *. set (A := ula_matrix m zs) in *. pose proof HX as (X1 & X2 & _). cbn [A ula_matrix nc] in X1, X2. destruct (pd_floor P0 HP ltac:(unfold k in *; lia)) as (p & Pp & HF). destruct (matching zs tol ND Ht) as (tau & Tp & HM).
  destruct (ex_dims Rm A P0 s HX) as (D1 & D2). change (nr A) with m in D1, D2. pose proof (exact_herm Rm A P0 s HX (proj1 HP)) as HH. destruct (eigh_ref_ok Rm HH) as (w & E & _ & OE).
  assert (HA : inj A) by (apply ula_inj; [exact ND|fold k; lia]). assert (Mp : (0 < INR m)%R) by (apply lt_0_INR; lia).
  assert (WS : forall i, (i < m)%nat -> (s <= nth i w 0)%R).
  { intros i Hi. destruct (eig_val Rm w E i HH OE ltac:(congruence)) as (-> & N1). rewrite D1 in N1. pose proof HX as (_ & _ & ER). rewrite (qform_eq _ _ _ ER). rewrite qform_madd by (cbn; reflexivity). rewrite qform_mscal, qform_mid, <- RtoC_mult, Re_plus. change (nr A) with m. rewrite N1. cbn [Re RtoC fst].
    assert (PS : psd (A *m P0 *m mher A)) by (apply psd_congr'; [cbn [A ula_matrix nc]; congruence | now apply pd_psd]). pose proof (proj2 PS (col E i)) as G. lra. }
  destruct (upper_bound m (fun i => nth i w 0%R)) as (L & Lp & HL). set (b0 := (L + s)%R). set (b := (INR m * b0 + b0)%R). assert (B0 : (0 < b0)%R) by (unfold b0; lra). assert (Bp : (0 < b)%R) by (unfold b; assert (0 < INR m * b0)%R by (now apply Rmult_lt_0_compat); lra).
  set (K := (INR m * (2 * (INR m + 1) / s) + 1)%R). assert (Kp : (0 < K)%R) by (unfold K; assert (0 < INR m * (2 * (INR m + 1) / s))%R by (apply Rmult_lt_0_compat; [exact Mp|apply Rdiv_lt_0_compat; lra]); lra).
  pose proof (pow_lt 4 k ltac:(lra)) as F4. set (x := (p * (tau / 4 ^ k))%R). assert (Xp : (0 < x)%R) by (unfold x; apply Rmult_lt_0_compat; [exact Pp|now apply Rdiv_lt_0_compat]).
  set (h := (x / (8 * b))%R). assert (Hp : (0 < h)%R) by (unfold h; apply Rdiv_lt_0_compat; lra). set (e3 := (h * h / K)%R). assert (E3 : (0 < e3)%R) by (unfold e3; apply Rdiv_lt_0_compat; [now apply Rmult_lt_0_compat|exact Kp]).
  set (eps := Rmin (s / 2) (Rmin (x / 4) e3)). assert (Ep : (0 < eps)%R) by (unfold eps; repeat apply Rmin_glb_lt; lra).
  assert (e_1 : (eps <= s / 2)%R) by apply Rmin_l. assert (e_2 : (eps <= x / 4)%R) by (unfold eps; eapply Rle_trans; [apply Rmin_r|apply Rmin_l]). assert (e_3 : (eps <= e3)%R) by (unfold eps; eapply Rle_trans; [apply Rmin_r|apply Rmin_r]). clearbody eps.
  exists eps. split; [exact Ep|]. intros Rm' P P' zs' mu F mu' F' HH' R1' DS LZ U OP OP' OF OF'.
  assert (R2' : nc Rm' = m) by (rewrite <- R1'; symmetry; apply HH'). destruct (eigh_ref_ok Rm' HH') as (w' & E' & _ & OE'). set (dist := distance Rm Rm') in *. assert (Dn : (0 <= dist)%R) by apply distance_nonneg.
  assert (WY : forall i, (i < m)%nat -> (nth i w 0 - dist <= nth i w' 0 <= nth i w 0 + dist)%R).
  { intros i Hi. pose proof (weyl Rm Rm' w E w' E' i HH HH' ltac:(congruence) OE OE' ltac:(congruence)) as Y. apply Rcomplements.Rabs_le_between in Y. fold dist in Y. lra. }
  assert (W'p : forall i, (i < m)%nat -> (0 < nth i w' 0)%R) by (intros i Hi; pose proof (WY i Hi); pose proof (WS i Hi); lra).
  assert (QU : forall y, (Re (qform Rm' y) <= b0 * vnorm2 m y)%R).
  { intros y. rewrite (qform_eig Rm' w' E' y HH' OE'). rewrite <- (R1'), <- (parseval Rm' w' E' y HH' OE'), <- rsum_scal. apply rsum_le. intros j Hj. apply Rmult_le_compat_r; [apply Cnorm2_nonneg|]. rewrite R1' in Hj. pose proof (WY j Hj). pose proof (HL j Hj). unfold b0. lra. }
  assert (PD' : pd Rm').
  { split; [exact HH'|]. intros y (j & Hj & Nj). rewrite R1' in Hj. rewrite (qform_eig Rm' w' E' y HH' OE'). rewrite R1'. apply Rlt_le_trans with ((s / 2) * vnorm2 m y)%R.
    - apply Rmult_lt_0_compat; [lra|]. unfold vnorm2. apply Rlt_le_trans with (Cnorm2 (y j)); [|apply (rsum_ge m (fun i => Cnorm2 (y i)) j Hj); intros; apply Cnorm2_nonneg]. destruct (Rle_lt_or_eq_dec 0 (Cnorm2 (y j)) (Cnorm2_nonneg _)) as [Y|Y]; [exact Y|]. exfalso. apply Nj, Cnorm2_0. now symmetry.
    - rewrite <- R1' at 1. rewrite <- (parseval Rm' w' E' y HH' OE'), <- rsum_scal, R1'. apply rsum_le. intros q Hq. apply Rmult_le_compat_r; [apply Cnorm2_nonneg|]. pose proof (WY q Hq). pose proof (WS q Hq). lra. }
  set (zs1 := nodup Ceq_dec zs'). set (k1 := List.length zs1). assert (K1 : (k1 <= k)%nat) by (unfold k1; rewrite <- LZ; apply NoDup_incl_length; [apply NoDup_nodup|]; intros y Hy; now apply (nodup_In Ceq_dec)).
  pose proof (projector_nodup m zs' P' OP') as OP1. fold zs1 in OP1. set (B1 := ula_matrix m zs1) in *. assert (I1 : inj B1) by (apply ula_inj; [apply NoDup_nodup|fold k1; lia]).
  assert (PD1 : pd (concentrated P' Rm' m k1)) by (rewrite (conc_eq B1 P' Rm' m k1 OP1 eq_refl HH' R1' ltac:(lia)); apply (conc_pd B1 P' Rm' m k1 OP1 eq_refl HH' R1' ltac:(lia) PD' I1 eq_refl)).
  assert (PD0 : pd (concentrated P Rm' m k)) by (rewrite (conc_eq A P Rm' m k OP eq_refl HH' R1' ltac:(lia)); apply (conc_pd A P Rm' m k OP eq_refl HH' R1' ltac:(lia) PD' HA eq_refl)).
  destruct (conc_h B1 P' m OP1 eq_refl Rm' k1 HH' R1' ltac:(lia)) as (H1 & N1). destruct (conc_h B1 P' m OP1 eq_refl Rm' k HH' R1' ltac:(lia)) as (H2 & N2). destruct (conc_h A P m OP eq_refl Rm' k HH' R1' ltac:(lia)) as (H0 & N0).
  set (S1m := concentrated P' Rm' m k1) in *. destruct (eigh_ref_ok S1m H1) as (mu1 & F1 & _ & OF1).
  assert (M1p : forall i, (i < m)%nat -> (0 < nth i mu1 0)%R) by (intros i Hi; apply (eigh_pos S1m mu1 F1 PD1 OF1); congruence).
  assert (MM : forall i, (i < m)%nat -> (nth i mu1 0 <= nth i mu' 0)%R).
  { intros i Hi. apply (eig_mono S1m _ mu1 F1 mu' F' H1 H2 ltac:(congruence)); [|exact OF1|exact OF'|congruence]. intros y. apply (conc_mono B1 P' m OP1 eq_refl Rm' k k1 y (pd_psd _ PD') R1' ltac:(lia)). }
  assert (M0p : forall i, (i < m)%nat -> (0 < nth i mu 0)%R) by (intros i Hi; apply (eigh_pos _ mu F PD0 OF); congruence).
  split. { intros i Hi. split; [now apply M0p|]. pose proof (M1p i Hi). pose proof (MM i Hi). lra. }
  intros HL'.
  assert (MU : forall i, (i < m)%nat -> (nth i mu 0 <= nth i w 0 + INR m * dist)%R).
  { intros i Hi. apply (weyl_q _ Rm mu F w E _ i H0 HH ltac:(congruence) OF OE); [|congruence]. intros y. rewrite N0. pose proof (conc_near A P m OP eq_refl Rm' Rm k y HH' R1' HH D1 ltac:(lia)) as CN.
    assert (EC : concentrated P Rm m k ==m Rm) by (apply (conc_exact Rm A P0 s P HX HH OP HA); cbn [A ula_matrix nc nr]; fold k; lia). rewrite (qform_eq _ _ y EC) in CN. rewrite (distance_sym Rm' Rm) in CN by congruence. exact CN. }
  (* the divergence is small *)
  assert (KL : kl Rm' m mu1 w' F1 = (logdet mu1 m - logdet w' m)%R).
  { unfold kl. pose proof OF1 as OF1'. unfold S1m in OF1'. rewrite (conc_eq B1 P' Rm' m k1 OP1 eq_refl HH' R1' ltac:(lia)) in OF1'. rewrite (b_sum B1 P' Rm' m k1 OP1 eq_refl R1' ltac:(lia) PD' I1 eq_refl mu1 F1 OF1'). ring. }
  assert (KB : (kl Rm' m mu1 w' F1 <= K * eps)%R).
  { rewrite KL. assert (L1 : (logdet mu1 m <= logdet mu' m)%R) by (apply logdet_mono; intros i Hi; split; [now apply M1p|now apply MM]).
    pose proof (logdet_diff m mu w' w s (INR m * dist) dist Hs ltac:(apply Rmult_le_pos; lra) ltac:(lra) WS (fun i Hi => conj (M0p i Hi) (MU i Hi)) (fun i Hi => proj1 (WY i Hi))) as LD.
    apply Rle_trans with (INR m * (2 * (INR m * dist + dist) / s) + eps)%R; [lra|]. unfold K. replace (INR m * (2 * (INR m * dist + dist) / s))%R with (INR m * (2 * (INR m + 1) / s) * dist)%R by (field; lra).
    assert (0 <= INR m * (2 * (INR m + 1) / s))%R by (apply Rmult_le_pos; [lra|left; apply Rdiv_lt_0_compat; lra]). assert (INR m * (2 * (INR m + 1) / s) * dist <= INR m * (2 * (INR m + 1) / s) * eps)%R by (apply Rmult_le_compat_l; lra). lra. }
  assert (KH : (kl Rm' m mu1 w' F1 <= h * h)%R). { eapply Rle_trans; [exact KB|]. apply Rle_trans with (K * e3)%R; [apply Rmult_le_compat_l; lra|]. right. unfold e3. field. lra. }
  assert (DB : (distance Rm' S1m <= x / 4)%R).
  { pose proof (kl_dist S1m Rm' m mu1 w' F1 E' PD1 PD' N1 R1' OF1 OE' b) as KD. assert (DN : (0 <= distance Rm' S1m)%R) by apply distance_nonneg.
    assert (KD' : (distance Rm' S1m * distance Rm' S1m <= 4 * (b * b) * (h * h))%R).
    { eapply Rle_trans; [apply KD|].
      - intros i Hi. destruct (eig_val S1m mu1 F1 i H1 OF1 ltac:(congruence)) as (-> & NV). rewrite N1 in NV. pose proof (conc_upper B1 P' m OP1 eq_refl Rm' k1 b0 (col F1 i) HH' R1' ltac:(lia) ltac:(lra) QU) as CU. rewrite NV in CU. fold S1m in CU. unfold b. lra.
      - intros i Hi. pose proof (WY i Hi). pose proof (HL i Hi). unfold b. assert (0 < INR m * b0)%R by (now apply Rmult_lt_0_compat). unfold b0 in *. lra.
      - apply Rmult_le_compat_l; [|exact KH]. apply Rmult_le_pos; [lra|]. apply Rmult_le_pos; lra. }
    assert (E4 : (x / 4 = 2 * b * h)%R) by (unfold h; field; lra). rewrite E4. apply Rsqr_incr_0_var; [unfold Rsqr; lra|]. apply Rmult_le_pos; lra. }
  apply HM; [exact LZ|]. intros z Hz. destruct (In_nth zs z (RtoC 0) Hz) as (c & Hc & Ec).
  pose proof (aml_gap A B1 Rm Rm' P0 P' m k1 s p c HX eq_refl ltac:(lra) HF OP1 eq_refl ltac:(cbn [A B1 ula_matrix nc]; fold k k1; lia) ltac:(lia) HH' R1' Hc) as AG. fold dist S1m in AG.
  pose proof (resid_ula m zs' P' z OP' ltac:(rewrite LZ; fold k; lia) U) as RU. rewrite LZ in RU. fold k in RU.
  assert (ER : resid B1 P' (col A c) = resid (ula_matrix m zs') P' (fun i => cpow z i)).
  { unfold resid. cbn [B1 ula_matrix nr]. unfold vnorm2. apply rsum_ext. intros i Hi. f_equal. apply mvec_ext. intros j Hj. unfold col. cbn [A ula_matrix ent]. now rewrite Ec. }
  rewrite ER in AG. set (r := resid (ula_matrix m zs') P' _) in *. assert (RL : (p * r < x)%R) by lra. unfold x in RL. apply Rmult_lt_reg_l in RL; [|exact Pp].
  eapply Rle_lt_trans; [exact RU|]. apply Rmult_lt_compat_l with (r := (4 ^ k)%R) in RL; [|exact F4]. replace (4 ^ k * (tau / 4 ^ k))%R with tau in RL by (field; lra). exact RL.
Qed.
