(** The concentrated covariance matrix of the AML objective: bounds, continuity, and what it means for it to be near the true covariance matrix. *)
From Coq Require Import Lra.
From Verif Require Import Base_Np Base_Lin M_utils M_core M_ml S_utils S_model S_subspace S_stable S_ml P_utils P_subspace P_subspace3 P_spectral P_perf3 P_perf5 P_ml3 P_ml4 P_ml5 P_ml6 P_ml7 P_ml9 P_stable P_invar P_mlc P_mlc3 P_pipeline.
Open Scope C_scope.

Section Proj.
  Variables (B P : cmat) (m : nat).
  Hypothesis OP : orth_projector_onto B P.
  Hypothesis HB : nr B = m.
  Let Q := mid m -m P.
  Lemma q_self x : RtoC (vnorm2 m (mvec Q x)) = vdot m x (mvec Q x).
  Proof.
    unfold Q. clear Q. subst m. set (m := nr B). set (Q := mid m -m P).
    rewrite <- Cconj_RtoC, <- vdot_self, <- (vdot_conj m (mvec Q x) x). f_equal. change (vdot (nr Q) (mvec Q x) (mvec Q x) = vdot m (mvec Q x) x). rewrite vdot_mvec_her. change (nc Q) with m. apply P_spectral.vdot_ext; [|reflexivity].
    intros i Hi. etransitivity; [exact (mvec_eq _ Q _ i (q_herm B P OP) Hi)|]. rewrite <- mvec_mmul. apply (mvec_eq _ Q x i (q_idem B P OP)). exact Hi.
  Qed.
  Lemma q_mv x i : (i < m)%nat -> mvec Q x i = x i - mvec P x i.
  Proof. unfold Q. rewrite <- HB. apply (q_mvec B P OP). Qed.
  Lemma pyth x : vnorm2 m x = (vnorm2 m (mvec P x) + vnorm2 m (mvec Q x))%R.
  Proof.
    assert (E1 : vnorm2 m x = vnorm2 m (fun i => mvec P x i + mvec Q x i)) by (unfold vnorm2; apply rsum_ext; intros i Hi; f_equal; rewrite q_mv by exact Hi; ring).
    rewrite E1, vnorm2_add. assert (Z : vdot m (mvec P x) (mvec Q x) = RtoC 0); [|rewrite Z; cbn; ring].
    transitivity (vdot m x (mvec Q x) - vdot m (mvec Q x) (mvec Q x)).
    - unfold vdot. rewrite <- csum_minus. apply csum_ext. intros i Hi. rewrite q_mv by exact Hi. rewrite <- Cminus_conj || idtac. assert (X : Cconj (x i - mvec P x i) = Cconj (x i) - Cconj (mvec P x i)) by (unfold Cminus; now rewrite Cplus_conj, Copp_conj). rewrite X. ring.
    - rewrite vdot_self, q_self. ring.
  Qed.
  Definition noise_est (Rm : cmat) (k : nat) : R := (Re (mtrace (Q *m Rm)) / INR (m - k))%R.
  Lemma conc_q Rm k x : hermitian Rm -> nr Rm = m -> (k < m)%nat -> Re (qform (concentrated P Rm m k) x) = (Re (qform Rm (mvec P x)) + noise_est Rm k * vnorm2 m (mvec Q x))%R.
  Proof. intros HR R1 Hk. rewrite (conc_eq B P Rm m k OP HB HR R1 Hk), (conc_qform B P Rm m k OP HB HR R1). rewrite Re_plus. f_equal. rewrite <- RtoC_mult. reflexivity. Qed.
  Lemma conc_h Rm k : hermitian Rm -> nr Rm = m -> (k < m)%nat -> hermitian (concentrated P Rm m k) /\ nr (concentrated P Rm m k) = m.
  Proof. intros HR R1 Hk. rewrite (conc_eq B P Rm m k OP HB HR R1 Hk). split; [exact (conc_herm B P Rm m k OP HB HR R1)|]. apply (conc_dims B P Rm m k OP HB). Qed.
  Lemma noise_upper Rm k b : hermitian Rm -> nr Rm = m -> (k < m)%nat -> (0 <= b)%R -> (forall x, (Re (qform Rm x) <= b * vnorm2 m x)%R) -> (noise_est Rm k <= INR m * b)%R.
  Proof.
    intros HR R1 Hk Hb HU. assert (R2 : nc Rm = m) by (rewrite <- R1; symmetry; apply HR). unfold noise_est.
    assert (T : (Re (mtrace (Q *m Rm)) <= INR m * b)%R).
    { pose proof (trace_cols B P OP Rm ltac:(congruence) ltac:(congruence)) as TC. rewrite HB in TC. fold Q in TC. rewrite TC, csum_Re, <- rsum_const. apply rsum_le. intros l Hl. eapply Rle_trans; [apply HU|].
      pose proof (col_q_norm B P OP l ltac:(lia)) as CN. rewrite HB in CN. fold Q in CN. pose proof (vnorm2_nonneg m (col Q l)). nra. }
    assert (I1 : (1 <= INR (m - k))%R) by (change 1%R with (INR 1); apply le_INR; lia). assert (0 <= INR m * b)%R by (apply Rmult_le_pos; [apply pos_INR|exact Hb]).
    apply Rmult_le_reg_r with (INR (m - k)); [lra|]. replace (Re (mtrace (Q *m Rm)) / INR (m - k) * INR (m - k))%R with (Re (mtrace (Q *m Rm))) by (field; lra). nra.
  Qed.
  Lemma conc_upper Rm k b x : hermitian Rm -> nr Rm = m -> (k < m)%nat -> (0 <= b)%R -> (forall x, (Re (qform Rm x) <= b * vnorm2 m x)%R) -> (Re (qform (concentrated P Rm m k) x) <= INR m * b * vnorm2 m x)%R.
  Proof.
    intros HR R1 Hk Hb HU. rewrite conc_q by assumption. rewrite (pyth x). pose proof (noise_upper Rm k b HR R1 Hk Hb HU) as NU. pose proof (HU (mvec P x)) as U1. pose proof (vnorm2_nonneg m (mvec P x)). pose proof (vnorm2_nonneg m (mvec Q x)).
    assert (I1 : (1 <= INR m)%R) by (change 1%R with (INR 1); apply le_INR; lia). assert (B1 : (b <= INR m * b)%R) by nra.
    apply (Rmult_le_compat_r (vnorm2 m (mvec P x))) in B1; [|assumption]. apply (Rmult_le_compat_r (vnorm2 m (mvec Q x))) in NU; [|assumption]. lra.
  Qed.
  Lemma noise_near Rm Rm' k : hermitian Rm -> nr Rm = m -> hermitian Rm' -> nr Rm' = m -> (k < m)%nat -> (Rabs (noise_est Rm k - noise_est Rm' k) <= INR m * distance Rm Rm')%R.
  Proof.
    intros HR R1 HR' R1' Hk. assert (R2 : nc Rm = m) by (rewrite <- R1; symmetry; apply HR). assert (R2' : nc Rm' = m) by (rewrite <- R1'; symmetry; apply HR').
    pose proof (trace_close B P OP Rm Rm' ltac:(congruence) ltac:(congruence) ltac:(congruence) ltac:(congruence)) as TC. rewrite HB in TC. fold Q in TC. unfold noise_est.
    assert (I1 : (1 <= INR (m - k))%R) by (change 1%R with (INR 1); apply le_INR; lia). assert (D0 : (0 <= INR m * distance Rm Rm')%R) by (apply Rmult_le_pos; [apply pos_INR|apply distance_nonneg]).
    replace (Re (mtrace (Q *m Rm)) / INR (m - k) - Re (mtrace (Q *m Rm')) / INR (m - k))%R with ((Re (mtrace (Q *m Rm)) - Re (mtrace (Q *m Rm'))) * / INR (m - k))%R by (field; lra).
    rewrite Rabs_mult, (Rabs_pos_eq (/ _)) by (left; apply Rinv_0_lt_compat; lra). apply Rmult_le_reg_r with (INR (m - k)); [lra|]. rewrite Rmult_assoc, Rinv_l, Rmult_1_r by lra. nra.
  Qed.
  Lemma conc_near Rm Rm' k x : hermitian Rm -> nr Rm = m -> hermitian Rm' -> nr Rm' = m -> (k < m)%nat ->
    (Re (qform (concentrated P Rm m k) x) <= Re (qform (concentrated P Rm' m k) x) + INR m * distance Rm Rm' * vnorm2 m x)%R.
  Proof.
    intros HR R1 HR' R1' Hk. assert (R2 : nc Rm = m) by (rewrite <- R1; symmetry; apply HR). assert (R2' : nc Rm' = m) by (rewrite <- R1'; symmetry; apply HR').
    rewrite !conc_q by assumption. rewrite (pyth x). pose proof (noise_near Rm Rm' k HR R1 HR' R1' Hk) as NN. apply Rcomplements.Rabs_le_between in NN.
    pose proof (qform_close Rm Rm' (mvec P x) ltac:(congruence) ltac:(congruence) ltac:(congruence)) as QC. rewrite R1 in QC. apply Rcomplements.Rabs_le_between in QC.
    pose proof (vnorm2_nonneg m (mvec P x)). pose proof (vnorm2_nonneg m (mvec Q x)). pose proof (distance_nonneg Rm Rm').
    assert (I1 : (1 <= INR m)%R) by (change 1%R with (INR 1); apply le_INR; lia). assert (B1 : (distance Rm Rm' <= INR m * distance Rm Rm')%R) by nra.
    apply (Rmult_le_compat_r (vnorm2 m (mvec P x))) in B1; [|assumption]. assert (N2 : (noise_est Rm k <= noise_est Rm' k + INR m * distance Rm Rm')%R) by lra. apply (Rmult_le_compat_r (vnorm2 m (mvec Q x))) in N2; [|assumption]. lra.
  Qed.
  Lemma conc_mono Rm k k' x : psd Rm -> nr Rm = m -> (k' <= k < m)%nat -> (Re (qform (concentrated P Rm m k') x) <= Re (qform (concentrated P Rm m k) x))%R.
  Proof.
    intros HR R1 Hk. rewrite !conc_q by (try apply HR; try lia; assumption). apply Rplus_le_compat_l, Rmult_le_compat_r; [apply vnorm2_nonneg|].
    destruct (resid_nonneg B P OP Rm HR ltac:(congruence)) as (G0 & _). rewrite HB in G0. fold Q in G0. unfold noise_est, Rdiv. apply Rmult_le_compat_l; [exact G0|]. apply Rinv_le_contravar; [apply lt_0_INR; lia|apply le_INR; lia].
  Qed.
  Lemma conc_on_q Rm k v : hermitian Rm -> nr Rm = m -> (k < m)%nat -> (forall i, (i < m)%nat -> mvec Q v i = v i) -> Re (qform (concentrated P Rm m k) v) = (noise_est Rm k * vnorm2 m v)%R.
  Proof.
    intros HR R1 Hk HV. rewrite conc_q by assumption. assert (Z : forall i, (i < m)%nat -> mvec P v i = RtoC 0) by (intros i Hi; pose proof (q_mv v i Hi) as X; rewrite HV in X by exact Hi; transitivity (v i - (v i - mvec P v i)); [ring|rewrite <- X; ring]).
    assert (E1 : vnorm2 m (mvec Q v) = vnorm2 m v) by (unfold vnorm2; apply rsum_ext; intros i Hi; now rewrite HV). rewrite E1.
    assert (E2 : qform Rm (mvec P v) = RtoC 0). { unfold qform. apply csum_0. intros i Hi. apply csum_0. intros j Hj. rewrite Z by congruence. rewrite Cconj_0. ring. }
    rewrite E2. cbn. ring.
  Qed.
  (** orthogonal to every column of B *)
  Lemma orth_q v : (forall c, (c < nc B)%nat -> vdot m (col B c) v = RtoC 0) -> forall i, (i < m)%nat -> mvec Q v i = v i.
  Proof.
    intros HV i Hi. rewrite q_mv by exact Hi. destruct (op_range _ _ OP) as (X & X1 & X2 & EX). assert (PH : P ==m mher X *m mher B).
    { etransitivity; [symmetry; apply (op_herm _ _ OP)|]. etransitivity; [|apply mher_mmul; congruence]. destruct EX as (E1 & E2 & E3). split; [exact E2|]. split; [exact E1|]. intros p q Hp Hq. cbn [mher ent nr nc] in *. rewrite E3 by assumption. reflexivity. }
    assert (Z : mvec P v i = RtoC 0); [|rewrite Z; ring]. rewrite (mvec_eq _ _ v i PH) by (pose proof (op_shape _ _ OP); lia). rewrite mvec_mmul. unfold mvec at 1. apply csum_0. intros c Hc. cbn [mher nc] in Hc. rewrite X1 in Hc.
    assert (Z : mvec (mher B) v c = RtoC 0); [|rewrite Z; ring]. rewrite <- (HV c Hc). unfold mvec, vdot, col. cbn [mher nc ent]. now rewrite HB.
  Qed.
End Proj.

(** If the concentrated covariance of a candidate is near the true covariance matrix, and the candidate has fewer than m - k columns, then the true steering vectors are near the span of the candidate's *)
Lemma aml_gap A B (Rm Rm' P0 P' : cmat) m k s p c : exact_cov Rm A P0 s -> nr A = m -> (0 <= p)%R -> (forall x, (p * vnorm2 (nr P0) x <= Re (qform P0 x))%R) ->
  orth_projector_onto B P' -> nr B = m -> (nc A + nc B < m)%nat -> (k < m)%nat -> hermitian Rm' -> nr Rm' = m -> (c < nc A)%nat ->
  (p * resid B P' (col A c) <= 2 * (distance Rm Rm' + distance Rm' (concentrated P' Rm' m k)))%R.
Proof.
  intros HX A1 Hp HF OP B1 Hlt Hk HR' R1' Hc. set (Sm := concentrated P' Rm' m k). destruct (conc_h B P' m OP B1 Rm' k HR' R1' Hk) as (SH & S1). fold Sm in SH, S1. pose proof HX as (X1 & X2 & ER). destruct (ex_dims Rm A P0 s HX) as (D1 & D2). rewrite A1 in D1, D2.
  assert (S2 : nc Sm = m) by (rewrite <- S1; symmetry; apply SH). set (e := noise_est P' m Rm' k). set (t := (distance Rm Rm' + distance Rm' Sm)%R). assert (R2' : nc Rm' = m) by (rewrite <- R1'; symmetry; apply HR').
  assert (QR : forall v, Re (qform Rm v) = (Re (qform P0 (mvec (mher A) v)) + s * vnorm2 m v)%R).
  { intros v. rewrite (qform_eq _ _ v ER). rewrite qform_madd by (cbn; congruence). rewrite qform_mscal, qform_mid, <- RtoC_mult, Re_plus. rewrite A1. cbn [Re RtoC fst]. f_equal. f_equal.
    assert (EQ : A *m P0 *m mher A ==m mher (mher A) *m P0 *m mher A) by (apply mmul_eq_l, mmul_eq_l; symmetry; apply mher_mher). rewrite (qform_eq _ _ v EQ). apply qform_congr; cbn [mher nr]; congruence. }
  assert (CL : forall v, (forall i, (i < m)%nat -> mvec (mid m -m P') v i = v i) -> (Rabs (Re (qform Rm v) - e * vnorm2 m v) <= t * vnorm2 m v)%R).
  { intros v HV. pose proof (qform_close Rm Rm' v ltac:(congruence) ltac:(congruence) ltac:(congruence)) as Q1. rewrite D1 in Q1. pose proof (qform_close Rm' Sm v ltac:(congruence) ltac:(congruence) ltac:(congruence)) as QC. rewrite R1' in QC. unfold Sm in QC at 1. rewrite (conc_on_q B P' m OP B1 Rm' k v HR' R1' Hk HV) in QC. fold e in QC.
    apply Rcomplements.Rabs_le_between in Q1. apply Rcomplements.Rabs_le_between in QC. apply Rcomplements.Rabs_le_between. unfold t. lra. }
  (* a vector orthogonal to all columns *)
  destruct (kernel_exists (nc A + nc B) m (fun i j => if Nat.ltb i (nc A) then Cconj (ent A j i) else Cconj (ent B j (i - nc A))) Hlt) as (v0 & (j0 & Hj0 & N0) & K0).
  assert (KA : forall i, (i < nc A)%nat -> vdot m (col A i) v0 = RtoC 0) by (intros i Hi; pose proof (K0 i ltac:(lia)) as Y; cbn beta in Y; destruct (Nat.ltb_spec i (nc A)); [exact Y|lia]).
  assert (KB : forall i, (i < nc B)%nat -> vdot m (col B i) v0 = RtoC 0) by (intros i Hi; pose proof (K0 (nc A + i)%nat ltac:(lia)) as Y; cbn beta in Y; destruct (Nat.ltb_spec (nc A + i) (nc A)); [lia|]; replace (nc A + i - nc A)%nat with i in Y by lia; exact Y).
  assert (V0 : (0 < vnorm2 m v0)%R). { unfold vnorm2. apply Rlt_le_trans with (Cnorm2 (v0 j0)); [|apply (rsum_ge m (fun i => Cnorm2 (v0 i)) j0 Hj0); intros; apply Cnorm2_nonneg]. destruct (Rle_lt_or_eq_dec 0 (Cnorm2 (v0 j0)) (Cnorm2_nonneg _)) as [L|L]; [exact L|]. exfalso. apply N0. apply Cnorm2_0. now symmetry. }
  assert (E0 : (s - e <= t /\ e - s <= t)%R).
  { pose proof (CL v0 (orth_q B P' m OP B1 v0 KB)) as C0. rewrite QR in C0. assert (Z : qform P0 (mvec (mher A) v0) = RtoC 0).
    { assert (ZV : forall i, (i < nc A)%nat -> mvec (mher A) v0 i = RtoC 0) by (intros i Hi; rewrite <- (KA i Hi); unfold mvec, vdot, col; cbn [mher nc ent]; now rewrite A1). unfold qform. apply csum_0. intros i Hi. apply csum_0. intros j Hj. rewrite ZV by congruence. rewrite Cconj_0. ring. }
    rewrite Z in C0. cbn [Re RtoC fst] in C0. rewrite Rplus_0_l in C0. replace (s * vnorm2 m v0 - e * vnorm2 m v0)%R with ((s - e) * vnorm2 m v0)%R in C0 by ring. apply Rcomplements.Rabs_le_between in C0. destruct C0 as (C0 & C1).
    split; [apply Rmult_le_reg_r with (vnorm2 m v0); assumption|]. apply Rmult_le_reg_r with (vnorm2 m v0); [exact V0|lra]. }
  set (a := col A c). set (v := mvec (mid m -m P') a). assert (HV : forall i, (i < m)%nat -> mvec (mid m -m P') v i = v i).
  { intros i Hi. unfold v. rewrite <- mvec_mmul. apply mvec_eq; [|cbn; exact Hi]. rewrite <- B1. apply (q_idem B P' OP). }
  pose proof (CL v HV) as C1. rewrite QR in C1. apply Rcomplements.Rabs_le_between in C1. destruct C1 as (_ & C1).
  assert (RV : resid B P' a = vnorm2 m v) by (unfold resid, v; now rewrite B1). rewrite RV. set (r := vnorm2 m v) in *. assert (Rn : (0 <= r)%R) by apply vnorm2_nonneg.
  assert (G : (p * (r * r) <= Re (qform P0 (mvec (mher A) v)))%R).
  { eapply Rle_trans; [|apply HF]. apply Rmult_le_compat_l; [exact Hp|]. rewrite X1. unfold vnorm2 at 1. eapply Rle_trans; [|apply (rsum_ge (nc A) (fun i => Cnorm2 (mvec (mher A) v i)) c Hc (fun j _ => Cnorm2_nonneg _))]. right.
    assert (EV : mvec (mher A) v c = RtoC r). { unfold r, v. rewrite (q_self B P' m OP B1 a). unfold mvec at 1, vdot, a, col. cbn [mher nc ent]. now rewrite A1. } rewrite EV. unfold Cnorm2, RtoC. cbn. ring. }
  destruct (Rle_lt_or_eq_dec 0 r Rn) as [Rp|R0]; [|rewrite <- R0; pose proof (distance_nonneg Rm' Sm); pose proof (distance_nonneg Rm Rm'); lra].
  apply Rmult_le_reg_r with r; [exact Rp|]. assert ((e - s) * r <= t * r)%R by (apply Rmult_le_compat_r; [exact Rn|apply E0]). fold t. nra.
Qed.
