(** The criteria do not undercount: with eigenvalues close enough to the exact ones and enough snapshots both count at least K sources. *)
From Coq Require Import Lra Lia.
From Verif Require Import Base_Np Base_Mem Base_Lin Base_Trig M_utils P_utils M_coarray M_core M_srcnum S_srcnum P_srcnum Prop_srcnum S_subspace P_subspace Prop_srcnum2.
From Verif Require P_spectral.
Open Scope R_scope.
From Verif Require Import P_detect.

Lemma never_fewer x K s : noise_and_signal x K s ->
  exists e0 N0, 0 < e0 /\ 1 <= N0 /\ forall y N, List.length y = List.length x -> (forall j, (j < List.length x)%nat -> Rabs (nth j x 0 - nth j y 0) <= e0) -> N0 <= N ->
    (exists q, criterion aic_penalty y N = Ok q /\ (K <= q < List.length x)%nat) /\ (exists q, criterion (mdl_penalty N) y N = Ok q /\ (K <= q < List.length x)%nat).
Proof.
  intros H. pose proof (ns_floor x K s H) as FL. destruct (ns_gap x K s H) as (d & Hd & HG). pose proof (ns_pos x K s H) as HP. destruct H as (Hs & HK & H1 & H2). set (M := List.length x) in *.
  assert (M1 : 1 <= INR M) by (change 1 with (INR 1); apply le_INR; lia). set (pen := INR K * (2 * INR M - INR K)).
  assert (Hpen : 0 <= pen). { unfold pen. apply lt_INR in HK. pose proof (pos_INR K). apply Rmult_le_pos; lra. }
  set (e0 := Rmin (s / 2) (s * d / (12 * INR M))). assert (He0 : 0 < e0) by (apply Rmin_glb_lt; [lra|]; apply Rdiv_lt_0_compat; [now apply Rmult_lt_0_compat | lra]).
  set (r2 := 4 * (pen + 2) / d). assert (R2 : 0 < r2) by (apply Rdiv_lt_0_compat; lra).
  exists e0, (3 + r2 * r2). split; [exact He0|]. pose proof (Rle_0_sqr r2) as Q2. unfold Rsqr in Q2. split; [lra|].
  intros y N HL HC HN. assert (N3 : 3 <= N) by lra.
  assert (L1 : 1 <= ln N). { rewrite <- (ln_exp 1). pose proof exp_le_3 as E3. destruct (Rle_lt_or_eq_dec (exp 1) N ltac:(lra)) as [L|<-]; [left; apply ln_increasing; [apply exp_pos | exact L] | apply Rle_refl]. }
  assert (S0 : 0 < sqrt N) by (apply sqrt_lt_R0; lra). pose proof (sqrt_sqrt N ltac:(lra)) as SS. pose proof (ln_sqrt_bound N ltac:(lra)) as LB.
  assert (S2 : r2 <= sqrt N). { destruct (Rle_lt_dec r2 (sqrt N)) as [L|L]; [exact L|]. exfalso. assert (sqrt N * sqrt N < r2 * r2) by (apply Rmult_le_0_lt_compat; lra). lra. }
  assert (Es1 : e0 <= s / 2) by apply Rmin_l. assert (Es2 : e0 <= s * d / (12 * INR M)) by apply Rmin_r.
  pose proof (dt_y_pos x y e0 s HL Hs FL (conj (Rlt_le _ _ He0) Es1) HC) as HY.
  assert (CL : forall q, (q < M)%nat -> Rabs (log_am_gm y q - log_am_gm x q) <= d / 4).
  { intros q Hq. eapply Rle_trans; [exact (dt_close x y e0 s HL Hs FL (conj (Rlt_le _ _ He0) Es1) HC q Hq)|].
    apply Rle_trans with (3 * (s * d / (12 * INR M) / s) * INR M); [|right; field; lra].
    apply Rmult_le_compat; [|apply pos_INR | apply Rmult_le_compat_l; [lra|]; apply Rmult_le_compat_r; [left; now apply Rinv_0_lt_compat | exact Es2] | apply le_INR; fold M; lia].
    apply Rmult_le_pos; [lra|]. apply Rmult_le_pos; [lra | left; now apply Rinv_0_lt_compat]. }
  assert (XK : log_am_gm x K <= 0).
  { eapply Rle_trans; [apply (noise_am_gm x K s 0); try assumption; try lra|].
    - intros j Hj. fold M in Hj. rewrite H1 by exact Hj. rewrite Rminus_eq_0, Rabs_R0. apply Rle_refl.
    - right. unfold Rdiv. ring. }
  assert (G : forall pe, (forall i, (i < M)%nat -> 0 <= pe M i) -> pe M K <= (pen + 1) * (2 * sqrt N) -> exists q, criterion pe y N = Ok q /\ (K <= q < M)%nat).
  { intros pe P2 P3. destruct (criterion_spec pe y N HY ltac:(rewrite HL; fold M; lia)) as (q & E & (A1 & A2 & A3)). rewrite HL in A1, A2, A3. fold M in A1, A2, A3. exists q. split; [exact E|]. split; [|exact A1].
    destruct (Nat.le_gt_cases K q) as [L|Lq]; [exact L | exfalso]. specialize (A2 K HK).
    pose proof (Rle_trans _ _ _ (Rle_abs _) (CL K HK)) as C1. pose proof (CL q A1) as C2. rewrite Rabs_minus_sym in C2. pose proof (Rle_trans _ _ _ (Rle_abs _) C2) as C3. specialize (HG q Lq).
    assert (LQ : 3 * (d / 4) <= log_am_gm y q) by lra. assert (LK : log_am_gm y K <= d / 4) by lra.
    assert (N1 : N * (3 * (d / 4)) <= N * log_am_gm y q) by (apply Rmult_le_compat_l; lra). assert (N2 : N * log_am_gm y K <= N * (d / 4)) by (apply Rmult_le_compat_l; lra). specialize (P2 q A1).
    assert (X : r2 * d = 4 * (pen + 2)) by (unfold r2; field; lra). assert (Y : r2 * d <= sqrt N * d) by (apply Rmult_le_compat_r; lra).
    assert (W : sqrt N * (4 * (pen + 2)) <= sqrt N * (sqrt N * d)) by (apply Rmult_le_compat_l; lra). replace (sqrt N * (sqrt N * d)) with (N * d) in W by (rewrite <- SS at 1; ring). lra. }
  assert (NN : forall i, (i < M)%nat -> 0 <= INR i * (2 * INR M - INR i)) by (intros i Hi; apply lt_INR in Hi; pose proof (pos_INR i); apply Rmult_le_pos; lra).
  assert (SQ1 : 1 <= sqrt N) by (rewrite <- sqrt_1; apply sqrt_le_1; lra). assert (PQ : (pen + 1) * 1 <= (pen + 1) * sqrt N) by (apply Rmult_le_compat_l; lra). split.
  - apply G; [intros i Hi; unfold aic_penalty; now apply NN|]. unfold aic_penalty. fold pen. lra.
  - apply G; [intros i Hi; unfold mdl_penalty; specialize (NN i Hi); apply Rmult_le_pos; lra|]. unfold mdl_penalty. fold pen. assert ((pen + 1) * ln N <= (pen + 1) * (2 * sqrt N)) by (apply Rmult_le_compat_l; lra). assert (0 <= (pen + 1) * ln N) by (apply Rmult_le_pos; lra). lra.
Qed.
