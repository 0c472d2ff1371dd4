(** C87: the source counts are right on the eigenvalues of an exact covariance matrix.
    In the statements: x lists the M eigenvalues, the M-K first ones being equal to the noise power s and the others larger. *)
From Verif Require Import Base_Np Base_Mem Base_Lin Base_Trig M_utils P_utils M_coarray M_core M_srcnum S_srcnum P_srcnum Prop_srcnum S_subspace P_subspace.
Open Scope R_scope.

Definition noise_and_signal (x : list R) (K : nat) (s : R) : Prop :=
  0 < s /\ (K < List.length x)%nat /\ (forall i, (i < List.length x - K)%nat -> nth i x 0 = s) /\ (forall i, (List.length x - K <= i < List.length x)%nat -> s < nth i x 0).

Section NS.
  Variables (x : list R) (K : nat) (s : R).
  Hypothesis H : noise_and_signal x K s.
  Let M := List.length x.
  Lemma ns_pos : Forall (Rlt 0) x.
  Proof.
    destruct H as (Hs & HK & H1 & H2). apply Forall_forall. intros y Hy. destruct (In_nth x y 0 Hy) as (i & Hi & <-).
    destruct (Nat.lt_ge_cases i (List.length x - K)); [rewrite H1 by assumption; exact Hs | specialize (H2 i ltac:(lia)); lra].
  Qed.
  Lemma ns_zero : log_am_gm x K = 0.
  Proof. destruct H as (Hs & HK & H1 & H2). apply (am_gm_zero x K ns_pos HK). intros i j Hi Hj. rewrite !H1 by assumption. reflexivity. Qed.
  Lemma ns_positive i : (i < K)%nat -> 0 < log_am_gm x i.
  Proof.
    intros Hi. destruct H as (Hs & HK & H1 & H2). destruct (am_gm_nonneg x i ns_pos ltac:(lia)) as [P|Z]; [exact P|]. exfalso.
    pose proof (proj1 (am_gm_zero x i ns_pos ltac:(lia)) (eq_sym Z) 0%nat (M - i - 1)%nat) as Q. unfold M in Q. rewrite H1 in Q by lia. specialize (H2 (List.length x - i - 1)%nat ltac:(lia)). specialize (Q ltac:(lia) ltac:(lia)). lra.
  Qed.
  Lemma ns_gap : exists d, 0 < d /\ forall i, (i < K)%nat -> d <= log_am_gm x i.
  Proof.
    assert (G : forall n, (n <= K)%nat -> exists d, 0 < d /\ forall i, (i < n)%nat -> d <= log_am_gm x i).
    { induction n as [|n IH]; intros Hn; [exists 1; split; [lra | intros i Hi; lia]|]. destruct IH as (d & Hd & Hd'); [lia|]. pose proof (ns_positive n ltac:(lia)).
      exists (Rmin d (log_am_gm x n)). split; [apply Rmin_glb_lt; assumption|]. intros i Hi. destruct (Nat.eq_dec i n) as [->|]; [apply Rmin_r|]. apply Rle_trans with d; [apply Rmin_l | apply Hd'; lia]. }
    exact (G K (le_n K)).
  Qed.
End NS.
Lemma ln_sqrt_bound N : 0 < N -> ln N <= 2 * sqrt N.
Proof.
  intros HN. assert (S : 0 < sqrt N) by (apply sqrt_lt_R0; exact HN). replace (ln N) with (2 * ln (sqrt N)).
  - pose proof (ln_le_sub (sqrt N) S). lra.
  - rewrite <- (sqrt_sqrt N) at 2 by lra. rewrite ln_mult by assumption. ring.
Qed.

(** AIC and MDL: with enough snapshots the number of sources is found, neither more nor less *)
Theorem C87_aic_mdl : forall eigvalsh x K s, noise_and_signal x K s ->
  exists N0, forall N, N0 <= N -> aic eigvalsh (EVec x) N = Ok K /\ mdl eigvalsh (EVec x) N = Ok K.
Proof.
  intros eig x K s HN. pose proof (ns_pos x K s HN) as HP. pose proof (ns_zero x K s HN) as Z0. destruct (ns_gap x K s HN) as (d & Hd & Hd'). destruct HN as (Hs & HK & H1 & H2).
  set (M := List.length x) in *. set (pen := INR K * (2 * INR M - INR K)).
  assert (Hpen : 0 <= pen). { unfold pen. apply lt_INR in HK. pose proof (pos_INR K). apply Rmult_le_pos; lra. }
  set (r := (pen + 1) / d). assert (Hr : 0 < r) by (apply Rdiv_lt_0_compat; lra). assert (Er : r * d = pen + 1) by (unfold r; field; lra).
  exists (1 + r + r * r). intros N HNN. assert (HN1 : 1 <= N) by nra. assert (S0 : 0 < sqrt N) by (apply sqrt_lt_R0; lra). pose proof (sqrt_sqrt N ltac:(lra)) as SS.
  assert (HrN : r < N) by nra. assert (HrS : r < sqrt N). { destruct (Rlt_le_dec r (sqrt N)) as [L|L]; [exact L|]. exfalso. assert (sqrt N * sqrt N <= r * r) by (apply Rmult_le_compat; lra). lra. }
  destruct (C53_no_overestimation eig x N K HP HK HN1) as ((p & E & Lp) & (q & E' & Lq)); [intros i j Hi Hj; rewrite !H1 by assumption; reflexivity|].
  destruct (C53_first_minimiser eig x N HP ltac:(lia)) as ((p' & Ep & (P1 & P2 & P3)) & Hm & _). destruct (Hm ltac:(lra)) as (q' & Eq & (Q1 & Q2 & Q3)). clear Hm. rewrite E in Ep. injection Ep as <-. rewrite E' in Eq. injection Eq as <-. rewrite E, E'.
  split; f_equal.
  - destruct (Nat.eq_dec p K) as [->|NE]; [reflexivity|]. exfalso. specialize (P2 K HK). unfold aic_crit in P2. fold M in P2. rewrite Z0 in P2. fold pen in P2. specialize (Hd' p ltac:(lia)).
    assert (0 <= INR p * (2 * INR M - INR p)). { fold M in P1. apply lt_INR in P1. pose proof (pos_INR p). apply Rmult_le_pos; lra. }
    assert (N * d <= N * log_am_gm x p) by (apply Rmult_le_compat_l; lra). assert (r * d < N * d) by (apply Rmult_lt_compat_r; lra). lra.
  - destruct (Nat.eq_dec q K) as [->|NE]; [reflexivity|]. exfalso. specialize (Q2 K HK). unfold mdl_crit in Q2. fold M in Q2. rewrite Z0 in Q2. fold pen in Q2. specialize (Hd' q ltac:(lia)).
    assert (L0 : 0 <= ln N). { destruct HN1 as [HN1|<-]; [left; rewrite <- ln_1; apply ln_increasing; lra | rewrite ln_1; lra]. }
    assert (0 <= / 2 * (INR q * (2 * INR M - INR q) + 1) * ln N). { apply Rmult_le_pos; [|exact L0]. fold M in Q1. apply lt_INR in Q1. pose proof (pos_INR q). assert (0 <= INR q * (2 * INR M - INR q)) by (apply Rmult_le_pos; lra). lra. }
    assert (N * d <= N * log_am_gm x q) by (apply Rmult_le_compat_l; lra). pose proof (ln_sqrt_bound N ltac:(lra)) as LB.
    assert (/ 2 * (pen + 1) * ln N <= / 2 * (pen + 1) * (2 * sqrt N)) by (apply Rmult_le_compat_l; lra).
    assert (sqrt N * (r * d) < sqrt N * (sqrt N * d)) by (apply Rmult_lt_compat_l; [exact S0 | apply Rmult_lt_compat_r; lra]). rewrite Er in *. replace (sqrt N * (sqrt N * d)) with (N * d) in * by (rewrite <- SS at 1; ring). lra.
Qed.

(** SORTE: the number of sources is found for any number of snapshots, provided that the smallest signal eigenvalue stands out by more than an absolute threshold *)
Lemma gap_zero x K s j : noise_and_signal x K s -> (K <= j)%nat -> (j + 1 < List.length x)%nat -> gap x j = 0.
Proof. intros (_ & HK & H1 & _) H2 H3. unfold gap. rewrite !H1 by lia. ring. Qed.
Lemma gap_pos x K s : noise_and_signal x K s -> (1 <= K)%nat -> gap x (K - 1) = nth (List.length x - K) x 0 - s /\ 0 < gap x (K - 1).
Proof.
  intros (_ & HK & H1 & H2) HK1. unfold gap. replace (List.length x - 1 - (K - 1))%nat with (List.length x - K)%nat by lia. rewrite (H1 (List.length x - 2 - (K - 1))%nat) by lia.
  split; [reflexivity|]. specialize (H2 (List.length x - K)%nat ltac:(lia)). lra.
Qed.
Theorem C87_sorte : forall eigvalsh x K s, noise_and_signal x K s -> (4 <= List.length x)%nat -> (1 <= K <= List.length x - 3)%nat ->
  let d := INR (List.length x - K) in let g := nth (List.length x - K) x 0 - s in
  float_eps <= g * g * (d - 1) / (d * d) -> sorte eigvalsh (EVec x) = Ok K.
Proof.
  intros eig x K s HN HL HK d g Heps. destruct (proj2 (C54_first_minimiser eig x) HL) as (p & E & (P1 & P2 & P3)). rewrite E. f_equal. set (M := List.length x) in *.
  assert (EPS : 0 < float_eps) by (apply Rinv_0_lt_compat, pow_lt; lra).
  destruct (gap_pos x K s HN ltac:(lia)) as (GE & GP). fold M in GE. fold g in GE.
  assert (V0 : gap_var x K = 0).
  { unfold gap_var. assert (Q : gap_mean x K = 0) by (unfold gap_mean; rewrite rsum_0; [unfold Rdiv; ring|]; intros j Hj; apply (gap_zero x K s); [exact HN | lia | fold M; fold M in Hj; lia]).
    rewrite Q. rewrite rsum_0; [unfold Rdiv; ring|]. intros j Hj. rewrite (gap_zero x K s) by (try exact HN; fold M in Hj; fold M; lia). ring. }
  assert (D2 : 2 <= d) by (unfold d; change 2 with (INR 2); apply le_INR; lia).
  assert (V1 : gap_var x (K - 1) = g * g * (d - 1) / (d * d)).
  { unfold gap_var. fold M. replace (M - 1 - (K - 1))%nat with (S (M - K - 1)) by lia. assert (Dn : INR (S (M - K - 1)) = d) by (unfold d; f_equal; lia).
    assert (Q : gap_mean x (K - 1) = g / d).
    { unfold gap_mean. fold M. replace (M - 1 - (K - 1))%nat with (S (M - K - 1)) by lia. rewrite Dn. f_equal. rewrite rsum_S_l, Nat.add_0_r, GE. rewrite rsum_0; [ring|]. intros j Hj. apply (gap_zero x K s); [exact HN | lia | fold M; lia]. }
    rewrite Q, Dn, rsum_S_l, Nat.add_0_r, GE. rewrite (rsum_ext _ _ (fun _ => g / d * (g / d))).
    2:{ intros j Hj. rewrite (gap_zero x K s) by (try exact HN; fold M; lia). ring. }
    rewrite rsum_const. replace (INR (M - K - 1)) with (d - 1) by (rewrite <- Dn, S_INR; ring). field. lra. }
  assert (R1 : sorte_ratio float_eps x (K - 1) = Some 0).
  { unfold sorte_ratio. destruct (Rlt_dec (gap_var x (K - 1)) float_eps) as [L|L]; [lra|]. replace (K - 1 + 1)%nat with K by lia. rewrite V0. f_equal. unfold Rdiv. ring. }
  assert (VP : forall i, (i < K)%nat -> 0 < gap_var x i).
  { intros i Hi. unfold gap_var. set (dd := (List.length x - 1 - i)%nat). assert (DP : 0 < INR dd) by (apply lt_0_INR; unfold dd; fold M; lia). apply Rdiv_lt_0_compat; [|exact DP].
    destruct (rsum_nonneg dd (fun j => (gap x (i + j) - gap_mean x i) * (gap x (i + j) - gap_mean x i)) ltac:(intros; apply Rle_0_sqr)) as [Z|Z]; [exact Z|]. exfalso.
    pose proof (rsum_nonneg_0 dd (fun j => (gap x (i + j) - gap_mean x i) * (gap x (i + j) - gap_mean x i)) ltac:(intros; apply Rle_0_sqr) (eq_sym Z)) as A. cbn beta in A.
    pose proof (A (K - 1 - i)%nat ltac:(unfold dd; fold M; lia)) as A1. pose proof (A (M - 2 - i)%nat ltac:(unfold dd; fold M; lia)) as A2.
    replace (i + (K - 1 - i))%nat with (K - 1)%nat in A1 by lia. replace (i + (M - 2 - i))%nat with (M - 2)%nat in A2 by lia. rewrite (gap_zero x K s (M - 2)%nat HN) in A2 by (fold M; lia). apply Rmult_integral in A1, A2. lra. }
  assert (PK : (p <= K - 1)%nat).
  { destruct (Nat.le_gt_cases p (K - 1)) as [L|L]; [exact L|]. exfalso. specialize (P3 (K - 1)%nat L). rewrite R1 in P3. specialize (P2 (K - 1)%nat ltac:(lia)).
    destruct (sorte_ratio float_eps x p) as [v|] eqn:EV; [|exact P3]. cbn in P3. unfold sorte_ratio in EV. destruct (Rlt_dec (gap_var x p) float_eps) as [L'|L']; [discriminate|]. injection EV as <-.
    assert (0 <= gap_var x (p + 1) / gap_var x p); [|lra]. apply Rmult_le_pos; [|left; apply Rinv_0_lt_compat; lra]. unfold gap_var. apply Rmult_le_pos; [apply rsum_nonneg; intros; apply Rle_0_sqr|]. left. apply Rinv_0_lt_compat, lt_0_INR. fold M. lia. }
  assert (KP : (K - 1 <= p)%nat).
  { destruct (Nat.le_gt_cases (K - 1) p) as [L|L]; [exact L|]. exfalso. specialize (P2 (K - 1)%nat ltac:(lia)). rewrite R1 in P2. destruct (sorte_ratio float_eps x p) as [v|] eqn:EV; [|exact P2]. cbn in P2.
    unfold sorte_ratio in EV. destruct (Rlt_dec (gap_var x p) float_eps) as [L'|L']; [discriminate|]. injection EV as <-. assert (0 < gap_var x (p + 1) / gap_var x p) by (apply Rdiv_lt_0_compat; apply VP; lia). lra. }
  lia.
Qed.

(** the eigenvalues of an exact covariance matrix are of this form; K sources with any (positive definite) covariance, at directions with independent steering vectors *)
Theorem C87_exact_covariance : forall eigvalsh Rm A P s w E, exact_cov Rm A P s -> inj A -> pd P -> 0 < s -> (nc A < nr A)%nat -> eigvalsh Rm = Ok w -> eigh_ok Rm w E ->
  noise_and_signal w (nc A) s /\ (exists N0, forall N, N0 <= N -> aic eigvalsh (EMat Rm) N = Ok (nc A) /\ mdl eigvalsh (EMat Rm) N = Ok (nc A)) /\
  ((1 <= nc A)%nat -> (nc A + 3 <= nr A)%nat -> let d := INR (nr A - nc A) in let g := nth (nr A - nc A) w 0 - s in float_eps <= g * g * (d - 1) / (d * d) -> sorte eigvalsh (EMat Rm) = Ok (nc A)).
Proof.
  intros eig Rm A P s w E HX HA HP Hs HK Hw HE.
  assert (LW : List.length w = nr A) by (destruct (ex_dims Rm A P s HX) as (D1 & _); rewrite <- D1; apply HE).
  assert (NS : noise_and_signal w (nc A) s).
  { split; [exact Hs|]. split; [lia|]. rewrite LW. split; [exact (ex_noise_level Rm A P s w E HX HP HE) | exact (ex_signal_level Rm A P s w E HX HA HP HE)]. }
  split; [exact NS|]. split.
  - destruct (C87_aic_mdl eig w (nc A) s NS) as (N0 & H). exists N0. intros N HN. destruct (C53_matrix_argument eig Rm w N Hw) as (-> & ->). exact (H N HN).
  - intros H1 H3 d g Hg. rewrite (C54_matrix_argument eig Rm w Hw). apply (C87_sorte eig w (nc A) s NS); rewrite LW; [lia | lia | exact Hg].
Qed.
Example C87_aic_mdl_example : noise_and_signal [1; 1; 1; 1; 3; 4] 2 1.
Proof.
  split; [lra|]. split; [cbn; lia|]. split.
  - intros i Hi. cbn in Hi. do 4 (destruct i as [|i]; [reflexivity|]). lia.
  - intros i Hi. cbn in Hi. do 4 (destruct i as [|i]; [lia|]). do 2 (destruct i as [|i]; [cbn; lra|]). lia.
Qed.
Example C87_sorte_example : forall eig, sorte eig (EVec [1; 1; 1; 1; 3; 4]) = Ok 2%nat.
Proof.
  intros eig. apply (C87_sorte eig _ 2 1 C87_aic_mdl_example); [cbn; lia | cbn; lia|]. cbn. assert (float_eps <= 1 / 16).
  { unfold float_eps. replace (1 / 16) with (/ 2 ^ 4) by (cbn; lra). apply Rinv_le_contravar; [apply pow_lt; lra|]. apply Rle_pow; [lra | lia]. }
  lra.
Qed.
Print Assumptions C87_aic_mdl.
Print Assumptions C87_sorte.
Print Assumptions C87_exact_covariance.
