(** Perturbation of the source number criteria (C100): bounds on the log ratios of arithmetic and geometric means and on the gap variances. *)
From Verif Require Import Base_Np Base_Mem Base_Lin Base_Trig M_utils P_utils M_coarray M_core M_srcnum S_srcnum P_srcnum Prop_srcnum S_subspace P_subspace Prop_srcnum2.
From Verif Require P_spectral.
Open Scope R_scope.

Lemma ln_ge_inv t : 0 < t -> 1 - / t <= ln t.
Proof. intros Ht. pose proof (ln_le_sub (/ t) ltac:(now apply Rinv_0_lt_compat)) as L. rewrite ln_Rinv in L by exact Ht. lra. Qed.
Lemma nth_pos (x : list R) j : Forall (Rlt 0) x -> (j < List.length x)%nat -> 0 < nth j x 0.
Proof. intros HP Hj. rewrite Forall_forall in HP. now apply HP, nth_In. Qed.
Lemma rsum_pos d f : (0 < d)%nat -> (forall j, (j < d)%nat -> 0 < f j) -> 0 < rsum d f.
Proof.
  intros Hd H. destruct d as [|d]; [lia|]. cbn. pose proof (rsum_nonneg d f (fun j Hj => Rlt_le _ _ (H j ltac:(lia)))). specialize (H d ltac:(lia)). lra.
Qed.

(** eigenvalues all within eps of s: the log ratio is of second order *)
Lemma noise_am_gm x k s eps : Forall (Rlt 0) x -> (k < List.length x)%nat -> 0 < s -> 0 <= eps -> eps <= s / 2 ->
  (forall j, (j < List.length x - k)%nat -> Rabs (nth j x 0 - s) <= eps) -> log_am_gm x k <= INR (List.length x - k) * (2 * (eps * eps) / (s * s)).
Proof.
  intros HP Hk Hs He1 He2 HX. unfold log_am_gm. set (d := (List.length x - k)%nat) in *. assert (Hd : (0 < d)%nat) by (unfold d; lia). assert (D : 0 < INR d) by now apply lt_0_INR.
  assert (Q : forall j, (j < d)%nat -> 0 < nth j x 0) by (intros j Hj; apply nth_pos; [exact HP | unfold d in Hj; lia]).
  set (S0 := rsum d (fun j => nth j x 0)). assert (SP : 0 < S0) by now apply rsum_pos.
  assert (AP : 0 < S0 / INR d) by now apply Rdiv_lt_0_compat.
  assert (LA : ln (S0 / INR d) <= ln s + (S0 / INR d / s - 1)).
  { replace (S0 / INR d) with (s * (S0 / INR d / s)) at 1 by (field; lra). rewrite ln_mult; [|lra | apply Rdiv_lt_0_compat; lra]. pose proof (ln_le_sub (S0 / INR d / s) ltac:(apply Rdiv_lt_0_compat; lra)). lra. }
  assert (LB : rsum d (fun j => ln s + (1 - s * / nth j x 0)) <= rsum d (fun j => ln (nth j x 0))).
  { apply rsum_le. intros j Hj. specialize (Q j Hj). replace (nth j x 0) with (s * (nth j x 0 / s)) at 2 by (field; lra). rewrite ln_mult; [|lra | apply Rdiv_lt_0_compat; lra].
    pose proof (ln_ge_inv (nth j x 0 / s) ltac:(apply Rdiv_lt_0_compat; lra)) as L. replace (/ (nth j x 0 / s)) with (s * / nth j x 0) in L by (field; lra). lra. }
  assert (LC : rsum d (fun j => (nth j x 0 / s - 1) - (1 - s * / nth j x 0)) <= rsum d (fun _ => 2 * (eps * eps) / (s * s))).
  { apply rsum_le. intros j Hj. specialize (Q j Hj). specialize (HX j Hj). assert (B : s / 2 <= nth j x 0) by (apply Rabs_def2 in HX || idtac; unfold Rabs in HX; destruct (Rcase_abs (nth j x 0 - s)); lra).
    replace (nth j x 0 / s - 1 - (1 - s * / nth j x 0)) with ((nth j x 0 - s) * (nth j x 0 - s) * / (s * nth j x 0)) by (field; lra).
    assert (SQ : (nth j x 0 - s) * (nth j x 0 - s) <= eps * eps). { rewrite <- (Rabs_right ((nth j x 0 - s) * (nth j x 0 - s))) by (apply Rle_ge, Rle_0_sqr). rewrite Rabs_mult. apply Rmult_le_compat; try apply Rabs_pos; exact HX. }
    replace (2 * (eps * eps) / (s * s)) with (eps * eps * / (s * (s / 2))) by (field; lra).
    apply Rmult_le_compat; [apply Rle_0_sqr | left; apply Rinv_0_lt_compat; nra | exact SQ | apply Rinv_le_contravar; [nra | apply Rmult_le_compat_l; lra]]. }
  rewrite rsum_const in LC. rewrite rsum_minus in LC. rewrite rsum_plus, rsum_const in LB. rewrite rsum_minus in LC.
  assert (E : rsum d (fun j => nth j x 0 / s) = INR d * (S0 / INR d / s)). { rewrite (rsum_ext _ _ (fun j => / s * nth j x 0)) by (intros; unfold Rdiv; ring). rewrite rsum_scal. fold S0. field. lra. }
  rewrite E, rsum_const in LC. apply (Rmult_le_compat_l (INR d)) in LA; [|lra]. lra.
Qed.

(** relative errors below r move the log ratio by at most 3 r d *)
Lemma am_gm_close x y k r : Forall (Rlt 0) x -> List.length y = List.length x -> (k < List.length x)%nat -> 0 <= r -> r <= 1 / 2 ->
  (forall j, (j < List.length x - k)%nat -> (1 - r) * nth j x 0 <= nth j y 0 <= (1 + r) * nth j x 0) ->
  Rabs (log_am_gm y k - log_am_gm x k) <= 3 * r * INR (List.length x - k).
Proof.
  intros HP HL Hk Hr1 Hr2 HY. unfold log_am_gm. rewrite HL. set (d := (List.length x - k)%nat) in *. assert (Hd : (0 < d)%nat) by (unfold d; lia). assert (D : 0 < INR d) by now apply lt_0_INR.
  assert (Q : forall j, (j < d)%nat -> 0 < nth j x 0) by (intros j Hj; apply nth_pos; [exact HP | unfold d in Hj; lia]).
  assert (Q' : forall j, (j < d)%nat -> 0 < nth j y 0) by (intros j Hj; specialize (Q j Hj); destruct (HY j Hj) as (B & _); assert (0 < (1 - r) * nth j x 0) by (apply Rmult_lt_0_compat; lra); lra).
  set (S0 := rsum d (fun j => nth j x 0)). set (S1 := rsum d (fun j => nth j y 0)). assert (SP : 0 < S0) by now apply rsum_pos. assert (SP' : 0 < S1) by now apply rsum_pos.
  assert (B1 : (1 - r) * S0 <= S1) by (unfold S0, S1; rewrite <- rsum_scal; apply rsum_le; intros j Hj; now apply HY).
  assert (B2 : S1 <= (1 + r) * S0) by (unfold S0, S1; rewrite <- rsum_scal; apply rsum_le; intros j Hj; now apply HY).
  assert (L1 : - (2 * r) <= ln (1 - r)). { pose proof (ln_ge_inv (1 - r) ltac:(lra)) as L. assert (/ (1 - r) <= 1 + 2 * r); [|lra]. apply (Rmult_le_reg_l (1 - r)); [lra|]. rewrite Rinv_r by lra. assert (0 <= r * (1 - 2 * r)) by (apply Rmult_le_pos; lra). lra. }
  assert (L2 : ln (1 + r) <= r) by (pose proof (ln_le_sub (1 + r) ltac:(lra)); lra).
  assert (G : forall a b, 0 < a -> 0 < b -> (1 - r) * a <= b -> b <= (1 + r) * a -> ln a - 2 * r <= ln b <= ln a + r).
  { intros a b Ha Hb H1 H2. split.
    - apply Rle_trans with (ln ((1 - r) * a)); [rewrite ln_mult by lra; lra|]. destruct H1 as [H1|<-]; [left; apply ln_increasing; [apply Rmult_lt_0_compat; lra | exact H1] | apply Rle_refl].
    - apply Rle_trans with (ln ((1 + r) * a)); [|rewrite ln_mult by lra; lra]. destruct H2 as [H2|H2]; [left; now apply ln_increasing | rewrite H2; apply Rle_refl]. }
  assert (GA : ln (S0 / INR d) - 2 * r <= ln (S1 / INR d) <= ln (S0 / INR d) + r).
  { apply G; try (apply Rdiv_lt_0_compat; lra); unfold Rdiv; rewrite <- Rmult_assoc; apply Rmult_le_compat_r; try lra; left; now apply Rinv_0_lt_compat. }
  assert (G1 : rsum d (fun j => ln (nth j x 0) - 2 * r) <= rsum d (fun j => ln (nth j y 0))) by (apply rsum_le; intros j Hj; apply G; auto; now apply HY).
  assert (G2 : rsum d (fun j => ln (nth j y 0)) <= rsum d (fun j => ln (nth j x 0) + r)) by (apply rsum_le; intros j Hj; apply G; auto; now apply HY).
  rewrite rsum_minus, rsum_const in G1. rewrite rsum_plus, rsum_const in G2. destruct GA as (A1 & A2). apply (Rmult_le_compat_l (INR d)) in A1, A2; try lra. apply Rabs_le. lra.
Qed.

Section Detect.
  Variables (x y : list R) (eps m : R).
  Hypothesis HL : List.length y = List.length x.
  Hypothesis HM : 0 < m.
  Hypothesis HF : forall j, (j < List.length x)%nat -> m <= nth j x 0.
  Hypothesis HE : 0 <= eps <= m / 2.
  Hypothesis HC : forall j, (j < List.length x)%nat -> Rabs (nth j x 0 - nth j y 0) <= eps.
  Lemma dt_x_pos : Forall (Rlt 0) x.
  Proof. apply Forall_forall. intros v Hv. destruct (In_nth x v 0 Hv) as (i & Hi & <-). specialize (HF i Hi). lra. Qed.
  Lemma dt_y_pos : Forall (Rlt 0) y.
  Proof.
    apply Forall_forall. intros v Hv. destruct (In_nth y v 0 Hv) as (i & Hi & <-). rewrite HL in Hi. specialize (HF i Hi). specialize (HC i Hi). unfold Rabs in HC. destruct (Rcase_abs _); lra.
  Qed.
  Lemma dt_close k : (k < List.length x)%nat -> Rabs (log_am_gm y k - log_am_gm x k) <= 3 * (eps / m) * INR (List.length x - k).
  Proof.
    intros Hk. assert (R0 : 0 <= eps / m) by (apply Rmult_le_pos; [lra | left; now apply Rinv_0_lt_compat]).
    assert (R1 : eps / m <= 1 / 2) by (apply (Rmult_le_reg_r m); [exact HM|]; unfold Rdiv; rewrite Rmult_assoc, Rinv_l by lra; lra).
    apply am_gm_close; try assumption; [apply dt_x_pos|]. intros j Hj. assert (Lj : (j < List.length x)%nat) by lia. specialize (HC j Lj). specialize (HF j Lj).
    assert (E : eps <= eps / m * nth j x 0). { replace eps with (eps / m * m) at 1 by (field; lra). apply Rmult_le_compat_l; lra. }
    unfold Rabs in HC. destruct (Rcase_abs _); split; lra.
  Qed.
  (** an arbitrary penalty: a minimum with a margin survives *)
  Lemma dt_budget pen N p margin : 0 <= N -> first_min (List.length x) (fun i => N * log_am_gm x i + pen (List.length x) i) p ->
    (forall i, (i < List.length x)%nat -> i <> p -> N * log_am_gm x p + pen (List.length x) p + margin <= N * log_am_gm x i + pen (List.length x) i) ->
    6 * N * INR (List.length x) * (eps / m) < margin -> criterion pen y N = Ok p.
  Proof.
    intros HN (P1 & _ & _) HG HB. destruct (criterion_spec pen y N dt_y_pos ltac:(lia)) as (q & E & Hq). rewrite E. f_equal. rewrite HL in Hq. destruct Hq as (Q1 & Q2 & Q3).
    destruct (Nat.eq_dec q p) as [->|NE]; [reflexivity|]. exfalso. specialize (Q2 p P1). specialize (HG q Q1 NE).
    assert (K : forall i, (i < List.length x)%nat -> N * Rabs (log_am_gm y i - log_am_gm x i) <= 3 * N * INR (List.length x) * (eps / m)).
    { intros i Hi. replace (3 * N * INR (List.length x) * (eps / m)) with (N * (3 * (eps / m) * INR (List.length x))) by ring. apply Rmult_le_compat_l; [exact HN|]. eapply Rle_trans; [now apply dt_close|].
      apply Rmult_le_compat_l; [|apply le_INR; lia]. apply Rmult_le_pos; [lra|]. apply Rmult_le_pos; [lra | left; now apply Rinv_0_lt_compat]. }
    pose proof (K p P1) as Kp. pose proof (K q Q1) as Kq.
    assert (A1 : N * (log_am_gm y p - log_am_gm x p) <= N * Rabs (log_am_gm y p - log_am_gm x p)) by (apply Rmult_le_compat_l; [exact HN | apply Rle_abs]).
    assert (A2 : N * (log_am_gm x q - log_am_gm y q) <= N * Rabs (log_am_gm y q - log_am_gm x q)) by (apply Rmult_le_compat_l; [exact HN|]; rewrite Rabs_minus_sym; apply Rle_abs).
    lra.
  Qed.
End Detect.

(** the eigenvalues of an exact covariance, and eigenvalues close to them *)
Section Exact.
  Variables (x : list R) (K : nat) (s : R).
  Hypothesis H : noise_and_signal x K s.
  Lemma ns_floor j : (j < List.length x)%nat -> s <= nth j x 0.
  Proof. destruct H as (Hs & HK & H1 & H2). intros Hj. destruct (Nat.lt_ge_cases j (List.length x - K)); [rewrite H1 by assumption; lra | specialize (H2 j ltac:(lia)); lra]. Qed.
  Lemma pen_step i : (K < i < List.length x)%nat -> INR K * (2 * INR (List.length x) - INR K) + 1 <= INR i * (2 * INR (List.length x) - INR i).
  Proof.
    intros [H1 H2]. assert (A : INR K + 1 <= INR i) by (rewrite <- S_INR; apply le_INR; lia). assert (B : INR i + 1 <= INR (List.length x)) by (rewrite <- S_INR; apply le_INR; lia). pose proof (pos_INR K).
    assert (0 <= (INR i - INR K - 1) * (2 * INR (List.length x) - INR i - INR K)) by (apply Rmult_le_pos; lra). lra.
  Qed.
  (** both criteria, with the second order error budget *)
  Lemma dt_counts : exists c N0, 0 < c /\ 1 <= N0 /\ forall y eps N, List.length y = List.length x -> 0 <= eps -> (forall j, (j < List.length x)%nat -> Rabs (nth j x 0 - nth j y 0) <= eps) -> N0 <= N ->
    (N * (eps * eps) <= c -> criterion aic_penalty y N = Ok K) /\ (N * (eps * eps) <= c * ln N -> criterion (mdl_penalty N) y N = Ok K).
  Proof.
    destruct (ns_gap x K s H) as (d & Hd & HG). pose proof ns_floor as FL. pose proof (ns_pos x K s H) as HP. destruct H as (Hs & HK & H1 & H2). set (M := List.length x) in *.
    assert (M1 : 1 <= INR M) by (change 1 with (INR 1); apply le_INR; lia). set (pen := INR K * (2 * INR M - INR K)).
    assert (Hpen : 0 <= pen). { unfold pen. apply lt_INR in HK. pose proof (pos_INR K). apply Rmult_le_pos; lra. }
    set (c := s * s / (8 * INR M)). assert (Hc : 0 < c) by (apply Rdiv_lt_0_compat; [now apply Rmult_lt_0_compat | lra]).
    (* errors must stay below e0 *)
    set (e0 := Rmin (s / 2) (s * d / (6 * INR M))). assert (He0 : 0 < e0) by (apply Rmin_glb_lt; [lra|]; apply Rdiv_lt_0_compat; [now apply Rmult_lt_0_compat | lra]).
    set (r1 := 2 * c / (e0 * e0)). assert (R1 : 0 < r1) by (apply Rdiv_lt_0_compat; [lra | now apply Rmult_lt_0_compat]).
    set (r2 := 4 * (pen + 2) / d). assert (R2 : 0 < r2) by (apply Rdiv_lt_0_compat; lra).
    exists c, (3 + r1 * r1 + r2 * r2). split; [exact Hc|]. pose proof (Rle_0_sqr r1) as Q1. pose proof (Rle_0_sqr r2) as Q2. unfold Rsqr in Q1, Q2. split; [lra|].
    intros y eps N HL He HC HN. assert (N3 : 3 <= N) by lra.
    assert (L1 : 1 <= ln N). { rewrite <- (ln_exp 1). pose proof exp_le_3 as E3. destruct (Rle_lt_or_eq_dec (exp 1) N ltac:(lra)) as [L|<-]; [left; apply ln_increasing; [apply exp_pos | exact L] | apply Rle_refl]. }
    assert (S0 : 0 < sqrt N) by (apply sqrt_lt_R0; lra). pose proof (sqrt_sqrt N ltac:(lra)) as SS. pose proof (ln_sqrt_bound N ltac:(lra)) as LB.
    assert (SR : forall r, 0 < r -> r * r <= N -> r <= sqrt N). { intros r Hr Hrr. destruct (Rle_lt_dec r (sqrt N)) as [L|L]; [exact L|]. exfalso. assert (sqrt N * sqrt N < r * r) by (apply Rmult_le_0_lt_compat; lra). lra. }
    pose proof (SR r1 R1 ltac:(lra)) as S1. pose proof (SR r2 R2 ltac:(lra)) as S2.
    assert (SM : N * (eps * eps) <= c * ln N -> eps <= e0).
    { intros B. destruct (Rle_lt_dec eps e0) as [L|L]; [exact L|]. exfalso. assert (e0 * e0 < eps * eps) by (apply Rmult_le_0_lt_compat; lra).
      assert (X1 : N * (e0 * e0) < N * (eps * eps)) by (apply Rmult_lt_compat_l; lra). assert (X2 : c * ln N <= c * (2 * sqrt N)) by (apply Rmult_le_compat_l; lra).
      assert (X3 : 2 * c = r1 * (e0 * e0)) by (unfold r1; field; lra). assert (E0 : 0 < e0 * e0) by now apply Rmult_lt_0_compat.
      assert (X4 : r1 * (e0 * e0) <= sqrt N * (e0 * e0)) by (apply Rmult_le_compat_r; lra). assert (X5 : sqrt N * (r1 * (e0 * e0)) <= sqrt N * (sqrt N * (e0 * e0))) by (apply Rmult_le_compat_l; lra).
      replace (sqrt N * (sqrt N * (e0 * e0))) with (N * (e0 * e0)) in X5 by (rewrite <- SS at 1; ring). rewrite <- X3 in X5. lra. }
    (* the criterion with any penalty increasing by more than a quarter of L *)
    assert (G : forall pe L, 0 < L -> L <= 2 * sqrt N -> eps <= e0 -> N * (eps * eps) <= c * L -> (forall i, (K < i < M)%nat -> pe M K + L / 2 <= pe M i) -> (forall i, (i < M)%nat -> 0 <= pe M i) -> pe M K <= (pen + 1) * L -> criterion pe y N = Ok K).
    { intros pe L HL0 HL2 Es B P1 P2 P3.
      assert (Es1 : eps <= s / 2) by (eapply Rle_trans; [exact Es | apply Rmin_l]). assert (Es2 : eps <= s * d / (6 * INR M)) by (eapply Rle_trans; [exact Es | apply Rmin_r]).
      pose proof (dt_y_pos x y eps s HL Hs FL (conj He Es1) HC) as HY. destruct (criterion_spec pe y N HY ltac:(rewrite HL; fold M; lia)) as (q & E & (A1 & A2 & A3)). rewrite E. f_equal. rewrite HL in A1, A2, A3. fold M in A1, A2, A3.
      destruct (Nat.eq_dec q K) as [->|NE]; [reflexivity|]. exfalso. specialize (A2 K HK).
      assert (LK : N * log_am_gm y K <= L / 4).
      { assert (Z : log_am_gm y K <= INR (M - K) * (2 * (eps * eps) / (s * s))).
        { rewrite <- HL. apply noise_am_gm; try assumption; [rewrite HL; exact HK|]. intros j Hj. rewrite HL in Hj. rewrite <- (H1 j Hj), Rabs_minus_sym. apply HC. lia. }
        assert (Z2 : INR (M - K) * (2 * (eps * eps) / (s * s)) <= INR M * (2 * (eps * eps) / (s * s))).
        { apply Rmult_le_compat_r; [|apply le_INR; lia]. apply Rmult_le_pos; [pose proof (Rle_0_sqr eps) as Q; unfold Rsqr in Q; lra | left; apply Rinv_0_lt_compat; now apply Rmult_lt_0_compat]. }
        assert (Z3 : N * log_am_gm y K <= N * (INR M * (2 * (eps * eps) / (s * s)))) by (apply Rmult_le_compat_l; lra).
        replace (N * (INR M * (2 * (eps * eps) / (s * s)))) with (N * (eps * eps) * (2 * INR M / (s * s))) in Z3 by (field; lra).
        assert (Z4 : N * (eps * eps) * (2 * INR M / (s * s)) <= c * L * (2 * INR M / (s * s))). { apply Rmult_le_compat_r; [|exact B]. apply Rmult_le_pos; [lra | left; apply Rinv_0_lt_compat; now apply Rmult_lt_0_compat]. }
        replace (c * L * (2 * INR M / (s * s))) with (L / 4) in Z4 by (unfold c; field; lra). lra. }
      destruct (Nat.lt_ge_cases q K) as [Lq|Gq].
      - assert (LQ : d / 2 <= log_am_gm y q).
        { pose proof (dt_close x y eps s HL Hs FL (conj He Es1) HC q ltac:(fold M; lia)) as CL. rewrite Rabs_minus_sym in CL. pose proof (Rle_trans _ _ _ (Rle_abs _) CL) as CL2. specialize (HG q Lq).
          assert (Z : 3 * (eps / s) * INR (M - q) <= 3 * (s * d / (6 * INR M) / s) * INR M).
          { apply Rmult_le_compat; [|apply pos_INR | apply Rmult_le_compat_l; [lra|]; apply Rmult_le_compat_r; [left; now apply Rinv_0_lt_compat | exact Es2] | apply le_INR; lia].
            apply Rmult_le_pos; [lra|]. apply Rmult_le_pos; [exact He | left; now apply Rinv_0_lt_compat]. }
          replace (3 * (s * d / (6 * INR M) / s) * INR M) with (d / 2) in Z by (field; lra). fold M in CL2. lra. }
        assert (LN : N * (d / 2) <= N * log_am_gm y q) by (apply Rmult_le_compat_l; lra). specialize (P2 q A1).
        assert (X : r2 * d = 4 * (pen + 2)) by (unfold r2; field; lra). assert (Y : r2 * d <= sqrt N * d) by (apply Rmult_le_compat_r; lra).
        assert (W : sqrt N * (4 * (pen + 2)) <= sqrt N * (sqrt N * d)) by (apply Rmult_le_compat_l; lra). replace (sqrt N * (sqrt N * d)) with (N * d) in W by (rewrite <- SS at 1; ring).
        assert (V : (pen + 2) * L <= (pen + 2) * (2 * sqrt N)) by (apply Rmult_le_compat_l; lra). lra.
      - specialize (P1 q ltac:(lia)). pose proof (am_gm_nonneg y q HY ltac:(rewrite HL; exact A1)) as NN. assert (0 <= N * log_am_gm y q) by (apply Rmult_le_pos; lra). lra. }
    assert (NN : forall i, (i < M)%nat -> 0 <= INR i * (2 * INR M - INR i)) by (intros i Hi; apply lt_INR in Hi; pose proof (pos_INR i); apply Rmult_le_pos; lra).
    split; intros B.
    - assert (SQ1 : 1 <= sqrt N) by (rewrite <- sqrt_1; apply sqrt_le_1; lra). apply (G aic_penalty 1); try lra; [apply SM; apply Rle_trans with (c * 1); [lra | apply Rmult_le_compat_l; lra] | | | ].
      + intros i Hi. unfold aic_penalty. pose proof (pen_step i Hi) as PS. fold M in PS. lra.
      + intros i Hi. unfold aic_penalty. now apply NN.
      + unfold aic_penalty. fold pen. lra.
    - apply (G (mdl_penalty N) (ln N)); [lra | lra | now apply SM | lra | | |].
      + intros i Hi. unfold mdl_penalty. pose proof (pen_step i Hi) as PS. fold M in PS. assert (Z : (INR K * (2 * INR M - INR K) + 1) * ln N <= (INR i * (2 * INR M - INR i)) * ln N) by (apply Rmult_le_compat_r; lra). lra.
      + intros i Hi. unfold mdl_penalty. specialize (NN i Hi). apply Rmult_le_pos; lra.
      + unfold mdl_penalty. fold pen. assert (0 <= (pen + 1) * ln N) by (apply Rmult_le_pos; lra). lra.
  Qed.
End Exact.

(** *** SORTE *)
Lemma gap_close x y eps j : List.length y = List.length x -> (forall j, (j < List.length x)%nat -> Rabs (nth j x 0 - nth j y 0) <= eps) -> (j + 1 < List.length x)%nat -> Rabs (gap y j - gap x j) <= 2 * eps.
Proof.
  intros HL HC Hj. unfold gap. rewrite HL. pose proof (HC (List.length x - 1 - j)%nat ltac:(lia)) as A. pose proof (HC (List.length x - 2 - j)%nat ltac:(lia)) as B.
  apply Rabs_le. unfold Rabs in A, B. destruct (Rcase_abs _) in A; destruct (Rcase_abs _) in B; lra.
Qed.
Lemma mean_close d f g e : (0 < d)%nat -> (forall j, (j < d)%nat -> Rabs (f j - g j) <= e) -> Rabs (rsum d f / INR d - rsum d g / INR d) <= e.
Proof.
  intros Hd HC. assert (D : 0 < INR d) by now apply lt_0_INR. replace (rsum d f / INR d - rsum d g / INR d) with (rsum d (fun j => f j - g j) / INR d) by (rewrite rsum_minus; field; lra).
  assert (U : rsum d (fun j => f j - g j) <= INR d * e) by (rewrite <- rsum_const; apply rsum_le; intros j Hj; eapply Rle_trans; [apply Rle_abs | now apply HC]).
  assert (L : INR d * (- e) <= rsum d (fun j => f j - g j)) by (rewrite <- rsum_const; apply rsum_le; intros j Hj; specialize (HC j Hj); unfold Rabs in HC; destruct (Rcase_abs _); lra).
  apply Rabs_le. split; apply (Rmult_le_reg_l (INR d)); try exact D; replace (INR d * (rsum d (fun j => f j - g j) / INR d)) with (rsum d (fun j => f j - g j)) by (field; lra); lra.
Qed.
(** the gap variances move continuously *)
Lemma gap_var_close x k tol : (k + 1 < List.length x)%nat -> 0 < tol ->
  exists e0, 0 < e0 /\ forall y, List.length y = List.length x -> (forall j, (j < List.length x)%nat -> Rabs (nth j x 0 - nth j y 0) <= e0) -> Rabs (gap_var y k - gap_var x k) <= tol.
Proof.
  intros Hk Ht. set (d := (List.length x - 1 - k)%nat). assert (Hd : (0 < d)%nat) by (unfold d; lia).
  set (dev := fun j => gap x (k + j) - gap_mean x k). set (B := rsum d (fun j => Rabs (dev j))). assert (B0 : 0 <= B) by (apply rsum_nonneg; intros; apply Rabs_pos).
  assert (BB : forall j, (j < d)%nat -> Rabs (dev j) <= B) by (intros j Hj; unfold B; apply (P_spectral.rsum_ge d (fun j => Rabs (dev j)) j Hj); intros; apply Rabs_pos).
  exists (Rmin (1 / 4) (tol / (4 * (2 * B + 1)))). split; [apply Rmin_glb_lt; [lra|]; apply Rdiv_lt_0_compat; lra|]. set (e0 := Rmin _ _). intros y HL HC.
  assert (E0 : 0 < e0) by (apply Rmin_glb_lt; [lra|]; apply Rdiv_lt_0_compat; lra). assert (E1 : e0 <= 1 / 4) by apply Rmin_l. assert (E2 : 4 * e0 * (2 * B + 1) <= tol).
  { apply Rle_trans with (4 * (tol / (4 * (2 * B + 1))) * (2 * B + 1)); [|right; field; lra]. apply Rmult_le_compat_r; [lra|]. apply Rmult_le_compat_l; [lra | apply Rmin_r]. }
  unfold gap_var. rewrite HL. fold d. apply mean_close; [exact Hd|]. intros j Hj. fold (dev j). set (dy := gap y (k + j) - gap_mean y k).
  assert (D1 : Rabs (dy - dev j) <= 4 * e0).
  { assert (G1 : Rabs (gap y (k + j) - gap x (k + j)) <= 2 * e0) by (apply gap_close; [exact HL | exact HC | unfold d in Hj; lia]).
    assert (G2 : Rabs (gap_mean y k - gap_mean x k) <= 2 * e0). { unfold gap_mean. rewrite HL. fold d. apply mean_close; [exact Hd|]. intros i Hi. apply gap_close; [exact HL | exact HC | unfold d in Hi; lia]. }
    unfold dy, dev. apply Rabs_le. unfold Rabs in G1, G2. destruct (Rcase_abs _) in G1; destruct (Rcase_abs _) in G2; lra. }
  replace (dy * dy - dev j * dev j) with ((dy - dev j) * (2 * dev j + (dy - dev j))) by ring. rewrite Rabs_mult. apply Rle_trans with (4 * e0 * (2 * B + 1)); [|exact E2].
  apply Rmult_le_compat; try apply Rabs_pos; [exact D1|]. eapply Rle_trans; [apply Rabs_triang|]. rewrite Rabs_mult, (Rabs_right 2) by lra. specialize (BB j Hj). lra.
Qed.
(** several of them at once *)
Lemma gap_vars_close x n tol : (n < List.length x)%nat -> 0 < tol ->
  exists e0, 0 < e0 /\ forall y, List.length y = List.length x -> (forall j, (j < List.length x)%nat -> Rabs (nth j x 0 - nth j y 0) <= e0) -> forall k, (k < n)%nat -> Rabs (gap_var y k - gap_var x k) <= tol.
Proof.
  intros Hn Ht. induction n as [|n IH]; [exists 1; split; [lra | intros y _ _ k Hk; lia]|]. destruct IH as (e1 & H1 & C1); [lia|]. destruct (gap_var_close x n tol ltac:(lia) Ht) as (e2 & H2 & C2).
  exists (Rmin e1 e2). split; [now apply Rmin_glb_lt|]. intros y HL HC k Hk. destruct (Nat.eq_dec k n) as [->|NE].
  - apply C2; [exact HL|]. intros j Hj. eapply Rle_trans; [now apply HC | apply Rmin_r].
  - apply C1; [exact HL | | lia]. intros j Hj. eapply Rle_trans; [now apply HC | apply Rmin_l].
Qed.
Section Sorte.
  Variables (x : list R) (K : nat) (s : R).
  Hypothesis H : noise_and_signal x K s.
  Hypothesis HL4 : (4 <= List.length x)%nat.
  Hypothesis HK : (1 <= K <= List.length x - 3)%nat.
  Let M := List.length x.
  Lemma so_zero k : (K <= k < M - 1)%nat -> gap_var x k = 0.
  Proof.
    intros Hk. unfold gap_var. assert (Q : gap_mean x k = 0) by (unfold gap_mean; rewrite rsum_0; [unfold Rdiv; ring|]; intros j Hj; apply (gap_zero x K s); [exact H | lia | unfold M in Hk; lia]).
    rewrite Q. rewrite rsum_0; [unfold Rdiv; ring|]. intros j Hj. rewrite (gap_zero x K s) by (try exact H; unfold M in Hk; lia). ring.
  Qed.
  Lemma so_pos i : (i < K)%nat -> 0 < gap_var x i.
  Proof.
    intros Hi. destruct (gap_pos x K s H ltac:(lia)) as (GE & GP).
    unfold gap_var. set (dd := (List.length x - 1 - i)%nat). assert (DP : 0 < INR dd) by (apply lt_0_INR; unfold dd; lia). apply Rdiv_lt_0_compat; [|exact DP].
    destruct (rsum_nonneg dd (fun j => (gap x (i + j) - gap_mean x i) * (gap x (i + j) - gap_mean x i)) ltac:(intros; apply Rle_0_sqr)) as [Z|Z]; [exact Z|]. exfalso.
    pose proof (rsum_nonneg_0 dd (fun j => (gap x (i + j) - gap_mean x i) * (gap x (i + j) - gap_mean x i)) ltac:(intros; apply Rle_0_sqr) (eq_sym Z)) as A. cbn beta in A.
    pose proof (A (K - 1 - i)%nat ltac:(unfold dd; lia)) as A1. pose proof (A (M - 2 - i)%nat ltac:(unfold dd; unfold M; lia)) as A2.
    replace (i + (K - 1 - i))%nat with (K - 1)%nat in A1 by lia. replace (i + (M - 2 - i))%nat with (M - 2)%nat in A2 by (unfold M; lia). rewrite (gap_zero x K s (M - 2)%nat H) in A2 by (unfold M; lia). apply Rmult_integral in A1, A2. lra.
  Qed.
  Lemma so_range : exists lo hi, 0 < lo /\ 0 < hi /\ forall i, (i < K)%nat -> lo <= gap_var x i <= hi.
  Proof.
    assert (G : forall n, (n <= K)%nat -> exists lo hi, 0 < lo /\ 0 < hi /\ forall i, (i < n)%nat -> lo <= gap_var x i <= hi).
    { induction n as [|n IH]; intros Hn; [exists 1, 1; split; [lra|]; split; [lra | intros i Hi; lia]|]. destruct IH as (lo & hi & L1 & L2 & HI); [lia|]. pose proof (so_pos n ltac:(lia)) as P.
      exists (Rmin lo (gap_var x n)), (Rmax hi (gap_var x n)). split; [now apply Rmin_glb_lt|]. split; [apply Rlt_le_trans with hi; [exact L2 | apply Rmax_l]|]. intros i Hi. destruct (Nat.eq_dec i n) as [->|NE]; [split; [apply Rmin_r | apply Rmax_r]|].
      destruct (HI i ltac:(lia)) as (X & Y). split; [eapply Rle_trans; [apply Rmin_l | exact X] | eapply Rle_trans; [exact Y | apply Rmax_l]]. }
    exact (G K (le_n K)).
  Qed.
  Lemma so_stable : float_eps < gap_var x (K - 1) ->
    exists e0, 0 < e0 /\ forall y, List.length y = List.length x -> (forall j, (j < List.length x)%nat -> Rabs (nth j x 0 - nth j y 0) <= e0) -> sorte_of y = Ok K.
  Proof.
    intros HV. assert (EPS : 0 < float_eps) by (apply Rinv_0_lt_compat, pow_lt; lra). destruct so_range as (lo & hi & L0 & H0 & RG).
    set (v := gap_var x (K - 1)) in *. pose proof (RG (K - 1)%nat ltac:(lia)) as (V1 & V2). fold v in V1, V2.
    (* tolerance *)
    set (tol := Rmin (Rmin (float_eps / 2) (v - float_eps)) (Rmin (lo / 2) (lo * float_eps / (8 * (hi + lo))))).
    assert (T0 : 0 < tol) by (unfold tol; repeat apply Rmin_glb_lt; try lra; apply Rdiv_lt_0_compat; [now apply Rmult_lt_0_compat | lra]).
    assert (T1 : tol <= float_eps / 2) by (eapply Rle_trans; [apply Rmin_l | apply Rmin_l]). assert (T2 : tol <= v - float_eps) by (eapply Rle_trans; [apply Rmin_l | apply Rmin_r]).
    assert (T3 : tol <= lo / 2) by (eapply Rle_trans; [apply Rmin_r | apply Rmin_l]). assert (T4 : tol <= lo * float_eps / (8 * (hi + lo))) by (eapply Rle_trans; [apply Rmin_r | apply Rmin_r]).
    destruct (gap_vars_close x (M - 1) tol ltac:(unfold M; lia) T0) as (e0 & E0 & CL). exists e0. split; [exact E0|]. intros y HL HC. specialize (CL y HL HC).
    destruct (sorte_spec y ltac:(lia)) as (p & E & (P1 & P2 & P3)). rewrite E. f_equal. rewrite HL in P1, P2. fold M in P1, P2.
    assert (CU : forall k, (k < M - 1)%nat -> gap_var x k - tol <= gap_var y k <= gap_var x k + tol) by (intros k Hk; specialize (CL k Hk); unfold Rabs in CL; destruct (Rcase_abs _); lra).
    assert (YP : forall k, (k < M - 1)%nat -> 0 <= gap_var y k) by (intros k Hk; apply gap_var_nonneg; rewrite HL; exact Hk).
    pose proof (CU (K - 1)%nat ltac:(unfold M; lia)) as (C1 & C2). fold v in C1, C2. pose proof (CU K ltac:(unfold M; lia)) as (C3 & C4). rewrite so_zero in C3, C4 by (unfold M; lia).
    assert (R1 : exists r, sorte_ratio float_eps y (K - 1) = Some r /\ r <= tol / float_eps).
    { unfold sorte_ratio. destruct (Rlt_dec (gap_var y (K - 1)) float_eps) as [L|L]; [lra|]. replace (K - 1 + 1)%nat with K by lia. eexists. split; [reflexivity|]. apply Rmult_le_compat; [apply YP; unfold M; lia | left; apply Rinv_0_lt_compat; lra | lra | apply Rinv_le_contravar; lra]. }
    destruct R1 as (r & R1 & R2).
    destruct (Nat.lt_trichotomy p (K - 1)) as [L|[->|L]]; [|lia|]; exfalso.
    - specialize (P2 (K - 1)%nat ltac:(unfold M; lia)). rewrite R1 in P2. unfold sorte_ratio in P2. destruct (Rlt_dec (gap_var y p) float_eps) as [L'|L']; [exact P2|]. cbn in P2.
      pose proof (RG p ltac:(lia)) as (X1 & X2). pose proof (RG (p + 1)%nat ltac:(lia)) as (X3 & X4). pose proof (CU p ltac:(unfold M; lia)) as (Y1 & Y2). pose proof (CU (p + 1)%nat ltac:(unfold M; lia)) as (Y3 & Y4).
      assert (Q : lo / 2 * / (hi + lo) <= gap_var y (p + 1) / gap_var y p) by (apply Rmult_le_compat; [lra | left; apply Rinv_0_lt_compat; lra | lra | apply Rinv_le_contravar; lra]).
      assert (Z : tol / float_eps <= lo / 8 * / (hi + lo)). { apply (Rmult_le_reg_r float_eps); [exact EPS|]. unfold Rdiv at 1. rewrite Rmult_assoc, Rinv_l by lra. replace (lo / 8 * / (hi + lo) * float_eps) with (lo * float_eps / (8 * (hi + lo))) by (field; lra). lra. }
      assert (W : 0 < lo * / (hi + lo)) by (apply Rmult_lt_0_compat; [exact L0 | apply Rinv_0_lt_compat; lra]). lra.
    - specialize (P2 (K - 1)%nat ltac:(unfold M; lia)). rewrite R1 in P2. unfold sorte_ratio in P2. pose proof (CU p ltac:(lia)) as (Y1 & Y2). rewrite so_zero in Y2 by lia. destruct (Rlt_dec (gap_var y p) float_eps) as [L'|L']; [exact P2 | lra].
  Qed.
End Sorte.
Lemma gap_var_signal x K s : noise_and_signal x K s -> (4 <= List.length x)%nat -> (1 <= K <= List.length x - 3)%nat ->
  gap_var x (K - 1) = (nth (List.length x - K) x 0 - s) * (nth (List.length x - K) x 0 - s) * (INR (List.length x - K) - 1) / (INR (List.length x - K) * INR (List.length x - K)).
Proof.
  intros HN HL HK. destruct (gap_pos x K s HN ltac:(lia)) as (GE & GP). set (M := List.length x) in *. set (d := INR (M - K)). set (g := nth (M - K) x 0 - s) in *.
  assert (D2 : 2 <= d) by (unfold d; change 2 with (INR 2); apply le_INR; lia).
  unfold gap_var. fold M. replace (M - 1 - (K - 1))%nat with (S (M - K - 1)) by lia. assert (Dn : INR (S (M - K - 1)) = d) by (unfold d; f_equal; lia).
  assert (Q : gap_mean x (K - 1) = g / d).
  { unfold gap_mean. fold M. replace (M - 1 - (K - 1))%nat with (S (M - K - 1)) by lia. rewrite Dn. f_equal. rewrite rsum_S_l, Nat.add_0_r, GE. rewrite rsum_0; [ring|]. intros j Hj. apply (gap_zero x K s); [exact HN | lia | fold M; lia]. }
  rewrite Q, Dn, rsum_S_l, Nat.add_0_r, GE. rewrite (rsum_ext _ _ (fun _ => g / d * (g / d))).
  2:{ intros j Hj. rewrite (gap_zero x K s) by (try exact HN; fold M; lia). ring. }
  rewrite rsum_const. replace (INR (M - K - 1)) with (d - 1) by (rewrite <- Dn, S_INR; ring). field. lra.
Qed.
(** an error with N t^2 <= c ln N is eventually below any bound *)
Lemma log_small c e : 0 < c -> 0 < e -> exists N0, forall N t, N0 <= N -> 0 <= t -> N * (t * t) <= c * ln N -> t < e.
Proof.
  intros Hc He. assert (E2 : 0 < e * e) by now apply Rmult_lt_0_compat. set (r := 2 * c / (e * e)). assert (Hr : 0 < r) by (apply Rdiv_lt_0_compat; lra). exists (1 + r * r). intros N t HN Ht B.
  pose proof (Rle_0_sqr r) as Q. unfold Rsqr in Q. assert (S0 : 0 < sqrt N) by (apply sqrt_lt_R0; lra). pose proof (sqrt_sqrt N ltac:(lra)) as SS. pose proof (ln_sqrt_bound N ltac:(lra)) as LB.
  destruct (Rlt_le_dec t e) as [L|L]; [exact L|]. exfalso. assert (T2 : e * e <= t * t) by (apply Rmult_le_compat; lra). assert (X1 : N * (e * e) <= N * (t * t)) by (apply Rmult_le_compat_l; lra).
  assert (X2 : c * ln N <= c * (2 * sqrt N)) by (apply Rmult_le_compat_l; lra). assert (X3 : 2 * c = r * (e * e)) by (unfold r; field; lra).
  assert (SR : r < sqrt N). { destruct (Rlt_le_dec r (sqrt N)) as [M|M]; [exact M|]. exfalso. assert (sqrt N * sqrt N <= r * r) by (apply Rmult_le_compat; lra). lra. }
  assert (X4 : sqrt N * (r * (e * e)) < sqrt N * (sqrt N * (e * e))) by (apply Rmult_lt_compat_l; [exact S0|]; now apply Rmult_lt_compat_r). replace (sqrt N * (sqrt N * (e * e))) with (N * (e * e)) in X4 by (rewrite <- SS at 1; ring). rewrite <- X3 in X4. lra.
Qed.
