(** The Gaussian likelihood log det S + tr(S^-1 R): lower bound and where it is attained. *)
From Verif Require Import Base_Np Base_Lin M_utils M_core M_ml S_utils S_model S_subspace S_perf S_ml P_utils P_model P_subspace P_subspace2 P_subspace3 P_perf2 P_perf3 P_perf5 P_ml3 P_ml4 P_ml5 P_ml6 P_ml7.
Open Scope C_scope.

Lemma ln_eq_sub x : (0 < x)%R -> ln x = (x - 1)%R -> x = 1%R.
Proof.
  intros H E. destruct (Req_dec x 1) as [->|N]; [reflexivity|]. exfalso. assert (NL : ln x <> 0%R) by (intros Z; apply N; rewrite <- ln_1 in Z; apply ln_inv in Z; lra). pose proof (exp_ineq1 (ln x) NL) as S. rewrite exp_ln in S by exact H. lra.
Qed.
Lemma rsum_zero_each n (f : nat -> R) : (forall i, (i < n)%nat -> (0 <= f i)%R) -> rsum n f = 0%R -> forall i, (i < n)%nat -> f i = 0%R.
Proof.
  induction n; intros H0 S i Hi; [lia|]. cbn [rsum] in S. assert (0 <= rsum n f)%R by (apply rsum_nonneg; intros; apply H0; lia). pose proof (H0 n ltac:(lia)). destruct (Nat.eq_dec i n) as [->|]; [lra|]. apply IHn; [intros; apply H0; lia | lra | lia].
Qed.
Section Lik.
  Variables (S Rm Y : cmat) (n : nat) (mu w : list R) (F E : cmat).
  Hypothesis HS : pd S.
  Hypothesis HR : pd Rm.
  Hypothesis S1 : nr S = n.
  Hypothesis R1 : nr Rm = n.
  Hypothesis HF : eigh_ok S mu F.
  Hypothesis HE : eigh_ok Rm w E.
  Hypothesis HY : S *m Y ==m Rm.
  Hypothesis Y1 : nr Y = n.
  Let r i := Re (qform Rm (col F i)).
  Let U i j := Cnorm2 (vdot n (col E j) (col F i)).
  Lemma l_mu i : (i < n)%nat -> (0 < nth i mu 0)%R. Proof. intros Hi. apply (eigh_pos S mu F HS HF). now rewrite S1. Qed.
  Lemma l_w i : (i < n)%nat -> (0 < nth i w 0)%R. Proof. intros Hi. apply (eigh_pos Rm w E HR HE). now rewrite R1. Qed.
  Lemma l_F : nr F = n /\ nc F = n. Proof. pose proof HF as (_ & E1 & E2 & _). rewrite S1 in E1, E2. auto. Qed.
  Lemma l_orth p q : (p < n)%nat -> (q < n)%nat -> vdot n (col F p) (col F q) = if Nat.eqb p q then RtoC 1 else RtoC 0.
  Proof. intros Hp Hq. pose proof (eigh_orth S mu F p q HF) as O. rewrite S1 in O. now apply O. Qed.
  Lemma l_r i : (i < n)%nat -> (0 < r i)%R.
  Proof.
    intros Hi. apply (proj2 HR). destruct (nonzero_dec (nr Rm) (col F i)) as [Z|N]; [|exact N]. exfalso. rewrite R1 in Z. assert (O := l_orth i i Hi Hi). rewrite Nat.eqb_refl, vdot_self in O. injection O as O. unfold vnorm2 in O. rewrite rsum_0 in O; [lra|]. intros q Hq. rewrite (Z q Hq). unfold Cnorm2. cbn. ring.
  Qed.
  (** tr(S^-1 R) = sum r_i / mu_i *)
  Lemma l_trace : mtrace Y = RtoC (rsum n (fun i => r i / nth i mu 0)%R).
  Proof.
    destruct l_F as (F1 & F2). assert (R2 : nc Rm = n) by (rewrite <- R1; symmetry; apply (proj1 HR)). assert (S2 : nc S = n) by (rewrite <- S1; symmetry; apply (proj1 HS)). assert (Y2 : nc Y = n) by (rewrite <- R2; exact (meq_nc _ _ HY)).
    assert (N : forall i, (i < nr S)%nat -> nth i mu 0%R <> 0%R) by (rewrite S1; intros i Hi; pose proof (l_mu i Hi); lra). pose proof (einv_right S mu F HF N) as IR. rewrite S1 in IR. set (V := einv mu F n) in *. assert (V1 : nr V = n) by exact F1. assert (V2 : nc V = n) by exact F1.
    pose proof (left_inv_right V S n V1 V2 S1 S2 IR) as IL.
    rewrite (mtrace_eq Y (V *m Rm)); [|congruence |].
    - unfold V. rewrite einv_trace by assumption. rewrite <- csum_RtoC. apply csum_ext. intros i Hi. unfold r, Rdiv. rewrite (qform_real Rm (col F i) (proj1 HR)) at 1. rewrite RtoC_mult. ring.
    - symmetry. etransitivity; [apply mmul_eq_r; [congruence | symmetry; exact HY]|]. etransitivity; [symmetry; apply mmul_assoc|]. etransitivity; [apply mmul_eq_l, IL|]. apply mmul_id_l. congruence.
  Qed.
  Lemma l_row i : (i < n)%nat -> rsum n (U i) = 1%R.
  Proof. intros Hi. unfold U. pose proof (parseval Rm w E (col F i) (proj1 HR) HE) as PV. rewrite R1 in PV. rewrite PV. assert (O := l_orth i i Hi Hi). rewrite Nat.eqb_refl, vdot_self in O. now injection O. Qed.
  Lemma l_col j : (j < n)%nat -> rsum n (fun i => U i j) = 1%R.
  Proof.
    intros Hj. rewrite (rsum_ext _ _ (fun i => Cnorm2 (vdot n (col F i) (col E j)))) by (intros i Hi; unfold U; rewrite <- vdot_conj; apply Cnorm2_conj). pose proof (parseval S mu F (col E j) (proj1 HS) HF) as PV. rewrite S1 in PV. rewrite PV. assert (Hj' : (j < nr Rm)%nat) by congruence. pose proof (eigh_orth Rm w E j j HE Hj' Hj') as O. rewrite R1, Nat.eqb_refl, vdot_self in O. now injection O.
  Qed.
  Lemma l_rv i : (i < n)%nat -> r i = rsum n (fun j => U i j * nth j w 0)%R.
  Proof. intros Hi. unfold r. rewrite (qform_eig Rm w E _ (proj1 HR) HE). rewrite R1. apply rsum_ext. intros j Hj. unfold U. ring. Qed.
  Definition gap1 (i j : nat) : R := (U i j * (nth j w 0 / r i - 1 - ln (nth j w 0 / r i)))%R.
  Definition gap2 (i : nat) : R := (r i / nth i mu 0 - 1 - ln (r i / nth i mu 0))%R.
  Lemma gap1_nn i j : (i < n)%nat -> (j < n)%nat -> (0 <= gap1 i j)%R.
  Proof. intros Hi Hj. apply Rmult_le_pos; [apply Cnorm2_nonneg|]. pose proof (ln_le_sub (nth j w 0 / r i)%R ltac:(apply Rdiv_lt_0_compat; [now apply l_w | now apply l_r])). lra. Qed.
  Lemma gap2_nn i : (i < n)%nat -> (0 <= gap2 i)%R.
  Proof. intros Hi. unfold gap2. pose proof (ln_le_sub (r i / nth i mu 0)%R ltac:(apply Rdiv_lt_0_compat; [now apply l_r | now apply l_mu])). lra. Qed.
  (** the excess over log det R + n is a sum of non-negative gaps *)
  Lemma l_gap : (logdet mu n + rsum n (fun i => r i / nth i mu 0) = logdet w n + INR n + rsum n (fun i => rsum n (gap1 i)) + rsum n gap2)%R.
  Proof.
    assert (G1 : rsum n (fun i => rsum n (gap1 i)) = (rsum n (fun i => ln (r i)) - logdet w n)%R).
    { rewrite (rsum_ext _ _ (fun i => ln (r i) + (-1) * rsum n (fun j => U i j * ln (nth j w 0)))%R).
      - rewrite rsum_plus, rsum_scal. rewrite rsum_swap. unfold logdet. rewrite (rsum_ext _ (fun j => rsum n (fun i => U i j * ln (nth j w 0))%R) (fun j => ln (nth j w 0%R))). ring.
        intros j Hj. rewrite (rsum_ext _ _ (fun i => ln (nth j w 0) * U i j)%R) by (intros; ring). rewrite rsum_scal, l_col by exact Hj. ring.
      - intros i Hi. pose proof (l_r i Hi) as Ri. rewrite (rsum_ext _ (gap1 i) (fun j => / r i * (U i j * nth j w 0) + ((ln (r i) - 1) * U i j + (-1) * (U i j * ln (nth j w 0))))%R) by (intros j Hj; unfold gap1; rewrite Rcomplements.ln_div by (apply l_w || apply l_r; assumption); field; lra).
        rewrite !rsum_plus, !rsum_scal, <- l_rv, l_row by exact Hi. field. lra. }
    assert (G2 : rsum n gap2 = (rsum n (fun i => r i / nth i mu 0) - INR n - rsum n (fun i => ln (r i)) + logdet mu n)%R).
    { rewrite (rsum_ext _ gap2 (fun i => r i / nth i mu 0 + ((-1) + ((-1) * ln (r i) + ln (nth i mu 0))))%R) by (intros i Hi; unfold gap2; rewrite Rcomplements.ln_div by (apply l_r || apply l_mu; assumption); ring).
      rewrite !rsum_plus, rsum_scal, rsum_const. unfold logdet. ring. }
    rewrite G1, G2. ring.
  Qed.
  Lemma l_bound : (logdet w n + INR n <= logdet mu n + rsum n (fun i => r i / nth i mu 0))%R.
  Proof. rewrite l_gap. assert (0 <= rsum n (fun i => rsum n (gap1 i)))%R by (apply rsum_nonneg; intros i Hi; apply rsum_nonneg; intros j Hj; now apply gap1_nn). assert (0 <= rsum n gap2)%R by (apply rsum_nonneg, gap2_nn). lra. Qed.
  Lemma l_strict : (logdet mu n + rsum n (fun i => r i / nth i mu 0) = logdet w n + INR n)%R -> S ==m Rm.
  Proof.
    intros EQ. rewrite l_gap in EQ. assert (P1 : (0 <= rsum n (fun i => rsum n (gap1 i)))%R) by (apply rsum_nonneg; intros i Hi; apply rsum_nonneg; intros j Hj; now apply gap1_nn). assert (P2 : (0 <= rsum n gap2)%R) by (apply rsum_nonneg, gap2_nn).
    assert (Z2 : forall i, (i < n)%nat -> r i = nth i mu 0%R).
    { intros i Hi. pose proof (rsum_zero_each n gap2 gap2_nn ltac:(lra) i Hi) as Z. unfold gap2 in Z. pose proof (l_r i Hi). pose proof (l_mu i Hi). assert (Q : (r i / nth i mu 0 = 1)%R) by (apply ln_eq_sub; [now apply Rdiv_lt_0_compat | lra]). apply (Rmult_eq_compat_r (nth i mu 0%R)) in Q. unfold Rdiv in Q. rewrite Rmult_assoc, Rinv_l in Q; lra. }
    assert (Z1 : forall i j, (i < n)%nat -> (j < n)%nat -> U i j = 0%R \/ nth j w 0%R = r i).
    { intros i j Hi Hj. assert (Z : rsum n (gap1 i) = 0%R) by (apply (rsum_zero_each n (fun i => rsum n (gap1 i))); [intros a Ha; apply rsum_nonneg; intros b Hb; now apply gap1_nn | lra | exact Hi]).
      pose proof (rsum_zero_each n (gap1 i) (fun b Hb => gap1_nn i b Hi Hb) Z j Hj) as Z'. unfold gap1 in Z'. apply Rmult_integral in Z' as [Z'|Z']; [now left|right]. pose proof (l_r i Hi). pose proof (l_w j Hj). assert (Q : (nth j w 0 / r i = 1)%R) by (apply ln_eq_sub; [now apply Rdiv_lt_0_compat | lra]). apply (Rmult_eq_compat_r (r i)) in Q. unfold Rdiv in Q. rewrite Rmult_assoc, Rinv_l in Q; lra. }
    assert (RV : forall i a, (i < n)%nat -> (a < n)%nat -> mvec Rm (col F i) a = RtoC (nth i mu 0%R) * col F i a).
    { intros i a Hi Ha. assert (R2 : nc Rm = n) by (rewrite <- R1; symmetry; apply (proj1 HR)).
      assert (EX : forall b, (b < n)%nat -> col F i b = csum n (fun j => vdot n (col E j) (col F i) * col E j b)). { intros b Hb. pose proof (eigh_expand Rm w E (col F i) b HE) as X. rewrite R1 in X. now apply X. }
      rewrite (mvec_ext Rm (col F i) (fun b => csum n (fun j => vdot n (col E j) (col F i) * col E j b)) a) by (intros b Hb; apply EX; congruence). rewrite (mvec_sum Rm n (fun j => vdot n (col E j) (col F i)) (fun j => col E j) a). rewrite (EX a Ha), <- csum_scal. apply csum_ext. intros j Hj.
      assert (Hj' : (j < nr Rm)%nat) by congruence. rewrite (eigh_vec Rm w E j HE Hj' a) by congruence. destruct (Z1 i j Hi Hj) as [Z|Z].
      - unfold U in Z. apply Cnorm2_0 in Z. rewrite Z. ring.
      - rewrite Z, (Z2 i Hi). unfold col. ring. }
    (* R F = S F, F invertible *)
    destruct l_F as (F1 & F2). assert (R2 : nc Rm = n) by (rewrite <- R1; symmetry; apply (proj1 HR)). assert (S2 : nc S = n) by (rewrite <- S1; symmetry; apply (proj1 HS)).
    assert (RS : Rm *m F ==m S *m F).
    { split; [cbn [mmul nr]; congruence|]. split; [reflexivity|]. intros a i Ha Hi. cbn [mmul nr nc] in Ha, Hi. rewrite !mmul_ent_mvec. change (fun r0 => ent F r0 i) with (col F i). rewrite RV by congruence. assert (Hi' : (i < nr S)%nat) by congruence. rewrite (eigh_vec S mu F i HF Hi' a) by congruence. reflexivity. }
    pose proof (eigh_right S mu F HF) as FR. rewrite S1 in FR.
    etransitivity; [symmetry; apply (mmul_id_r S n); congruence|]. etransitivity; [apply mmul_eq_r; [cbn [mid nr]; congruence | symmetry; exact FR]|]. etransitivity; [symmetry; apply mmul_assoc|]. etransitivity; [apply mmul_eq_l; symmetry; exact RS|]. etransitivity; [apply mmul_assoc|]. etransitivity; [apply mmul_eq_r; [cbn [mmul nr]; congruence | exact FR]|]. apply mmul_id_r. congruence.
  Qed.
End Lik.
