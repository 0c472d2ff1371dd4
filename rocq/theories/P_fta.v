(** The fundamental theorem of algebra, so that the contracts of numpy.linalg.eigvals and numpy.roots can be shown to be
    satisfiable for every order. *)
From Coq Require Import Lra.
From Verif Require Import Base_Np Base_Lin Base_Trig S_subspace P_subspace P_spectral.
Open Scope C_scope.

Local Arguments Cmod x%C_scope.
(** polynomial, lowest degree first *)
Fixpoint pe (l : list C) (z : C) : C := match l with [] => RtoC 0 | a :: l' => a + z * pe l' z end.
Definition nonconst (l : list C) : Prop := exists i, (1 <= i)%nat /\ nth i l (RtoC 0) <> RtoC 0.

Lemma nonconst_cons a l : nonconst (a :: l) -> nonconst l \/ (nth 0 l (RtoC 0) <> RtoC 0 /\ forall z, pe l z = nth 0 l (RtoC 0)).
Proof.
  intros ([|i] & Hi & N); [lia|]. cbn in N. destruct (pivot_dec (List.length l) (fun i => nth (S i) l (RtoC 0))) as [(j & _ & Nj)|Z]; [left; exists (S j); split; [lia | exact Nj]|].
  assert (Z' : forall j, nth (S j) l (RtoC 0) = RtoC 0) by (intros j; destruct (Nat.lt_ge_cases j (List.length l)) as [H|H]; [now apply Z | apply nth_overflow; lia]).
  right. destruct i as [|i]; [|elim N; apply Z']. split; [exact N|]. destruct l as [|b l]; [reflexivity|]. cbn [nth pe] in *. assert (E : forall z, pe l z = RtoC 0).
  { clear - Z'. induction l as [|c l IH]; [reflexivity|]. intros z. cbn [pe]. rewrite IH; [|intros j; apply (Z' (S j))]. specialize (Z' O). cbn in Z'. rewrite Z'. ring. }
  intros z. rewrite E. ring.
Qed.
Lemma pe_const l : ~ nonconst l -> forall z, pe l z = nth 0 l (RtoC 0).
Proof.
  destruct l as [|a l]; [reflexivity|]. intros N z. cbn [pe nth]. assert (E : pe l z = RtoC 0); [|rewrite E; ring].
  assert (Z : forall j, nth j l (RtoC 0) = RtoC 0). { intros j. destruct (C_eq_dec (nth j l (RtoC 0)) (RtoC 0)) as [E|E]; [exact E|]. elim N. exists (S j). split; [lia | exact E]. }
  clear N. induction l as [|c l IH]; [reflexivity|]. cbn [pe]. rewrite IH; [|intros j; apply (Z (S j))]. specialize (Z O). cbn in Z. rewrite Z. ring.
Qed.
Lemma nonconst_dec l : {nonconst l} + {~ nonconst l}.
Proof.
  destruct (pivot_dec (List.length l) (fun i => nth (S i) l (RtoC 0))) as [(j & _ & Nj)|Z]; [left; exists (S j); split; [lia | exact Nj]|].
  right. intros ([|i] & Hi & N); [lia|]. apply N. destruct (Nat.lt_ge_cases i (List.length l)) as [H|H]; [now apply Z | apply nth_overflow; lia].
Qed.

Lemma Cmod_ge_diff (x y : C) : (Cmod x - Cmod y <= Cmod (x + y))%R.
Proof. pose proof (Cmod_triangle (x + y) (- y)) as H. rewrite Cmod_opp in H. replace (x + y + - y) with x in H by ring. lra. Qed.
Lemma growth l : nonconst l -> forall K : R, exists M, (0 < M)%R /\ forall z, (M <= Cmod z)%R -> (K <= Cmod (pe l z))%R.
Proof.
  induction l as [|a l IH]; intros N K; [destruct N as ([|i] & _ & N); elim N; reflexivity|]. apply nonconst_cons in N. cbn [pe]. pose proof (Cmod_ge_0 a) as A0.
  destruct N as [N|(N & E)].
  - destruct (IH N 1%R) as (M & M0 & H). exists (M + Rabs K + Cmod a)%R. pose proof (Rabs_pos K) as K0. pose proof (Rle_abs K) as K1. split; [lra|]. intros z Hz. specialize (H z ltac:(lra)).
    rewrite Cplus_comm. eapply Rle_trans; [|apply Cmod_ge_diff]. rewrite Cmod_mult. pose proof (Cmod_ge_0 z). nra.
  - set (c := nth 0 l (RtoC 0)) in *. assert (C0 : (0 < Cmod c)%R) by (apply Cmod_gt_0; exact N). exists ((Rabs K + Cmod a) / Cmod c + 1)%R. pose proof (Rabs_pos K) as K0. pose proof (Rle_abs K) as K1.
    assert (Q : (0 <= (Rabs K + Cmod a) / Cmod c)%R) by (apply Rmult_le_pos; [lra | left; now apply Rinv_0_lt_compat]). split; [lra|]. intros z Hz. rewrite E, Cplus_comm. eapply Rle_trans; [|apply Cmod_ge_diff]. rewrite Cmod_mult.
    assert (Y : ((Rabs K + Cmod a) / Cmod c * Cmod c = Rabs K + Cmod a)%R) by (field; lra). nra.
Qed.
Lemma bounded l (M : R) : exists B, (0 <= B)%R /\ forall z, (Cmod z <= M)%R -> (Cmod (pe l z) <= B)%R.
Proof.
  induction l as [|a l (B & B0 & H)]; [exists 0%R; split; [lra|]; intros z _; cbn; rewrite Cmod_0; lra|].
  exists (Cmod a + Rabs M * B)%R. pose proof (Cmod_ge_0 a). pose proof (Rabs_pos M). split; [nra|]. intros z Hz. cbn [pe]. eapply Rle_trans; [apply Cmod_triangle|]. rewrite Cmod_mult. specialize (H z Hz). pose proof (Cmod_ge_0 z). pose proof (Rle_abs M). pose proof (Cmod_ge_0 (pe l z)).
  apply Rplus_le_compat_l. apply Rmult_le_compat; lra.
Qed.
Lemma lipschitz l (M : R) : exists L, (0 <= L)%R /\ forall z w, (Cmod z <= M)%R -> (Cmod w <= M)%R -> (Cmod (pe l z - pe l w) <= L * Cmod (z - w))%R.
Proof.
  induction l as [|a l (L & L0 & H)]; [exists 0%R; split; [lra|]; intros z w _ _; cbn; replace (RtoC 0 - RtoC 0) with (RtoC 0) by ring; rewrite Cmod_0; lra|].
  destruct (bounded l M) as (B & B0 & HB). exists (Rabs M * L + B)%R. pose proof (Rabs_pos M). split; [nra|]. intros z w Hz Hw. cbn [pe].
  replace (a + z * pe l z - (a + w * pe l w)) with (z * (pe l z - pe l w) + (z - w) * pe l w) by ring. eapply Rle_trans; [apply Cmod_triangle|]. rewrite !Cmod_mult.
  specialize (H z w Hz Hw). specialize (HB w Hw). pose proof (Cmod_ge_0 z). pose proof (Rle_abs M). pose proof (Cmod_ge_0 (z - w)). pose proof (Cmod_ge_0 (pe l z - pe l w)).
  rewrite Rmult_plus_distr_r. apply Rplus_le_compat; [|rewrite (Rmult_comm B); now apply Rmult_le_compat_l].
  rewrite Rmult_assoc. apply Rmult_le_compat; lra.
Qed.

(** *** minimum of |p| over a square, then over the plane *)
Lemma lip_cont (f : R -> R) : (forall M, exists L, forall x y, (Rabs x <= M)%R -> (Rabs y <= M)%R -> (Rabs (f x - f y) <= L * Rabs (x - y))%R) -> forall c, continuity_pt f c.
Proof.
  intros H c. destruct (H (Rabs c + 1)%R) as (L & HL). intros eps He. exists (Rmin 1 (eps / (Rabs L + 1))). pose proof (Rabs_pos L) as L0.
  assert (E0 : (0 < eps / (Rabs L + 1))%R) by (apply Rdiv_lt_0_compat; lra). split; [apply Rmin_pos; lra|]. intros x (_ & Hx). cbn in Hx |- *. unfold R_dist in *.
  pose proof (Rmin_l 1 (eps / (Rabs L + 1))). pose proof (Rmin_r 1 (eps / (Rabs L + 1))).
  assert (X : (Rabs x <= Rabs c + 1)%R). { replace x with (c + (x - c))%R by ring. eapply Rle_trans; [apply Rabs_triang|]. lra. }
  specialize (HL x c X ltac:(lra)). pose proof (Rle_abs L). pose proof (Rabs_pos (x - c)). eapply Rle_lt_trans; [exact HL|]. apply Rle_lt_trans with ((Rabs L + 1) * Rabs (x - c))%R; [nra|].
  assert (Y : ((Rabs L + 1) * (eps / (Rabs L + 1)) = eps)%R) by (field; lra). rewrite <- Y at 1. apply Rmult_lt_compat_l; lra.
Qed.
Lemma Cmod_xy (x y : R) : (Cmod (x, y) <= Rabs x + Rabs y)%R.
Proof.
  replace ((x, y) : C) with (RtoC x + RtoC y * (0, 1)%R) by (unfold RtoC, Cplus, Cmult; cbn; f_equal; ring). eapply Rle_trans; [apply Cmod_triangle|]. rewrite Cmod_mult, !Cmod_R.
  replace (Cmod (0, 1)%R) with 1%R; [lra|]. unfold Cmod. cbn. replace (0 * (0 * 1) + 1 * (1 * 1))%R with 1%R by ring. now rewrite sqrt_1.
Qed.
Lemma Cmod_sub_abs (a b : C) : (Rabs (Cmod a - Cmod b) <= Cmod (a - b))%R.
Proof.
  pose proof (Cmod_triangle (a - b) b) as H1. replace (a - b + b) with a in H1 by ring. pose proof (Cmod_triangle (b - a) a) as H2. replace (b - a + a) with b in H2 by ring.
  replace (b - a) with (- (a - b)) in H2 by ring. rewrite Cmod_opp in H2. apply Rabs_le. lra.
Qed.
Lemma abs_between (x M : R) : (Rabs x <= M)%R -> (- M <= x <= M)%R.
Proof. intros H. pose proof (Rle_abs x). pose proof (Rle_abs (- x)) as H2. rewrite Rabs_Ropp in H2. lra. Qed.
Section MinSquare.
  Context (l : list C) (M : R).
  Hypothesis M0 : (0 < M)%R.
  Let h (x y : R) : R := Cmod (pe l (x, y)).
  Lemma h_lip_y x : forall K, exists L, forall a b, (Rabs a <= K)%R -> (Rabs b <= K)%R -> (Rabs (h x a - h x b) <= L * Rabs (a - b))%R.
  Proof.
    intros K. destruct (lipschitz l (Rabs x + K)) as (L & L0 & H). exists L. intros a b Ha Hb. unfold h. eapply Rle_trans; [apply Cmod_sub_abs|]. eapply Rle_trans; [apply H; (eapply Rle_trans; [apply Cmod_xy|]; lra)|]. apply Rmult_le_compat_l; [exact L0|].
    replace (((x, a) : C) - (x, b)) with ((0, a - b)%R : C) by (unfold Cminus, Cplus, Copp; cbn; f_equal; ring). eapply Rle_trans; [apply Cmod_xy|]. rewrite Rabs_R0. lra.
  Qed.
  Lemma h_lip_x : forall K, exists L, forall a b y, (Rabs a <= K)%R -> (Rabs b <= K)%R -> (- M <= y <= M)%R -> (Rabs (h a y - h b y) <= L * Rabs (a - b))%R.
  Proof.
    intros K. destruct (lipschitz l (K + M)) as (L & L0 & H). exists L. intros a b y Ha Hb Hy. assert (Rabs y <= M)%R by (apply Rabs_le; lra). unfold h. eapply Rle_trans; [apply Cmod_sub_abs|]. eapply Rle_trans; [apply H; (eapply Rle_trans; [apply Cmod_xy|]; lra)|]. apply Rmult_le_compat_l; [exact L0|].
    replace (((a, y) : C) - (b, y)) with ((a - b, 0)%R : C) by (unfold Cminus, Cplus, Copp; cbn; f_equal; ring). eapply Rle_trans; [apply Cmod_xy|]. rewrite Rabs_R0. lra.
  Qed.
  Lemma g_lub x : {m | is_lub (fun r => exists y, (- M <= y <= M)%R /\ r = (- h x y)%R) m}.
  Proof.
    apply completeness.
    - exists 0%R. intros r (y & _ & ->). unfold h. pose proof (Cmod_ge_0 (pe l (x, y))). lra.
    - exists (- h x 0)%R, 0%R. split; [lra | reflexivity].
  Qed.
  Let g (x : R) : R := (- proj1_sig (g_lub x))%R.
  Lemma g_spec x : (forall y, (- M <= y <= M)%R -> (g x <= h x y)%R) /\ exists y, (- M <= y <= M)%R /\ g x = h x y.
  Proof.
    unfold g. destruct (g_lub x) as (m & U & W). cbn [proj1_sig]. assert (A : forall y, (- M <= y <= M)%R -> (- m <= h x y)%R). { intros y Hy. specialize (U (- h x y)%R (ex_intro _ y (conj Hy eq_refl))). lra. }
    split; [exact A|]. destruct (continuity_ab_min (h x) (- M) M ltac:(lra)) as (y & Hm & Hy); [intros c _; apply lip_cont, h_lip_y|]. exists y. split; [exact Hy|]. apply Rle_antisym; [now apply A|].
    assert (m <= - h x y)%R; [|lra]. apply W. intros r (y' & Hy' & ->). specialize (Hm y' Hy'). lra.
  Qed.
  Lemma min_square : exists z0 : C, (Rabs (Re z0) <= M)%R /\ (Rabs (Im z0) <= M)%R /\ forall z : C, (Rabs (Re z) <= M)%R -> (Rabs (Im z) <= M)%R -> (Cmod (pe l z0) <= Cmod (pe l z))%R.
  Proof.
    destruct (continuity_ab_min g (- M) M ltac:(lra)) as (x & Hm & Hx).
    { intros c _. apply lip_cont. intros K. destruct (h_lip_x K) as (L & HL). exists L. intros a b Ha Hb.
      destruct (g_spec a) as (A1 & ya & Ya & Ea), (g_spec b) as (B1 & yb & Yb & Eb). pose proof (HL a b ya Ha Hb Ya) as H1. pose proof (HL a b yb Ha Hb Yb) as H2. specialize (A1 yb Yb). specialize (B1 ya Ya).
      apply Rabs_le. pose proof (Rle_abs (h a ya - h b ya)). pose proof (Rle_abs (- (h a ya - h b ya))). rewrite Rabs_Ropp in *. pose proof (Rle_abs (h a yb - h b yb)). pose proof (Rle_abs (- (h a yb - h b yb))). rewrite Rabs_Ropp in *. lra. }
    destruct (g_spec x) as (G1 & y & Hy & E). exists (x, y). cbn [Re Im fst snd]. split; [apply Rabs_le; lra|]. split; [apply Rabs_le; lra|]. intros (x', y') Hx' Hy'. cbn [Re Im fst snd] in *.
    change (h x y <= h x' y')%R. rewrite <- E. apply Rle_trans with (g x'); [apply Hm | apply (proj1 (g_spec x'))]; [now apply abs_between | now apply abs_between].
  Qed.
End MinSquare.
Lemma Re_le_Cmod (z : C) : (Rabs (Re z) <= Cmod z)%R /\ (Rabs (Im z) <= Cmod z)%R.
Proof.
  destruct z as (x, y). unfold Cmod. cbn [Re Im fst snd]. split; rewrite <- sqrt_Rsqr_abs; apply sqrt_le_1_alt; unfold Rsqr; cbn; nra.
Qed.
Lemma min_plane l : nonconst l -> exists z0, forall z, (Cmod (pe l z0) <= Cmod (pe l z))%R.
Proof.
  intros N. destruct (growth l N (Cmod (pe l (RtoC 0)))) as (M & M0 & H). destruct (min_square l M M0) as (z0 & _ & _ & Hm). exists z0. intros z.
  destruct (Rle_dec (Rabs (Re z)) M) as [X|X]; [destruct (Rle_dec (Rabs (Im z)) M) as [Y|Y]|]; [now apply Hm| |].
  - apply Rle_trans with (Cmod (pe l (RtoC 0))); [apply Hm; cbn; rewrite Rabs_R0; lra | apply H]. pose proof (proj2 (Re_le_Cmod z)). lra.
  - apply Rle_trans with (Cmod (pe l (RtoC 0))); [apply Hm; cbn; rewrite Rabs_R0; lra | apply H]. pose proof (proj1 (Re_le_Cmod z)). lra.
Qed.

(** *** descent *)
Fixpoint padd (p q : list C) : list C := match p, q with [], _ => q | _, [] => p | a :: p', b :: q' => (a + b) :: padd p' q' end.
Lemma pe_padd p : forall q z, pe (padd p q) z = pe p z + pe q z.
Proof. induction p as [|a p IH]; intros [|b q] z; cbn [padd pe]; rewrite ?IH; ring. Qed.
Lemma pe_scal c p z : pe (map (fun a => c * a) p) z = c * pe p z.
Proof. induction p as [|a p IH]; cbn [map pe]; rewrite ?IH; ring. Qed.
Lemma shift z0 l : exists q, forall w, pe q w = pe l (z0 + w).
Proof.
  induction l as [|a l (q & H)]; [exists []; reflexivity|]. exists (padd [a] (padd (map (fun b => z0 * b) q) (RtoC 0 :: q))). intros w. rewrite !pe_padd, pe_scal. cbn [pe]. rewrite H. ring.
Qed.
Lemma const_not_growing l (c : C) : nonconst l -> ~ forall z, pe l z = c.
Proof.
  intros N H. destruct (growth l N (Cmod c + 1)) as (M & M0 & G). specialize (G (RtoC M)). rewrite H, Cmod_R, Rabs_pos_eq in G by lra. specialize (G ltac:(lra)). lra.
Qed.
Lemma leading l : (exists i, nth i l (RtoC 0) <> RtoC 0) -> exists k b r, b <> RtoC 0 /\ forall w, pe l w = cpow w k * (b + w * pe r w).
Proof.
  induction l as [|a l IH]; intros (i & N); [destruct i; elim N; reflexivity|]. destruct (C_eq_dec a (RtoC 0)) as [->|Na].
  - destruct IH as (k & b & r & Nb & H); [destruct i as [|i]; [elim N; reflexivity | exists i; exact N]|]. exists (S k), b, r. split; [exact Nb|]. intros w. cbn [pe]. rewrite H. cbn [cpow]. ring.
  - exists O, a, l. split; [exact Na|]. intros w. cbn [pe cpow]. ring.
Qed.
Lemma polar (c : C) : exists t, c = RtoC (Cmod c) * cis t.
Proof.
  destruct c as (x, y). exists (atan2 y x). unfold Cmod, cis, RtoC, Cmult. cbn [fst snd]. replace (x ^ 2 + y ^ 2)%R with (x * x + y * y)%R by ring. f_equal.
  - rewrite Rmult_0_l, Rminus_0_r. symmetry. apply atan2_cos.
  - rewrite Rmult_0_l, Rplus_0_r. symmetry. apply atan2_sin.
Qed.
Lemma cpow_mult a b k : cpow (a * b) k = cpow a k * cpow b k.
Proof. induction k as [|k IH]; cbn [cpow]; [ring | rewrite IH; ring]. Qed.
Lemma cpow_RtoC (r : R) k : cpow (RtoC r) k = RtoC (r ^ k).
Proof. induction k as [|k IH]; cbn [cpow pow]; [reflexivity | now rewrite IH, <- RtoC_mult]. Qed.
Lemma kth_root k (c : C) : (1 <= k)%nat -> exists w, cpow w k = c.
Proof.
  intros Hk. destruct (C_eq_dec c (RtoC 0)) as [->|N]; [exists (RtoC 0); destruct k; [lia|]; cbn [cpow]; ring|]. destruct (polar c) as (t & E). assert (M0 : (0 < Cmod c)%R) by (now apply Cmod_gt_0). assert (K0 : (0 < INR k)%R) by (apply lt_0_INR; lia).
  exists (RtoC (Rpower (Cmod c) (/ INR k)) * cis (t / INR k)). rewrite cpow_mult, cpow_RtoC, cpow_cis. etransitivity; [|symmetry; exact E]. f_equal; f_equal.
  - rewrite <- Rpower_pow by apply exp_pos. rewrite Rpower_mult, Rinv_l by lra. rewrite Rpower_1 by exact M0. reflexivity.
  - field. lra.
Qed.
Lemma Cmod_cpow w k : Cmod (cpow w k) = (Cmod w ^ k)%R.
Proof. induction k as [|k IH]; cbn [cpow pow]; [apply Cmod_1 | now rewrite Cmod_mult, IH]. Qed.
Lemma descent l z0 : nonconst l -> pe l z0 <> RtoC 0 -> exists z, (Cmod (pe l z) < Cmod (pe l z0))%R.
Proof.
  intros N NZ. destruct (shift z0 l) as (q & Hq). assert (Nq : nonconst q).
  { destruct (nonconst_dec q) as [Y|Y]; [exact Y|]. exfalso. apply (const_not_growing l (nth 0 q (RtoC 0)) N). intros z. replace z with (z0 + (z - z0)) by ring. rewrite <- Hq. now apply pe_const. }
  destruct q as [|b0 q]; [destruct Nq as ([|i] & _ & X); elim X; reflexivity|].
  assert (NQ : exists i, nth i q (RtoC 0) <> RtoC 0) by (destruct Nq as ([|i] & Hi & X); [lia | exists i; exact X]). destruct (leading q NQ) as (k & b & r & Nb & Hr).
  assert (E0 : pe l z0 = b0). { replace z0 with (z0 + RtoC 0) by ring. rewrite <- Hq. cbn [pe]. ring. }
  assert (EQ : forall w, pe l (z0 + w) = b0 + cpow w (S k) * (b + w * pe r w)) by (intros w; rewrite <- Hq; cbn [pe]; rewrite Hr; cbn [cpow]; ring).
  rewrite E0 in *. destruct (kth_root (S k) (- (b0 / b)) ltac:(lia)) as (c & Hc). destruct (bounded r (Cmod c)) as (B & B0 & HB).
  assert (M0 : (0 < Cmod b0)%R) by (now apply Cmod_gt_0). set (Q := (Cmod (b0 / b) * Cmod c * B)%R). assert (Q0 : (0 <= Q)%R) by (unfold Q; pose proof (Cmod_ge_0 (b0 / b)); pose proof (Cmod_ge_0 c); apply Rmult_le_pos; [now apply Rmult_le_pos | exact B0]).
  set (t := Rmin 1 (Cmod b0 / (2 * (Q + 1)))). assert (T2 : (0 < Cmod b0 / (2 * (Q + 1)))%R) by (apply Rdiv_lt_0_compat; lra). assert (T0 : (0 < t)%R) by (apply Rmin_pos; lra). assert (T1 : (t <= 1)%R) by apply Rmin_l.
  assert (TQ : (t * Q < Cmod b0)%R).
  { apply Rle_lt_trans with (Cmod b0 / (2 * (Q + 1)) * Q)%R; [apply Rmult_le_compat_r; [exact Q0 | apply Rmin_r]|]. replace (Cmod b0 / (2 * (Q + 1)) * Q)%R with (Cmod b0 * (Q / (2 * (Q + 1))))%R by (field; lra).
    assert (X : (Q / (2 * (Q + 1)) < 1)%R) by (apply (Rmult_lt_reg_r (2 * (Q + 1))); [lra|]; unfold Rdiv; rewrite Rmult_assoc, Rinv_l by lra; lra). nra. }
  clearbody t. exists (z0 + RtoC t * c). rewrite EQ, cpow_mult, cpow_RtoC, Hc. set (w := RtoC t * c). assert (P0 : (0 < t ^ S k <= 1)%R) by (split; [now apply pow_lt | rewrite <- (pow1 (S k)); apply pow_incr; lra]).
  replace (b0 + RtoC (t ^ S k) * - (b0 / b) * (b + w * pe r w)) with (RtoC (1 - t ^ S k) * b0 + RtoC (t ^ S k) * (- (b0 / b) * w * pe r w)).
  2:{ rewrite RtoC_minus. field. exact Nb. }
  eapply Rle_lt_trans; [apply Cmod_triangle|]. rewrite !Cmod_mult, !Cmod_R, Cmod_opp, (Rabs_pos_eq (1 - t ^ S k)), (Rabs_pos_eq (t ^ S k)) by lra.
  assert (HW : (Cmod w = t * Cmod c)%R) by (unfold w; rewrite Cmod_mult, Cmod_R, Rabs_pos_eq by lra; reflexivity). rewrite HW.
  assert (HB' : (Cmod (pe r w) <= B)%R) by (apply HB; rewrite HW; pose proof (Cmod_ge_0 c); nra).
  assert (X : (Cmod (b0 / b) * (t * Cmod c) * Cmod (pe r w) <= t * Q)%R).
  { unfold Q. replace (t * (Cmod (b0 / b) * Cmod c * B))%R with (Cmod (b0 / b) * (t * Cmod c) * B)%R by ring. apply Rmult_le_compat_l; [|exact HB']. apply Rmult_le_pos; [apply Cmod_ge_0|]. apply Rmult_le_pos; [lra | apply Cmod_ge_0]. }
  nra.
Qed.
Theorem fta l : nonconst l -> exists z, pe l z = RtoC 0.
Proof.
  intros N. destruct (min_plane l N) as (z0 & H). exists z0. destruct (C_eq_dec (pe l z0) (RtoC 0)) as [E|NZ]; [exact E|]. exfalso. destruct (descent l z0 N NZ) as (z & D). specialize (H z). lra.
Qed.
