(** Trigonometric polynomials, their derivatives, and strict quasi-convexity where the second derivative is positive. *)
From Coq Require Import Lra Lia.
From Verif Require Import Base_Np Base_Trig Base_Lin S_subspace P_subspace.
Open Scope R_scope.

Definition freq (i j : nat) : R := INR j - INR i.
Definition tq (n : nat) (al be : nat -> nat -> R) (x : R) : R :=
  rsum n (fun i => rsum n (fun j => al i j * cos (freq i j * x) + be i j * sin (freq i j * x))).
Definition tda (al be : nat -> nat -> R) i j := freq i j * be i j.
Definition tdb (al be : nat -> nat -> R) i j := - (freq i j * al i j).

Lemma rsum_deriv n (f f' : nat -> R -> R) x : (forall i, (i < n)%nat -> derivable_pt_lim (f i) x (f' i x)) -> derivable_pt_lim (fun y => rsum n (fun i => f i y)) x (rsum n (fun i => f' i x)).
Proof.
  induction n as [|n IH]; intros H; cbn [rsum].
  - apply derivable_pt_lim_const.
  - apply (derivable_pt_lim_plus (fun y => rsum n (fun i => f i y)) (f n)); [apply IH; intros; apply H; lia|apply H; lia].
Qed.
Lemma tq_deriv n al be x : derivable_pt_lim (tq n al be) x (tq n (tda al be) (tdb al be) x).
Proof.
  unfold tq. apply (rsum_deriv n (fun i y => rsum n (fun j => al i j * cos (freq i j * y) + be i j * sin (freq i j * y)))
    (fun i y => rsum n (fun j => tda al be i j * cos (freq i j * y) + tdb al be i j * sin (freq i j * y)))).
  intros i Hi. apply (rsum_deriv n (fun j y => al i j * cos (freq i j * y) + be i j * sin (freq i j * y)) (fun j y => tda al be i j * cos (freq i j * y) + tdb al be i j * sin (freq i j * y))).
  intros j Hj. unfold tda, tdb. set (w := freq i j). set (a := al i j). set (b := be i j).
  assert (W : derivable_pt_lim (fun y => w * y) x w).
  { assert (X := derivable_pt_lim_scal id w x 1 (derivable_pt_lim_id x)). rewrite Rmult_1_r in X. exact X. }
  replace (w * b * cos (w * x) + - (w * a) * sin (w * x)) with (a * (- sin (w * x) * w) + b * (cos (w * x) * w)) by ring.
  apply (derivable_pt_lim_plus (fun y => a * cos (w * y)) (fun y => b * sin (w * y))).
  - apply (derivable_pt_lim_scal (fun y => cos (w * y)) a). apply (derivable_pt_lim_comp (fun y => w * y) cos x w (- sin (w * x)) W). apply derivable_pt_lim_cos.
  - apply (derivable_pt_lim_scal (fun y => sin (w * y)) b). apply (derivable_pt_lim_comp (fun y => w * y) sin x w (cos (w * x)) W). apply derivable_pt_lim_sin.
Qed.
Lemma freq_bound n i j : (i < n)%nat -> (j < n)%nat -> Rabs (freq i j) <= INR n.
Proof.
  intros Hi Hj. unfold freq. pose proof (pos_INR i). pose proof (pos_INR j). apply lt_INR in Hi. apply lt_INR in Hj. apply Rabs_le. lra.
Qed.
Lemma rsum_abs n f B : (forall i, (i < n)%nat -> Rabs (f i) <= B) -> Rabs (rsum n f) <= INR n * B.
Proof.
  induction n as [|n IH]; intros H; cbn [rsum]. { rewrite Rabs_R0. cbn. lra. }
  rewrite S_INR. eapply Rle_trans; [apply Rabs_triang|]. assert (Rabs (rsum n f) <= INR n * B) by (apply IH; intros; apply H; lia). pose proof (H n ltac:(lia)). lra.
Qed.
(** values of two polynomials with close coefficients *)
Lemma tq_close n al be al' be' e x : (forall i j, (i < n)%nat -> (j < n)%nat -> Rabs (al i j - al' i j) <= e /\ Rabs (be i j - be' i j) <= e) ->
  Rabs (tq n al be x - tq n al' be' x) <= INR n * (INR n * (2 * e)).
Proof.
  intros H. unfold tq. rewrite <- rsum_minus. apply rsum_abs. intros i Hi. rewrite <- rsum_minus. apply rsum_abs. intros j Hj. destruct (H i j Hi Hj) as (H1 & H2).
  replace (al i j * cos (freq i j * x) + be i j * sin (freq i j * x) - (al' i j * cos (freq i j * x) + be' i j * sin (freq i j * x)))
    with ((al i j - al' i j) * cos (freq i j * x) + (be i j - be' i j) * sin (freq i j * x)) by ring.
  eapply Rle_trans; [apply Rabs_triang|]. rewrite !Rabs_mult.
  assert (C1 : Rabs (cos (freq i j * x)) <= 1) by (apply Rabs_le; pose proof (COS_bound (freq i j * x)); lra).
  assert (S1 : Rabs (sin (freq i j * x)) <= 1) by (apply Rabs_le; pose proof (SIN_bound (freq i j * x)); lra).
  pose proof (Rabs_pos (cos (freq i j * x))). pose proof (Rabs_pos (sin (freq i j * x))). pose proof (Rabs_pos (al i j - al' i j)). pose proof (Rabs_pos (be i j - be' i j)). nra.
Qed.
Lemma td_close n al be al' be' e : (forall i j, (i < n)%nat -> (j < n)%nat -> Rabs (al i j - al' i j) <= e /\ Rabs (be i j - be' i j) <= e) ->
  forall i j, (i < n)%nat -> (j < n)%nat -> Rabs (tda al be i j - tda al' be' i j) <= INR n * e /\ Rabs (tdb al be i j - tdb al' be' i j) <= INR n * e.
Proof.
  intros H i j Hi Hj. destruct (H i j Hi Hj) as (H1 & H2). pose proof (freq_bound n i j Hi Hj) as F. unfold tda, tdb. pose proof (Rabs_pos (freq i j)).
  replace (freq i j * be i j - freq i j * be' i j) with (freq i j * (be i j - be' i j)) by ring.
  replace (- (freq i j * al i j) - - (freq i j * al' i j)) with (- (freq i j * (al i j - al' i j))) by ring. rewrite Rabs_Ropp, !Rabs_mult.
  pose proof (Rabs_pos (al i j - al' i j)). pose proof (Rabs_pos (be i j - be' i j)). split; nra.
Qed.
(** continuity *)
Lemma tq_cont n al be x e : 0 < e -> exists r, 0 < r /\ forall y, Rabs (y - x) < r -> Rabs (tq n al be y - tq n al be x) < e.
Proof.
  intros He. assert (D : derivable_pt (tq n al be) x) by (exists (tq n (tda al be) (tdb al be) x); apply tq_deriv).
  apply derivable_continuous_pt in D. destruct (D e He) as (r & Hr & H). exists r. split; [exact Hr|]. intros y Hy. cbn in H. unfold R_dist in H.
  destruct (Req_dec y x) as [->|NE]; [rewrite Rminus_eq_0, Rabs_R0; exact He|]. apply H. split; [|exact Hy]. split; [exact I|]. auto.
Qed.
(** mean value theorem *)
Lemma tq_mvt n al be a b : a < b -> exists c, tq n al be b - tq n al be a = tq n (tda al be) (tdb al be) c * (b - a) /\ a < c < b.
Proof. intros H. apply (MVT_cor2 (tq n al be) (tq n (tda al be) (tdb al be)) a b H). intros c _. apply tq_deriv. Qed.
(** positive second derivative: strictly quasi-convex *)
Definition tq2 n al be := tq n (tda (tda al be) (tdb al be)) (tdb (tda al be) (tdb al be)).
Lemma tq_qconvex n al be lo hi a b c : (forall x, lo <= x <= hi -> 0 < tq2 n al be x) -> lo <= a -> c <= hi -> a < b -> b < c -> tq n al be b < tq n al be a \/ tq n al be b < tq n al be c.
Proof.
  intros H La Lc Lab Lbc. destruct (Rlt_le_dec (tq n al be b) (tq n al be a)) as [L|L]; [now left|]. destruct (Rlt_le_dec (tq n al be b) (tq n al be c)) as [L'|L']; [now right|]. exfalso.
  destruct (tq_mvt n al be a b Lab) as (x & Ex & Hx). destruct (tq_mvt n al be b c Lbc) as (y & Ey & Hy).
  destruct (tq_mvt n (tda al be) (tdb al be) x y ltac:(lra)) as (z & Ez & Hz). pose proof (H z ltac:(lra)) as P. unfold tq2 in P.
  assert (0 <= tq n (tda al be) (tdb al be) x). { destruct (Rle_lt_dec 0 (tq n (tda al be) (tdb al be) x)); [assumption|]. nra. }
  assert (tq n (tda al be) (tdb al be) y <= 0). { destruct (Rle_lt_dec (tq n (tda al be) (tdb al be) y) 0); [assumption|]. nra. }
  nra.
Qed.
(** a minimum with quadratic growth has a positive second derivative *)
Lemma tq_growth n al be x kap r : 0 < kap -> 0 < r -> tq n al be x = 0 -> (forall y, Rabs (y - x) <= r -> kap * (y - x) ^ 2 <= tq n al be y) ->
  exists e, 0 < e /\ forall y, Rabs (y - x) <= e -> e <= tq2 n al be y.
Proof.
  intros Hk Hr Z G.
  assert (D0 : tq n (tda al be) (tdb al be) x = 0).
  { assert (pr : derivable_pt (tq n al be) x) by (exists (tq n (tda al be) (tdb al be) x); apply tq_deriv).
    rewrite <- (derive_pt_eq_0 (tq n al be) x _ pr (tq_deriv n al be x)). apply (deriv_minimum (tq n al be) (x - r) (x + r) x pr); [lra|lra|].
    intros y Y1 Y2. rewrite Z. eapply Rle_trans; [|apply G; apply Rabs_le; lra]. apply Rmult_le_pos; [lra|apply pow2_ge_0]. }
  assert (A : forall t, 0 < t <= r -> exists y, x < y < x + t /\ kap <= tq2 n al be y).
  { intros t Ht. destruct (tq_mvt n al be x (x + t) ltac:(lra)) as (y & Ey & Hy). destruct (tq_mvt n (tda al be) (tdb al be) x y ltac:(lra)) as (z & Ez & Hz).
    pose proof (G (x + t) ltac:(apply Rabs_le; lra)) as Gt. replace (x + t - x) with t in * by ring. rewrite Z, Rminus_0_r in Ey. rewrite D0, Rminus_0_r in Ez. rewrite Ey, Ez in Gt.
    exists z. split; [lra|]. unfold tq2. set (q := tq n (tda (tda al be) (tdb al be)) (tdb (tda al be) (tdb al be)) z) in *.
    destruct (Rle_lt_dec kap q) as [L|L]; [exact L|]. exfalso.
    assert (T2 : 0 < t ^ 2) by (apply pow_lt; lra).
    destruct (Rle_lt_dec 0 q) as [Q|Q].
    - assert (q * (y - x) * t <= q * t * t). { apply Rmult_le_compat_r; [lra|]. apply Rmult_le_compat_l; lra. } assert (q * t * t < kap * t ^ 2) by nra. lra.
    - assert (q * (y - x) * t <= 0). { assert (0 < (y - x) * t) by (apply Rmult_lt_0_compat; lra). nra. } nra. }
  destruct (tq_cont n (tda (tda al be) (tdb al be)) (tdb (tda al be) (tdb al be)) x (kap / 4) ltac:(lra)) as (r0 & Hr0 & CT). fold (tq2 n al be) in CT.
  assert (K2 : kap / 2 <= tq2 n al be x).
  { destruct (A (Rmin (r0 / 2) r)) as (y & Hy & Ky). { split; [apply Rmin_glb_lt; lra|apply Rmin_r]. }
    pose proof (Rmin_l (r0 / 2) r). pose proof (CT y ltac:(apply Rabs_def1; lra)) as C. apply Rabs_def2 in C. lra. }
  exists (Rmin (r0 / 2) (kap / 4)). split; [apply Rmin_glb_lt; lra|]. intros y Hy. pose proof (Rmin_l (r0 / 2) (kap / 4)). pose proof (Rmin_r (r0 / 2) (kap / 4)).
  pose proof (CT y ltac:(lra)) as C. apply Rabs_def2 in C. lra.
Qed.

(** the projected power along a uniform linear array *)
Lemma power_tq En n x : nr En = n ->
  proj_power En (fun i => cpow (cis x) i) = tq n (fun i j => Re (ent (En *m mher En) i j)) (fun i j => - Im (ent (En *m mher En) i j)) x.
Proof.
  intros N. assert (E : RtoC (proj_power En (fun i => cpow (cis x) i)) = qform (En *m mher En) (fun i => cpow (cis x) i)) by apply proj_power_qform.
  apply (f_equal Re) in E. rewrite Re_RtoC in E. rewrite E. 
  assert (d1 : nr (En *m mher En) = n) by exact N. assert (d2 : nc (En *m mher En) = n) by exact N. set (Q := En *m mher En) in *. unfold qform, tq. rewrite d1, d2, csum_Re. apply rsum_ext. intros i Hi. rewrite csum_Re. apply rsum_ext. intros j Hj.
  rewrite !cpow_cis. generalize (ent Q i j). intros q. unfold freq. rewrite Rmult_minus_distr_r, cos_minus, sin_minus. destruct q as (a, b). unfold cis, Cmult, Cconj, Re, Im. cbn [fst snd]. ring.
Qed.
