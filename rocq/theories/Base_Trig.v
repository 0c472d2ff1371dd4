(** arctan2 and a few trigonometric facts. *)
From Verif Require Export Base_Sum.
From Coq Require Export Ratan.
Open Scope R_scope.

(** np.arctan2(y, x) on real numbers.  IEEE signed zeros are not modelled:
    arctan2(0, 0) = 0. *)
Definition atan2 (y x : R) : R :=
  match total_order_T x 0 with
  | inleft (left _) => (* x < 0 *)
      if Rle_dec 0 y then atan (y / x) + PI else atan (y / x) - PI
  | inleft (right _) => (* x = 0 *)
      match total_order_T y 0 with
      | inleft (left _) => - (PI / 2)
      | inleft (right _) => 0
      | inright _ => PI / 2
      end
  | inright _ => atan (y / x)
  end.

Lemma cos_atan' x : cos (atan x) = 1 / sqrt (1 + x * x).
Proof. rewrite cos_atan. unfold Rsqr. reflexivity. Qed.
Lemma sin_atan' x : sin (atan x) = x / sqrt (1 + x * x).
Proof. rewrite sin_atan. unfold Rsqr. reflexivity. Qed.
Lemma sqrt_pos' a : 0 < a -> 0 < sqrt a. Proof. apply sqrt_lt_R0. Qed.
(** sqrt(x^2+y^2) in terms of y/x *)
Lemma hyp_ratio x y : x <> 0 -> sqrt (x * x + y * y) = Rabs x * sqrt (1 + (y / x) * (y / x)).
Proof.
  intros H. rewrite <- sqrt_Rsqr_abs. rewrite <- sqrt_mult.
  - f_equal. unfold Rsqr. field. exact H.
  - apply Rle_0_sqr.
  - nra.
Qed.
Lemma atan2_cos y x : sqrt (x * x + y * y) * cos (atan2 y x) = x.
Proof.
  unfold atan2. destruct (total_order_T x 0) as [[H|H]|H].
  - assert (Hs : 0 < sqrt (1 + (y / x) * (y / x))) by (apply sqrt_pos'; nra).
    assert (E : sqrt (x * x + y * y) * (- cos (atan (y / x))) = x).
    { rewrite (hyp_ratio x y) by lra. rewrite cos_atan', Rabs_left by lra. field. lra. }
    destruct (Rle_dec 0 y).
    + rewrite cos_plus, cos_PI, sin_PI. lra.
    + unfold Rminus. rewrite cos_plus, cos_neg, sin_neg, cos_PI, sin_PI. lra.
  - subst x. destruct (total_order_T y 0) as [[H|H]|H].
    + rewrite cos_neg, cos_PI2. ring.
    + subst y. replace (0 * 0 + 0 * 0) with 0 by ring. rewrite sqrt_0. ring.
    + rewrite cos_PI2. ring.
  - assert (Hs : 0 < sqrt (1 + (y / x) * (y / x))) by (apply sqrt_pos'; nra).
    rewrite (hyp_ratio x y) by lra. rewrite cos_atan', Rabs_right by lra. field. lra.
Qed.
Lemma atan2_sin y x : sqrt (x * x + y * y) * sin (atan2 y x) = y.
Proof.
  unfold atan2. destruct (total_order_T x 0) as [[H|H]|H].
  - assert (Hs : 0 < sqrt (1 + (y / x) * (y / x))) by (apply sqrt_pos'; nra).
    assert (E : sqrt (x * x + y * y) * (- sin (atan (y / x))) = y).
    { rewrite (hyp_ratio x y) by lra. rewrite sin_atan', Rabs_left by lra. field. lra. }
    destruct (Rle_dec 0 y).
    + rewrite sin_plus, cos_PI, sin_PI. lra.
    + unfold Rminus. rewrite sin_plus, cos_neg, sin_neg, cos_PI, sin_PI. lra.
  - subst x. replace (0 * 0 + y * y) with (Rsqr y) by (unfold Rsqr; ring). rewrite sqrt_Rsqr_abs.
    destruct (total_order_T y 0) as [[H|H]|H].
    + rewrite sin_neg, sin_PI2, Rabs_left by lra. ring.
    + subst y. rewrite Rabs_R0. ring.
    + rewrite sin_PI2, Rabs_right by lra. ring.
  - assert (Hs : 0 < sqrt (1 + (y / x) * (y / x))) by (apply sqrt_pos'; nra).
    rewrite (hyp_ratio x y) by lra. rewrite sin_atan', Rabs_right by lra. field. lra.
Qed.
Lemma atan_sign_pos x : 0 < x -> 0 < atan x.
Proof. intros. rewrite <- atan_0. now apply atan_increasing. Qed.
Lemma atan_sign_neg x : x < 0 -> atan x < 0.
Proof. intros. rewrite <- atan_0. now apply atan_increasing. Qed.
Lemma atan2_range y x : - PI < atan2 y x <= PI.
Proof.
  pose proof PI_RGT_0 as HP. unfold atan2.
  destruct (total_order_T x 0) as [[H|H]|H].
  - pose proof (atan_bound (y / x)) as B.
    assert (Hi : / x < 0) by (now apply Rinv_lt_0_compat).
    destruct (Rle_dec 0 y) as [Hy|Hy].
    + assert (atan (y / x) <= 0).
      { destruct Hy as [Hy|Hy]; [left; apply atan_sign_neg; unfold Rdiv; nra |].
        subst y. unfold Rdiv. rewrite Rmult_0_l, atan_0. lra. }
      lra.
    + assert (0 < atan (y / x)) by (apply atan_sign_pos; unfold Rdiv; nra). lra.
  - destruct (total_order_T y 0) as [[?|?]|?]; lra.
  - pose proof (atan_bound (y / x)) as B. lra.
Qed.
(** for a non-negative second argument the result is in [-pi/2, pi/2] *)
Lemma atan2_range_half y x : 0 <= x -> - (PI / 2) <= atan2 y x <= PI / 2.
Proof.
  intros Hx. pose proof PI_RGT_0 as HP. unfold atan2.
  destruct (total_order_T x 0) as [[H|H]|H]; [lra| |].
  - destruct (total_order_T y 0) as [[?|?]|?]; lra.
  - pose proof (atan_bound (y / x)) as B. lra.
Qed.
