(** Spatial smoothing of an estimated covariance matrix (for C110): it never increases the error. *)
From Coq Require Import Lra Lia.
From Verif Require Import Base_Np Base_Lin M_srcnum S_srcnum P_srcnum S_subspace P_subspace P_subspace2 P_invar6 S_stable P_stable.
Open Scope nat_scope.

(** the squared modulus of a mean is at most the mean of the squared moduli *)
Lemma mean_norm2 l (f : nat -> C) : 1 <= l -> (Cnorm2 (RtoC (/ INR l) * csum l f)%C <= / INR l * rsum l (fun q => Cnorm2 (f q)))%R.
Proof.
  intros Hl. assert (L0 : (0 < INR l)%R) by (apply lt_0_INR; lia). assert (Li : (0 < / INR l)%R) by now apply Rinv_0_lt_compat.
  pose proof (vdot_cs l (fun _ => RtoC 1) f) as H.
  assert (E1 : vdot l (fun _ => RtoC 1) f = csum l f) by (unfold vdot; apply csum_ext; intros i _; destruct (f i); unfold Cconj, Cmult, RtoC; cbn [fst snd]; f_equal; ring).
  assert (E2 : vnorm2 l (fun _ => RtoC 1) = INR l) by (unfold vnorm2; rewrite (rsum_ext l _ (fun _ => 1%R)), rsum_const by (intros; unfold Cnorm2, Re, Im, RtoC; cbn [fst snd]; ring); ring).
  rewrite E1, E2 in H. fold (vnorm2 l f). replace (Cnorm2 (RtoC (/ INR l) * csum l f)%C) with (/ INR l * / INR l * Cnorm2 (csum l f))%R by (unfold Cnorm2, Cmult, RtoC, Re, Im; cbn [fst snd]; ring).
  apply Rle_trans with (/ INR l * / INR l * (INR l * vnorm2 l f))%R; [apply Rmult_le_compat_l; [left; now apply Rmult_lt_0_compat | exact H]|]. right. field. lra.
Qed.
Lemma half_norm2 (x y : C) : (Cnorm2 (RtoC (/ 2) * (x + y))%C <= (Cnorm2 x + Cnorm2 y) / 2)%R.
Proof.
  destruct x as [a b], y as [c d]. unfold Cnorm2, Cmult, Cplus, RtoC, Re, Im. cbn [fst snd].
  assert (0 <= (a - c) * (a - c))%R by apply Rle_0_sqr. assert (0 <= (b - d) * (b - d))%R by apply Rle_0_sqr. lra.
Qed.
Lemma rsum_part m p q (f : nat -> R) : (forall i, i < m -> (0 <= f i)%R) -> q + p <= m -> (rsum p (fun a => f (q + a)%nat) <= rsum m f)%R.
Proof.
  intros H L. replace m with (q + p + (m - (q + p))) by lia. rewrite !rsum_app.
  assert (A : (0 <= rsum q f)%R) by (apply rsum_nonneg; intros; apply H; lia).
  assert (B : (0 <= rsum (m - (q + p)) (fun i => f (q + p + i)%nat))%R) by (apply rsum_nonneg; intros; apply H; lia). lra.
Qed.
Lemma smooth_ok ty Rm l fb : ty <> MInt -> 1 <= l <= nr Rm -> hermitian Rm -> exists B, spatial_smooth ty Rm (Z.of_nat l) fb = Ok B /\ nr B = nr Rm - l + 1 /\ hermitian B.
Proof.
  intros HT Hl HH. destruct (smooth_value ty Rm l fb HT Hl) as (B & E & N1 & N2 & EB). exists B. split; [exact E|]. split; [exact N1|]. destruct HH as (SQ & HH).
  assert (S0 : forall a b, a < nr Rm - l + 1 -> b < nr Rm - l + 1 -> smoothed Rm l a b = Cconj (smoothed Rm l b a)).
  { intros a b Ha Hb. unfold smoothed. rewrite Cmult_conj, Cconj_RtoC, csum_conj. f_equal. apply csum_ext. intros i Hi. apply HH; lia. }
  split; [congruence|]. intros a b Ha Hb. rewrite N1 in Ha, Hb. rewrite !EB. destruct fb; [|now apply S0].
  unfold fwd_back, fwd. cbn [ent nr nc]. rewrite Cmult_conj, Cconj_RtoC, Cplus_conj. f_equal. f_equal; [now apply S0|]. destruct ty; cbv iota beta; [congruence | |].
  - apply S0; lia.
  - f_equal. apply S0; lia.
Qed.
(** smoothing never increases the distance of two matrices *)
Lemma smooth_close ty (Rm Rm' B B' : cmat) l fb : ty <> MInt -> nr Rm' = nr Rm -> nc Rm = nr Rm -> 1 <= l <= nr Rm ->
  spatial_smooth ty Rm (Z.of_nat l) fb = Ok B -> spatial_smooth ty Rm' (Z.of_nat l) fb = Ok B' -> (distance B B' <= distance Rm Rm')%R.
Proof.
  intros HT N' SQ Hl E E'. destruct (smooth_value ty Rm l fb HT Hl) as (B0 & E0 & N1 & N2 & EB). rewrite E in E0. injection E0 as <-.
  destruct (smooth_value ty Rm' l fb HT ltac:(lia)) as (B1 & E1 & _ & _ & EB'). rewrite E' in E1. injection E1 as <-.
  unfold distance. apply sqrt_le_1_alt. rewrite N1, N2, SQ. set (p := nr Rm - l + 1) in *. set (m := nr Rm) in *. set (D := fun i j => (ent Rm i j - ent Rm' i j)%C).
  set (F := fun a b => (smoothed Rm l a b - smoothed Rm' l a b)%C).
  assert (L0 : (0 < INR l)%R) by (apply lt_0_INR; lia). assert (Li : (0 < / INR l)%R) by now apply Rinv_0_lt_compat.
  assert (SF : (rsum p (fun a => rsum p (fun b => Cnorm2 (F a b))) <= rsum m (fun i => rsum m (fun j => Cnorm2 (D i j))))%R).
  { apply Rle_trans with (rsum p (fun a => rsum p (fun b => / INR l * rsum l (fun q => Cnorm2 (D (q + a)%nat (q + b)%nat)))))%R.
    - apply rsum_le. intros a _. apply rsum_le. intros b _. replace (F a b) with (RtoC (/ INR l) * csum l (fun q => D (q + a)%nat (q + b)%nat))%C; [now apply mean_norm2|].
      unfold F, smoothed, D. rewrite csum_minus. ring.
    - rewrite (rsum_ext p _ (fun a => / INR l * rsum l (fun q => rsum p (fun b => Cnorm2 (D (q + a)%nat (q + b)%nat))))%R) by (intros a _; rewrite rsum_scal; f_equal; apply rsum_swap).
      rewrite rsum_scal, rsum_swap. apply Rle_trans with (/ INR l * rsum l (fun _ => rsum m (fun i => rsum m (fun j => Cnorm2 (D i j)))))%R.
      + apply Rmult_le_compat_l; [lra|]. apply rsum_le. intros q Hq.
        apply Rle_trans with (rsum p (fun a => rsum m (fun j => Cnorm2 (D (q + a)%nat j)))).
        * apply rsum_le. intros a _. apply (rsum_part m p q (fun j => Cnorm2 (D (q + a)%nat j))); [intros; apply Cnorm2_nonneg | unfold p; lia].
        * apply (rsum_part m p q (fun i => rsum m (fun j => Cnorm2 (D i j)))); [intros; apply rsum_nonneg; intros; apply Cnorm2_nonneg | unfold p; lia].
      + rewrite rsum_const. right. field. lra. }
  destruct fb.
  2:{ eapply Rle_trans; [|exact SF]. right. apply rsum_ext. intros a _. apply rsum_ext. intros b _. now rewrite EB, EB'. }
  apply Rle_trans with (rsum p (fun a => rsum p (fun b => (Cnorm2 (F a b) + Cnorm2 (F (p - 1 - a)%nat (p - 1 - b)%nat)) / 2)))%R.
  - apply rsum_le. intros a Ha. apply rsum_le. intros b Hb. rewrite EB, EB'. unfold fwd_back, fwd. cbn [ent nr nc]. replace (nr Rm') with m. fold m p. unfold F. destruct ty; cbv iota beta; [congruence | |].
    + eapply Rle_trans; [|apply half_norm2]. right. f_equal. ring.
    + rewrite <- (Cnorm2_conj (smoothed Rm l (p - 1 - a)%nat (p - 1 - b)%nat - smoothed Rm' l (p - 1 - a)%nat (p - 1 - b)%nat)%C). eapply Rle_trans; [|apply half_norm2]. right. f_equal. rewrite Cminus_conj. ring.
  - assert (ED : forall X : nat -> nat -> R, rsum p (fun a => rsum p (fun b => X (p - 1 - a) (p - 1 - b))) = rsum p (fun a => rsum p (fun b => X a b))).
    { intros X. rewrite (rsum_ext p _ (fun a => rsum p (fun b => X (p - 1 - a) b))) by (intros a _; apply (rsum_rev p (fun b => X (p - 1 - a) b))). apply (rsum_rev p (fun a => rsum p (fun b => X a b))). }
    pose proof (ED (fun a b => Cnorm2 (F a b))) as ED'. rewrite (rsum_ext p _ (fun a => / 2 * (rsum p (fun b => Cnorm2 (F a b)) + rsum p (fun b => Cnorm2 (F (p - 1 - a)%nat (p - 1 - b)%nat))))%R) by (intros a _; rewrite <- rsum_plus, <- rsum_scal; apply rsum_ext; intros; cbv beta; unfold Rdiv; ring).
    rewrite rsum_scal, rsum_plus. cbv beta in ED'. rewrite ED'. eapply Rle_trans; [|exact SF]. lra.
Qed.
