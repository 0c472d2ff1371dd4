(** Finite sums over R and C. *)
From Coq Require Export Reals Lra.
From Coquelicot Require Export Complex.
From Verif Require Export Base_Py.
Open Scope R_scope.

(** Coquelicot imports ssreflect notions; keep the standard arithmetic notations. *)
Fixpoint rsum (n : nat) (f : nat -> R) : R :=
  match n with O => 0 | S n' => rsum n' f + f n' end.
Fixpoint csum (n : nat) (f : nat -> C) : C :=
  match n with O => RtoC 0 | S n' => Cplus (csum n' f) (f n') end.

(** *** real sums *)
Lemma rsum_ext n f g : (forall i, (i < n)%nat -> f i = g i) -> rsum n f = rsum n g.
Proof. induction n; simpl; intros H; [reflexivity|]. rewrite IHn by (intros; apply H; lia). now rewrite H by lia. Qed.
Lemma rsum_0 n f : (forall i, (i < n)%nat -> f i = 0) -> rsum n f = 0.
Proof. induction n; simpl; intros H; [reflexivity|]. rewrite IHn by (intros; apply H; lia). rewrite H by lia. ring. Qed.
Lemma rsum_plus n f g : rsum n (fun i => f i + g i) = rsum n f + rsum n g.
Proof. induction n; simpl; [ring|]. rewrite IHn. ring. Qed.
Lemma rsum_minus n f g : rsum n (fun i => f i - g i) = rsum n f - rsum n g.
Proof. induction n; simpl; [ring|]. rewrite IHn. ring. Qed.
Lemma rsum_scal n c f : rsum n (fun i => c * f i) = c * rsum n f.
Proof. induction n; simpl; [ring|]. rewrite IHn. ring. Qed.
Lemma rsum_const n c : rsum n (fun _ => c) = INR n * c.
Proof. induction n; [simpl; ring|]. rewrite S_INR. simpl rsum. rewrite IHn. ring. Qed.
Lemma rsum_swap n m f : rsum n (fun i => rsum m (fun j => f i j)) = rsum m (fun j => rsum n (fun i => f i j)).
Proof.
  induction n; simpl; [now rewrite rsum_0|]. rewrite IHn, <- rsum_plus. reflexivity.
Qed.
Lemma rsum_le n f g : (forall i, (i < n)%nat -> f i <= g i) -> rsum n f <= rsum n g.
Proof.
  induction n; simpl; intros H; [lra|].
  assert (rsum n f <= rsum n g) by (apply IHn; intros; apply H; lia).
  assert (f n <= g n) by (apply H; lia). lra.
Qed.
Lemma rsum_nonneg n f : (forall i, (i < n)%nat -> 0 <= f i) -> 0 <= rsum n f.
Proof. intros H. rewrite <- (rsum_0 n (fun _ => 0)) by reflexivity. now apply rsum_le. Qed.
Lemma rsum_nonneg_0 n f : (forall i, (i < n)%nat -> 0 <= f i) -> rsum n f = 0 -> forall i, (i < n)%nat -> f i = 0.
Proof.
  induction n; simpl; intros H H0 i Hi; [lia|].
  assert (0 <= rsum n f) by (apply rsum_nonneg; intros; apply H; lia).
  assert (0 <= f n) by (apply H; lia).
  destruct (Nat.eq_dec i n) as [->|]; [lra|]. apply IHn; [intros; apply H; lia | lra | lia].
Qed.
Lemma rsum_S_l n f : rsum (S n) f = f O + rsum n (fun i => f (S i)).
Proof. induction n; [simpl; ring|]. change (rsum (S (S n)) f) with (rsum (S n) f + f (S n)). rewrite IHn. simpl. ring. Qed.
Lemma rsum_app n m f : rsum (n + m) f = rsum n f + rsum m (fun i => f (n + i)%nat).
Proof. induction m; [rewrite Nat.add_0_r; simpl; ring|]. rewrite Nat.add_succ_r. simpl. rewrite IHm. ring. Qed.
Lemma rsum_single n f k : (k < n)%nat -> (forall i, (i < n)%nat -> i <> k -> f i = 0) -> rsum n f = f k.
Proof.
  induction n; simpl; intros Hk H; [lia|].
  destruct (Nat.eq_dec k n) as [->|].
  - rewrite rsum_0; [ring|]. intros; apply H; lia.
  - rewrite IHn; [rewrite (H n) by lia; ring | lia | intros; apply H; lia].
Qed.
Lemma rsum_rev n f : rsum n (fun i => f (n - 1 - i)%nat) = rsum n f.
Proof.
  induction n; [reflexivity|]. rewrite rsum_S_l. simpl rsum at 2. rewrite <- IHn.
  replace (S n - 1 - 0)%nat with n by lia.
  rewrite (rsum_ext n _ (fun i => f (n - 1 - i)%nat)) by (intros; f_equal; lia). ring.
Qed.

(** *** complex sums *)
Open Scope C_scope.
Lemma csum_ext n f g : (forall i, (i < n)%nat -> f i = g i) -> csum n f = csum n g.
Proof. induction n; simpl; intros H; [reflexivity|]. rewrite IHn by (intros; apply H; lia). now rewrite H by lia. Qed.
Lemma csum_0 n (f : nat -> C) : (forall i, (i < n)%nat -> f i = 0) -> csum n f = 0.
Proof. induction n; simpl; intros H; [reflexivity|]. rewrite IHn by (intros; apply H; lia). rewrite H by lia. ring. Qed.
Lemma csum_plus n f g : csum n (fun i => f i + g i) = csum n f + csum n g.
Proof. induction n; simpl; [ring|]. rewrite IHn. ring. Qed.
Lemma csum_minus n f g : csum n (fun i => f i - g i) = csum n f - csum n g.
Proof. induction n; simpl; [ring|]. rewrite IHn. ring. Qed.
Lemma csum_opp n f : csum n (fun i => - f i) = - csum n f.
Proof. induction n; simpl; [ring|]. rewrite IHn. ring. Qed.
Lemma csum_scal n c f : csum n (fun i => c * f i) = c * csum n f.
Proof. induction n; simpl; [ring|]. rewrite IHn. ring. Qed.
Lemma csum_scal_r n c f : csum n (fun i => f i * c) = csum n f * c.
Proof. induction n; simpl; [ring|]. rewrite IHn. ring. Qed.
Lemma csum_const n c : csum n (fun _ => c) = RtoC (INR n) * c.
Proof.
  induction n; [simpl; ring|]. rewrite S_INR. simpl csum. rewrite IHn. rewrite RtoC_plus. ring.
Qed.
Lemma csum_swap n m f : csum n (fun i => csum m (fun j => f i j)) = csum m (fun j => csum n (fun i => f i j)).
Proof. induction n; simpl; [now rewrite csum_0|]. rewrite IHn, <- csum_plus. reflexivity. Qed.
Lemma csum_S_l n f : csum (S n) f = f O + csum n (fun i => f (S i)).
Proof. induction n; [simpl; ring|]. change (csum (S (S n)) f) with (csum (S n) f + f (S n)). rewrite IHn. simpl. ring. Qed.
Lemma csum_app n m f : csum (n + m) f = csum n f + csum m (fun i => f (n + i)%nat).
Proof. induction m; [rewrite Nat.add_0_r; simpl; ring|]. rewrite Nat.add_succ_r. simpl. rewrite IHm. ring. Qed.
Lemma csum_single n (f : nat -> C) k : (k < n)%nat -> (forall i, (i < n)%nat -> i <> k -> f i = 0) -> csum n f = f k.
Proof.
  induction n; simpl; intros Hk H; [lia|].
  destruct (Nat.eq_dec k n) as [->|].
  - rewrite csum_0; [ring|]. intros; apply H; lia.
  - rewrite IHn; [rewrite (H n) by lia; ring | lia | intros; apply H; lia].
Qed.
Lemma csum_rev n f : csum n (fun i => f (n - 1 - i)%nat) = csum n f.
Proof.
  induction n; [reflexivity|]. rewrite csum_S_l. simpl csum at 2. rewrite <- IHn.
  replace (S n - 1 - 0)%nat with n by lia.
  rewrite (csum_ext n _ (fun i => f (n - 1 - i)%nat)) by (intros; f_equal; lia). ring.
Qed.
Lemma csum_prod n m f : csum (n * m) f = csum n (fun i => csum m (fun j => f (i * m + j)%nat)).
Proof.
  induction n; [reflexivity|]. simpl Nat.mul. rewrite Nat.add_comm, csum_app, IHn. reflexivity.
Qed.

Lemma Cconj_conj a : Cconj (Cconj a) = a.
Proof. destruct a; unfold Cconj; simpl; f_equal; ring. Qed.
Lemma Cplus_conj a b : Cconj (a + b) = Cconj a + Cconj b.
Proof. destruct a, b; unfold Cconj, Cplus; simpl; f_equal; ring. Qed.
Lemma Cminus_conj a b : Cconj (a - b) = Cconj a - Cconj b.
Proof. destruct a, b; unfold Cconj, Cminus, Cplus, Copp; simpl; f_equal; ring. Qed.
Lemma Copp_conj a : Cconj (- a) = - Cconj a.
Proof. destruct a; unfold Cconj, Copp; simpl; f_equal; ring. Qed.
Lemma Cmult_conj a b : Cconj (a * b) = Cconj a * Cconj b.
Proof. destruct a, b; unfold Cconj, Cmult; simpl; f_equal; ring. Qed.
Lemma Cconj_RtoC (x : R) : Cconj (RtoC x) = RtoC x.
Proof. unfold Cconj, RtoC; simpl. f_equal. lra. Qed.
Lemma csum_conj n f : Cconj (csum n f) = csum n (fun i => Cconj (f i)).
Proof. induction n; simpl; [apply Cconj_RtoC|]. rewrite Cplus_conj, IHn. reflexivity. Qed.
Lemma csum_RtoC n f : csum n (fun i => RtoC (f i)) = RtoC (rsum n f).
Proof. induction n; simpl; [reflexivity|]. rewrite IHn, RtoC_plus. reflexivity. Qed.
Lemma csum_Re n f : Re (csum n f) = rsum n (fun i => Re (f i)).
Proof. induction n; simpl; [reflexivity|]. rewrite <- IHn. reflexivity. Qed.
Lemma csum_Im n f : Im (csum n f) = rsum n (fun i => Im (f i)).
Proof. induction n; simpl; [reflexivity|]. rewrite <- IHn. reflexivity. Qed.

(** *** complex numbers: a few facts missing from Coquelicot *)
Lemma C_eq (a b : C) : Re a = Re b -> Im a = Im b -> a = b.
Proof. destruct a, b; simpl; intros; subst; reflexivity. Qed.
Lemma Re_conj a : Re (Cconj a) = Re a. Proof. destruct a; reflexivity. Qed.
Lemma Im_conj a : Im (Cconj a) = (- Im a)%R. Proof. destruct a; reflexivity. Qed.
Lemma Re_mult a b : Re (a * b) = (Re a * Re b - Im a * Im b)%R. Proof. destruct a, b; reflexivity. Qed.
Lemma Im_mult a b : Im (a * b) = (Re a * Im b + Im a * Re b)%R. Proof. destruct a, b; reflexivity. Qed.
Lemma Re_plus a b : Re (a + b) = (Re a + Re b)%R. Proof. destruct a, b; reflexivity. Qed.
Lemma Im_plus a b : Im (a + b) = (Im a + Im b)%R. Proof. destruct a, b; reflexivity. Qed.
Lemma Re_opp a : Re (- a) = (- Re a)%R. Proof. destruct a; reflexivity. Qed.
Lemma Im_opp a : Im (- a) = (- Im a)%R. Proof. destruct a; reflexivity. Qed.
Lemma Re_minus a b : Re (a - b) = (Re a - Re b)%R. Proof. destruct a, b; reflexivity. Qed.
Lemma Im_minus a b : Im (a - b) = (Im a - Im b)%R. Proof. destruct a, b; reflexivity. Qed.
Lemma Re_RtoC x : Re (RtoC x) = x. Proof. reflexivity. Qed.
Lemma Im_RtoC x : Im (RtoC x) = 0%R. Proof. reflexivity. Qed.

(** Re(x)^2 + Im(x)^2 *)
Definition Cnorm2 (a : C) : R := (Re a * Re a + Im a * Im a)%R.
Lemma Cnorm2_nonneg a : (0 <= Cnorm2 a)%R.
Proof. unfold Cnorm2. nra. Qed.
Lemma Cnorm2_0 (a : C) : Cnorm2 a = 0%R <-> a = 0.
Proof.
  unfold Cnorm2. split.
  - intros H. apply C_eq; simpl; nra.
  - intros ->. simpl. ring.
Qed.
Lemma Cconj_mult_norm2 a : Cconj a * a = RtoC (Cnorm2 a).
Proof. apply C_eq; unfold Cnorm2; destruct a; simpl; ring. Qed.
Lemma Cmult_conj_norm2 a : a * Cconj a = RtoC (Cnorm2 a).
Proof. rewrite Cmult_comm. apply Cconj_mult_norm2. Qed.
Lemma Cnorm2_mult a b : Cnorm2 (a * b) = (Cnorm2 a * Cnorm2 b)%R.
Proof. unfold Cnorm2. rewrite Re_mult, Im_mult. ring. Qed.
Lemma Cnorm2_conj a : Cnorm2 (Cconj a) = Cnorm2 a.
Proof. unfold Cnorm2; rewrite Re_conj, Im_conj; ring. Qed.
Lemma Cnorm2_pos (a : C) : a <> 0 -> (0 < Cnorm2 a)%R.
Proof. intros H. destruct (Cnorm2_nonneg a) as [|E]; [assumption|]. symmetry in E. exfalso. apply H. now apply (proj1 (Cnorm2_0 a)). Qed.
Lemma Cmod_norm2 a : (Cmod a * Cmod a = Cnorm2 a)%R.
Proof. unfold Cmod, Cnorm2. rewrite sqrt_sqrt; [unfold Re, Im; ring | nra]. Qed.
Lemma Cmod_sqrt_norm2 a : Cmod a = sqrt (Cnorm2 a).
Proof. rewrite <- Cmod_norm2. symmetry. apply sqrt_square, Cmod_ge_0. Qed.
Lemma RtoC_neq_0 x : x <> 0%R -> RtoC x <> 0.
Proof. intros H E. apply H. now injection E. Qed.
Lemma Cmult_0 (a b : C) : a * b = 0 -> a = 0 \/ b = 0.
Proof.
  intros H. assert (Cnorm2 a * Cnorm2 b = 0)%R by (rewrite <- Cnorm2_mult, H; apply Cnorm2_0; reflexivity).
  apply Rmult_integral in H0. destruct H0; [left|right]; now apply Cnorm2_0.
Qed.
Lemma Cconj_0 : Cconj 0 = 0. Proof. apply Cconj_RtoC. Qed.
Lemma Cconj_1 : Cconj 1 = 1. Proof. apply Cconj_RtoC. Qed.
Lemma Cconj_eq_0 (a : C) : Cconj a = 0 -> a = 0.
Proof. intros H. rewrite <- (Cconj_conj a), H. apply Cconj_0. Qed.
Lemma Cconj_inv' (a : C) : a <> 0 -> Cconj (/ a) = / Cconj a.
Proof.
  intros H. assert (Cconj a <> 0) by (intros E; apply H; now apply Cconj_eq_0).
  assert (Cconj (/a) * Cconj a = 1) by (rewrite <- Cmult_conj, Cinv_l by assumption; apply Cconj_1).
  rewrite <- (Cmult_1_r (/ Cconj a)), <- H1. field. assumption.
Qed.

(** the unit-circle point e^{j t} *)
Definition cis (t : R) : C := (cos t, sin t).
Lemma cis_0 : cis 0 = 1. Proof. unfold cis; rewrite cos_0, sin_0; reflexivity. Qed.
Lemma cis_plus a b : cis (a + b) = cis a * cis b.
Proof. unfold cis. rewrite cos_plus, sin_plus. apply C_eq; simpl; ring. Qed.
Lemma cis_opp a : cis (- a) = Cconj (cis a).
Proof. unfold cis, Cconj; simpl. now rewrite cos_neg, sin_neg. Qed.
Lemma cis_norm2 a : Cnorm2 (cis a) = 1%R.
Proof. unfold Cnorm2, cis; simpl. pose proof (sin2_cos2 a) as H. unfold Rsqr in H. lra. Qed.
Lemma cis_mod a : Cmod (cis a) = 1%R.
Proof. rewrite Cmod_sqrt_norm2, cis_norm2. apply sqrt_1. Qed.
Lemma cis_neq_0 a : cis a <> 0.
Proof. intros H. pose proof (cis_norm2 a) as E. rewrite H in E. apply (proj2 (Cnorm2_0 0)) in H || idtac.
  unfold Cnorm2 in E; simpl in E; lra. Qed.
Lemma cis_conj_l a : Cconj (cis a) * cis a = 1.
Proof. rewrite Cconj_mult_norm2, cis_norm2. reflexivity. Qed.
Lemma cis_conj_r a : cis a * Cconj (cis a) = 1.
Proof. rewrite Cmult_comm; apply cis_conj_l. Qed.
