(** The Min-Norm vector of a uniform linear array has no zeros on the unit circle except the sources. *)
From Verif Require Import Base_Np Base_Lin Base_Trig S_subspace P_subspace P_subspace2.
From Verif Require P_spectral.
Open Scope C_scope.

Lemma vnorm2_line n (t h : nat -> C) (r : R) :
  (vnorm2 n (fun i => t i - RtoC r * h i)%C = vnorm2 n t - 2 * r * Re (vdot n h t) + r * r * vnorm2 n h)%R.
Proof.
  unfold vnorm2, vdot. rewrite csum_Re. induction n as [|n IH]; cbn [rsum]; [ring|]. rewrite IH. unfold Cnorm2, Re, Im, RtoC. destruct (t n) as (a, b), (h n) as (c, d). cbn. ring.
Qed.
(** a vector of least norm on the line t - r h, attained at r = 1, with |h| = |t|, is zero *)
Lemma line_min n t h : vnorm2 n h = vnorm2 n t -> (forall r : R, (vnorm2 n (fun i => t i - RtoC 1 * h i)%C <= vnorm2 n (fun i => t i - RtoC r * h i)%C)%R) ->
  (0 < vnorm2 n t)%R -> vnorm2 n (fun i => t i - RtoC 1 * h i) = 0%R.
Proof.
  intros E H HT. set (T := vnorm2 n t) in *. set (u := Re (vdot n h t)).
  specialize (H (u / T)%R). rewrite !vnorm2_line in *. fold T in H |- *. fold u in H |- *. rewrite E in *. clearbody T u.
  assert (Q : (T * (2 * T - 2 * u) <= T * (T - 2 * (u / T) * u + u / T * (u / T) * T))%R) by (apply Rmult_le_compat_l; lra).
  replace (T * (T - 2 * (u / T) * u + u / T * (u / T) * T))%R with (T * T - u * u)%R in Q by (field; lra).
  assert (Z : ((T - u) * (T - u) = 0)%R) by (pose proof (Rle_0_sqr (T - u)) as W; unfold Rsqr in W; apply Rle_antisym; [lra | exact W]). apply Rmult_integral in Z. destruct Z; lra.
Qed.

(** the coefficients of p(z) / (1 - a z) as a power series *)
Fixpoint quot (d : nat -> C) (a : C) (i : nat) : C := match i with O => d O | S i' => d (S i') + a * quot d a i' end.
Lemma quot_spec d a z n : csum (S n) (fun i => d i * cpow z i) = (RtoC 1 - a * z) * csum (S n) (fun i => quot d a i * cpow z i) + a * quot d a n * cpow z (S n).
Proof.
  induction n as [|n IH]; [cbn; ring|]. change (csum (S (S n)) ?f) with (csum (S n) f + f (S n)). cbv beta. rewrite IH. cbn [quot]. rewrite (cpow_S z (S n)). ring.
Qed.
Definition poly (n : nat) (d : nat -> C) (z : C) : C := csum n (fun i => d i * cpow z i).
Definition shifted (a : C) (t : nat -> C) (i : nat) : C := match i with O => RtoC 0 | S i' => a * t i' end.
Lemma shifted_poly a t z n : poly (S n) (shifted a t) z = a * z * poly n t z.
Proof.
  unfold poly. induction n as [|n IH]; [cbn; ring|]. change (csum (S (S n)) ?f) with (csum (S n) f + f (S n)). cbv beta. rewrite IH. change (csum (S n) ?f) with (csum n f + f n). cbn [shifted]. rewrite cpow_S. ring.
Qed.
Lemma shifted_norm a t n : Cnorm2 a = 1%R -> vnorm2 (S n) (shifted a t) = vnorm2 n t.
Proof.
  intros Ha. unfold vnorm2. rewrite rsum_S_l. cbn [shifted]. replace (Cnorm2 (RtoC 0)) with 0%R by (symmetry; now apply Cnorm2_0). rewrite Rplus_0_l. apply rsum_ext. intros i _. rewrite Cnorm2_mult, Ha. ring.
Qed.
(** no zero on the unit circle can be split off: the rest would have to vanish at all sources *)
Lemma min_norm_split m zs (d : nat -> C) z0 : (0 < m)%nat -> d O = RtoC 1 ->
  (forall e, e O = RtoC 1 -> (forall z, In z zs -> poly m e z = RtoC 0) -> (vnorm2 m d <= vnorm2 m e)%R) ->
  Cmod z0 = 1%R -> poly m d z0 = RtoC 0 -> (forall z, In z zs -> poly m (quot d (Cconj z0)) z = RtoC 0) -> False.
Proof.
  intros Hm D0 DM HZ HD PT. destruct m as [|n]; [lia|]. clear Hm. set (a := Cconj z0).
  assert (N1 : Cnorm2 z0 = 1%R) by (rewrite <- Cmod_norm2, HZ; ring). assert (Na : Cnorm2 a = 1%R) by (unfold a; now rewrite Cnorm2_conj).
  assert (A1 : a * z0 = RtoC 1) by (unfold a; rewrite Cconj_mult_norm2, N1; reflexivity).
  assert (Nz : z0 <> RtoC 0) by (intros ->; rewrite (proj2 (Cnorm2_0 _) eq_refl) in N1; lra). assert (Naz : a <> RtoC 0) by (intros E; rewrite E in A1; rewrite Cmult_0_l in A1; injection A1; lra).
  fold a in PT. set (t := quot d a) in *. assert (T0 : t O = RtoC 1) by exact D0.
  assert (TN : t n = RtoC 0).
  { pose proof (quot_spec d a z0 n) as Q. fold (poly (S n) d z0) in Q. rewrite HD, A1 in Q. replace (RtoC 1 - RtoC 1) with (RtoC 0) in Q by ring. rewrite Cmult_0_l, Cplus_0_l in Q. fold t in Q.
    symmetry in Q. apply Cmult_0 in Q as [Q|Q]; [|exfalso; exact (cpow_neq_0 _ _ Nz Q)]. apply Cmult_0 in Q as [Q|Q]; [contradiction | exact Q]. }
  assert (SN : forall z, poly n t z = poly (S n) t z) by (intros z; unfold poly; cbn [csum]; rewrite TN; ring).
  set (e := fun (r : R) i => t i - RtoC r * shifted a t i).
  assert (E0 : forall r, e r O = RtoC 1) by (intros r; unfold e; cbn [shifted]; rewrite T0; ring).
  assert (EP : forall r z, In z zs -> poly (S n) (e r) z = RtoC 0).
  { intros r z Iz. replace (poly (S n) (e r) z) with (poly (S n) t z - RtoC r * poly (S n) (shifted a t) z).
    - rewrite shifted_poly, SN, (PT z Iz). ring.
    - unfold poly, e. rewrite <- csum_scal, <- csum_minus. apply csum_ext. intros i _. ring. }
  assert (ED : forall i, e 1%R i = d i) by (intros [|i]; unfold e, t; cbn [shifted quot]; ring).
  assert (Z : vnorm2 (S n) (e 1%R) = 0%R).
  { apply line_min.
    - rewrite shifted_norm by exact Na. unfold vnorm2. cbn [rsum]. rewrite TN. replace (Cnorm2 (RtoC 0)) with 0%R by (symmetry; now apply Cnorm2_0). ring.
    - intros r. change (vnorm2 (S n) (e 1%R) <= vnorm2 (S n) (e r))%R. rewrite (vnorm2_ext (S n) (e 1%R) d) by (intros; apply ED). apply DM; [apply E0 | apply EP].
    - pose proof (vnorm2_nonneg (S n) t) as [P|P]; [exact P|]. exfalso. pose proof (vnorm2_0 _ _ (eq_sym P) O ltac:(lia)) as Q. rewrite T0 in Q. injection Q. lra. }
  pose proof (vnorm2_0 _ _ Z O ltac:(lia)) as Q. rewrite E0 in Q. injection Q. lra.
Qed.
(** a zero z0 of modulus 1: p (z) = (1 - conj z0 * z) * the quotient *)
Lemma quot_root n (d : nat -> C) z0 z : Cmod z0 = 1%R -> poly (S n) d z0 = RtoC 0 -> poly (S n) d z = (RtoC 1 - Cconj z0 * z) * poly (S n) (quot d (Cconj z0)) z.
Proof.
  intros HZ HD. set (a := Cconj z0).
  assert (N1 : Cnorm2 z0 = 1%R) by (rewrite <- Cmod_norm2, HZ; ring). assert (A1 : a * z0 = RtoC 1) by (unfold a; rewrite Cconj_mult_norm2, N1; reflexivity).
  assert (Nz : z0 <> RtoC 0) by (intros ->; rewrite (proj2 (Cnorm2_0 _) eq_refl) in N1; lra). assert (Naz : a <> RtoC 0) by (intros E; rewrite E in A1; rewrite Cmult_0_l in A1; injection A1; lra).
  assert (TN : quot d a n = RtoC 0).
  { pose proof (quot_spec d a z0 n) as Q. fold (poly (S n) d z0) in Q. rewrite HD, A1 in Q. replace (RtoC 1 - RtoC 1) with (RtoC 0) in Q by ring. rewrite Cmult_0_l, Cplus_0_l in Q.
    symmetry in Q. apply Cmult_0 in Q as [Q|Q]; [|exfalso; exact (cpow_neq_0 _ _ Nz Q)]. apply Cmult_0 in Q as [Q|Q]; [contradiction | exact Q]. }
  unfold poly. rewrite (quot_spec d a z n), TN. ring.
Qed.
Lemma min_norm_zeros m zs (d : nat -> C) z0 : (0 < m)%nat -> d O = RtoC 1 -> (forall z, In z zs -> poly m d z = RtoC 0) ->
  (forall e, e O = RtoC 1 -> (forall z, In z zs -> poly m e z = RtoC 0) -> (vnorm2 m d <= vnorm2 m e)%R) ->
  Cmod z0 = 1%R -> poly m d z0 = RtoC 0 -> In z0 zs.
Proof.
  intros Hm D0 DZ DM HZ HD. destruct (in_dec P_spectral.C_eq_dec z0 zs) as [I|NI]; [exact I|]. exfalso.
  apply (min_norm_split m zs d z0 Hm D0 DM HZ HD). destruct m as [|n]; [lia|]. intros z Iz. pose proof (DZ z Iz) as Q. rewrite (quot_root n d z0 z HZ HD) in Q. apply Cmult_0 in Q as [Q|Q]; [|exact Q]. exfalso. apply NI.
  assert (N1 : Cnorm2 z0 = 1%R) by (rewrite <- Cmod_norm2, HZ; ring). set (a := Cconj z0) in *. assert (A1 : a * z0 = RtoC 1) by (unfold a; rewrite Cconj_mult_norm2, N1; reflexivity).
  assert (E : a * z = a * z0) by (rewrite A1; replace (a * z) with (RtoC 1 - (RtoC 1 - a * z)) by ring; rewrite Q; ring).
  replace z0 with z; [exact Iz|]. replace z with (z0 * (a * z)) by (rewrite Cmult_assoc, (Cmult_comm z0 a), A1; ring). rewrite E, Cmult_assoc, (Cmult_comm z0 a), A1. ring.
Qed.
