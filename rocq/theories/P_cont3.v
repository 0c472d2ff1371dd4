(** Continuity of the eigenvalues of a general complex matrix. *)
From Coq Require Import Sorting.Sorted Sorting.Permutation.
From Verif Require Import Base_Np Base_Lin S_subspace P_subspace P_subspace2 P_subspace3 P_spectral P_oracles P_gauss P_fta P_fta2 P_cont.
Open Scope C_scope.

Section Close.
  Variable A : cmat.
  Variable n : nat.
  Hypothesis An : nr A = n.
  Hypothesis Ac : nc A = n.
  (** (A - a) v and the product of such factors *)
  Definition shift (a : C) (v : nat -> C) : nat -> C := fun i => mvec A v i - a * v i.
  Fixpoint shifts (mus : list C) (v : nat -> C) : nat -> C := match mus with [] => v | a :: mus' => shifts mus' (shift a v) end.
  Lemma op_mvec l v i : op A l (mvec A v) i = mvec A (op A l v) i.
  Proof.
    revert i. induction l as [|a l IH]; intros i; cbn [op]; [unfold mvec at 1; rewrite csum_0; [reflexivity|intros; ring]|].
    rewrite (mvec_ext' A n Ac (op A l (mvec A v)) (mvec A (op A l v))) by (intros; apply IH). unfold mvec at 4. rewrite (csum_ext (nc A) _ (fun j => a * (ent A i j * v j) + ent A i j * mvec A (op A l v) j)) by (intros; cbv beta; ring).
    rewrite csum_plus, csum_scal. reflexivity.
  Qed.
  Lemma op_lin l (a b : C) (x y : nat -> C) i : op A l (fun i => a * x i + b * y i) i = a * op A l x i + b * op A l y i.
  Proof.
    revert i. induction l as [|c l IH]; intros i; cbn [op]; [ring|]. rewrite (mvec_ext' A n Ac (op A l (fun i => a * x i + b * y i)) (fun i => a * op A l x i + b * op A l y i)) by (intros; apply IH). rewrite (mvec_lin A a b (op A l x) (op A l y) i). ring.
  Qed.
  Lemma op_shift l a v i : op A l (shift a v) i = mvec A (op A l v) i - a * op A l v i.
  Proof.
    unfold shift. rewrite <- op_mvec. pose proof (op_lin l (RtoC 1) (- a) (mvec A v) v i) as L. replace (mvec A v) with (mvec A v) by reflexivity.
    transitivity (op A l (fun i => RtoC 1 * mvec A v i + - a * v i) i); [|rewrite L; ring].
    f_equal. apply FunctionalExtensionality.functional_extensionality. intros. ring.
  Qed.
  Lemma annihilating_shifts m : forall l v, (List.length l <= m)%nat -> nonzero l -> (exists i, (i < n)%nat /\ v i <> RtoC 0) -> (forall i, (i < n)%nat -> op A l v i = RtoC 0) ->
    exists mus, (List.length mus <= m)%nat /\ (forall z, In z mus -> eigenvalue A z) /\ forall i, (i < n)%nat -> shifts mus v i = RtoC 0.
  Proof.
    induction m as [|m IH]; intros l v Hl NZ Nv H; [destruct l; [destruct NZ as ([|i] & N); elim N; reflexivity | cbn in Hl; lia]|].
    destruct (nonconst_dec l) as [N|N].
    - destruct (fta l N) as (a & Ha). set (u := op A (quot l a) v).
      assert (AU : forall j, (j < n)%nat -> mvec A u j - a * u j = RtoC 0). { intros j Hj. specialize (H j Hj). rewrite (op_quot A n Ac l a v j), Ha in H. fold u in H. rewrite <- H. ring. }
      destruct (pivot_dec n u) as [(i & Hi & Ni)|Z].
      + assert (EA : eigenvalue A a). { exists u. rewrite An. split; [now exists i|]. intros j Hj. specialize (AU j Hj). replace (mvec A u j) with (mvec A u j - a * u j + a * u j) by ring. rewrite AU. ring. }
        destruct (pivot_dec n (shift a v)) as [(i2 & P)|Z].
        * destruct (IH (quot l a) (shift a v)) as (mus & L & EM & SM); [rewrite quot_length; lia | now apply quot_nonzero | exact (ex_intro _ i2 P) | intros j Hj; rewrite op_shift; now apply AU |].
          exists (a :: mus). split; [cbn; lia|]. split; [intros z [->|Hz]; auto|]. exact SM.
        * exists [a]. split; [cbn; lia|]. split; [intros z [->|[]]; exact EA|]. exact Z.
      + destruct (IH (quot l a) v) as (mus & L & EM & SM); [rewrite quot_length; lia | now apply quot_nonzero | exact Nv | exact Z |]. exists mus. split; [lia|]. split; assumption.
    - exfalso. destruct (nonzero_cases l NZ) as [Y|(Y & E)]; [contradiction|]. destruct Nv as (i & Hi & Ni). apply Ni. specialize (H i Hi). destruct l as [|c l]; [elim Y; reflexivity|]. cbn in Y.
      assert (Z : forall j, op A l v j = RtoC 0).
      { assert (ZL : forall j, nth j l (RtoC 0) = RtoC 0) by (intros j; destruct (C_eq_dec (nth j l (RtoC 0)) (RtoC 0)) as [e|e]; [exact e|]; elim N; exists (S j); split; [lia | exact e]).
        clear - ZL Ac. induction l as [|d l IHl]; intros j; [reflexivity|]. cbn [op]. pose proof (ZL O) as Z0. cbn in Z0. rewrite Z0. rewrite (mvec_ext' A n Ac (op A l v) (fun _ => RtoC 0)); [|intros q _; apply IHl; intros p; apply (ZL (S p))]. unfold mvec. rewrite csum_0 by (intros; ring). ring. }
      cbn [op] in H. rewrite (mvec_ext' A n Ac (op A l v) (fun _ => RtoC 0)) in H by (intros; apply Z). unfold mvec in H. rewrite csum_0 in H by (intros; ring).
      apply (f_equal (fun x => / c * x)) in H. replace (/ c * (c * v i + RtoC 0)) with (/ c * c * v i) in H by ring. rewrite Cinv_l in H by exact Y. rewrite Cmult_1_l in H. rewrite H. ring.
  Qed.
  Lemma krylov v : (exists i, (i < n)%nat /\ v i <> RtoC 0) ->
    exists mus, (List.length mus <= S n)%nat /\ (forall z, In z mus -> eigenvalue A z) /\ forall i, (i < n)%nat -> shifts mus v i = RtoC 0.
  Proof.
    intros Nv. destruct (kernel_exists n (S n) (fun i k => iter A k v i) ltac:(lia)) as (x & (j & Hj & Nj) & H).
    assert (NT : forall k, (k < S n)%nat -> nth k (map x (seq 0 (S n))) (RtoC 0) = x k) by (intros k Hk; now rewrite nth_map_seq).
    apply (annihilating_shifts (S n) (map x (seq 0 (S n))) v); [rewrite map_length, seq_length; lia | exists j; rewrite NT; assumption | exact Nv |].
    intros i Hi. rewrite (op_sum A n Ac), map_length, seq_length. etransitivity; [|exact (H i Hi)]. apply csum_ext. intros k Hk. cbv beta. rewrite (NT k Hk). ring.
  Qed.

  (** *** sizes *)
  Definition n1 (v : nat -> C) : R := rsum n (fun i => Cmod (v i)).
  Lemma n1_nonneg v : (0 <= n1 v)%R. Proof. apply rsum_nonneg. intros; apply Cmod_ge_0. Qed.
  Lemma n1_pos v : (exists i, (i < n)%nat /\ v i <> RtoC 0) -> (0 < n1 v)%R.
  Proof. intros (i & Hi & Ni). eapply Rlt_le_trans; [apply Cmod_gt_0; exact Ni|]. apply (rsum_ge n (fun i => Cmod (v i)) i Hi). intros; apply Cmod_ge_0. Qed.
  Lemma n1_plus (x y : nat -> C) : (n1 (fun i => x i + y i)%C <= n1 x + n1 y)%R.
  Proof. unfold n1. rewrite <- rsum_plus. apply rsum_le. intros. apply Cmod_triangle. Qed.
  Lemma n1_scal c (x : nat -> C) : (n1 (fun i => c * x i)%C = Cmod c * n1 x)%R.
  Proof. unfold n1. rewrite <- rsum_scal. apply rsum_ext. intros. apply Cmod_mult. Qed.
  Lemma n1_ext x y : (forall i, (i < n)%nat -> x i = y i) -> n1 x = n1 y.
  Proof. intros H. apply rsum_ext. intros. now rewrite H. Qed.
  Lemma n1_mvec (D : cmat) b v : nc D = n -> (0 <= b)%R -> (forall i j, (i < n)%nat -> (j < n)%nat -> (Cmod (ent D i j) <= b)%R) -> (n1 (mvec D v) <= INR n * b * n1 v)%R.
  Proof.
    intros Dc Hb HD. unfold n1 at 1. rewrite Rmult_assoc, <- rsum_const. apply rsum_le. intros i Hi. unfold mvec. rewrite Dc. eapply Rle_trans; [apply Cmod_csum|]. unfold n1. rewrite <- rsum_scal. apply rsum_le. intros j Hj. rewrite Cmod_mult.
    apply Rmult_le_compat_r; [apply Cmod_ge_0 | now apply HD].
  Qed.
End Close.

Lemma cprod_bound (lam : C) t mus : (0 <= t)%R -> (forall z, In z mus -> (t <= Cmod (lam - z)%C)%R) -> (t ^ List.length mus <= Cmod (fold_right (fun z c => (lam - z) * c)%C (RtoC 1) mus)%C)%R.
Proof.
  intros Ht H. induction mus as [|z mus IH]; cbn [fold_right List.length pow]; [rewrite Cmod_1; lra|]. rewrite Cmod_mult. apply Rmult_le_compat; [exact Ht | now apply pow_le | apply H; now left | apply IH; intros; apply H; now right].
Qed.
(** the factors applied to c v + e, for an eigenvector v of a close matrix *)
Lemma shifts_estimate A X n lam v M eta : nr A = n -> nc A = n -> nr X = n -> nc X = n -> (forall i, (i < n)%nat -> mvec X v i = lam * v i) -> (1 <= M)%R -> (0 <= eta)%R ->
  (n1 n (mvec (A -m X) v) <= eta)%R -> (forall e, n1 n (mvec A e) <= M / 2 * n1 n e)%R -> forall mus,
  (forall z, In z mus -> (Cmod z <= M / 2)%R /\ (Cmod (lam - z)%C <= M)%R) -> forall c y e, (forall i, (i < n)%nat -> y i = c * v i + e i) -> exists e',
  (forall i, (i < n)%nat -> shifts A mus y i = c * fold_right (fun z c => (lam - z) * c) (RtoC 1) mus * v i + e' i) /\
  (n1 n e' <= M ^ List.length mus * (n1 n e + INR (List.length mus) * (Cmod c * eta)))%R.
Proof.
  intros a1 a2 x1 x2 EV HM Heta HD HA. induction mus as [|z mus IH]; intros Hz c y e Hy.
  - exists e. cbn [shifts fold_right List.length pow INR]. split; [intros i Hi; rewrite Hy by exact Hi; ring|]. lra.
  - destruct (Hz z (or_introl eq_refl)) as (Z1 & Z2).
    set (e1 := fun i => c * mvec (A -m X) v i + (mvec A e i + (- z) * e i)).
    destruct (IH (fun z' H' => Hz z' (or_intror H')) (c * (lam - z)) (shift A z y) e1) as (e' & Q & B).
    { intros i Hi. unfold shift, e1. rewrite (Hy i Hi).
      assert (MY : mvec A y i = c * mvec A v i + mvec A e i). { unfold mvec. rewrite <- csum_scal, <- csum_plus. apply csum_ext. intros j Hj. rewrite (Hy j ltac:(lia)). ring. }
      assert (MD : mvec (A -m X) v i = mvec A v i - lam * v i). { rewrite <- (EV i Hi). unfold mvec. cbn [msub nc ent]. rewrite a2, x2, <- csum_minus. apply csum_ext. intros; ring. }
      rewrite MY, MD. ring. }
    exists e'. split. { intros i Hi. cbn [shifts fold_right]. rewrite (Q i Hi). ring. }
    eapply Rle_trans; [exact B|]. cbn [List.length pow]. rewrite S_INR. set (J := INR (List.length mus)). assert (HJ : (0 <= J)%R) by apply pos_INR.
    assert (E1 : (n1 n e1 <= M * (n1 n e + Cmod c * eta))%R).
    { unfold e1. eapply Rle_trans; [apply n1_plus|]. rewrite n1_scal. eapply Rle_trans; [apply Rplus_le_compat_l; apply n1_plus|]. rewrite n1_scal, Cmod_opp. specialize (HA e). pose proof (n1_nonneg n e) as P.
      assert (Cmod c * n1 n (mvec (A -m X) v) <= Cmod c * eta)%R by (apply Rmult_le_compat_l; [apply Cmod_ge_0 | exact HD]). assert (Cmod z * n1 n e <= M / 2 * n1 n e)%R by (apply Rmult_le_compat_r; assumption).
      assert (0 <= Cmod c * eta)%R by (apply Rmult_le_pos; [apply Cmod_ge_0 | exact Heta]). assert (1 * (Cmod c * eta) <= M * (Cmod c * eta))%R by (apply Rmult_le_compat_r; assumption). lra. }
    assert (E2 : (Cmod (c * (lam - z))%C <= M * Cmod c)%R) by (rewrite Cmod_mult, Rmult_comm; apply Rmult_le_compat_r; [apply Cmod_ge_0 | exact Z2]).
    replace (M * M ^ Datatypes.length mus * (n1 n e + (J + 1) * (Cmod c * eta)))%R with (M ^ Datatypes.length mus * (M * (n1 n e + Cmod c * eta) + J * (M * Cmod c * eta)))%R by ring.
    apply Rmult_le_compat_l; [apply pow_le; lra|]. apply Rplus_le_compat; [exact E1|]. apply Rmult_le_compat_l; [exact HJ|]. apply Rmult_le_compat_r; assumption.
Qed.
(** eigenvalues move continuously *)
Lemma eigenvalue_close X lam t : nr X = nc X -> eigenvalue X lam -> (0 < t)%R -> exists eps, (0 < eps)%R /\ forall X', near eps X X' -> exists z, eigenvalue X' z /\ (Cmod (lam - z)%C < t)%R.
Proof.
  intros Hsq (v & Nv & EV) Ht0. set (n := nr X) in *. set (t1 := Rmin t 1). assert (Ht : (0 < t1)%R) by (apply Rmin_glb_lt; lra). assert (Ht1 : (t1 <= 1)%R) by apply Rmin_r. assert (Htt : (t1 <= t)%R) by apply Rmin_l.
  destruct (entries_bounded X) as (b & Hb & HB). pose proof (pos_INR n) as Hn. set (M := (2 * (INR n * (b + 1)) + Cmod lam + 1)%R). pose proof (Cmod_ge_0 lam) as Hl. assert (Hnb : (0 <= INR n * (b + 1))%R) by (apply Rmult_le_pos; lra). assert (HM : (1 <= M)%R) by (unfold M; lra).
  pose proof (n1_pos n v Nv) as Vp. set (L := S n). set (K := (M ^ L * (INR L * (INR n * n1 n v)) + 1)%R). assert (HML : (0 < M ^ L)%R) by (apply pow_lt; lra). assert (HL : (0 <= INR L)%R) by apply pos_INR.
  assert (KP : (0 <= M ^ L * (INR L * (INR n * n1 n v)))%R) by (apply Rmult_le_pos; [lra|]; apply Rmult_le_pos; [exact HL|]; apply Rmult_le_pos; [exact Hn | lra]). assert (HK : (0 < K)%R) by (unfold K; lra). assert (TL : (0 < t1 ^ L)%R) by (apply pow_lt; exact Ht).
  exists (Rmin 1 (t1 ^ L * n1 n v / K)). split; [apply Rmin_glb_lt; [lra | apply Rdiv_lt_0_compat; [apply Rmult_lt_0_compat; assumption | exact HK]]|].
  intros X' HN. set (eps := Rmin 1 (t1 ^ L * n1 n v / K)) in *. assert (P1 : (eps <= 1)%R) by apply Rmin_l. assert (P2 : (eps <= t1 ^ L * n1 n v / K)%R) by apply Rmin_r. assert (P0 : (0 < eps)%R) by (apply Rmin_glb_lt; [lra | apply Rdiv_lt_0_compat; [apply Rmult_lt_0_compat; assumption | exact HK]]).
  pose proof HN as (x1 & x2 & HX). assert (r1 : nr X' = n) by exact x1. assert (r2 : nc X' = n) by congruence.
  destruct (krylov X' n r1 r2 v Nv) as (mus & LM & EM & SM).
  assert (HB' : forall i j, (i < n)%nat -> (j < n)%nat -> (Cmod (ent X' i j) <= b + 1)%R).
  { intros i j Hi Hj. replace (ent X' i j) with (ent X i j + - (ent X i j - ent X' i j)) by ring. eapply Rle_trans; [apply Cmod_triangle|]. rewrite Cmod_opp. specialize (HX i j Hi ltac:(congruence)). specialize (HB i j Hi ltac:(congruence)). lra. }
  assert (HA : forall e, (n1 n (mvec X' e) <= M / 2 * n1 n e)%R).
  { intros e. eapply Rle_trans; [apply (n1_mvec n X' (b + 1)); [exact r2 | lra | exact HB']|]. apply Rmult_le_compat_r; [apply n1_nonneg|]. unfold M. lra. }
  assert (EB : forall z, eigenvalue X' z -> (Cmod z <= INR n * (b + 1))%R).
  { intros z (u & Nu & Eu). rewrite r1 in Nu, Eu. pose proof (n1_pos n u Nu) as Up. apply Rmult_le_reg_r with (n1 n u); [exact Up|]. rewrite <- n1_scal. rewrite <- (n1_ext n (mvec X' u)) by exact Eu. apply (n1_mvec n X' (b + 1)); [exact r2 | lra | exact HB']. }
  destruct (Classical_Prop.classic (exists z, In z mus /\ (Cmod (lam - z)%C < t1)%R)) as [(z & Iz & Lz)|NO]; [exists z; split; [now apply EM | lra]|]. exfalso.
  assert (FAR : forall z, In z mus -> (t1 <= Cmod (lam - z)%C)%R). { intros z Iz. destruct (Rle_lt_dec t1 (Cmod (lam - z)%C)) as [Y|Y]; [exact Y|]. exfalso. apply NO. now exists z. }
  assert (HD : (n1 n (mvec (X' -m X) v) <= INR n * eps * n1 n v)%R).
  { apply n1_mvec; [exact r2 | lra |]. intros i j Hi Hj. cbn [msub ent]. rewrite <- Cmod_opp. replace (- (ent X' i j - ent X i j)) with (ent X i j - ent X' i j) by ring. apply HX; congruence. }
  destruct (shifts_estimate X' X n lam v M (INR n * eps * n1 n v) r1 r2 eq_refl (eq_sym Hsq) EV HM) with (mus := mus) (c := RtoC 1) (y := v) (e := fun _ : nat => RtoC 0) as (e' & Q & B); [apply Rmult_le_pos; [apply Rmult_le_pos|]; lra | exact HD | exact HA | | intros; ring |].
  { intros z Iz. pose proof (EB z (EM z Iz)) as Z. split; [unfold M; lra|]. replace (lam - z) with (lam + - z) by ring. eapply Rle_trans; [apply Cmod_triangle|]. rewrite Cmod_opp. unfold M. lra. }
  set (cp := fold_right (fun z c => (lam - z) * c) (RtoC 1) mus) in *.
  assert (N0 : n1 n (fun _ : nat => RtoC 0) = 0%R). { unfold n1. rewrite (rsum_ext n _ (fun _ => 0%R)) by (intros; apply Cmod_0). rewrite rsum_const. ring. }
  assert (NE : (Cmod cp * n1 n v = n1 n e')%R).
  { rewrite <- n1_scal. rewrite <- (n1_ext n (fun i => - (cp * v i)) e'). - unfold n1. apply rsum_ext. intros. now rewrite Cmod_opp.
    - intros i Hi. specialize (Q i Hi). rewrite (SM i Hi) in Q. replace (e' i) with (RtoC 1 * cp * v i + e' i - cp * v i) by ring. rewrite <- Q. ring. }
  rewrite N0, Cmod_1, Rplus_0_l, Rmult_1_l in B. rewrite <- NE in B.
  pose proof (cprod_bound lam t1 mus ltac:(lra) FAR) as LB. fold cp in LB.
  assert (J1 : (t1 ^ L <= t1 ^ List.length mus)%R). { replace L with (List.length mus + (L - List.length mus))%nat by (unfold L in *; lia). rewrite pow_add. rewrite <- (Rmult_1_r (t1 ^ List.length mus)) at 2. apply Rmult_le_compat_l; [apply pow_le; lra|]. rewrite <- (pow1 (L - List.length mus)). apply pow_incr. lra. }
  assert (J2 : (M ^ List.length mus <= M ^ L)%R) by (apply Rle_pow; [exact HM | exact LM]).
  assert (J3 : (INR (List.length mus) <= INR L)%R) by (apply le_INR; exact LM).
  assert (B2 : (M ^ List.length mus * (INR (List.length mus) * (INR n * eps * n1 n v)) <= M ^ L * (INR L * (INR n * eps * n1 n v)))%R).
  { assert (0 <= INR n * eps * n1 n v)%R by (repeat apply Rmult_le_pos; lra). apply Rmult_le_compat; [apply pow_le; lra | apply Rmult_le_pos; [apply pos_INR | assumption] | exact J2 | apply Rmult_le_compat_r; assumption]. }
  assert (C1 : (t1 ^ L * n1 n v <= Cmod cp * n1 n v)%R) by (apply Rmult_le_compat_r; lra).
  assert (C2 : (eps * K <= t1 ^ L * n1 n v)%R). { apply Rmult_le_compat_r with (r := K) in P2; [|lra]. replace (t1 ^ L * n1 n v / K * K)%R with (t1 ^ L * n1 n v)%R in P2 by (field; lra). exact P2. }
  replace (M ^ L * (INR L * (INR n * eps * n1 n v)))%R with (eps * (K - 1))%R in B2 by (unfold K; ring). lra.
Qed.
