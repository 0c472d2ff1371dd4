(** Continuity of matrix computations: products, inverses, bases of eigenspaces, eigenvalues. *)
From Coq Require Import Sorting.Sorted Sorting.Permutation.
From Verif Require Import Base_Np Base_Lin S_subspace P_subspace P_subspace2 P_subspace3 P_subspace4 P_spectral P_ml6 P_courant P_signals P_invar P_invar4 P_invar6 S_invar S_stable P_stable P_stable5 P_oracles P_fta P_fta2.
Open Scope C_scope.

(** the entries of B are within eps of those of A *)
Definition near (eps : R) (A B : cmat) : Prop :=
  nr B = nr A /\ nc B = nc A /\ forall i j, (i < nr A)%nat -> (j < nc A)%nat -> (Cmod (ent A i j - ent B i j)%C <= eps)%R.
Lemma near_mono e e' A B : (e <= e')%R -> near e A B -> near e' A B.
Proof. intros L (a & b & c). split; [exact a|]. split; [exact b|]. intros i j Hi Hj. eapply Rle_trans; [apply c; assumption | exact L]. Qed.
Lemma Cmod_self (x : C) : Cmod (x - x)%C = 0%R.
Proof. replace (x - x) with (RtoC 0) by ring. apply Cmod_0. Qed.
Lemma near_refl e A : (0 <= e)%R -> near e A A.
Proof. intros L. split; [reflexivity|]. split; [reflexivity|]. intros. rewrite Cmod_self. exact L. Qed.
Lemma near_eq e A A' B B' : A ==m A' -> B ==m B' -> near e A B -> near e A' B'.
Proof.
  intros HA HB (a & b & c). pose proof HA as (a1 & a2 & a3). pose proof HB as (b1 & b2 & b3). split; [congruence|]. split; [congruence|].
  intros i j Hi Hj. rewrite <- a3, <- b3 by congruence. apply c; congruence.
Qed.
Lemma near_her e A B : near e A B -> near e (mher A) (mher B).
Proof.
  intros (a & b & c). split; [exact b|]. split; [exact a|]. cbn [mher nr nc ent]. intros i j Hi Hj. rewrite <- Cminus_conj, Cmod_conj. now apply c.
Qed.
Lemma entries_bounded (A : cmat) : exists M, (1 <= M)%R /\ forall i j, (i < nr A)%nat -> (j < nc A)%nat -> (Cmod (ent A i j) <= M)%R.
Proof.
  exists (1 + rsum (nr A) (fun i => rsum (nc A) (fun j => Cmod (ent A i j))))%R. assert (P : forall i, (0 <= rsum (nc A) (fun j => Cmod (ent A i j)))%R) by (intros; apply rsum_nonneg; intros; apply Cmod_ge_0).
  split; [assert (0 <= rsum (nr A) (fun i => rsum (nc A) (fun j => Cmod (ent A i j))))%R by (apply rsum_nonneg; intros; apply P); lra|].
  intros i j Hi Hj. pose proof (rsum_ge (nr A) (fun i => rsum (nc A) (fun j => Cmod (ent A i j))) i Hi (fun _ _ => P _)) as G. cbv beta in G.
  pose proof (rsum_ge (nc A) (fun j => Cmod (ent A i j)) j Hj (fun _ _ => Cmod_ge_0 _)) as G2. cbv beta in G2. lra.
Qed.
Lemma Cmod_sum_le n (f : nat -> C) t : (forall i, (i < n)%nat -> (Cmod (f i) <= t)%R) -> (Cmod (csum n f) <= INR n * t)%R.
Proof.
  intros H. eapply Rle_trans; [apply Cmod_csum|]. induction n as [|n IH]; [cbn; lra|]. rewrite S_INR. cbn [rsum]. specialize (IH ltac:(intros; apply H; lia)). specialize (H n ltac:(lia)). lra.
Qed.
Lemma near_mul A B tol : nc A = nr B -> (0 < tol)%R -> exists eps, (0 < eps)%R /\ forall A' B', near eps A A' -> near eps B B' -> near tol (A *m B) (A' *m B').
Proof.
  intros D Ht. destruct (entries_bounded A) as (M1 & G1 & B1). destruct (entries_bounded B) as (M2 & G2 & B2).
  set (n := INR (nc A)). assert (Hn : (0 <= n)%R) by apply pos_INR. set (K := (n * (M1 + M2 + 1) + 1)%R). assert (HK : (0 < K)%R) by (unfold K; assert (0 <= n * (M1 + M2 + 1))%R by (apply Rmult_le_pos; lra); lra).
  exists (Rmin 1 (tol / K)). assert (T0 : (0 < tol / K)%R) by (apply Rdiv_lt_0_compat; assumption). split; [apply Rmin_glb_lt; lra|].
  intros A' B' (a1 & a2 & a3) (b1 & b2 & b3). split; [exact a1|]. split; [exact b2|]. cbn [mmul nr nc ent]. intros i j Hi Hj. rewrite a2, <- csum_minus.
  set (e := Rmin 1 (tol / K)) in *. assert (E1 : (e <= 1)%R) by apply Rmin_l. assert (E2 : (e <= tol / K)%R) by apply Rmin_r. assert (E0 : (0 < e)%R) by (apply Rmin_glb_lt; lra).
  eapply Rle_trans; [apply (Cmod_sum_le _ _ (e * (M1 + M2 + 1)))|].
  - intros q Hq. replace (ent A i q * ent B q j - ent A' i q * ent B' q j) with (ent A i q * (ent B q j - ent B' q j) + (ent A i q - ent A' i q) * ent B' q j) by ring.
    eapply Rle_trans; [apply Cmod_triangle|]. rewrite !Cmod_mult. pose proof (a3 i q Hi Hq) as X1. pose proof (b3 q j ltac:(congruence) Hj) as X2. pose proof (B1 i q Hi Hq) as Y1. pose proof (B2 q j ltac:(congruence) Hj) as Y2.
    assert (Y3 : (Cmod (ent B' q j) <= M2 + 1)%R). { replace (ent B' q j) with (ent B q j + - (ent B q j - ent B' q j)) by ring. eapply Rle_trans; [apply Cmod_triangle|]. rewrite Cmod_opp. lra. }
    assert (Cmod (ent A i q) * Cmod (ent B q j - ent B' q j)%C <= M1 * e)%R by (apply Rmult_le_compat; try apply Cmod_ge_0; assumption).
    assert (Cmod (ent A i q - ent A' i q)%C * Cmod (ent B' q j) <= e * (M2 + 1))%R by (apply Rmult_le_compat; try apply Cmod_ge_0; assumption). lra.
  - fold n. assert (e * K <= tol)%R. { apply Rmult_le_compat_r with (r := K) in E2; [|lra]. replace (tol / K * K)%R with tol in E2 by (field; lra). exact E2. }
    unfold K in H. assert (0 <= e)%R by lra. lra.
Qed.
Lemma near_scal c A tol : (0 < tol)%R -> exists eps, (0 < eps)%R /\ forall A', near eps A A' -> near tol (mscal c A) (mscal c A').
Proof.
  intros Ht. pose proof (Cmod_ge_0 c) as Hc. exists (tol / (Cmod c + 1))%R. split; [apply Rdiv_lt_0_compat; lra|]. intros A' (a & b & H). split; [exact a|]. split; [exact b|]. cbn [mscal nr nc ent]. intros i j Hi Hj.
  replace (c * ent A i j - c * ent A' i j) with (c * (ent A i j - ent A' i j)) by ring. rewrite Cmod_mult. specialize (H i j Hi Hj).
  apply Rle_trans with (Cmod c * (tol / (Cmod c + 1)))%R; [apply Rmult_le_compat_l; assumption|]. apply Rmult_le_reg_r with (Cmod c + 1)%R; [lra|]. replace (Cmod c * (tol / (Cmod c + 1)) * (Cmod c + 1))%R with (Cmod c * tol)%R by (field; lra). lra.
Qed.
Lemma near_entry e A B i j : near e A B -> (i < nr A)%nat -> (j < nc A)%nat -> (Cmod (ent A i j - ent B i j)%C <= e)%R.
Proof. intros (_ & _ & H). apply H. Qed.
Lemma near_sym e A B : near e A B -> near e B A.
Proof. intros (a & b & c). split; [now symmetry|]. split; [now symmetry|]. intros i j Hi Hj. rewrite <- Cmod_opp. replace (- (ent B i j - ent A i j)) with (ent A i j - ent B i j) by ring. apply c; congruence. Qed.
Lemma near_tri e1 e2 A B D : near e1 A B -> near e2 B D -> near (e1 + e2) A D.
Proof.
  intros (a & b & c) (a' & b' & c'). split; [congruence|]. split; [congruence|]. intros i j Hi Hj. replace (ent A i j - ent D i j) with ((ent A i j - ent B i j) + (ent B i j - ent D i j)) by ring.
  eapply Rle_trans; [apply Cmod_triangle|]. specialize (c i j Hi Hj). specialize (c' i j ltac:(congruence) ltac:(congruence)). lra.
Qed.

(** *** linear systems *)
(** a matrix close to the identity is injective, and bounded solutions *)
Lemma near_id_solve k (N X B : cmat) : nr N = k -> nc N = k -> nc X = k -> X *m N ==m B -> (forall b, near b (mid k) N -> INR k * b <= 1 / 2 -> forall i, (i < nr X)%nat ->
   forall t, (forall j, (j < k)%nat -> Cmod (ent B i j) <= t) -> forall j, (j < k)%nat -> Cmod (ent X i j) <= 2 * INR k * t)%R.
Proof.
  intros n1 n2 x2 EQ b Nb Kb i Hi t Ht j Hj. set (Sx := rsum k (fun j => Cmod (ent X i j))).
  assert (Row : forall j, (j < k)%nat -> (Cmod (ent X i j) <= t + b * Sx)%R).
  { intros q Hq. pose proof (meq_ent _ _ i q EQ ltac:(cbn; lia) ltac:(cbn; lia)) as Q. cbn [mmul ent] in Q. rewrite x2 in Q.
    assert (ID : ent X i q = csum k (fun r => ent X i r * ent (mid k) r q)). { rewrite (csum_single k _ q Hq); [cbn [mid ent]; rewrite Nat.eqb_refl; ring|]. intros r Hr Nr. cbn [mid ent]. destruct (Nat.eqb_spec r q); [lia|ring]. }
    replace (ent X i q) with (ent B i q + csum k (fun r => ent X i r * (ent (mid k) r q - ent N r q))).
    2:{ rewrite ID, <- Q. rewrite <- csum_plus. apply csum_ext. intros r Hr. ring. }
    eapply Rle_trans; [apply Cmod_triangle|]. apply Rplus_le_compat; [now apply Ht|]. eapply Rle_trans; [apply Cmod_csum|]. unfold Sx. rewrite <- rsum_scal. apply rsum_le. intros r Hr. rewrite Cmod_mult, Rmult_comm. apply Rmult_le_compat_r; [apply Cmod_ge_0|].
    apply (near_entry b (mid k) N r q Nb); cbn; assumption. }
  assert (S1 : (Sx <= INR k * (t + b * Sx))%R). { unfold Sx at 1. rewrite <- (rsum_const k (t + b * Sx)). apply rsum_le. exact Row. }
  assert (S0 : (0 <= Sx)%R) by (apply rsum_nonneg; intros; apply Cmod_ge_0).
  assert (S2 : (Sx <= 2 * INR k * t)%R). { assert (INR k * b * Sx <= 1 / 2 * Sx)%R by (apply Rmult_le_compat_r; assumption). lra. }
  pose proof (rsum_ge k (fun j => Cmod (ent X i j)) j Hj (fun _ _ => Cmod_ge_0 _)) as G. cbv beta in G. fold Sx in G. lra.
Qed.
Lemma near_id_inj k N b : near b (mid k) N -> (INR k * b <= 1 / 2)%R -> inj N.
Proof.
  intros Nb Kb x Hx j Hj. pose proof Nb as (n1 & n2 & _). cbn [mid nr nc] in n1, n2. rewrite n1 in Hx. rewrite n2 in Hj. set (Sx := rsum k (fun j => Cmod (x j))).
  assert (Row : forall q, (q < k)%nat -> (Cmod (x q) <= b * Sx)%R).
  { intros q Hq. specialize (Hx q Hq). unfold mvec in Hx. rewrite n2 in Hx.
    assert (ID : x q = csum k (fun r => ent (mid k) q r * x r)). { rewrite (csum_single k _ q Hq); [cbn [mid ent]; rewrite Nat.eqb_refl; ring|]. intros r Hr Nr. cbn [mid ent]. destruct (Nat.eqb_spec q r); [lia|ring]. }
    replace (x q) with (csum k (fun r => (ent (mid k) q r - ent N q r) * x r)).
    2:{ rewrite (csum_ext k _ (fun r => ent (mid k) q r * x r - ent N q r * x r)) by (intros; ring). rewrite csum_minus, Hx, <- ID. ring. }
    eapply Rle_trans; [apply Cmod_csum|]. unfold Sx. rewrite <- rsum_scal. apply rsum_le. intros r Hr. rewrite Cmod_mult. apply Rmult_le_compat_r; [apply Cmod_ge_0|]. apply (near_entry b (mid k) N q r Nb); cbn; assumption. }
  assert (S1 : (Sx <= INR k * (b * Sx))%R). { unfold Sx at 1. rewrite <- (rsum_const k (b * Sx)). apply rsum_le. exact Row. }
  assert (S0 : (0 <= Sx)%R) by (apply rsum_nonneg; intros; apply Cmod_ge_0).
  assert (S2 : (Sx = 0)%R). { assert (INR k * b * Sx <= 1 / 2 * Sx)%R by (apply Rmult_le_compat_r; assumption). lra. }
  pose proof (Row j Hj) as G. rewrite S2 in G. pose proof (Cmod_ge_0 (x j)). apply Cmod_eq_0. lra.
Qed.
Lemma left_inverse (A : cmat) : inj A -> exists L, nr L = nc A /\ nc L = nr A /\ L *m A ==m mid (nc A).
Proof.
  intros HI. destruct (inj_inverse (mher A *m A) (nc A) eq_refl eq_refl (pd_inj _ (gram_pd A HI))) as (B & b1 & b2 & _ & BV).
  exists (B *m mher A). split; [exact b1|]. split; [reflexivity|]. rewrite mmul_assoc. exact BV.
Qed.
Lemma third k : (INR k * (1 / 2 / (INR k + 1)) <= 1 / 2)%R.
Proof. pose proof (pos_INR k). apply Rmult_le_reg_r with (INR k + 1)%R; [lra|]. replace (INR k * (1 / 2 / (INR k + 1)) * (INR k + 1))%R with (INR k * (1 / 2))%R by (field; lra). lra. Qed.
Lemma third_pos k : (0 < 1 / 2 / (INR k + 1))%R.
Proof. pose proof (pos_INR k). apply Rdiv_lt_0_compat; lra. Qed.
Lemma near_inj A : inj A -> exists eps, (0 < eps)%R /\ forall A', near eps A A' -> inj A'.
Proof.
  intros HI. destruct (left_inverse A HI) as (L & l1 & l2 & LA). destruct (near_mul L A (1 / 2 / (INR (nc A) + 1)) l2 (third_pos _)) as (eps & He & HN).
  exists eps. split; [exact He|]. intros A' NA. assert (N1 : inj (L *m A')).
  { apply (near_id_inj (nc A) _ (1 / 2 / (INR (nc A) + 1))%R); [|apply third]. apply (near_eq _ (L *m A) _ (L *m A') _); [exact LA | reflexivity|]. apply HN; [apply near_refl; lra | exact NA]. }
  intros x Hx j Hj. apply (N1 x); [|exact Hj]. intros i Hi. rewrite mvec_mmul. apply mvec_0. intros q Hq. apply Hx. destruct NA as (a & _). congruence.
Qed.
Lemma near_solve k N X B tol : nr N = k -> nc N = k -> inj N -> nc X = k -> X *m N ==m B -> (0 < tol)%R ->
  exists eps, (0 < eps)%R /\ forall N' B' X', near eps N N' -> near eps B B' -> nr X' = nr X -> nc X' = k -> X' *m N' ==m B' -> near tol X X'.
Proof.
  intros n1 n2 HI x2 EQ Ht. destruct (inj_inverse N k n1 n2 HI) as (L & l1 & l2 & NL & LN). pose proof (pos_INR k) as Hk.
  set (t := (tol / (4 * INR k + 1))%R). assert (Ht' : (0 < t)%R) by (apply Rdiv_lt_0_compat; lra).
  assert (b1 : nc B = k) by (rewrite <- (meq_nc _ _ EQ); cbn; exact n2). assert (b2 : nr B = nr X) by (rewrite <- (meq_nr _ _ EQ); reflexivity).
  destruct (near_mul N L (1 / 2 / (INR k + 1)) ltac:(congruence) (third_pos _)) as (e1 & He1 & H1).
  destruct (near_mul B L t ltac:(congruence) Ht') as (e2 & He2 & H2). destruct (near_mul X (N *m L) t ltac:(cbn; congruence) Ht') as (e3 & He3 & H3).
  destruct (near_mul N L e3 ltac:(congruence) He3) as (e4 & He4 & H4).
  exists (Rmin (Rmin e1 e2) e4). split; [repeat apply Rmin_glb_lt; assumption|]. intros N' B' X' NN NB x1' x2' EQ'.
  assert (L1 : (Rmin (Rmin e1 e2) e4 <= e1)%R) by (eapply Rle_trans; apply Rmin_l). assert (L2 : (Rmin (Rmin e1 e2) e4 <= e2)%R) by (eapply Rle_trans; [apply Rmin_l | apply Rmin_r]). assert (L4 : (Rmin (Rmin e1 e2) e4 <= e4)%R) by apply Rmin_r.
  assert (LL : forall e, (0 < e)%R -> near e L L) by (intros; apply near_refl; lra).
  pose proof (near_eq _ _ _ _ _ NL (RelationClasses.Equivalence_Reflexive (N' *m L)) (H1 N' L (near_mono _ _ _ _ L1 NN) (LL _ He1))) as K1.
  pose proof (H2 B' L (near_mono _ _ _ _ L2 NB) (LL _ He2)) as K2.
  pose proof (H3 X (N' *m L) (near_refl e3 X ltac:(lra)) (H4 N' L (near_mono _ _ _ _ L4 NN) (LL _ He4))) as K3.
  pose proof NN as (nn1 & nn2 & _). pose proof NB as (nb1 & nb2 & _).
  assert (Q : (X' -m X) *m (N' *m L) ==m B' *m L -m X *m (N' *m L)).
  { split; [cbn; congruence|]. split; [cbn; congruence|]. intros i j Hi Hj. cbn [mmul msub nr nc] in Hi, Hj.
    assert (Q' : X' *m (N' *m L) ==m B' *m L) by (rewrite <- mmul_assoc; now apply mmul_eq_l). pose proof (meq_ent _ _ i j Q' ltac:(cbn; exact Hi) ltac:(cbn; exact Hj)) as Z.
    change (ent (B' *m L -m X *m (N' *m L)) i j) with (ent (B' *m L) i j - ent (X *m (N' *m L)) i j). rewrite <- Z. cbn [mmul msub ent nc nr]. rewrite x2, x2', <- csum_minus. apply csum_ext. intros; ring. }
  pose proof (near_id_solve k (N' *m L) (X' -m X) _ ltac:(cbn; congruence) ltac:(cbn; congruence) ltac:(cbn; congruence) Q (1 / 2 / (INR k + 1))%R K1 (third k)) as BD.
  split; [exact x1'|]. split; [congruence|]. intros i j Hi Hj. specialize (BD i ltac:(cbn; congruence) (2 * t)%R). rewrite <- Cmod_opp. replace (- (ent X i j - ent X' i j)) with (ent (X' -m X) i j) by (cbn [msub ent]; ring).
  eapply Rle_trans; [apply BD; [|congruence]|].
  - intros q Hq. change (ent (B' *m L -m X *m (N' *m L)) i q) with (ent (B' *m L) i q - ent (X *m (N' *m L)) i q).
    assert (BX : ent (B *m L) i q = ent (X *m (N *m L)) i q). { assert (BX : B *m L ==m X *m (N *m L)) by (rewrite <- mmul_assoc; apply mmul_eq_l; now symmetry). apply (meq_ent _ _ i q BX); cbn; congruence. }
    pose proof (near_entry _ _ _ i q K2 ltac:(cbn; congruence) ltac:(cbn; congruence)) as Y2. pose proof (near_entry _ _ _ i q K3 ltac:(cbn; congruence) ltac:(cbn; congruence)) as Y3. rewrite BX in Y2.
    replace (ent (B' *m L) i q - ent (X *m (N' *m L)) i q) with (- (ent (X *m (N *m L)) i q - ent (B' *m L) i q) + (ent (X *m (N *m L)) i q - ent (X *m (N' *m L)) i q)) by ring.
    eapply Rle_trans; [apply Cmod_triangle|]. rewrite Cmod_opp. lra.
  - unfold t. apply Rmult_le_reg_r with (4 * INR k + 1)%R; [lra|]. replace (2 * INR k * (2 * (tol / (4 * INR k + 1))) * (4 * INR k + 1))%R with (4 * INR k * tol)%R by (field; lra). lra.
Qed.
Lemma near_solve_l k N X B tol : nr N = k -> nc N = k -> inj N -> nr X = k -> N *m X ==m B -> (0 < tol)%R ->
  exists eps, (0 < eps)%R /\ forall N' B' X', near eps N N' -> near eps B B' -> nr X' = k -> nc X' = nc X -> N' *m X' ==m B' -> near tol X X'.
Proof.
  intros n1 n2 HI x1 EQ Ht. destruct (inj_inverse N k n1 n2 HI) as (L & l1 & l2 & NL & LN).
  assert (HI2 : inj (mher N)). { apply (left_inv_inj (mher N) (mher L) k); [|cbn; congruence]. rewrite <- mher_mmul by congruence. rewrite (mher_eq _ _ NL). split; [reflexivity|]. split; [reflexivity|]. intros i j Hi Hj. cbn [mher mid ent]. destruct (Nat.eqb_spec j i), (Nat.eqb_spec i j); try lia; [apply Cconj_RtoC | apply Cconj_0]. }
  destruct (near_solve k (mher N) (mher X) (mher B) tol ltac:(cbn; congruence) ltac:(cbn; congruence) HI2 ltac:(cbn; congruence)) as (eps & He & H); [rewrite <- mher_mmul by congruence; now apply mher_eq | exact Ht |].
  exists eps. split; [exact He|]. intros N' B' X' HN HB a b E'. pose proof HN as (p & q & _).
  apply (near_eq _ (mher (mher X)) _ (mher (mher X')) _); [apply mher_mher | apply mher_mher |]. apply near_her. apply (H (mher N') (mher B') (mher X')); [now apply near_her | now apply near_her | cbn; congruence | cbn; congruence |].
  rewrite <- mher_mmul by congruence. now apply mher_eq.
Qed.
