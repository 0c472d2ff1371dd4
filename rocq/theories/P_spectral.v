(** The spectral theorem for Hermitian matrices of every order, in informative form: the contracts of eigh and sqrtm have instances. *)
From Coq Require Import Sorting.Sorted.
From Verif Require Import Base_Np Base_Lin S_subspace P_subspace2 P_subspace4.
Open Scope C_scope.

Lemma C_eq_dec (x y : C) : {x = y} + {x <> y}.
Proof. destruct x as [a b], y as [a' b']. destruct (Req_EM_T a a') as [->|N]; [|right; congruence]. destruct (Req_EM_T b b') as [->|N]; [left; reflexivity | right; congruence]. Qed.
Lemma pivot_dec k (f : nat -> C) : {i | (i < k)%nat /\ f i <> RtoC 0} + {forall i, (i < k)%nat -> f i = RtoC 0}.
Proof.
  induction k as [|k [(i & Hi & Ni)|IH]]; [right; lia | left; exists i; split; [lia | exact Ni] |].
  destruct (C_eq_dec (f k) (RtoC 0)) as [E|N]; [right; intros i Hi; destruct (Nat.eq_dec i k) as [->|]; [exact E | apply IH; lia] | left; exists k; split; [lia | exact N]].
Qed.
(** Gaussian elimination: a non-trivial kernel vector, or injectivity *)
Lemma kernel_dec : forall n k (B : nat -> nat -> C),
  {x | (exists j, (j < n)%nat /\ x j <> RtoC 0) /\ forall i, (i < k)%nat -> csum n (fun j => B i j * x j) = RtoC 0} +
  {forall x, (forall i, (i < k)%nat -> csum n (fun j => B i j * x j) = RtoC 0) -> forall j, (j < n)%nat -> x j = RtoC 0}.
Proof.
  induction n as [|n IH]; intros k B; [right; intros; lia|].
  destruct (pivot_dec k (fun i => B i 0%nat)) as [(i0 & Hi0 & N0)|Z].
  2:{ left. exists (fun j => match j with O => RtoC 1 | _ => RtoC 0 end). split; [exists 0%nat; split; [lia | intros H; injection H; lra]|]. intros i Hi. rewrite csum_S_l, Z by exact Hi. rewrite csum_0 by (intros; ring). ring. }
  set (p := B i0 0%nat) in *. destruct (IH k (fun i j => B i (S j) - B i 0%nat / p * B i0 (S j))) as [(x & NZ & K)|I].
  - left. exists (fun j => match j with O => - (csum n (fun j => B i0 (S j) * x j) / p) | S j => x j end). split; [destruct NZ as (j & Hj & Nj); exists (S j); split; [lia | exact Nj]|].
    intros i Hi. rewrite csum_S_l. specialize (K i Hi). rewrite (csum_ext _ _ (fun j => B i (S j) * x j + (- (B i 0%nat / p)) * (B i0 (S j) * x j))) in K by (intros; ring). rewrite csum_plus, csum_scal in K.
    set (a := csum n (fun j => B i (S j) * x j)) in *. set (b := csum n (fun j => B i0 (S j) * x j)) in *. replace (B i 0%nat * - (b / p) + a) with (a + - (B i 0%nat / p) * b) by (field; exact N0). exact K.
  - right. intros x K. pose proof (K i0 Hi0) as K0. rewrite csum_S_l in K0. fold p in K0. set (b := csum n _) in K0.
    assert (X0 : x 0%nat = - (b / p)) by (replace (x 0%nat) with (((p * x 0%nat + b) - b) / p) by (field; exact N0); rewrite K0; field; exact N0).
    assert (XS : forall j, (j < n)%nat -> x (S j) = RtoC 0).
    { apply (I (fun j => x (S j))). intros i Hi. rewrite (csum_ext _ _ (fun j => B i (S j) * x (S j) + (- (B i 0%nat / p)) * (B i0 (S j) * x (S j)))) by (intros; ring). rewrite csum_plus, csum_scal. fold b. pose proof (K i Hi) as Ki. rewrite csum_S_l, X0 in Ki. set (a := csum n (fun j => B i (S j) * x (S j))) in *. replace (a + - (B i 0%nat / p) * b) with (B i 0%nat * - (b / p) + a) by (field; exact N0). exact Ki. }
    intros [|j] Hj; [rewrite X0; unfold b; rewrite csum_0; [field; exact N0 | intros j Hj'; rewrite XS by exact Hj'; ring] | apply XS; lia].
Qed.

Lemma Cmod_conj z : Cmod (Cconj z) = Cmod z.
Proof. rewrite !Cmod_sqrt_norm2, Cnorm2_conj. reflexivity. Qed.
Lemma Cmod_csum n f : (Cmod (csum n f) <= rsum n (fun i => Cmod (f i)))%R.
Proof. induction n as [|n IH]; cbn [csum rsum]; [rewrite Cmod_0; lra | eapply Rle_trans; [apply Cmod_triangle | lra]]. Qed.
Lemma rsum_ge n (f : nat -> R) i : (i < n)%nat -> (forall j, (j < n)%nat -> (0 <= f j)%R) -> (f i <= rsum n f)%R.
Proof.
  intros Hi H. induction n as [|n IH]; [lia|]. cbn [rsum]. destruct (Nat.eq_dec i n) as [->|]; [|specialize (IH ltac:(lia) ltac:(intros; apply H; lia)); specialize (H n ltac:(lia)); lra].
  pose proof (rsum_nonneg n f ltac:(intros; apply H; lia)). lra.
Qed.
Lemma vnorm2_ge n x i : (i < n)%nat -> (Cnorm2 (x i) <= vnorm2 n x)%R.
Proof. intros Hi. exact (rsum_ge n (fun i => Cnorm2 (x i)) i Hi (fun j _ => Cnorm2_nonneg (x j))). Qed.
Lemma vnorm2_pos n x : (exists i, (i < n)%nat /\ x i <> RtoC 0) -> (0 < vnorm2 n x)%R.
Proof. intros (i & Hi & Ni). pose proof (vnorm2_ge n x i Hi). pose proof (Cnorm2_pos _ Ni). lra. Qed.
Definition mbound (A : cmat) : R := rsum (nr A) (fun i => rsum (nc A) (fun j => Cmod (ent A i j))).
Lemma mbound_nonneg A : (0 <= mbound A)%R.
Proof. apply rsum_nonneg. intros i _. apply rsum_nonneg. intros j _. apply Cmod_ge_0. Qed.
Lemma qform_bound A x : nr A = nc A -> (Cmod (qform A x) <= mbound A * vnorm2 (nr A) x)%R.
Proof.
  intros Hs. unfold qform, mbound. eapply Rle_trans; [apply Cmod_csum|]. rewrite Rmult_comm, <- rsum_scal. apply rsum_le. intros i Hi. eapply Rle_trans; [apply Cmod_csum|]. rewrite <- rsum_scal. apply rsum_le. intros j Hj.
  rewrite !Cmod_mult, Cmod_conj. replace (Cmod (x i) * Cmod (ent A i j) * Cmod (x j))%R with (Cmod (x i) * Cmod (x j) * Cmod (ent A i j))%R by ring. apply Rmult_le_compat_r; [apply Cmod_ge_0|].
  pose proof (vnorm2_ge (nr A) x i Hi) as G1. pose proof (vnorm2_ge (nr A) x j ltac:(lia)) as G2. rewrite <- Cmod_norm2 in G1, G2. pose proof (Rle_0_sqr (Cmod (x i) - Cmod (x j))) as G3. unfold Rsqr in G3. lra.
Qed.
Lemma Re_bound (z : C) : (- Cmod z <= Re z <= Cmod z)%R.
Proof.
  pose proof (Rmax_Cmod z) as H. pose proof (Rmax_l (Rabs (fst z)) (Rabs (snd z))) as H1. unfold Re. pose proof (Rle_abs (fst z)). pose proof (Rle_abs (- fst z)). rewrite Rabs_Ropp in *. lra.
Qed.
(** a positive semidefinite injective matrix is bounded away from 0 *)
Lemma psd_inj_lower A : psd A -> inj A -> exists e, (0 < e)%R /\ forall x, (e * vnorm2 (nr A) x <= Re (qform A x))%R.
Proof.
  intros HP HI. pose proof HP as ((Hs & HH) & _). destruct (inj_inverse A (nr A) eq_refl (eq_sym Hs) HI) as (B & B1 & B2 & AB & BA).
  pose proof (mbound_nonneg B) as MB. exists (/ (mbound B + 1))%R. split; [apply Rinv_0_lt_compat; lra|]. intros x. set (n := nr A) in *. set (N := vnorm2 n x). set (Q := Re (qform A x)).
  pose proof (vnorm2_nonneg n x) as N0. fold N in N0.
  set (y := mvec B x). assert (AY : forall i, (i < n)%nat -> mvec A y i = x i) by (intros i Hi; unfold y; rewrite <- mvec_mmul, (mvec_eq _ _ x i AB) by exact Hi; apply mvec_mid; exact Hi).
  pose proof (cauchy_schwarz A x y HP) as CS. assert (XY : bform A x y = RtoC N).
  { unfold bform. rewrite (csum_ext _ _ (fun i => Cconj (x i) * x i)) by (intros i Hi; rewrite <- (AY i Hi) at 2; unfold mvec; rewrite <- csum_scal; apply csum_ext; intros; ring). exact (vdot_self n x). }
  assert (YY : (Re (qform A y) <= mbound B * N)%R).
  { assert (QE : qform A y = qform (mher B) x).
    { unfold qform. cbn [mher nr nc]. fold n. rewrite B1, B2. rewrite (csum_ext _ _ (fun i => Cconj (y i) * x i)) by (intros i Hi; rewrite <- (AY i Hi); unfold mvec; rewrite <- csum_scal; apply csum_ext; intros; ring).
      rewrite (csum_ext _ _ (fun i => csum n (fun j => Cconj (x j) * Cconj (ent B i j) * x i))).
      - rewrite csum_swap. reflexivity.
      - intros i Hi. unfold y, mvec. rewrite B2, csum_conj. rewrite <- csum_scal_r. apply csum_ext. intros j Hj. rewrite Cmult_conj. ring. }
    rewrite QE. pose proof (Re_bound (qform (mher B) x)) as RB. pose proof (qform_bound (mher B) x ltac:(cbn [mher nr nc]; congruence)) as QB. cbn [mher nr] in QB. rewrite B2 in QB. fold N in QB.
    replace (mbound (mher B)) with (mbound B) in QB; [lra|]. unfold mbound. cbn [mher nr nc ent]. rewrite rsum_swap. apply rsum_ext. intros j Hj. apply rsum_ext. intros i Hi. rewrite Cmod_conj. reflexivity. }
  rewrite XY in CS. unfold Cnorm2 in CS. change (Re (RtoC N)) with N in CS. change (Im (RtoC N)) with 0%R in CS. fold Q in CS. pose proof (proj2 HP x) as Q0. fold Q in Q0.
  destruct (Req_dec N 0) as [->|NN]; [lra|]. assert (NP : (0 < N)%R) by lra. apply Rmult_le_reg_l with (mbound B + 1)%R; [lra|]. rewrite <- Rmult_assoc, Rinv_r, Rmult_1_l by lra.
  apply Rmult_le_reg_l with N; [exact NP|]. pose proof (Rmult_le_compat_l Q _ _ Q0 YY) as G. pose proof (Rmult_le_pos N Q N0 Q0) as NQ. lra.
Qed.

Lemma qform_vdot A x : nr A = nc A -> qform A x = vdot (nr A) x (mvec A x).
Proof. intros Hs. unfold qform, vdot, mvec. apply csum_ext. intros i Hi. rewrite <- csum_scal. apply csum_ext. intros j Hj. ring. Qed.
(** the least eigenvalue *)
Lemma min_eig A : hermitian A -> (0 < nr A)%nat ->
  {l : R & {v : nat -> C | vnorm2 (nr A) v = 1%R /\ (forall i, (i < nr A)%nat -> mvec A v i = RtoC l * v i) /\ forall x, (l * vnorm2 (nr A) x <= Re (qform A x))%R}}.
Proof.
  intros HH Hn. pose proof HH as (Hs & HE). set (n := nr A) in *.
  set (Low := fun t : R => forall x, (t * vnorm2 n x <= Re (qform A x))%R).
  destruct (completeness Low) as (l & Ub & Lub).
  - exists (Re (qform A (unit_vec 0))). intros t Ht. specialize (Ht (unit_vec 0)). replace (vnorm2 n (unit_vec 0)) with 1%R in Ht; [lra|]. unfold vnorm2. rewrite (rsum_single _ _ 0%nat Hn).
    + unfold unit_vec, Cnorm2. cbn [Nat.eqb]. change (Re (RtoC 1)) with 1%R. change (Im (RtoC 1)) with 0%R. ring.
    + intros i Hi Ni. unfold unit_vec. destruct (Nat.eqb_spec i 0); [contradiction|]. apply Cnorm2_0. reflexivity.
  - exists (- mbound A)%R. intros x. pose proof (qform_bound A x Hs). pose proof (Re_bound (qform A x)). fold n in H. lra.
  - assert (LL : Low l).
    { intros x. pose proof (vnorm2_nonneg n x) as N0. destruct (Req_dec (vnorm2 n x) 0) as [Z|NZ].
      - rewrite Z. pose proof (vnorm2_0 n x Z) as X0. unfold qform. rewrite csum_0; [change (Re (RtoC 0)) with 0%R; lra|]. intros i Hi. apply csum_0. intros j Hj. rewrite (X0 i Hi). rewrite Cconj_0. ring.
      - assert (NP : (0 < vnorm2 n x)%R) by lra. assert (UB : (l <= Re (qform A x) / vnorm2 n x)%R).
        { apply Lub. intros t Ht. specialize (Ht x). apply Rmult_le_reg_r with (vnorm2 n x); [exact NP|]. unfold Rdiv. rewrite Rmult_assoc, Rinv_l by lra. lra. }
        apply Rmult_le_compat_r with (r := vnorm2 n x) in UB; [|lra]. unfold Rdiv in UB. rewrite Rmult_assoc, Rinv_l in UB by lra. lra. }
    set (M := A -m mscal (RtoC l) (mid n)). assert (HM : hermitian M) by (apply hermitian_msub; [reflexivity | exact HH | apply hermitian_mscal, hermitian_mid]).
    assert (QM : forall x, qform M x = qform A x - RtoC (l * vnorm2 n x)).
    { intros x. rewrite RtoC_mult, <- qform_mid, <- qform_mscal. unfold M, qform. cbn [msub mscal mid nr nc ent]. fold n. rewrite <- Hs. fold n. unfold Cminus. rewrite <- csum_opp, <- csum_plus. apply csum_ext. intros i Hi. rewrite <- csum_opp, <- csum_plus. apply csum_ext. intros j Hj. ring. }
    assert (PM : psd M).
    { split; [exact HM|]. intros x. rewrite QM. specialize (LL x). change (Re (qform A x - RtoC (l * vnorm2 n x))) with (Re (qform A x) - l * vnorm2 n x)%R. lra. }
    destruct (kernel_dec n n (ent M)) as [(v & NZ & K)|I].
    + exists l. set (s := (/ sqrt (vnorm2 n v))%R). exists (fun i => RtoC s * v i). pose proof (vnorm2_pos n v NZ) as NP. split; [|split; [|exact LL]].
      * rewrite vnorm2_scal. unfold Cnorm2. change (Re (RtoC s)) with s. change (Im (RtoC s)) with 0%R. unfold s. replace (/ sqrt (vnorm2 n v) * / sqrt (vnorm2 n v) + 0 * 0)%R with (/ (sqrt (vnorm2 n v) * sqrt (vnorm2 n v)))%R by (rewrite Rinv_mult; ring). rewrite sqrt_sqrt by lra. apply Rinv_l. lra.
      * intros i Hi. specialize (K i Hi). assert (K' : mvec A v i = RtoC l * v i).
        { unfold mvec. rewrite <- Hs. fold n. rewrite (csum_ext _ _ (fun j => ent M i j * v j + RtoC l * ((if Nat.eqb i j then RtoC 1 else RtoC 0) * v j))) by (intros j Hj; unfold M; cbn [msub mscal mid ent]; ring). rewrite csum_plus, K, csum_scal, (csum_single _ _ i Hi); [rewrite Nat.eqb_refl; ring|]. intros j Hj Nj. destruct (Nat.eqb_spec i j); [congruence | ring]. }
        unfold mvec in *. rewrite (csum_ext _ _ (fun j => RtoC s * (ent A i j * v j))) by (intros; ring). rewrite csum_scal, K'. ring.
    + exfalso. assert (IM : inj M).
      { intros x Hx j Hj. apply (I x); [|unfold M in Hj; cbn [msub nc] in Hj; unfold n; lia]. intros i Hi. specialize (Hx i Hi). unfold mvec in Hx. unfold M in Hx at 1. cbn [msub nc] in Hx. rewrite <- Hs in Hx. exact Hx. }
      destruct (psd_inj_lower M PM IM) as (e & Pe & HL). change (nr M) with n in HL. assert (Bad : Low (l + e)%R).
      { intros x. specialize (HL x). rewrite QM in HL. change (Re (qform A x - RtoC (l * vnorm2 n x))) with (Re (qform A x) - l * vnorm2 n x)%R in HL. lra. }
      specialize (Ub _ Bad). lra.
Qed.

(** k orthonormal eigenvectors for the k least eigenvalues *)
Definition eig_upto (A : cmat) (k : nat) (ls : nat -> R) (vs : nat -> nat -> C) : Prop :=
  let n := nr A in
  (forall p q, (p < k)%nat -> (q < k)%nat -> vdot n (vs p) (vs q) = if Nat.eqb p q then RtoC 1 else RtoC 0) /\
  (forall p i, (p < k)%nat -> (i < n)%nat -> mvec A (vs p) i = RtoC (ls p) * vs p i) /\
  (forall p q, (p <= q)%nat -> (q < k)%nat -> (ls p <= ls q)%R) /\
  (forall p x, (p < k)%nat -> (forall q, (q < k)%nat -> vdot n (vs q) x = RtoC 0) -> (ls p * vnorm2 n x <= Re (qform A x))%R).
Lemma vdot_scal n c x y : vdot n x (fun i => c * y i) = c * vdot n x y.
Proof. unfold vdot. rewrite <- csum_scal. apply csum_ext. intros. ring. Qed.
Lemma vdot_ext n x y x' y' : (forall i, (i < n)%nat -> x i = x' i) -> (forall i, (i < n)%nat -> y i = y' i) -> vdot n x y = vdot n x' y'.
Proof. intros H1 H2. unfold vdot. apply csum_ext. intros i Hi. rewrite H1, H2 by exact Hi. reflexivity. Qed.
Lemma eig_next A k ls vs : hermitian A -> (k < nr A)%nat -> eig_upto A k ls vs -> {l : R & {v | eig_upto A (S k) (fun p => if Nat.eqb p k then l else ls p) (fun p => if Nat.eqb p k then v else vs p)}}.
Proof.
  intros HH Hk (HO & HE & HS & HL). pose proof HH as (Hs & HC). set (n := nr A) in *. set (c := (mbound A + 1)%R).
  set (D := Mat n n (fun i j => ent A i j + csum k (fun p => RtoC (c - ls p) * vs p i * Cconj (vs p j)))).
  assert (HD : hermitian D).
  { split; [reflexivity|]. cbn [D nr ent]. intros i j Hi Hj. rewrite Cplus_conj, <- HC, csum_conj by assumption. f_equal. apply csum_ext. intros p Hp. rewrite !Cmult_conj, Cconj_conj, Cconj_RtoC. ring. }
  assert (MV : forall x i, mvec D x i = mvec A x i + csum k (fun p => RtoC (c - ls p) * vdot n (vs p) x * vs p i)).
  { intros x i. unfold mvec. cbn [D nc ent]. rewrite <- Hs. fold n. rewrite (csum_ext _ _ (fun j => ent A i j * x j + csum k (fun p => RtoC (c - ls p) * vs p i * Cconj (vs p j)) * x j)) by (intros; ring). rewrite csum_plus. f_equal.
    rewrite (csum_ext _ _ (fun j => csum k (fun p => RtoC (c - ls p) * vs p i * Cconj (vs p j) * x j))) by (intros j Hj; rewrite csum_scal_r; reflexivity). rewrite csum_swap. apply csum_ext. intros p Hp. unfold vdot. rewrite <- csum_scal, <- csum_scal_r. apply csum_ext. intros j Hj. ring. }
  assert (QD : forall x, (forall q, (q < k)%nat -> vdot n (vs q) x = RtoC 0) -> qform D x = qform A x).
  { intros x Hx. rewrite !qform_vdot by (try reflexivity; exact Hs). apply vdot_ext; [reflexivity|]. intros i Hi. rewrite MV, csum_0; [ring|]. intros p Hp. rewrite Hx by exact Hp. ring. }
  destruct (min_eig D HD) as (l & v & V1 & VE & VL); [cbn [D nr]; lia|]. change (nr D) with n in *.
  assert (LC : (l < c)%R).
  { destruct (kernel_exists k n (fun p j => Cconj (vs p j)) Hk) as (u & NU & KU). pose proof (VL u) as G. rewrite (QD u KU) in G. pose proof (qform_bound A u Hs) as B. fold n in B. pose proof (Re_bound (qform A u)) as RB. pose proof (vnorm2_pos n u NU) as NP. unfold c. nra. }
  assert (OV : forall p, (p < k)%nat -> vdot n (vs p) v = RtoC 0).
  { intros p Hp. assert (E1 : vdot n (vs p) (mvec D v) = RtoC l * vdot n (vs p) v) by (rewrite <- vdot_scal; apply vdot_ext; [reflexivity | exact VE]).
    assert (E2 : vdot n (vs p) (mvec D v) = RtoC c * vdot n (vs p) v).
    { rewrite (vdot_ext n _ _ (vs p) (fun i => mvec A v i + csum k (fun q => RtoC (c - ls q) * vdot n (vs q) v * vs q i)) (fun _ _ => eq_refl) (fun i _ => MV v i)).
      unfold vdot at 1. rewrite (csum_ext _ _ (fun i => Cconj (vs p i) * mvec A v i + csum k (fun q => RtoC (c - ls q) * vdot n (vs q) v * (Cconj (vs p i) * vs q i)))) by (intros i Hi; rewrite Cmult_plus_distr_l; f_equal; rewrite <- csum_scal; apply csum_ext; intros; ring).
      rewrite csum_plus, csum_swap. rewrite (csum_ext k _ (fun q => RtoC (c - ls q) * vdot n (vs q) v * (if Nat.eqb p q then RtoC 1 else RtoC 0))) by (intros q Hq; rewrite csum_scal; rewrite <- (HO p q Hp Hq); reflexivity).
      rewrite (csum_single _ _ p Hp) by (intros q Hq Nq; destruct (Nat.eqb_spec p q); [congruence | ring]). rewrite Nat.eqb_refl.
      assert (EA : csum n (fun i => Cconj (vs p i) * mvec A v i) = RtoC (ls p) * vdot n (vs p) v).
      { change (csum n (fun i => Cconj (vs p i) * mvec A v i)) with (vdot n (vs p) (mvec A v)). unfold n at 1. rewrite vdot_mvec_her. rewrite <- Hs. fold n. rewrite (vdot_ext n _ v (fun i => RtoC (ls p) * vs p i) v); [|intros i Hi; rewrite <- HE by assumption; apply mvec_eq; [apply hermitian_mher; exact HH | cbn [mher nr]; rewrite <- Hs; exact Hi] | reflexivity].
        unfold vdot. rewrite <- csum_scal. apply csum_ext. intros i Hi. rewrite Cmult_conj, Cconj_RtoC. ring. }
      rewrite EA, RtoC_minus. ring. }
    rewrite E1 in E2. set (w := vdot n (vs p) v) in *. replace w with ((RtoC c * w - RtoC l * w) / RtoC (c - l)); [rewrite E2; field; intros H; injection H; lra|]. rewrite RtoC_minus. field. rewrite <- RtoC_minus. intros H; injection H; lra. }
  assert (AV : forall i, (i < n)%nat -> mvec A v i = RtoC l * v i).
  { intros i Hi. rewrite <- (VE i Hi), MV, csum_0; [ring|]. intros p Hp. rewrite OV by exact Hp. ring. }
  exists l, v. unfold eig_upto. fold n. split; [|split; [|split]].
  - intros p q Hp Hq. destruct (Nat.eqb_spec p k) as [->|Np], (Nat.eqb_spec q k) as [->|Nq].
    + rewrite Nat.eqb_refl, vdot_self, V1. reflexivity.
    + destruct (Nat.eqb_spec k q); [congruence|]. rewrite <- vdot_conj, OV by lia. apply Cconj_0.
    + destruct (Nat.eqb_spec p k); [congruence|]. apply OV. lia.
    + apply HO; lia.
  - intros p i Hp Hi. destruct (Nat.eqb_spec p k); [apply AV; exact Hi | apply HE; [lia | exact Hi]].
  - intros p q Hpq Hq. destruct (Nat.eqb_spec p k) as [->|Np], (Nat.eqb_spec q k) as [->|Nq]; [lra | lia | | apply HS; lia].
    pose proof (HL p v ltac:(lia) OV) as G. rewrite V1 in G. rewrite qform_vdot in G by exact Hs. fold n in G. rewrite (vdot_ext n v _ v (fun i => RtoC l * v i) (fun _ _ => eq_refl) AV), vdot_scal, vdot_self, V1, <- RtoC_mult in G. change (Re (RtoC (l * 1))) with (l * 1)%R in G. lra.
  - intros p x Hp Hx. assert (Hx' : forall q, (q < k)%nat -> vdot n (vs q) x = RtoC 0) by (intros q Hq; specialize (Hx q ltac:(lia)); cbv beta in Hx; destruct (Nat.eqb_spec q k); [lia | exact Hx]).
    destruct (Nat.eqb_spec p k) as [->|Np]; [rewrite <- (QD x Hx'); apply VL | apply HL; [lia | exact Hx']].
Qed.
Lemma eig_all A : hermitian A -> forall k, (k <= nr A)%nat -> {ls : nat -> R & {vs | eig_upto A k ls vs}}.
Proof.
  intros HH. induction k as [|k IH]; intros Hk.
  - exists (fun _ => 0%R), (fun _ _ => RtoC 0). split; [|split; [|split]]; intros; lia.
  - destruct (IH ltac:(lia)) as (ls & vs & H). destruct (eig_next A k ls vs HH ltac:(lia) H) as (l & v & H'). eexists. eexists. exact H'.
Qed.
(** the spectral theorem *)
Theorem spectral A : hermitian A -> {w : list R & {E | eigh_ok A w E}}.
Proof.
  intros HH. pose proof HH as (Hs & HC). destruct (eig_all A HH (nr A) (le_n _)) as (ls & vs & HO & HE & HS & _). set (n := nr A) in *.
  assert (NW : forall i, (i < n)%nat -> nth i (map ls (seq 0 n)) 0%R = ls i) by (intros i Hi; rewrite (nth_indep _ 0%R (ls 0%nat)) by (rewrite map_length, seq_length; exact Hi); rewrite map_nth, seq_nth by exact Hi; reflexivity).
  exists (map ls (seq 0 n)), (Mat n n (fun i j => vs j i)). unfold eigh_ok. fold n. cbn [nr nc]. split; [exact Hs|]. split; [reflexivity|]. split; [reflexivity|]. split; [rewrite map_length, seq_length; reflexivity|]. split; [|split].
  - assert (SS : forall m s, (s + m <= n)%nat -> StronglySorted Rle (map ls (seq s m))).
    { induction m as [|m IH]; intros s Hm; cbn [seq map]; constructor; [apply IH; lia|]. apply Forall_forall. intros y Hy. apply in_map_iff in Hy. destruct Hy as (q & <- & Hq). apply in_seq in Hq. apply HS; lia. }
    apply SS. lia.
  - split; [reflexivity|]. split; [reflexivity|]. cbn [mmul mher mid nr nc ent]. intros p q Hp Hq. exact (HO p q Hp Hq).
  - split; [reflexivity|]. split; [reflexivity|]. cbn [mmul mdiag nr nc ent]. intros i j Hi Hj. change (csum (nc A) (fun k => ent A i k * vs j k)) with (mvec A (vs j) i). rewrite HE by assumption. rewrite (csum_single _ _ j Hj); [rewrite Nat.eqb_refl, NW by exact Hj; ring|]. intros q Hq Nq. destruct (Nat.eqb_spec q j); [contradiction | ring].
Qed.
