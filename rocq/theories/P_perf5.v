(** Coarray MUSIC error covariance. *)
From Coq Require Import Sorting.Sorted.
From Verif Require Import Base_Np Base_Lin Base_Trig M_utils M_sources M_array M_designs M_coarray M_core S_utils S_sources S_array S_model S_subspace P_utils P_array2 P_array3 M_perf S_perf P_perf P_perf2 P_perf3 P_perf4 P_subspace P_subspace3 P_subspace4 P_core2 P_model.
Open Scope C_scope.

(** the 0/1 matrix *)
Lemma sub_fold mv L : forall G r c,
  ent (fold_left (fun G ij => let '(ii, jj) := ij in
        Mat (mv * mv) (2 * mv - 1) (fun r c => if (Nat.eqb r (ii * mv + jj) && Nat.eqb c (mv - ii + jj - 1))%bool then RtoC 1 else ent G r c)) L G) r c
  = if existsb (fun ij : nat * nat => Nat.eqb r (fst ij * mv + snd ij) && Nat.eqb c (mv - fst ij + snd ij - 1))%bool L then RtoC 1 else ent G r c.
Proof.
  induction L as [|[ii jj] L IH]; intros G r c; [reflexivity|]. cbn [fold_left existsb fst snd]. rewrite IH. cbn [ent].
  destruct (existsb _ L); [now rewrite orb_true_r|]. rewrite orb_false_r. reflexivity.
Qed.
Lemma sub_shape mv : nr (subarray_matrix mv) = (mv * mv)%nat /\ nc (subarray_matrix mv) = (2 * mv - 1)%nat.
Proof.
  unfold subarray_matrix. assert (G : forall L (M : cmat), nr M = (mv * mv)%nat /\ nc M = (2 * mv - 1)%nat -> let X := fold_left (fun G ij => let '(ii, jj) := ij in
        Mat (mv * mv) (2 * mv - 1) (fun r c => if (Nat.eqb r (ii * mv + jj) && Nat.eqb c (mv - ii + jj - 1))%bool then RtoC 1 else ent G r c)) L M in nr X = (mv * mv)%nat /\ nc X = (2 * mv - 1)%nat).
  { induction L as [|[ii jj] L IH]; intros M HM; [exact HM|]. cbn [fold_left]. apply IH. split; reflexivity. }
  apply G. split; reflexivity.
Qed.
Lemma sub_ent mv i j c : (i < mv)%nat -> (j < mv)%nat -> (c < 2 * mv - 1)%nat ->
  ent (subarray_matrix mv) (i * mv + j) c = if Nat.eqb c (mv - 1 - i + j) then RtoC 1 else RtoC 0.
Proof.
  intros Hi Hj Hc. unfold subarray_matrix. rewrite sub_fold. cbn [ent].
  destruct (Nat.eqb_spec c (mv - 1 - i + j)) as [E|E].
  - rewrite (proj2 (existsb_exists _ _)); [reflexivity|]. exists (i, j). split; [apply in_prod; apply in_seq; lia|]. cbn [fst snd]. rewrite Nat.eqb_refl. cbn [andb]. apply Nat.eqb_eq. lia.
  - destruct (existsb _ _) eqn:X; [|reflexivity]. apply existsb_exists in X as ((i' & j') & HI & X). apply in_prod_iff in HI as (H1 & H2). apply in_seq in H1, H2. cbn [fst snd] in X.
    apply andb_prop in X as (X1 & X2). apply Nat.eqb_eq in X1, X2. assert (i' = i /\ j' = j) as (-> & ->); [|lia].
    assert (i' = i) by nia. subst. lia.
Qed.
Lemma sub_mvec mv z i j : (i < mv)%nat -> (j < mv)%nat -> mvec (subarray_matrix mv) z (i * mv + j) = z (mv - 1 - i + j)%nat.
Proof.
  intros Hi Hj. unfold mvec. rewrite (proj2 (sub_shape mv)). rewrite (csum_single (2 * mv - 1) _ (mv - 1 - i + j)%nat ltac:(lia)).
  - rewrite sub_ent by lia. rewrite Nat.eqb_refl. ring.
  - intros c Hc N. rewrite sub_ent by assumption. destruct (Nat.eqb_spec c (mv - 1 - i + j)); [contradiction | ring].
Qed.

(** noise subspace: I - En En^H is the projector onto the span of the steering vectors *)
Lemma col_slice_noise E m k : nc E = m -> (1 <= k <= m)%nat -> meq (col_slice E None (Some (- Z.of_nat k)%Z)) (Mat (nr E) (m - k) (ent E)).
Proof.
  intros HC Hk. unfold col_slice, slice_bounds. rewrite clip_neg by lia. rewrite HC. split; [reflexivity|]. split; [cbn [nc]; lia|]. intros. reflexivity.
Qed.
Lemma noise_projector Rm A P s w E k : exact_cov Rm A P s -> inj A -> pd P -> eigh_ok Rm w E -> nc A = k -> (1 <= k)%nat ->
  let En := col_slice E None (Some (- Z.of_nat k)%Z) in
  orth_projector_onto A (mid (nr A) -m En *m mher En) /\ nr En = nr A.
Proof.
  intros HX HA HP HE Hk K1 En. set (m := nr A). pose proof (ex_dims Rm A P s HX) as (D1 & D2). fold m in D1, D2. pose proof (inj_wide A HA) as KM. fold m in KM. rewrite Hk in KM.
  assert (DE : nr E = m /\ nc E = m) by (destruct HE as (_ & X1 & X2 & _); split; congruence). destruct DE as (E1 & E2).
  pose proof (col_slice_noise E m k E2 ltac:(lia)) as EE. fold En in EE. set (F := Mat (nr E) (m - k) (ent E)) in *.
  assert (NE : nr En = m) by (rewrite (meq_nr _ _ EE); exact E1). assert (NC : nc En = (m - k)%nat) by (rewrite (meq_nc _ _ EE); reflexivity).
  set (Pi := mid m -m En *m mher En).
  assert (ENT : forall i r, (i < m)%nat -> (r < m)%nat -> ent (En *m mher En) i r = csum (m - k) (fun j => ent E i j * Cconj (ent E r j))).
  { intros i r Hi Hr. cbn [mmul mher ent nc]. rewrite NC. apply csum_ext. intros j Hj. rewrite !(meq_ent _ _ _ j EE) by lia. reflexivity. }
  assert (FIX : Pi *m A ==m A).
  { split; [reflexivity|]. split; [reflexivity|]. cbn [mmul nr nc Pi msub mid]. intros i c Hi Hc. fold m in Hi. unfold Pi.
    rewrite mmul_ent_mvec. transitivity (ent A i c - mvec (En *m mher En) (fun r => ent A r c) i).
    - unfold mvec. cbn [msub mid nc ent mmul mher]. rewrite NE. rewrite (csum_ext m _ (fun r => (if Nat.eqb i r then RtoC 1 else RtoC 0) * ent A r c - csum (nc En) (fun q => ent En i q * Cconj (ent En r q)) * ent A r c)) by (intros; cbn [mher ent]; ring).
      rewrite csum_minus. f_equal. rewrite (csum_single m _ i Hi); [rewrite Nat.eqb_refl; ring|]. intros r Hr N. destruct (Nat.eqb_spec i r); [congruence | ring].
    - assert (Z : mvec (En *m mher En) (fun r => ent A r c) i = RtoC 0); [|rewrite Z; ring]. rewrite mvec_mmul. apply mvec_0. intros j Hj. rewrite NC in Hj.
      unfold mvec. cbn [mher nc ent]. rewrite NE. transitivity (Cconj (vdot m (col A c) (col E j))).
      + unfold vdot. rewrite csum_conj. apply csum_ext. intros r Hr. rewrite (meq_ent _ _ _ _ EE) by lia. cbn [F ent]. unfold col. rewrite Cmult_conj, Cconj_conj. ring.
      + pose proof (ex_noise_orth Rm A P s w E HX HP HE j c) as Q. fold m in Q. rewrite Q by lia. apply Cconj_RtoC. }
  assert (RNG : exists X, nr X = nc A /\ nc X = nr A /\ Pi ==m A *m X).
  { assert (Y : exists y : nat -> nat -> C, forall j, (j < k)%nat -> forall i, (i < m)%nat -> ent E i (m - k + j) = mvec A (y j) i).
    { assert (AB : forall j, (j < k)%nat -> exists y, forall i, (i < m)%nat -> ent E i (m - k + j) = mvec A y i).
      { intros j Hj. destruct (ex_signal_span Rm A P s w E HX HA HP HE (m - k + j)%nat) as (y & Hy); [unfold m in *; lia|]. exists y. exact Hy. }
      exact (choose_vecs k (fun j y => forall i, (i < m)%nat -> ent E i (m - k + j) = mvec A y i) AB). }
    destruct Y as (y & Hy). exists (Mat k m (fun r i => csum k (fun j => y j r * Cconj (ent E i (m - k + j))))). split; [cbn; lia|]. split; [reflexivity|].
    split; [reflexivity|]. split; [reflexivity|]. intros i r Hi Hr. unfold Pi in *. cbn [msub nr nc mid ent] in *. rewrite ENT by assumption.
    pose proof (eigh_right Rm w E HE) as (_ & _ & ER). rewrite D1 in ER. specialize (ER i r). cbn [mmul nr nc mher ent mid] in ER. rewrite <- ER by lia. rewrite E2. replace m with ((m - k) + k)%nat at 1 by lia. rewrite csum_app.
    cbn [mmul ent nc]. rewrite Hk. rewrite (csum_ext k (fun q => ent A i q * _) (fun q => csum k (fun j => ent A i q * y j q * Cconj (ent E r (m - k + j))))).
    2:{ intros q Hq. cbn [ent]. rewrite <- csum_scal. apply csum_ext. intros; ring. }
    rewrite csum_swap. rewrite (csum_ext k (fun j => csum k _) (fun j => ent E i (m - k + j) * Cconj (ent E r (m - k + j)))); [ring|].
    intros j Hj. rewrite csum_scal_r. f_equal. rewrite (Hy j Hj i Hi). unfold mvec. rewrite Hk. reflexivity. }
  split; [|exact NE]. split.
  - cbn. auto.
  - destruct RNG as (X & X1 & X2 & EX). etransitivity; [apply mmul_eq_r; [reflexivity | exact EX]|]. etransitivity; [symmetry; apply mmul_assoc|]. etransitivity; [apply mmul_eq_l, FIX|]. symmetry. exact EX.
  - etransitivity; [apply mher_msub; cbn; lia|]. apply msub_eq; [cbn; lia | cbn; lia | apply mher_mid|]. apply hermitian_mher. eapply hermitian_eq; [apply mmul_eq_l, mher_mher|]. apply hermitian_gram.
  - exact FIX.
  - exact RNG.
Qed.

(** R (x) R^T is a Gram matrix when R is *)
Definition pair_gram (m q : nat) (B : cmat) : cmat := Mat (q * q) (m * m) (fun st j => Cconj (ent B (Nat.div j m) (Nat.div st q)) * ent B (Nat.modulo j m) (Nat.modulo st q)).
Lemma csum_divmod n (f : nat -> nat -> C) : csum (n * n) (fun i => f (Nat.div i n) (Nat.modulo i n)) = csum n (fun i => csum n (fun j => f i j)).
Proof.
  rewrite csum_prod. apply csum_ext. intros i Hi. apply csum_ext. intros j Hj. rewrite (Nat.add_comm (i * n)), Nat.div_add, Nat.mod_add, Nat.div_small, Nat.mod_small by lia. reflexivity.
Qed.
Lemma kron_gram m q B Rm : nr B = m -> nc B = q -> (forall i j, (i < m)%nat -> (j < m)%nat -> ent Rm i j = csum q (fun s => ent B i s * Cconj (ent B j s))) ->
  forall r c, (r < m * m)%nat -> (c < m * m)%nat ->
    ent Rm (Nat.div r m) (Nat.div c m) * ent Rm (Nat.modulo c m) (Nat.modulo r m) = ent (mher (pair_gram m q B) *m pair_gram m q B) r c.
Proof.
  intros B1 B2 H r c Hr Hc. assert (m <> 0)%nat by nia. assert (Nat.div r m < m)%nat by (apply Nat.div_lt_upper_bound; lia). assert (Nat.div c m < m)%nat by (apply Nat.div_lt_upper_bound; lia).
  pose proof (Nat.mod_upper_bound r m ltac:(lia)). pose proof (Nat.mod_upper_bound c m ltac:(lia)). rewrite !H by assumption.
  cbn [mmul mher ent nc pair_gram nr].
  rewrite (csum_divmod q (fun s t => Cconj (Cconj (ent B (Nat.div r m) s) * ent B (Nat.modulo r m) t) * (Cconj (ent B (Nat.div c m) s) * ent B (Nat.modulo c m) t))).
  rewrite <- csum_scal_r. apply csum_ext. intros s _. rewrite <- csum_scal. apply csum_ext. intros t _. rewrite Cmult_conj, Cconj_conj. ring.
Qed.
(** the Gram factor of a model covariance with non-negative powers *)
Lemma cov_factor A p sigma : (forall i, (i < nc A)%nat -> (0 <= p i)%R) -> (0 <= sigma)%R ->
  exists B : cmat, nr B = nr A /\ forall i j, (i < nr A)%nat -> (j < nr A)%nat -> ent (model_cov A p sigma) i j = csum (nc B) (fun s => ent B i s * Cconj (ent B j s)).
Proof.
  intros Hp Hs. set (k := nc A) in *. set (m := nr A).
  exists (Mat m (k + m) (fun i s => if Nat.ltb s k then ent A i s * RtoC (sqrt (p s)) else if Nat.eqb i (s - k) then RtoC (sqrt sigma) else RtoC 0)). split; [reflexivity|].
  intros i j Hi Hj. rewrite model_cov_ent. fold k. cbn [nc ent]. rewrite csum_app. f_equal.
  - apply csum_ext. intros s Hk. rewrite (proj2 (Nat.ltb_lt _ _) Hk). rewrite Cmult_conj, Cconj_RtoC. rewrite <- (sqrt_sqrt (p s)) at 1 by (apply Hp, Hk). rewrite RtoC_mult. ring.
  - rewrite (csum_ext m _ (fun s => (if Nat.eqb i s then RtoC (sqrt sigma) else RtoC 0) * Cconj (if Nat.eqb j s then RtoC (sqrt sigma) else RtoC 0))).
    2:{ intros s _. rewrite (proj2 (Nat.ltb_ge (k + s) k)) by lia. replace (k + s - k)%nat with s by lia. reflexivity. }
    rewrite (csum_single m _ i Hi). 2:{ intros s _ N. destruct (Nat.eqb_spec i s); [congruence | ring]. }
    rewrite Nat.eqb_refl. rewrite (Nat.eqb_sym j i). destruct (Nat.eqb i j); [rewrite Cconj_RtoC, <- RtoC_mult, sqrt_sqrt by exact Hs; reflexivity | rewrite Cconj_RtoC; ring].
Qed.
(** a covariance of the form Re (Xi^H (R (x) R^T) Xi) / N *)
Lemma coarray_mse_psd m k A p sigma xi N : nr A = m -> (forall i, (i < nc A)%nat -> (0 <= p i)%R) -> (0 <= sigma)%R -> (0 < N)%R ->
  rpsd (Mat k k (coarray_mse m (model_cov A p sigma) xi N)).
Proof.
  intros A1 Hp Hs HN. destruct (cov_factor A p sigma Hp Hs) as (B & B1 & HB). rewrite A1 in B1, HB. set (Rm := model_cov A p sigma) in *. set (q := nc B) in *.
  set (M := mher (pair_gram m q B) *m pair_gram m q B).
  assert (E : forall i j, coarray_mse m Rm xi N i j = (Re (bform M (xi i) (xi j)) / N)%R).
  { intros i j. unfold coarray_mse. f_equal. f_equal. unfold bform. cbn [M mmul mher nr nc pair_gram]. apply csum_ext. intros r Hr. apply csum_ext. intros c Hc. rewrite (kron_gram m q B Rm B1 eq_refl HB r c Hr Hc). reflexivity. }
  pose proof (hermitian_gram (pair_gram m q B)) as HM. fold M in HM. split.
  - split; [reflexivity|]. cbn [nr ent]. intros i j _ _. rewrite !E. rewrite (bform_conj M (xi i) (xi j) HM), Re_conj. reflexivity.
  - intros x. unfold rform. cbn [nr ent]. set (y := fun r => csum k (fun j => RtoC (x j) * xi j r)).
    assert (Q : rsum k (fun i => x i * rsum k (fun j => coarray_mse m Rm xi N i j * x j))%R = (Re (qform M y) / N)%R).
    { rewrite <- bform_qform. assert (L : forall z, bform M z y = csum k (fun j => RtoC (x j) * bform M z (xi j))).
      { intros z. unfold bform, y. rewrite (csum_ext _ _ (fun i => csum (nc M) (fun j => csum k (fun a => RtoC (x a) * (Cconj (z i) * ent M i j * xi a j))))) by (intros; apply csum_ext; intros; rewrite <- csum_scal; apply csum_ext; intros; ring).
        rewrite (csum_ext _ _ (fun i => csum k (fun a => csum (nc M) (fun j => RtoC (x a) * (Cconj (z i) * ent M i j * xi a j))))) by (intros; apply csum_swap). rewrite csum_swap. apply csum_ext. intros a _. rewrite <- csum_scal. apply csum_ext. intros i _. apply csum_scal. }
      rewrite L, csum_Re. unfold Rdiv. rewrite Rmult_comm, <- rsum_scal.
      rewrite (rsum_ext k _ (fun i => x i * rsum k (fun j => / N * (x j * Re (bform M (xi i) (xi j)))))%R) by (intros; f_equal; apply rsum_ext; intros; rewrite E; unfold Rdiv; ring).
      rewrite (rsum_ext k (fun i => / N * _)%R (fun j => rsum k (fun i => / N * (x i * x j * Re (bform M (xi i) (xi j)))))%R).
      2:{ intros j _. rewrite Re_mult, Re_RtoC, Im_RtoC. rewrite (bform_conj M (xi j) y HM), Re_conj. rewrite L, csum_Re.
          rewrite rsum_scal. f_equal. rewrite Rmult_0_l, Rminus_0_r, <- rsum_scal. apply rsum_ext. intros i _. rewrite Re_mult, Re_RtoC, Im_RtoC. rewrite (bform_conj M (xi i) (xi j) HM), Re_conj. ring. }
      rewrite rsum_swap. apply rsum_ext. intros i _. rewrite <- rsum_scal. apply rsum_ext. intros j _. ring. }
    rewrite Q. pose proof (proj2 (psd_gram (pair_gram m q B)) y) as P. fold M in P. apply Rmult_le_pos; [exact P | left; apply Rinv_0_lt_compat; exact HN].
Qed.

Lemma pd_mdiag k (pr : nat -> R) : (forall i, (i < k)%nat -> (0 < pr i)%R) -> pd (mdiag k (fun q => RtoC (pr q))).
Proof.
  intros Hp. split; [apply psd_mdiag; intros i Hi; left; now apply Hp|]. intros x (i & Hi & Ni). cbn [mdiag nr] in Hi.
  assert (Q : qform (mdiag k (fun q => RtoC (pr q))) x = RtoC (rsum k (fun q => pr q * Cnorm2 (x q)))%R).
  { unfold qform. cbn [mdiag nr nc ent]. rewrite <- csum_RtoC. apply csum_ext. intros a Ha. rewrite (csum_single k _ a Ha); [rewrite Nat.eqb_refl, RtoC_mult, <- Cconj_mult_norm2; ring|]. intros b _ Nb. destruct (Nat.eqb_spec a b); [congruence | ring]. }
  rewrite Q, Re_RtoC. assert (G : (0 <= rsum k (fun q => pr q * Cnorm2 (x q)))%R) by (apply rsum_nonneg; intros q Hq; apply Rmult_le_pos; [left; apply Hp, Hq | apply Cnorm2_nonneg]).
  destruct G as [G|G]; [exact G|]. exfalso. assert (Z : (pr i * Cnorm2 (x i) = 0)%R) by (refine (rsum_nonneg_0 k (fun q => pr q * Cnorm2 (x q))%R _ (eq_sym G) i Hi); intros q Hq; apply Rmult_le_pos; [left; apply Hp, Hq | apply Cnorm2_nonneg]).
  pose proof (Hp i Hi). pose proof (Cnorm2_pos (x i) Ni). nra.
Qed.

Section Coarray.
  Variables (pinv : cmat -> res cmat) (eigh : cmat -> res (list R * cmat)).
  Lemma coarray_ecov_inv m mv k A Av DAv F pl pr sigma N V : pinv_exact pinv -> eigh_contract mv eigh ->
    nr A = m -> nc A = k -> nr Av = mv -> nc Av = k -> nr DAv = mv -> nc DAv = k -> nr F = (2 * mv - 1)%nat -> nc F = (m * m)%nat -> List.length pl = k -> (1 <= k)%nat ->
    (forall i, (i < k)%nat -> nth i pl (RtoC 0) = RtoC (pr i) /\ (0 < pr i)%R) -> inj Av ->
    coarray_ecov pinv eigh m mv A Av DAv F pl sigma N = Ok (Some V) ->
    exists Pi X, orth_projector_onto Av Pi /\ nr X = k /\ nc X = mv /\ X *m Av ==m mid k /\ hermitian (Av *m X) /\
      nr V = k /\ nc V = k /\ (forall i, (i < k)%nat -> vnorm2 mv (coarray_beta Pi DAv i) <> 0%R) /\
      (forall i j, (i < k)%nat -> (j < k)%nat -> ent V i j = coarray_mse m (model_cov A pr sigma) (coarray_xi mv F Pi X DAv pr) N i j).
  Proof.
    intros PO EO A1 A2 V1 V2 D1 D2 F1 F2 LP K1 Hp HI H. unfold coarray_ecov in H. rewrite LP in H.
    apply bind_Ok_inv in H as (RR & HRR & H). apply matmul_inv in HRR as (_ & ->). apply bind_Ok_inv in H as (SS & HSS & H). apply matmul_inv in HSS as (_ & ->).
    set (Rid := Mat (nr A) (nc A) (fun i j => ent A i j * nth j pl (RtoC 0)) *m mher A +m mscal (RtoC sigma) (mid m)) in *.
    set (Rss := Mat (nr Av) (nc Av) (fun i j => ent Av i j * nth j pl (RtoC 0)) *m mher Av +m mscal (RtoC sigma) (mid mv)) in *.
    assert (EC : forall (B : cmat) n, nr B = n -> nc B = k -> Mat (nr B) (nc B) (fun i j => ent B i j * nth j pl (RtoC 0)) *m mher B +m mscal (RtoC sigma) (mid n) ==m model_cov B pr sigma).
    { intros B n B1 B2. etransitivity; [|apply stouc_cov]. rewrite B1. apply madd_eq; [reflexivity | exact B1 | | reflexivity]. apply mmul_eq_l. repeat split. intros i j Hi Hj. cbn [ent nc] in *. rewrite (proj1 (Hp j ltac:(lia))). reflexivity. }
    pose proof (EC A m A1 A2) as ER. fold Rid in ER. pose proof (EC Av mv V1 V2) as ES. fold Rss in ES.
    assert (HS : hermitian Rss) by (eapply hermitian_eq; [symmetry; exact ES | apply model_cov_herm]).
    destruct (EO Rss HS ltac:(cbn [Rss madd mmul nr]; lia)) as (w & E & EE & HE). rewrite EE in H. cbn [bind] in H.
    assert (HX : exact_cov Rss Av (mdiag (nc Av) (fun q => RtoC (pr q))) sigma) by (split; [reflexivity|]; split; [reflexivity | exact ES]).
    assert (HPD : pd (mdiag (nc Av) (fun q => RtoC (pr q)))) by (apply pd_mdiag; intros i Hi; apply Hp; lia).
    destruct (noise_projector Rss Av _ sigma w E k HX HI HPD HE V2 K1) as (HPi & NEn). rewrite V1 in HPi, NEn. set (En := col_slice E None (Some (- Z.of_nat k)%Z)) in *.
    apply bind_Ok_inv in H as (pj & Hpj & H). apply matmul_inv in Hpj as (_ & ->). apply bind_Ok_inv in H as (GF & HGF & H). apply matmul_inv in HGF as (_ & ->).
    destruct (PO Av HI) as (X & EX & X1 & X2 & X3 & X4). rewrite EX in H. cbn [bind] in H. rewrite V2 in X1, X3. rewrite V1 in X2.
    set (beta := fun kk => mvec (En *m mher En) (fun i => ent DAv i kk)) in *. cbv zeta in H.
    set (Pi := mid mv -m En *m mher En) in *.
    assert (EB : forall kk i, (i < mv)%nat -> coarray_beta Pi DAv kk i = beta kk i).
    { intros kk i Hi. unfold coarray_beta, beta, Pi, mvec, col. cbn [msub mid nr nc mmul mher ent]. rewrite D1, NEn. apply csum_ext. intros j Hj. ring. }
    assert (EG : forall kk, Re (csum mv (fun i => Cconj (beta kk i) * beta kk i)) = vnorm2 mv (coarray_beta Pi DAv kk)).
    { intros kk. rewrite csum_Re. apply rsum_ext. intros i Hi. rewrite Cconj_mult_norm2, Re_RtoC, EB by exact Hi. reflexivity. }
    set (Xi := Mat (m * m) k _) in H.
    apply bind_Ok_inv in H as (XK & HXK & H). apply matmul_inv in HXK as (_ & ->). apply bind_Ok_inv in H as (XKX & HXKX & H). apply matmul_inv in HXKX as (_ & ->).
    match type of H with (if ?b then _ else _) = _ => destruct b eqn:EXB end; [discriminate|].
    apply (f_equal (fun x => match x with Ok (Some y) => y | _ => V end)) in H. cbv beta iota in H. subst V.
    exists Pi, X. do 5 (split; [assumption|]). split; [reflexivity|]. split; [reflexivity|]. split.
    - intros i Hi Z. rewrite <- EG in Z. match type of EXB with ?b = false => assert (T : b = true); [|rewrite T in EXB; discriminate] end.
      apply existsb_exists. exists i. split; [apply in_seq; lia|]. destruct (Req_EM_T _ 0); [reflexivity | contradiction].
    - assert (XE : forall r kk, (kk < k)%nat -> ent Xi r kk = coarray_xi mv F Pi X DAv pr kk r).
      { intros r kk Hk. unfold Xi, coarray_xi. cbn [ent]. change (mvec (En *m mher En) (fun i => ent DAv i kk)) with (beta kk). rewrite EG. f_equal. unfold mvec. cbn [mtr nc nr ent mmul].
 rewrite (proj1 (sub_shape mv)).
        rewrite csum_prod. apply csum_ext. intros i Hi. apply csum_ext. intros j Hj. unfold kronv. rewrite (Nat.add_comm (i * mv)), Nat.div_add, Nat.mod_add, Nat.div_small, Nat.mod_small by lia. rewrite Nat.add_0_l, (Nat.add_comm j).
        assert (G1 : csum (nc (subarray_matrix mv)) (fun q => ent (subarray_matrix mv) (i * mv + j) q * ent (mofR F) q r) = RtoC (ent F (mv - 1 - i + j) r)).
        { exact (sub_mvec mv (fun q => ent (mofR F) q r) i j Hi Hj). }
        rewrite G1, EB by exact Hi. rewrite (proj1 (Hp kk Hk)). ring. }
      intros i j Hi Hj. cbn [ent]. unfold coarray_mse. f_equal. f_equal. cbn [mmul mher ent nc kron].
      assert (NR : nr Rid = m /\ nc Rid = m) by (cbn [Rid madd mmul mher nr nc]; auto). destruct NR as (NR1 & NR2). cbn [mtr nr nc]. rewrite NR1, NR2.
      rewrite (csum_ext (m * m) (fun c => csum (nr Xi) _ * _) (fun c => csum (m * m) (fun r => Cconj (coarray_xi mv F Pi X DAv pr i r) * (ent (model_cov A pr sigma) (Nat.div r m) (Nat.div c m) * ent (model_cov A pr sigma) (Nat.modulo c m) (Nat.modulo r m)) * coarray_xi mv F Pi X DAv pr j c))).
      + apply csum_swap.
      + intros c Hc. cbn [Xi nr]. fold Xi. rewrite <- csum_scal_r. apply csum_ext. intros r Hr. rewrite !XE by assumption. cbn [kron ent mtr nr nc]. rewrite ?NR1, ?NR2.
        assert (m <> 0)%nat by nia. assert (Nat.div r m < m)%nat by (apply Nat.div_lt_upper_bound; lia). assert (Nat.div c m < m)%nat by (apply Nat.div_lt_upper_bound; lia).
        pose proof (Nat.mod_upper_bound r m ltac:(lia)). pose proof (Nat.mod_upper_bound c m ltac:(lia)). rewrite !(meq_ent _ _ _ _ ER) by lia. reflexivity.
  Qed.
End Coarray.
