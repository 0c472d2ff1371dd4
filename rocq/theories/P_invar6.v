(** Sparse problems of the same scene seen through different numbers. *)
From Verif Require Import Base_Np Base_Lin Base_Mem M_utils M_sources M_array S_array M_grid M_core M_sparse S_sparse P_sparse P_sparse2 P_perf2 P_ml4 S_invar P_invar P_invar2 P_invar5 P_subspace2 P_spectral S_invar4.
Open Scope C_scope.

(** *** squared Frobenius norms *)
Definition frob (m n : nat) (X : cmat) : R := rsum m (fun i => rsum n (fun j => Cnorm2 (ent X i j))).
Lemma frob_eq m n X Y : X ==m Y -> nr X = m -> nc X = n -> frob m n X = frob m n Y.
Proof. intros (a & b & H) <- <-. apply rsum_ext. intros i Hi. apply rsum_ext. intros j Hj. now rewrite H. Qed.
Lemma unitary_norm m U x : unitary m U -> vnorm2 m (mvec U x) = vnorm2 m x.
Proof.
  intros HU. apply RtoC_inj. rewrite <- !vdot_self. pose proof HU as (u1 & u2 & u3).
  transitivity (vdot m x (mvec (mher U) (mvec U x))).
  - unfold vdot. unfold mvec at 1. rewrite u2. rewrite (csum_ext m _ (fun i => csum m (fun j => Cconj (x j) * (Cconj (ent U i j) * mvec U x i)))).
    + rewrite csum_swap. apply csum_ext. intros j Hj. rewrite csum_scal. f_equal. unfold mvec at 2. cbn [mher nr nc ent]. rewrite u1. reflexivity.
    + intros i Hi. rewrite csum_conj. rewrite (Cmult_comm _ (mvec U x i)). rewrite <- csum_scal. apply csum_ext. intros j Hj. rewrite Cmult_conj. ring.
  - unfold vdot. apply csum_ext. intros i Hi. now rewrite (mvec_adj m U x i HU Hi).
Qed.
Lemma frob_mul m n U X : unitary m U -> nr X = m -> frob m n (U *m X) = frob m n X.
Proof. intros HU Hx. unfold frob. rewrite (rsum_swap m n), (rsum_swap m n). apply rsum_ext. intros j Hj. exact (unitary_norm m U (fun r => ent X r j) HU). Qed.
Lemma frob_her m n X : frob n m (mher X) = frob m n X.
Proof. unfold frob. rewrite rsum_swap. apply rsum_ext. intros i Hi. apply rsum_ext. intros j Hj. cbn [mher ent]. apply Cnorm2_conj. Qed.
Lemma frob_cj m U X : unitary m U -> nr X = m -> nc X = m -> frob m m (cj U X) = frob m m X.
Proof.
  intros HU Hr Hc. pose proof HU as (u1 & u2 & _). rewrite <- (frob_her m m (cj U X)), <- (frob_her m m X).
  assert (E : mher (cj U X) ==m U *m (mher (U *m X))).
  { unfold cj. rewrite (mher_mmul (U *m X) (mher U)) by (cbn; congruence). apply mmul_eq_l. apply mher_mher. }
  rewrite (frob_eq m m _ _ E) by (cbn; congruence). rewrite (frob_mul m m U _ HU) by (cbn; congruence). rewrite !frob_her. now apply frob_mul.
Qed.
Lemma frob_scal m n c X : frob m n (mscal (RtoC c) X) = (c ^ 2 * frob m n X)%R.
Proof. unfold frob. rewrite <- rsum_scal. apply rsum_ext. intros i Hi. rewrite <- rsum_scal. apply rsum_ext. intros j Hj. cbn [mscal ent]. rewrite Cnorm2_mult. f_equal. unfold Cnorm2. cbn. ring. Qed.
Lemma misfit_frob A D p s m : nr A = m -> misfit A D p s = frob m m (grid_cov A p s -m D).
Proof. intros <-. reflexivity. Qed.

(** *** the covariance of the model in the new coordinates *)
Lemma grid_cov_rec m U c A A' p s : unitary m U -> recorded_atoms m U A A' ->
  grid_cov A' (fun j => c * p j)%R (c * s) ==m mscal (RtoC c) (cj U (grid_cov A p s)).
Proof.
  intros HU (a1 & a2 & a3 & t & T & HA). pose proof HU as (u1 & u2 & u3). split; [cbn; congruence|]. split; [cbn; congruence|]. intros i j Hi Hj. cbn [grid_cov nr nc] in Hi, Hj. rewrite a2 in Hi, Hj.
  cbn [mscal grid_cov nr nc ent].
  assert (E : cj U (grid_cov A p s) ==m cj U (grid_cov A p 0) +m mscal (RtoC s) (mid m)).
  { transitivity (cj U (grid_cov A p 0 +m mscal (RtoC s) (mid m))).
    - apply (cj_eq m U HU); [exact a1|]. split; [reflexivity|]. split; [reflexivity|]. intros r q Hr Hq. cbn [grid_cov nr nc] in Hr, Hq. cbn [madd mscal mid grid_cov nr nc ent]. destruct (Nat.eqb r q); ring.
    - rewrite (cj_add U (grid_cov A p 0) (mscal (RtoC s) (mid m))) by (cbn; congruence). apply madd_eq; [cbn; congruence|cbn; congruence|reflexivity|].
      rewrite (cj_scal U (RtoC s) (mid m)). apply mscal_eq. now apply (cj_id m). }
  rewrite (meq_ent _ _ i j E) by (cbn; congruence). cbn [madd ent mscal mid].
  assert (E0 : csum (nc A) (fun c0 => RtoC (p c0) * (ent (U *m A) i c0 * Cconj (ent (U *m A) j c0))) = ent (cj U (grid_cov A p 0)) i j).
  { assert (Q : cj U (grid_cov A p 0) ==m (U *m Mat m (nc A) (fun i c => RtoC (p c) * ent A i c)) *m mher (U *m A)).
    { unfold cj. rewrite (mmul_eq_r (U *m Mat m (nc A) (fun i c => RtoC (p c) * ent A i c)) (mher (U *m A)) (mher A *m mher U)); [|cbn; congruence|apply mher_mmul; congruence].
      rewrite <- (mmul_assoc (U *m Mat m (nc A) (fun i c => RtoC (p c) * ent A i c)) (mher A) (mher U)). apply mmul_eq_l. rewrite (mmul_assoc U (Mat m (nc A) (fun i c => RtoC (p c) * ent A i c)) (mher A)).
      apply mmul_eq_r; [cbn; congruence|]. split; [cbn; congruence|]. split; [cbn; congruence|]. intros r q Hr Hq. cbn [grid_cov mmul mher nr nc ent]. replace (if Nat.eqb r q then RtoC 0 else RtoC 0) with (RtoC 0) by (now destruct (Nat.eqb r q)). rewrite Cplus_0_r.
      apply csum_ext. intros; ring. }
    rewrite (meq_ent _ _ i j Q) by (cbn; congruence). cbn [mmul mher nr nc ent]. apply csum_ext. intros q Hq. rewrite u2.
    rewrite (csum_ext m (fun k => ent U i k * (RtoC (p q) * ent A k q)) (fun k => RtoC (p q) * (ent U i k * ent A k q))) by (intros; ring). rewrite csum_scal. ring. }
  rewrite <- E0, a3. rewrite Cmult_plus_distr_l. rewrite <- csum_scal. f_equal.
  - apply csum_ext. intros q Hq. rewrite !HA by assumption. rewrite RtoC_mult. pose proof (unit_cancel (t q) (T q)) as UC. rewrite Cmult_conj.
    transitivity ((t q * Cconj (t q)) * (RtoC c * (RtoC (p q) * (ent (U *m A) i q * Cconj (ent (U *m A) j q))))); [ring|]. rewrite UC. ring.
  - destruct (Nat.eqb i j); [rewrite RtoC_mult; ring|ring].
Qed.
Lemma misfit_rec m U c A A' D D' p s : unitary m U -> recorded_atoms m U A A' -> nr D = m -> nc D = m -> recorded_cov m U c 0 D D' ->
  misfit A' D' (fun j => c * p j)%R (c * s) = (c ^ 2 * misfit A D p s)%R.
Proof.
  intros HU HA d1 d2 HD. pose proof HA as (a1 & a2 & a3 & _). apply (rec_cov_0 m U c D D' HU) in HD. rewrite (misfit_frob A' D' _ _ m a2), (misfit_frob A D _ _ m a1).
  assert (E : grid_cov A' (fun j => c * p j)%R (c * s) -m D' ==m mscal (RtoC c) (cj U (grid_cov A p s -m D))).
  { pose proof HU as (u1 & u2 & _). transitivity (mscal (RtoC c) (cj U (grid_cov A p s)) -m mscal (RtoC c) (cj U D)).
    - pose proof (meq_nr _ _ HD) as n1. pose proof (meq_nc _ _ HD) as n2. cbn in n1, n2. apply msub_eq; [cbn; congruence|cbn; congruence|now apply (grid_cov_rec m)|exact HD].
    - rewrite (mscal_eq (RtoC c) _ _ (cj_sub U (grid_cov A p s) D ltac:(cbn; congruence) ltac:(cbn; congruence))).
      split; [reflexivity|]. split; [reflexivity|]. intros. cbn [mscal msub ent]. ring. }
  rewrite (frob_eq m m _ _ E) by (cbn; congruence). rewrite frob_scal. f_equal. apply frob_cj; [exact HU|cbn; congruence|cbn; congruence].
Qed.

(** *** the documented problem is covariance matching *)
Lemma rsum_grid m n f : rsum (m * n) f = rsum n (fun j => rsum m (fun i => f (i + j * m)%nat)).
Proof.
  induction n; cbn [rsum]; [now rewrite Nat.mul_0_r|]. replace (m * S n)%nat with (m * n + m)%nat by lia. rewrite rsum_app, IHn. f_equal. apply rsum_ext. intros i Hi. f_equal. lia.
Qed.
Lemma Cnorm2_sq (a b : C) : Cnorm2 (a - b) = ((Re a - Re b) ^ 2 + (Im a - Im b) ^ 2)%R.
Proof. destruct a, b. unfold Cnorm2. cbn. ring. Qed.
Lemma truth_self (nk : bool) (K : nat) (x : nat -> R) (c : nat) : (c < (if nk then K else K + 1))%nat -> truth K x (x K) c = x c.
Proof. intros H. unfold truth. destruct (Nat.ltb_spec c K); [reflexivity|]. destruct nk; [lia|]. f_equal. lia. Qed.
Lemma dict_ssq A nk Phi D r x : is_dictionary A nk Phi -> stacks r D -> nr D = nr A -> nc D = nr A ->
  ssq (nr Phi) (residual Phi r x) = misfit A D x (if nk then 0 else x (nc A))%R.
Proof.
  intros (P1 & P2 & P3) (r1 & r2 & r3) d1 d2. destruct (scm_vector_ok (grid_cov A x (if nk then 0 else x (nc A))%R)) as (r0 & _ & H0). specialize (P3 x (x (nc A)) r0 H0). destruct H0 as (_ & _ & H0). cbn [grid_cov nr nc] in H0.
  rewrite d1, d2 in *. unfold ssq.
  assert (V : forall row, (row < nr Phi)%nat -> residual Phi r x row = (ent r0 row 0 - ent r row 0)%R).
  { intros row Hr. unfold residual. rewrite <- (P3 row Hr). f_equal. apply rsum_ext. intros c Hc. rewrite P2 in Hc. now rewrite (truth_self nk). }
  rewrite (rsum_ext _ _ (fun row => (ent r0 row 0 - ent r row 0) ^ 2)%R) by (intros row Hr; now rewrite V). rewrite P1. replace (2 * (nr A * nr A))%nat with (nr A * nr A + nr A * nr A)%nat by lia.
  rewrite rsum_app, !rsum_grid, <- rsum_plus. unfold misfit. rewrite (rsum_swap (nr A) (nr A) (fun i j => Cnorm2 _)). apply rsum_ext. intros j Hj. rewrite <- rsum_plus. apply rsum_ext. intros i Hi.
  destruct (H0 i j Hi Hj) as (E1 & E2). destruct (r3 i j Hi Hj) as (E3 & E4). rewrite E1, E2, E3, E4, Cnorm2_sq. reflexivity.
Qed.
Lemma dict_l1 A nk Phi (x : nat -> R) : is_dictionary A nk Phi -> l1norm (nc Phi) x = total_power (nc A) nk x (x (nc A)).
Proof. intros (_ & P2 & _). unfold l1norm, total_power. rewrite P2. destruct nk; [ring|]. rewrite Nat.add_1_r. reflexivity. Qed.
Lemma misfit_ext A D p q s : (forall j, (j < nc A)%nat -> p j = q j) -> misfit A D p s = misfit A D q s.
Proof. intros H. apply rsum_ext. intros i Hi. apply rsum_ext. intros j Hj. f_equal. f_equal. cbn [grid_cov ent]. f_equal. apply csum_ext. intros c Hc. now rewrite H. Qed.
Lemma total_ext K nk p q s t : (forall j, (j < K)%nat -> p j = q j) -> (nk = false -> s = t) -> total_power K nk p s = total_power K nk q t.
Proof. intros H1 H2. unfold total_power. f_equal; [apply rsum_ext; intros; now rewrite H1|]. destruct nk; [reflexivity|]. now rewrite H2. Qed.
Definition noise_of (nk : bool) (K : nat) (x : nat -> R) : R := if nk then 0%R else x K.
Lemma feasible_fit f A nk Phi D r l x : is_dictionary A nk Phi -> stacks r D -> nr D = nr A -> nc D = nr A ->
  doc_feasible f true Phi r l x <-> fit_feasible f A D nk l x (noise_of nk (nc A) x).
Proof.
  intros HP Hr d1 d2. unfold doc_feasible, fit_feasible. rewrite (dict_ssq A nk Phi D r x HP Hr d1 d2), (dict_l1 A nk Phi x HP).
  assert (E : total_power (nc A) nk x (x (nc A)) = total_power (nc A) nk x (noise_of nk (nc A) x)) by (apply total_ext; [reflexivity|intros ->; reflexivity]). rewrite E. fold (noise_of nk (nc A) x).
  destruct HP as (_ & P2 & _). rewrite P2. split.
  - intros (H1 & H2 & H3). specialize (H3 eq_refl). split; [intros j Hj; apply H3; destruct nk; lia|]. split; [unfold noise_of; destruct nk; [reflexivity|apply H3; lia]|]. now split.
  - intros (H1 & H2 & H3 & H4). split; [exact H3|]. split; [exact H4|]. intros _ j Hj. destruct (Nat.lt_ge_cases j (nc A)) as [L|L]; [now apply H1|]. destruct nk; [lia|]. replace j with (nc A) by lia. exact H2.
Qed.
Lemma objective_fit f A nk Phi D r l x : is_dictionary A nk Phi -> stacks r D -> nr D = nr A -> nc D = nr A ->
  doc_objective f Phi r l x = fit_objective f A D nk l x (noise_of nk (nc A) x).
Proof.
  intros HP Hr d1 d2. unfold doc_objective, fit_objective. rewrite (dict_ssq A nk Phi D r x HP Hr d1 d2), (dict_l1 A nk Phi x HP).
  assert (E : total_power (nc A) nk x (x (nc A)) = total_power (nc A) nk x (noise_of nk (nc A) x)) by (apply total_ext; [reflexivity|intros ->; reflexivity]). rewrite E. reflexivity.
Qed.
Lemma feasible_ext f A D nk l p q s : (forall j, (j < nc A)%nat -> p j = q j) -> fit_feasible f A D nk l p s -> fit_feasible f A D nk l q s.
Proof.
  intros H (H1 & H2 & H3 & H4). split; [intros j Hj; rewrite <- (H j Hj); now apply H1|]. split; [exact H2|]. rewrite <- (misfit_ext A D p q s H), <- (total_ext (nc A) nk p q s s H (fun _ => eq_refl)). now split.
Qed.
Lemma fit_obj_ext f A D nk l p q s : (forall j, (j < nc A)%nat -> p j = q j) -> fit_objective f A D nk l p s = fit_objective f A D nk l q s.
Proof. intros H. unfold fit_objective. rewrite (misfit_ext A D p q s H), (total_ext (nc A) nk p q s s H (fun _ => eq_refl)). reflexivity. Qed.
Lemma best_ext f A D nk l p q s : (forall j, (j < nc A)%nat -> p j = q j) -> best_fit f A D nk l p s -> best_fit f A D nk l q s.
Proof. intros H (F & O). split; [exact (feasible_ext f A D nk l p q s H F)|]. intros q' t HF. rewrite <- (fit_obj_ext f A D nk l p q s H). now apply O. Qed.
Lemma doc_fit f A nk Phi D r l X : is_dictionary A nk Phi -> stacks r D -> nr D = nr A -> nc D = nr A ->
  doc_solution f true Phi r l X <-> nr X = nc Phi /\ nc X = 1%nat /\ best_fit f A D nk l (fun j => ent X j 0) (noise_of nk (nc A) (fun j => ent X j 0)).
Proof.
  intros HP Hr d1 d2. unfold doc_solution, best_fit. rewrite (feasible_fit f A nk Phi D r l _ HP Hr d1 d2), (objective_fit f A nk Phi D r l _ HP Hr d1 d2). split.
  - intros (H1 & H2 & H3 & H4). split; [exact H1|]. split; [exact H2|]. split; [exact H3|]. intros q t F.
    assert (T0 : forall j, (j < nc A)%nat -> q j = truth (nc A) q t j) by (intros j Hj; unfold truth; now rewrite (proj2 (Nat.ltb_lt _ _) Hj)).
    assert (T1 : noise_of nk (nc A) (truth (nc A) q t) = t). { unfold noise_of. destruct nk; [symmetry; apply F|]. unfold truth. now rewrite Nat.ltb_irrefl. }
    pose proof (H4 (truth (nc A) q t)) as H5. rewrite (feasible_fit f A nk Phi D r l _ HP Hr d1 d2), (objective_fit f A nk Phi D r l _ HP Hr d1 d2), T1 in H5.
    rewrite (fit_obj_ext f A D nk l q _ t T0). apply H5. exact (feasible_ext f A D nk l q _ t T0 F).
  - intros (H1 & H2 & H3 & H4). split; [exact H1|]. split; [exact H2|]. split; [exact H3|]. intros y F. rewrite (objective_fit f A nk Phi D r l y HP Hr d1 d2). apply H4. now apply (feasible_fit f A nk Phi D r l y HP Hr d1 d2).
Qed.

(** *** invariance *)
Lemma total_scal K nk c p s : (0 < c)%R -> total_power K nk (fun j => c * p j)%R (c * s) = (c * total_power K nk p s)%R.
Proof.
  intros Hc. unfold total_power. rewrite (rsum_ext K _ (fun j => c * Rabs (p j))%R) by (intros; rewrite Rabs_mult, (Rabs_pos_eq c); lra). rewrite rsum_scal. destruct nk; [ring|]. rewrite Rabs_mult, (Rabs_pos_eq c) by lra. ring.
Qed.
Section rec.
  Variables (m : nat) (U : cmat) (c : R) (A A' D D' : cmat).
  Hypotheses (HU : unitary m U) (HA : recorded_atoms m U A A') (d1 : nr D = m) (d2 : nc D = m) (HD : recorded_cov m U c 0 D D') (Hc : (0 < c)%R).
  Lemma sqrt_misfit p s : sqrt (misfit A' D' (fun j => c * p j)%R (c * s)) = (c * sqrt (misfit A D p s))%R.
  Proof.
    rewrite (misfit_rec m U c A A' D D' p s HU HA d1 d2 HD). rewrite sqrt_mult; [|nra|apply rsum_nonneg; intros; apply rsum_nonneg; intros; apply Cnorm2_nonneg].
    rewrite sqrt_pow2 by lra. reflexivity.
  Qed.
  Lemma feasible_rec f nk l p s : fit_feasible f A D nk l p s <-> fit_feasible f A' D' nk (c * l) (fun j => c * p j)%R (c * s).
  Proof.
    pose proof HA as (a1 & a2 & a3 & _). unfold fit_feasible. rewrite sqrt_misfit, a3, (total_scal (nc A) nk c p s Hc).
    assert (L : forall x y, (c * x <= c * y <-> x <= y)%R) by (intros; split; intros; nra). rewrite !L.
    assert (Z : forall x, (0 <= c * x <-> 0 <= x)%R) by (intros; split; intros; nra).
    assert (E : (if nk then s = 0%R else (0 <= s)%R) <-> (if nk then (c * s)%R = 0%R else (0 <= c * s)%R)) by (destruct nk; split; intros; nra). rewrite E.
    assert (E2 : (forall j, (j < nc A)%nat -> (0 <= p j)%R) <-> (forall j, (j < nc A)%nat -> (0 <= c * p j)%R)) by (split; intros H j Hj; specialize (H j Hj); nra). rewrite E2. reflexivity.
  Qed.
  Definition obj_factor (f : string) : R := if String.eqb f "penalizedl1" then (c ^ 2)%R else if String.eqb f "constrainedl1" then (c ^ 2)%R else c.
  Lemma obj_factor_pos f : (0 < obj_factor f)%R.
  Proof. unfold obj_factor. destruct (String.eqb _ _); [nra|]. destruct (String.eqb _ _); nra. Qed.
  Lemma objective_rec f nk l p s : fit_objective f A' D' nk (c * l) (fun j => c * p j)%R (c * s) = (obj_factor f * fit_objective f A D nk l p s)%R.
  Proof.
    pose proof HA as (a1 & a2 & a3 & _). unfold fit_objective, obj_factor. rewrite (misfit_rec m U c A A' D D' p s HU HA d1 d2 HD), a3, (total_scal (nc A) nk c p s Hc).
    destruct (String.eqb _ _); [ring|]. destruct (String.eqb _ _); ring.
  Qed.
  Lemma best_rec f nk l p s : best_fit f A D nk l p s <-> best_fit f A' D' nk (c * l) (fun j => c * p j)%R (c * s).
  Proof.
    pose proof (obj_factor_pos f) as F. unfold best_fit. rewrite <- (feasible_rec f nk l p s), objective_rec. split; intros (H1 & H2); (split; [exact H1|]); intros q t Hq.
    - assert (E1 : forall j, (j < nc A')%nat -> q j = (c * (q j / c))%R) by (intros; field; lra). replace t with (c * (t / c))%R in * by (field; lra).
      apply (feasible_ext f A' D' nk _ _ _ _ E1) in Hq. rewrite (fit_obj_ext f A' D' nk _ _ _ _ E1). apply (feasible_rec f nk l (fun j => q j / c)%R (t / c)%R) in Hq. specialize (H2 _ _ Hq).
      rewrite (objective_rec f nk l (fun j => q j / c)%R (t / c)%R). apply Rmult_le_compat_l; lra.
    - apply (feasible_rec f nk l q t) in Hq. specialize (H2 _ _ Hq). rewrite objective_rec in H2. nra.
  Qed.
End rec.

(** *** group-sparse problems *)
Lemma obj21_frob A Y l X : nr A = nr Y -> nr X = nc A -> nc X = nc Y ->
  doc_objective21 A Y l X = (1 / 2 * frob (nr Y) (nc Y) (A *m X -m Y) + l * rsum (nr X) (row_length X))%R.
Proof. reflexivity. Qed.
Lemma row_length_nonneg X i : (0 <= row_length X i)%R. Proof. apply sqrt_pos. Qed.
Lemma obj21_eq A Y l X Z : X ==m Z -> nr X = nc A -> nc X = nc Y -> doc_objective21 A Y l X = doc_objective21 A Y l Z.
Proof.
  intros (e1 & e2 & E) x1 x2. unfold doc_objective21. rewrite <- e1, <- e2. f_equal; f_equal.
  - apply rsum_ext. intros i Hi. apply rsum_ext. intros j Hj. f_equal. f_equal. apply csum_ext. intros k Hk. rewrite E; [reflexivity|lia|lia].
  - apply rsum_ext. intros i Hi. f_equal. apply rsum_ext. intros j Hj. rewrite E; [reflexivity|lia|lia].
Qed.
Lemma row_length_eq X Z i : X ==m Z -> (i < nr X)%nat -> row_length X i = row_length Z i.
Proof. intros (e1 & e2 & E) Hi. unfold row_length. rewrite <- e2. f_equal. apply rsum_ext. intros j Hj. now rewrite E. Qed.
(** rows multiplied by factors *)
Definition rowmul (f : nat -> C) (X : cmat) : cmat := Mat (nr X) (nc X) (fun k j => f k * ent X k j).
Lemma row_length_mul f c X i : (0 <= c)%R -> Cmod (f i) = c -> row_length (rowmul f X) i = (c * row_length X i)%R.
Proof.
  intros Hc Hf. unfold row_length. cbn [rowmul nc ent]. rewrite (rsum_ext (nc X) _ (fun j => c ^ 2 * Cnorm2 (ent X i j))%R).
  - rewrite rsum_scal, sqrt_mult; [|nra|apply rsum_nonneg; intros; apply Cnorm2_nonneg]. now rewrite sqrt_pow2.
  - intros j Hj. rewrite Cnorm2_mult, <- (Cmod_norm2 (f i)), Hf. ring.
Qed.
Section rec21.
  Variables (m : nat) (U : cmat) (c : R) (A A' Y Y' : cmat) (t : nat -> C).
  Hypotheses (HU : unitary m U) (a1 : nr A = m) (a2 : nr A' = m) (a3 : nc A' = nc A) (T : forall j, Cmod (t j) = 1%R)
    (HA : forall i j, (i < m)%nat -> (j < nc A)%nat -> ent A' i j = t j * ent (U *m A) i j)
    (y1 : nr Y = m) (HY : Y' ==m mscal (RtoC c) (U *m Y)) (Hc : (0 < c)%R).
  Definition seen (X : cmat) : cmat := rowmul (fun k => RtoC c * Cconj (t k)) X.
  Lemma seen_row X i : row_length (seen X) i = (c * row_length X i)%R.
  Proof. apply row_length_mul; [lra|]. rewrite Cmod_mult, Cmod_R, Cmod_conj, T, Rabs_pos_eq; lra. Qed.
  Lemma seen_resid X : nr X = nc A -> nc X = nc Y -> A' *m seen X -m Y' ==m mscal (RtoC c) (U *m (A *m X -m Y)).
  Proof.
    intros x1 x2. pose proof HU as (u1 & u2 & _). pose proof (meq_nr _ _ HY) as n1. pose proof (meq_nc _ _ HY) as n2. cbn in n1, n2.
    transitivity (mscal (RtoC c) (U *m A *m X) -m mscal (RtoC c) (U *m Y)).
    - apply msub_eq; [cbn; congruence|cbn; congruence| |exact HY]. split; [cbn; congruence|]. split; [cbn; congruence|]. intros i j Hi Hj. cbn [mmul seen rowmul nr nc] in Hi, Hj. cbn [mmul seen rowmul mscal nr nc ent]. rewrite a3, <- csum_scal. apply csum_ext. intros k Hk.
      rewrite HA by (congruence || assumption). pose proof (unit_cancel (t k) (T k)) as UC. transitivity ((t k * Cconj (t k)) * (RtoC c * (ent (U *m A) i k * ent X k j))); [ring|]. rewrite UC. cbn [mmul ent]. ring.
    - assert (E : U *m (A *m X -m Y) ==m U *m A *m X -m U *m Y). { rewrite (mmul_sub_r U (A *m X) Y). apply msub_eq; [cbn; congruence|cbn; congruence| |reflexivity]. symmetry. apply mmul_assoc. }
      rewrite (mscal_eq (RtoC c) _ _ E). split; [reflexivity|]. split; [reflexivity|]. intros. cbn [mscal msub ent]. ring.
  Qed.
  Lemma seen_obj l X : nr X = nc A -> nc X = nc Y -> doc_objective21 A' Y' (c * l) (seen X) = (c ^ 2 * doc_objective21 A Y l X)%R.
  Proof.
    intros x1 x2. pose proof HU as (u1 & u2 & _). pose proof (meq_nr _ _ HY) as n1. pose proof (meq_nc _ _ HY) as n2. cbn in n1, n2.
    rewrite (obj21_frob A Y l X) by congruence. rewrite (obj21_frob A' Y' _ (seen X)) by (cbn; congruence). rewrite n1, n2, u1.
    rewrite (frob_eq m (nc Y) _ _ (seen_resid X x1 x2)) by (cbn; congruence). rewrite frob_scal. rewrite (frob_mul m (nc Y) U _ HU) by (cbn; congruence).
    rewrite (rsum_ext (nr (seen X)) _ (fun i => c * row_length X i)%R) by (intros; apply seen_row). rewrite rsum_scal. cbn [seen rowmul nr]. rewrite y1. ring.
  Qed.
  Definition unseen (X : cmat) : cmat := rowmul (fun k => t k / RtoC c) X.
  Lemma seen_unseen X : seen (unseen X) ==m X.
  Proof.
    split; [reflexivity|]. split; [reflexivity|]. intros i j Hi Hj. cbn [seen unseen rowmul ent]. pose proof (unit_cancel (t i) (T i)) as UC. assert (N : RtoC c <> RtoC 0) by (intros E; apply RtoC_inj in E; lra).
    transitivity ((t i * Cconj (t i)) * ent X i j); [field; exact N|]. rewrite UC. ring.
  Qed.
  Lemma unseen_seen X : unseen (seen X) ==m X.
  Proof.
    split; [reflexivity|]. split; [reflexivity|]. intros i j Hi Hj. cbn [seen unseen rowmul ent]. pose proof (unit_cancel (t i) (T i)) as UC. assert (N : RtoC c <> RtoC 0) by (intros E; apply RtoC_inj in E; lra).
    transitivity ((t i * Cconj (t i)) * ent X i j); [field; exact N|]. rewrite UC. ring.
  Qed.
  Lemma sol21_rec l X : doc_solution21 true A Y l X <-> doc_solution21 true A' Y' (c * l) (seen X).
  Proof.
    pose proof (meq_nc _ _ HY) as n2. cbn in n2. unfold doc_solution21. split; intros ((x1 & x2 & x3) & O).
    - split; [cbn; repeat split; [congruence|congruence|discriminate]|]. intros Z (z1 & z2 & _). rewrite <- (obj21_eq A' Y' _ _ Z (seen_unseen Z)) by (cbn; congruence). rewrite !seen_obj by (cbn; congruence).
      assert ((doc_objective21 A Y l X <= doc_objective21 A Y l (unseen Z))%R); [|nra]. apply O. cbn. repeat split; [congruence|congruence|discriminate].
    - cbn [seen rowmul nr nc] in x1, x2. split; [repeat split; [congruence|congruence|discriminate]|]. intros Z (z1 & z2 & _). specialize (O (seen Z)). rewrite !seen_obj in O by congruence.
      assert (Q : (c ^ 2 * doc_objective21 A Y l X <= c ^ 2 * doc_objective21 A Y l Z)%R); [|assert (0 < c ^ 2)%R by nra; nra]. apply O. cbn. repeat split; [congruence|congruence|discriminate].
  Qed.
End rec21.

(** *** uniqueness: strict convexity *)
Lemma rsum_comb n (f g h k : nat -> R) : (forall i, (i < n)%nat -> f i = (g i + h i) / 2 - k i / 4)%R -> (rsum n f = (rsum n g + rsum n h) / 2 - rsum n k / 4)%R.
Proof. induction n; cbn [rsum]; intros H; [field|]. rewrite IHn by (intros; apply H; lia). rewrite (H n) by lia. field. Qed.
Lemma frob_mid m n X Y : (frob m n (mscal (RtoC (1 / 2)) (X +m Y)) = (frob m n X + frob m n Y) / 2 - frob m n (X -m Y) / 4)%R.
Proof. apply rsum_comb. intros i Hi. apply rsum_comb. intros j Hj. cbn [mscal madd msub ent]. destruct (ent X i j), (ent Y i j). unfold Cnorm2. cbn. field. Qed.
Definition midp (p q : nat -> R) (j : nat) : R := ((p j + q j) / 2)%R.
Lemma misfit_mid A D p q s t : nr D = nr A -> nc D = nr A ->
  (misfit A D (midp p q) ((s + t) / 2) = (misfit A D p s + misfit A D q t) / 2 - frob (nr A) (nr A) (grid_cov A p s -m grid_cov A q t) / 4)%R.
Proof.
  intros d1 d2. rewrite !(misfit_frob A D _ _ (nr A) eq_refl).
  assert (E1 : grid_cov A (midp p q) ((s + t) / 2) -m D ==m mscal (RtoC (1 / 2)) ((grid_cov A p s -m D) +m (grid_cov A q t -m D))).
  { split; [reflexivity|]. split; [reflexivity|]. intros i j Hi Hj. cbn [msub mscal madd grid_cov nr nc ent] in *.
    assert (E : csum (nc A) (fun c => RtoC (midp p q c) * (ent A i c * Cconj (ent A j c))) = RtoC (1 / 2) * (csum (nc A) (fun c => RtoC (p c) * (ent A i c * Cconj (ent A j c))) + csum (nc A) (fun c => RtoC (q c) * (ent A i c * Cconj (ent A j c))))).
    { rewrite <- csum_plus, <- csum_scal. apply csum_ext. intros c Hc. unfold midp. replace ((p c + q c) / 2)%R with (1 / 2 * (p c + q c))%R by field. rewrite RtoC_mult, RtoC_plus. ring. }
    rewrite E. assert (H : RtoC (1 / 2) + RtoC (1 / 2) = RtoC 1) by (rewrite <- RtoC_plus; f_equal; field).
    transitivity (RtoC (1 / 2) * (csum (nc A) (fun c => RtoC (p c) * (ent A i c * Cconj (ent A j c))) + csum (nc A) (fun c => RtoC (q c) * (ent A i c * Cconj (ent A j c)))) + (if Nat.eqb i j then RtoC ((s + t) / 2) else RtoC 0) - (RtoC (1 / 2) + RtoC (1 / 2)) * ent D i j); [rewrite H; ring|].
    destruct (Nat.eqb i j); [|ring]. replace ((s + t) / 2)%R with (1 / 2 * (s + t))%R by field. rewrite RtoC_mult, RtoC_plus. ring. }
  rewrite (frob_eq _ _ _ _ E1) by reflexivity. rewrite frob_mid. f_equal. f_equal. apply frob_eq; [|reflexivity|reflexivity]. split; [reflexivity|]. split; [reflexivity|]. intros. cbn [msub ent]. ring.
Qed.
Lemma frob_0 m n X : (frob m n X <= 0)%R -> forall i j, (i < m)%nat -> (j < n)%nat -> ent X i j = RtoC 0.
Proof.
  intros H i j Hi Hj. assert (N : forall r, (0 <= rsum n (fun j => Cnorm2 (ent X r j)))%R) by (intros; apply rsum_nonneg; intros; apply Cnorm2_nonneg).
  pose proof (rsum_ge m (fun r => rsum n (fun j => Cnorm2 (ent X r j))) i Hi (fun r _ => N r)) as H1. cbn beta in H1. fold (frob m n X) in H1.
  pose proof (rsum_ge n (fun j => Cnorm2 (ent X i j)) j Hj (fun r _ => Cnorm2_nonneg _)) as H2. cbn beta in H2. apply Cnorm2_0. pose proof (Cnorm2_nonneg (ent X i j)). lra.
Qed.
Lemma total_mid K nk p q s t : (total_power K nk (midp p q) ((s + t) / 2) <= (total_power K nk p s + total_power K nk q t) / 2)%R.
Proof.
  assert (M : forall a b, (Rabs ((a + b) / 2) <= (Rabs a + Rabs b) / 2)%R) by (intros; unfold Rabs; repeat destruct (Rcase_abs _); lra).
  unfold total_power. assert (S : (rsum K (fun j => Rabs (midp p q j)) <= (rsum K (fun j => Rabs (p j)) + rsum K (fun j => Rabs (q j))) / 2)%R).
  { unfold Rdiv. rewrite Rmult_comm, <- rsum_plus, <- rsum_scal. apply rsum_le. intros j Hj. pose proof (M (p j) (q j)). unfold midp. lra. }
  destruct nk; [lra|]. pose proof (M s t). lra.
Qed.
Lemma best_unique f A D nk l p s q t : nr D = nr A -> nc D = nr A -> (0 <= l)%R -> f = "penalizedl1"%string \/ f = "constrainedl1"%string ->
  best_fit f A D nk l p s -> best_fit f A D nk l q t -> grid_cov A p s ==m grid_cov A q t.
Proof.
  intros d1 d2 Hl Hf (Fp & Op) (Fq & Oq). pose proof (misfit_mid A D p q s t d1 d2) as M. pose proof (total_mid (nc A) nk p q s t) as T.
  assert (F : fit_feasible f A D nk l (midp p q) ((s + t) / 2)).
  { destruct Fp as (p1 & p2 & p3 & p4), Fq as (q1 & q2 & q3 & q4). split; [intros j Hj; specialize (p1 j Hj); specialize (q1 j Hj); unfold midp; lra|]. split; [destruct nk; lra|].
    split; [intros E; specialize (p3 E); specialize (q3 E); lra|]. intros E. destruct Hf as [Hf|Hf]; rewrite Hf in E; discriminate E. }
  pose proof (Op _ _ F) as H1. pose proof (Oq _ _ F) as H2. pose proof (Op _ _ Fq) as H3. pose proof (Oq _ _ Fp) as H4.
  assert (Z : (frob (nr A) (nr A) (grid_cov A p s -m grid_cov A q t) <= 0)%R).
  { unfold fit_objective in *. destruct Hf as [-> | ->]; cbn [String.eqb Ascii.eqb Bool.eqb] in *; [|lra].
    assert (l * total_power (nc A) nk (midp p q) ((s + t) / 2) <= l * ((total_power (nc A) nk p s + total_power (nc A) nk q t) / 2))%R by (apply Rmult_le_compat_l; assumption). lra. }
  split; [reflexivity|]. split; [reflexivity|]. intros i j Hi Hj. pose proof (frob_0 _ _ _ Z i j Hi Hj) as E. cbn [msub ent] in E. rewrite <- (Cplus_0_l (ent (grid_cov A q t) i j)), <- E. ring.
Qed.
