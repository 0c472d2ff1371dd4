(** Maximum-likelihood objectives of the same scene seen through different numbers. *)
From Coq Require Import Sorting.Sorted Sorting.Permutation.
From Verif Require P_signals.
From Verif Require Import Base_Np Base_Lin M_utils M_core M_ml S_utils S_subspace S_ml P_utils P_subspace P_perf2 P_perf3 P_courant P_ml3 P_ml4 P_ml5 P_ml7 P_oracles S_invar P_invar Prop_ml4 S_invar3.
Open Scope C_scope.

(** *** functions of a Hermitian matrix do not depend on the eigenvectors chosen *)
Definition spec_sum (g : nat -> R) (E : cmat) (m : nat) : cmat := Mat m m (fun i j => csum m (fun c => RtoC (g c) * (ent E i c * Cconj (ent E j c)))).
Lemma spec_unique A w E E' g m : hermitian A -> nr A = m -> eigh_ok A w E -> eigh_ok A w E' ->
  (forall i j, (i < m)%nat -> (j < m)%nat -> nth i w 0%R = nth j w 0%R -> g i = g j) -> spec_sum g E m ==m spec_sum g E' m.
Proof.
  intros HA Hm OE OE' Hg. subst m. set (m := nr A) in *. split; [reflexivity|]. split; [reflexivity|]. intros i j Hi Hj. cbn [spec_sum nr nc ent] in *. symmetry.
  rewrite (csum_ext m (fun c => RtoC (g c) * (ent E' i c * Cconj (ent E' j c))) (fun c => csum m (fun a => RtoC (g a) * (ent E i a * (vdot m (col E a) (col E' c) * Cconj (ent E' j c)))))).
  - rewrite csum_swap. apply csum_ext. intros a Ha. rewrite csum_scal. f_equal. rewrite csum_scal. f_equal.
    change (ent E j a) with (col E a j). rewrite (eigh_expand A w E' (col E a) j OE' Hj). fold m. rewrite csum_conj. apply csum_ext. intros c Hc. rewrite Cmult_conj. f_equal. now rewrite vdot_conj.
  - intros c Hc. change (ent E' i c) with (col E' c i). rewrite (eigh_expand A w E (col E' c) i OE Hi). fold m.
    transitivity (csum m (fun a => (RtoC (g c) * Cconj (ent E' j c)) * (vdot m (col E a) (col E' c) * ent E i a))); [rewrite csum_scal; ring|].
    apply csum_ext. intros a Ha. destruct (Req_EM_T (nth a w 0%R) (nth c w 0%R)) as [Q|Q].
    + rewrite (Hg a c Ha Hc Q). ring.
    + pose proof (eig_cross A w E w E' a c HA OE OE' Ha Hc Q) as Z. fold m in Z. rewrite Z. ring.
Qed.
Lemma wsf_spec w E m k : (k <= m)%nat -> wsf_sum w E m k ==m spec_sum (fun c => if Nat.ltb c (m - k) then 0%R else wsf_weight (noise_mean w m k) (nth c w 0%R)) E m.
Proof.
  intros Hk. split; [reflexivity|]. split; [reflexivity|]. intros i j Hi Hj. cbn [wsf_sum spec_sum nr nc ent] in *.
  match goal with |- _ = csum m ?F => replace (csum m F) with (csum ((m - k) + k) F) by (f_equal; lia) end. rewrite csum_app. rewrite (csum_0 (m - k)); [rewrite Cplus_0_l|].
  - apply csum_ext. intros c Hc. destruct (Nat.ltb_spec (m - k + c) (m - k)); [lia|reflexivity].
  - intros c Hc. destruct (Nat.ltb_spec c (m - k)); [|lia]. ring.
Qed.

(** *** conjugation with a unitary matrix *)
Section Conj.
  Variables (m : nat) (U : cmat).
  Hypothesis HU : unitary m U.
  Definition cj (X : cmat) : cmat := U *m X *m mher U.
  Lemma cj_dims X : nr (cj X) = m /\ nc (cj X) = m. Proof. destruct HU as (a & b & _). cbn. auto. Qed.
  Lemma cj_eq X Y : nr X = m -> X ==m Y -> cj X ==m cj Y.
  Proof. intros H E. apply mmul_eq_l, mmul_eq_r; [destruct HU as (_ & b & _); congruence|exact E]. Qed.
  Lemma cj_mul X Y : nr X = m -> nc X = m -> nr Y = m -> cj X *m cj Y ==m cj (X *m Y).
  Proof.
    intros X1 X2 Y1. destruct HU as (u1 & u2 & u3). unfold cj.
    rewrite (mmul_assoc (U *m X) (mher U) (U *m Y *m mher U)).
    assert (Q : mher U *m (U *m Y *m mher U) ==m Y *m mher U).
    { rewrite <- (mmul_assoc (mher U) (U *m Y) (mher U)). apply mmul_eq_l. rewrite <- (mmul_assoc (mher U) U Y). rewrite (mmul_eq_l _ _ Y u3). apply mmul_id_l. now symmetry. }
    assert (D : nc (U *m X) = nr (mher U *m (U *m Y *m mher U))) by (cbn; congruence).
    rewrite (mmul_eq_r (U *m X) _ _ D Q). rewrite <- (mmul_assoc (U *m X) Y (mher U)). apply mmul_eq_l. apply mmul_assoc.
  Qed.
  Lemma cj_id : cj (mid m) ==m mid m.
  Proof. unfold cj. destruct HU as (u1 & u2 & u3). rewrite (mmul_eq_l _ _ (mher U) (mmul_id_r U m (eq_sym u2))). now apply unitary_right. Qed.
  Lemma cj_scal c X : cj (mscal c X) ==m mscal c (cj X).
  Proof. unfold cj. rewrite (mmul_eq_l _ _ (mher U) (mscal_mmul_r c U X)). apply mscal_mmul_l. Qed.
  Lemma cj_add X Y : nr X = nr Y -> nc X = nc Y -> cj (X +m Y) ==m cj X +m cj Y.
  Proof. intros H1 H2. unfold cj. rewrite (mmul_eq_l _ _ (mher U) (mmul_add_r U X Y)). apply mmul_add_l; [reflexivity|exact H2]. Qed.
  Lemma cj_sub X Y : nr X = nr Y -> nc X = nc Y -> cj (X -m Y) ==m cj X -m cj Y.
  Proof. intros H1 H2. unfold cj. rewrite (mmul_eq_l _ _ (mher U) (mmul_sub_r U X Y)). apply mmul_sub_l; [reflexivity|exact H2]. Qed.
  Lemma cj_trace X : nr X = m -> nc X = m -> mtrace (cj X) = mtrace X.
  Proof.
    intros X1 X2. destruct HU as (u1 & u2 & u3). unfold cj. rewrite (mtrace_mmul_comm (U *m X) (mher U)) by (cbn; congruence).
    assert (E : mher U *m (U *m X) ==m X) by (rewrite <- (mmul_assoc (mher U) U X); rewrite (mmul_eq_l _ _ X u3); apply mmul_id_l; now symmetry).
    apply mtrace_eq; [cbn; congruence|exact E].
  Qed.
  Lemma cj_herm X : nr X = m -> hermitian X -> hermitian (cj X).
  Proof.
    intros X1 HX. destruct HU as (u1 & u2 & _). apply (hermitian_eq (mher (mher U) *m X *m mher U)); [|apply hermitian_congr; [cbn; congruence|exact HX]].
    apply mmul_eq_l, mmul_eq_l. apply mher_mher.
  Qed.
End Conj.

(** *** orthogonal projectors follow the subspace *)
Lemma op_range_span A P x : orth_projector_onto A P -> in_span A (mvec P x).
Proof.
  intros OP. destruct (op_range _ _ OP) as (X & x1 & x2 & E). destruct (op_shape _ _ OP) as (s1 & s2). exists (mvec X x). intros i Hi. rewrite <- mvec_mmul. apply mvec_eq; [exact E|lia].
Qed.
Lemma op_fix_span A P x : orth_projector_onto A P -> in_span A x -> forall i, (i < nr A)%nat -> mvec P x i = x i.
Proof.
  intros OP (y & Hy) i Hi. destruct (op_shape _ _ OP) as (s1 & s2). rewrite (mvec_ext P x (mvec A y)) by (intros j Hj; apply Hy; lia). rewrite <- mvec_mmul. rewrite (mvec_eq _ _ y i (op_fix _ _ OP)) by (cbn; lia). symmetry. now apply Hy.
Qed.
(** two matrices whose columns span the same subspace have the same projector *)
Lemma op_same_span A B P Q : nr A = nr B -> orth_projector_onto A P -> orth_projector_onto B Q ->
  (forall j, (j < nc A)%nat -> in_span B (col A j)) -> (forall j, (j < nc B)%nat -> in_span A (col B j)) -> P ==m Q.
Proof.
  intros HN OP OQ H1 H2. destruct (op_shape _ _ OP) as (p1 & p2), (op_shape _ _ OQ) as (q1 & q2).
  assert (QP : Q *m P ==m P).
  { split; [cbn; congruence|]. split; [cbn; congruence|]. intros i j Hi Hj. cbn [mmul nr nc] in Hi, Hj. rewrite mmul_ent_mvec.
    assert (S : in_span B (col P j)).
    { destruct (op_range _ _ OP) as (X & x1 & x2 & E). apply (in_span_trans A B); [exact H1|exact HN|]. exists (col X j). intros r Hr. unfold col at 1. rewrite (meq_ent _ _ r j E) by lia. now rewrite mmul_ent_mvec. }
    exact (op_fix_span B Q (col P j) OQ S i ltac:(lia)). }
  assert (PQ : P *m Q ==m Q).
  { split; [cbn; congruence|]. split; [cbn; congruence|]. intros i j Hi Hj. cbn [mmul nr nc] in Hi, Hj. rewrite mmul_ent_mvec.
    assert (S : in_span A (col Q j)).
    { destruct (op_range _ _ OQ) as (X & x1 & x2 & E). apply (in_span_trans B A); [exact H2|now symmetry|]. exists (col X j). intros r Hr. unfold col at 1. rewrite (meq_ent _ _ r j E) by lia. now rewrite mmul_ent_mvec. }
    exact (op_fix_span A P (col Q j) OP S i ltac:(lia)). }
  assert (X : mher (P *m Q) ==m Q *m P).
  { rewrite (mher_mmul P Q) by congruence. apply mmul_eq; [cbn; congruence|apply (op_herm _ _ OQ)|apply (op_herm _ _ OP)]. }
  rewrite <- QP, <- X. etransitivity; [exact (P_signals.mher_eq _ _ PQ)|]. apply (op_herm _ _ OQ).
Qed.
Lemma op_moved m U A P : unitary m U -> nr A = m -> orth_projector_onto A P -> orth_projector_onto (U *m A) (cj U P).
Proof.
  intros HU HA OP. destruct (op_shape _ _ OP) as (p1 & p2). rewrite HA in p1, p2. pose proof HU as (u1 & u2 & u3). split.
  - cbn. split; congruence.
  - rewrite (cj_mul m U HU P P p1 p2 p1). apply (cj_eq m U HU); [exact p1|apply (op_idem _ _ OP)].
  - unfold cj. rewrite (mher_mmul (U *m P) (mher U)) by (cbn; congruence). rewrite (mmul_eq_l _ _ _ (mher_mher U)).
    rewrite (mmul_eq_r U (mher (U *m P)) (mher P *m mher U)); [|cbn; congruence|apply mher_mmul; congruence].
    rewrite <- (mmul_assoc U (mher P) (mher U)). apply mmul_eq_l, mmul_eq_r; [cbn; congruence|apply (op_herm _ _ OP)].
  - unfold cj. rewrite (mmul_assoc (U *m P) (mher U) (U *m A)).
    assert (E : mher U *m (U *m A) ==m A) by (rewrite <- (mmul_assoc (mher U) U A); rewrite (mmul_eq_l _ _ A u3); apply mmul_id_l; now symmetry).
    rewrite (mmul_eq_r (U *m P) _ A); [|cbn; congruence|exact E]. rewrite (mmul_assoc U P A). apply mmul_eq_r; [cbn; congruence|apply (op_fix _ _ OP)].
  - destruct (op_range _ _ OP) as (X & x1 & x2 & E). exists (X *m mher U). split; [exact x1|]. split; [cbn; exact (eq_refl _)|]. unfold cj.
    rewrite (mmul_eq_l _ (U *m (A *m X)) (mher U)); [|apply mmul_eq_r; [cbn; congruence|exact E]].
    rewrite (mmul_assoc U A (X *m mher U)). rewrite (mmul_assoc U (A *m X) (mher U)). apply mmul_eq_r; [cbn; congruence|]. apply mmul_assoc.
Qed.
Lemma op_recorded m U A A' P P' : unitary m U -> same_subspace m U A A' -> orth_projector_onto A P -> orth_projector_onto A' P' -> P' ==m cj U P.
Proof.
  intros HU (a1 & a2 & S1 & S2) OP OP'. pose proof (op_moved m U A P HU a1 OP) as OM. destruct HU as (u1 & u2 & _).
  apply (op_same_span A' (U *m A)); auto. cbn. congruence.
Qed.
Lemma atoms_subspace m U A A' : unitary m U -> recorded_atoms m U A A' -> same_subspace m U A A'.
Proof.
  intros (u1 & u2 & _) (a1 & a2 & a3 & t & T & H). split; [exact a1|]. split; [exact a2|]. split.
  - intros j Hj. exists (fun c => if Nat.eqb c j then Cconj (t j) else RtoC 0). intros i Hi. unfold mvec. rewrite (csum_single (nc A') _ j ltac:(lia)).
    + rewrite Nat.eqb_refl, H by lia. unfold col. transitivity ((t j * Cconj (t j)) * ent (U *m A) i j); [rewrite (unit_cancel _ (T j)); ring|ring].
    + intros c Hc Nc. destruct (Nat.eqb_spec c j); [lia|ring].
  - intros j Hj. exists (fun c => if Nat.eqb c j then t j else RtoC 0). intros i Hi. cbn [mmul nr] in Hi. unfold mvec. cbn [mmul nc]. rewrite (csum_single (nc A) _ j ltac:(lia)).
    + rewrite Nat.eqb_refl. unfold col. rewrite H by lia. ring.
    + intros c Hc Nc. destruct (Nat.eqb_spec c j); [lia|ring].
Qed.

(** *** values *)
Lemma rec_cov_eq m U c d Rm Rm' : unitary m U -> recorded_cov m U c d Rm Rm' -> Rm' ==m mscal (RtoC c) (cj U Rm) +m mscal (RtoC d) (mid m).
Proof. intros _ H. exact H. Qed.
Lemma rec_cov_0 m U c Rm Rm' : unitary m U -> recorded_cov m U c 0 Rm Rm' <-> Rm' ==m mscal (RtoC c) (cj U Rm).
Proof.
  intros (u1 & u2 & _). assert (Z : mscal (RtoC c) (cj U Rm) +m mscal (RtoC 0) (mid m) ==m mscal (RtoC c) (cj U Rm)).
  { split; [reflexivity|]. split; [reflexivity|]. intros i j Hi Hj. cbn [madd mscal ent]. ring. }
  unfold recorded_cov. fold (cj U Rm). split; intros H; [rewrite H; exact Z|rewrite Z; exact H].
Qed.
Lemma resid_rec m U c d P P' Sm Sm' : unitary m U -> nr P = m -> nc P = m -> nr Sm = m -> nc Sm = m -> P' ==m cj U P -> recorded_cov m U c d Sm Sm' ->
  mtrace ((mid m -m P') *m Sm') = RtoC c * mtrace ((mid m -m P) *m Sm) + RtoC d * mtrace (mid m -m P).
Proof.
  intros HU p1 p2 s1 s2 EP ES. pose proof HU as (u1 & u2 & _).
  assert (EQ : mid m -m P' ==m cj U (mid m -m P)).
  { rewrite (cj_sub U (mid m) P) by (cbn; congruence). pose proof (meq_nr _ _ EP) as n1. pose proof (meq_nc _ _ EP) as n2. cbn in n1, n2. apply msub_eq; [cbn; congruence|cbn; congruence|symmetry; now apply (cj_id m)|exact EP]. }
  pose proof (meq_nr _ _ ES) as n1. pose proof (meq_nc _ _ ES) as n2. cbn in n1, n2.
  assert (E2 : (mid m -m P') *m Sm' ==m mscal (RtoC c) (cj U ((mid m -m P) *m Sm)) +m mscal (RtoC d) (cj U (mid m -m P))).
  { rewrite (mmul_eq (mid m -m P') (cj U (mid m -m P)) Sm' (mscal (RtoC c) (cj U Sm) +m mscal (RtoC d) (mid m))); [|cbn; congruence|exact EQ|exact ES].
    rewrite (mmul_add_r (cj U (mid m -m P)) (mscal (RtoC c) (cj U Sm)) (mscal (RtoC d) (mid m))).
    apply madd_eq; [reflexivity|cbn; congruence| |].
    - rewrite (mscal_mmul_r (RtoC c) (cj U (mid m -m P)) (cj U Sm)). apply mscal_eq. apply (cj_mul m U HU); cbn; congruence.
    - rewrite (mscal_mmul_r (RtoC d) (cj U (mid m -m P)) (mid m)). apply mscal_eq. apply mmul_id_r. cbn. congruence. }
  assert (SQ : nr ((mid m -m P') *m Sm') = nc ((mid m -m P') *m Sm')) by (cbn; congruence). rewrite (mtrace_eq _ _ SQ E2). rewrite mtrace_sum by reflexivity. rewrite !mtrace_mscal. rewrite !(cj_trace m U HU) by (cbn; congruence). reflexivity.
Qed.
Lemma conc_rec m k U c P P' Rm Rm' : unitary m U -> nr P = m -> nc P = m -> nr Rm = m -> nc Rm = m -> P' ==m cj U P -> recorded_cov m U c 0 Rm Rm' ->
  recorded_cov m U c 0 (concentrated P Rm m k) (concentrated P' Rm' m k).
Proof.
  intros HU p1 p2 r1 r2 EP ER. pose proof (resid_rec m U c 0 P P' Rm Rm' HU p1 p2 r1 r2 EP ER) as T. pose proof HU as (u1 & u2 & _).
  apply (rec_cov_0 m U c _ _ HU) in ER. apply (rec_cov_0 m U c _ _ HU).
  pose proof (meq_nr _ _ EP) as n1. pose proof (meq_nc _ _ EP) as n2. cbn in n1, n2. pose proof (meq_nr _ _ ER) as n3. pose proof (meq_nc _ _ ER) as n4. cbn in n3, n4.
  unfold concentrated. rewrite T. set (t := mtrace ((mid m -m P) *m Rm)). set (q := RtoC (INR (m - k))).
  assert (EQ : mid m -m P' ==m cj U (mid m -m P)).
  { rewrite (cj_sub U (mid m) P) by (cbn; congruence). apply msub_eq; [cbn; congruence|cbn; congruence|symmetry; now apply (cj_id m)|exact EP]. }
  assert (E1 : P' *m Rm' *m P' ==m mscal (RtoC c) (cj U (P *m Rm *m P))).
  { rewrite (mmul_eq (P' *m Rm') (mscal (RtoC c) (cj U (P *m Rm))) P' (cj U P)); [|cbn; congruence| |exact EP].
    - rewrite (mscal_mmul_l (RtoC c) (cj U (P *m Rm)) (cj U P)). apply mscal_eq. apply (cj_mul m U HU); cbn; congruence.
    - rewrite (mmul_eq P' (cj U P) Rm' (mscal (RtoC c) (cj U Rm))); [|cbn; congruence|exact EP|exact ER].
      rewrite (mscal_mmul_r (RtoC c) (cj U P) (cj U Rm)). apply mscal_eq. apply (cj_mul m U HU); cbn; congruence. }
  rewrite (madd_eq (P' *m Rm' *m P') (mscal (RtoC c) (cj U (P *m Rm *m P))) (mscal ((RtoC c * t + RtoC 0 * mtrace (mid m -m P)) / q) (mid m -m P')) (mscal (RtoC c) (mscal (t / q) (cj U (mid m -m P))))); [|cbn; congruence|cbn; congruence|exact E1|].
  - assert (EA : cj U (P *m Rm *m P +m mscal (t / q) (mid m -m P)) ==m cj U (P *m Rm *m P) +m mscal (t / q) (cj U (mid m -m P))).
    { rewrite (cj_add U (P *m Rm *m P) (mscal (t / q) (mid m -m P))) by (cbn; congruence). apply madd_eq; [reflexivity|reflexivity|reflexivity|apply cj_scal]. }
    rewrite (mscal_eq (RtoC c) _ _ EA). split; [reflexivity|]. split; [reflexivity|]. intros i j Hi Hj. cbn [madd mscal ent]. ring.
  - rewrite (mscal_eq ((RtoC c * t + RtoC 0 * mtrace (mid m -m P)) / q) _ _ EQ). split; [reflexivity|]. split; [reflexivity|]. intros i j Hi Hj. cbn [mscal ent]. unfold Cdiv. ring.
Qed.

Lemma cml_rec pinv pinv' m U c d A A' Sm Sm' : pinv_total m pinv -> pinv_total m pinv' -> unitary m U -> same_subspace m U A A' -> nr Sm = m -> nc Sm = m -> recorded_cov m U c d Sm Sm' ->
  exists P x y, orth_projector_onto A P /\ cml_value pinv m A Sm = Ok (Some x) /\ cml_value pinv' m A' Sm' = Ok (Some y) /\ y = (c * x + d * Re (mtrace (mid m -m P)))%R.
Proof.
  intros (Hp & Tp) (Hp' & Tp') HU HS s1 s2 HR. pose proof HS as (a1 & a2 & _). destruct (rec_sizes m U c d Sm Sm' HU HR) as (t1 & t2).
  destruct (Tp A a1) as (X & EX), (Tp' A' a2) as (X' & EX').
  destruct (cml_defined pinv m A Sm X Hp EX a1 s1) as (x & V). destruct (cml_defined pinv' m A' Sm' X' Hp' EX' a2 t1) as (y & V').
  destruct (cml_ok pinv m A Sm _ Hp a1 s1 s2 V) as (P & OP & Q). destruct (cml_ok pinv' m A' Sm' _ Hp' a2 t1 t2 V') as (P' & OP' & Q').
  exists P, x, y. do 3 (split; [assumption|]). injection Q as ->. injection Q' as ->. destruct (op_shape _ _ OP) as (p1 & p2). rewrite a1 in p1, p2.
  rewrite (resid_rec m U c d P P' Sm Sm' HU p1 p2 s1 s2 (op_recorded m U A A' P P' HU HS OP OP') HR). rewrite Re_plus. set (t1c := mtrace _). set (t2c := mtrace _). destruct t1c, t2c. cbn. ring.
Qed.
Lemma eig_logabs_scale w c n : (0 < c)%R -> (n <= List.length w)%nat -> (forall i, (i < n)%nat -> nth i w 0%R <> 0%R) ->
  eig_logabs w n = (eig_logabs (map (fun x => ((x - 0) / c)%R) w) n + INR n * ln c)%R.
Proof.
  intros Hc. unfold eig_logabs. induction n as [|n IH]; intros Hn H; [cbn; ring|]. cbn [rsum]. rewrite IH by (try lia; intros; apply H; lia).
  rewrite (nth_indep (map (fun x => ((x - 0) / c)%R) w) 0%R ((fun x => ((x - 0) / c)%R) 0%R)) by (rewrite map_length; lia). rewrite (map_nth (fun x => ((x - 0) / c)%R)).
  replace ((nth n w 0 - 0) / c)%R with (nth n w 0 * / c)%R by (field; lra). rewrite Rabs_mult, (Rabs_right (/ c)) by (apply Rle_ge, Rlt_le, Rinv_0_lt_compat, Hc).
  rewrite ln_mult by (try (apply Rabs_pos_lt, H; lia); apply Rinv_0_lt_compat, Hc). rewrite ln_Rinv by exact Hc. rewrite S_INR. ring.
Qed.
Lemma eig_sign_scale w c n : (0 < c)%R -> (n <= List.length w)%nat -> eig_sign (map (fun x => ((x - 0) / c)%R) w) n = eig_sign w n.
Proof.
  intros Hc. induction n as [|n IH]; intros Hn; [reflexivity|]. cbn [eig_sign]. rewrite IH by lia. f_equal.
  rewrite (nth_indep (map (fun x => ((x - 0) / c)%R) w) 0%R ((fun x => ((x - 0) / c)%R) 0%R)) by (rewrite map_length; lia). rewrite (map_nth (fun x => ((x - 0) / c)%R)).
  set (x := nth n w 0%R). assert (P : (0 < / c)%R) by now apply Rinv_0_lt_compat. replace ((x - 0) / c)%R with (x * / c)%R by (unfold Rdiv; ring).
  destruct (Rlt_dec (x * / c) 0) as [a|a], (Rlt_dec x 0) as [b|b]; try reflexivity; exfalso; [|]; nra.
Qed.
Lemma slogdet_rec slogdet slogdet' m U c H H' : slogdet_regular m slogdet -> slogdet_singular m slogdet -> slogdet_regular m slogdet' -> slogdet_singular m slogdet' ->
  unitary m U -> (0 < c)%R -> nr H = m -> hermitian H -> recorded_cov m U c 0 H H' ->
  (slogdet H = Ok (RtoC 0, None) /\ slogdet' H' = Ok (RtoC 0, None)) \/
  exists s x, (s = 1%R \/ s = (-1)%R) /\ slogdet H = Ok (RtoC s, Some x) /\ slogdet' H' = Ok (RtoC s, Some (x + INR m * ln c)%R).
Proof.
  intros R1 S1 R2 S2 HU Hc h1 HH HR. destruct (rec_sizes m U c 0 H H' HU HR) as (n1 & n2).
  assert (h2 : nc H = m) by (destruct HH; congruence).
  assert (HH' : hermitian H'). { apply (hermitian_eq (mscal (RtoC c) (cj U H))); [symmetry; now apply (rec_cov_0 m U c)|]. apply hermitian_mscal. now apply (cj_herm m). }
  destruct (eigh_ref_ok H' HH') as (w & E & _ & OE). pose proof (rec_eigh m U c 0 H H' w E HU h1 h2 Hc HR OE) as OH.
  assert (Lw : List.length w = m) by (rewrite <- n1; apply OE).
  destruct (Classical_Prop.classic (exists i, (i < m)%nat /\ nth i w 0%R = 0%R)) as [Z|Z].
  - left. split; [|exact (S2 H' w E n1 HH' OE Z)]. apply (S1 H _ _ h1 HH OH). destruct Z as (i & Hi & Z). exists i. split; [exact Hi|].
    rewrite (nth_indep (map (fun x => ((x - 0) / c)%R) w) 0%R ((fun x => ((x - 0) / c)%R) 0%R)) by (rewrite map_length; lia). rewrite (map_nth (fun x => ((x - 0) / c)%R)), Z. field. lra.
  - right. assert (NZ : forall i, (i < m)%nat -> nth i w 0%R <> 0%R) by (intros i Hi Q; apply Z; eauto).
    exists (eig_sign w m), (eig_logabs (map (fun x => ((x - 0) / c)%R) w) m). split; [apply eig_sign_cases|]. split.
    + rewrite <- (eig_sign_scale w c m Hc ltac:(lia)). apply (R1 H _ _ h1 HH OH). intros i Hi.
      rewrite (nth_indep (map (fun x => ((x - 0) / c)%R) w) 0%R ((fun x => ((x - 0) / c)%R) 0%R)) by (rewrite map_length; lia). rewrite (map_nth (fun x => ((x - 0) / c)%R)).
      intros Q. apply (NZ i Hi). revert Q. set (x := nth i w 0%R). intros Q. transitivity (c * ((x - 0) / c))%R; [field; lra|]. rewrite Q. ring.
    + rewrite <- (eig_logabs_scale w c m Hc ltac:(lia) NZ). exact (R2 H' w E n1 HH' OE NZ).
Qed.
Lemma aml_rec pinv pinv' slogdet slogdet' m k U c A A' Rm Rm' : pinv_total m pinv -> pinv_total m pinv' ->
  slogdet_regular m slogdet -> slogdet_singular m slogdet -> slogdet_regular m slogdet' -> slogdet_singular m slogdet' ->
  unitary m U -> (0 < c)%R -> (k < m)%nat -> same_subspace m U A A' -> nr Rm = m -> hermitian Rm -> recorded_cov m U c 0 Rm Rm' ->
  exists v v', (let! H := aml_matrix pinv m k A Rm in aml_value slogdet H) = Ok v /\ (let! H := aml_matrix pinv' m k A' Rm' in aml_value slogdet' H) = Ok v' /\
    value_changed AML m c v v'.
Proof.
  intros (Hp & Tp) (Hp' & Tp') R1 S1 R2 S2 HU Hc Hk HS r1 HH HR. pose proof HS as (a1 & a2 & _). destruct (rec_sizes m U c 0 Rm Rm' HU HR) as (t1 & t2).
  assert (r2 : nc Rm = m) by (destruct HH; congruence).
  assert (HH' : hermitian Rm'). { apply (hermitian_eq (mscal (RtoC c) (cj U Rm))); [symmetry; now apply (rec_cov_0 m U c)|]. apply hermitian_mscal. now apply (cj_herm m). }
  destruct (Tp A a1) as (X & EX), (Tp' A' a2) as (X' & EX').
  destruct (aml_defined pinv m k A Rm X Hp EX a1 r1 r2) as (H & V). destruct (aml_defined pinv' m k A' Rm' X' Hp' EX' a2 t1 t2) as (H' & V').
  destruct (aml_ok pinv m k A Rm H Hp a1 HH r1 Hk V) as (P & OP & Q). destruct (aml_ok pinv' m k A' Rm' H' Hp' a2 HH' t1 Hk V') as (P' & OP' & Q').
  destruct (op_shape _ _ OP) as (p1 & p2). rewrite a1 in p1, p2.
  pose proof (conc_rec m k U c P P' Rm Rm' HU p1 p2 r1 r2 (op_recorded m U A A' P P' HU HS OP OP') HR) as CR.
  assert (h1 : nr H = m) by (rewrite (meq_nr _ _ Q); cbn; congruence).
  assert (HM : hermitian H). { eapply hermitian_eq; [symmetry; exact Q|]. rewrite (conc_eq A P Rm m k OP a1 HH r1 Hk). exact (conc_herm A P Rm m k OP a1 HH r1). }
  assert (RH : recorded_cov m U c 0 H H').
  { apply (rec_cov_0 m U c _ _ HU). apply (rec_cov_0 m U c _ _ HU) in CR. rewrite Q', CR. apply mscal_eq. apply (cj_eq m U HU); [cbn; congruence|now symmetry]. }
  rewrite V, V'. cbn [bind]. unfold aml_value.
  destruct (slogdet_rec slogdet slogdet' m U c H H' R1 S1 R2 S2 HU Hc h1 HM RH) as [(Z1 & Z2)|(s & x & Hs & Z1 & Z2)]; rewrite Z1, Z2; cbn [bind].
  - destruct (cle0 (RtoC 0)); do 2 eexists; (split; [reflexivity|]); (split; [reflexivity|]); exact Logic.I.
  - destruct (cle0 (RtoC s)); do 2 eexists; (split; [reflexivity|]); (split; [reflexivity|]); [exact Logic.I|]. reflexivity.
Qed.
(** the weight matrix of WSF *)
Lemma wsf_rec eigh eigh' m U c k Rm Rm' w E w' E' : unitary m U -> (0 < c)%R -> (1 <= k < m)%nat -> nr Rm = m -> hermitian Rm -> recorded_cov m U c 0 Rm Rm' ->
  eigh Rm = Ok (w, E) -> eigh_ok Rm w E -> eigh' Rm' = Ok (w', E') -> eigh_ok Rm' w' E' -> (nth (m - k - 1) w 0 < nth (m - k) w 0)%R ->
  exists M M', wsf_matrix eigh m Rm k = Ok M /\ wsf_matrix eigh' m Rm' k = Ok M' /\ nr M = m /\ nc M = m /\ recorded_cov m U c 0 M M'.
Proof.
  intros HU Hc Hk r1 HH HR HE OE HE' OE' Gap. assert (r2 : nc Rm = m) by (destruct HH; congruence). destruct (rec_sizes m U c 0 Rm Rm' HU HR) as (t1 & t2).
  pose proof OE as (_ & e1 & e2 & L & St & _). rewrite r1 in e1, e2, L. pose proof OE' as (_ & e1' & e2' & L' & _). rewrite t1 in e1', e2', L'.
  destruct (wsf_ok eigh m Rm k w E HE L e1 e2 Hk) as (M & EM & M1 & _). destruct (wsf_ok eigh' m Rm' k w' E' HE' L' e1' e2' Hk) as (M' & EM' & M1' & _).
  exists M, M'. split; [exact EM|]. split; [exact EM'|]. split; [exact (meq_nr _ _ M1)|]. split; [exact (meq_nc _ _ M1)|].
  apply (rec_cov_0 m U c _ _ HU). pose proof (rec_eigh m U c 0 Rm Rm' w' E' HU r1 r2 Hc HR OE') as O2.
  set (w2 := map (fun x => ((x - 0) / c)%R) w') in *. set (E2 := mher U *m E') in *.
  assert (WE : w = w2) by exact (eig_unique Rm w E w2 E2 HH OE O2).
  assert (W : forall i, (i < m)%nat -> nth i w' 0%R = (c * nth i w 0)%R).
  { intros i Hi. rewrite WE. unfold w2. rewrite (nth_indep (map (fun x => ((x - 0) / c)%R) w') 0%R ((fun x => ((x - 0) / c)%R) 0%R)) by (rewrite map_length; lia). rewrite (map_nth (fun x => ((x - 0) / c)%R)). field. lra. }
  rewrite <- WE in O2. set (g := fun q => if Nat.ltb q (m - k) then 0%R else wsf_weight (noise_mean w m k) (nth q w 0%R)).
  assert (SU : M ==m spec_sum g E2 m).
  { rewrite M1, (wsf_spec w E m k) by lia. fold g. apply (spec_unique Rm w E E2 g m HH r1 OE O2). intros i j Hi Hj EQ. unfold g.
    assert (NB : forall a b, (a < m - k)%nat -> (m - k <= b < m)%nat -> (nth a w 0 < nth b w 0)%R).
    { intros a b Ha Hb. pose proof (sorted_nth w a (m - k - 1) St ltac:(lia) ltac:(lia)). pose proof (sorted_nth w (m - k) b St ltac:(lia) ltac:(lia)). lra. }
    destruct (Nat.ltb_spec i (m - k)), (Nat.ltb_spec j (m - k)); [reflexivity| | |now rewrite EQ].
    - pose proof (NB i j ltac:(lia) ltac:(lia)). lra.
    - pose proof (NB j i ltac:(lia) ltac:(lia)). lra. }
  assert (NM : noise_mean w' m k = (c * noise_mean w m k)%R).
  { unfold noise_mean. rewrite (rsum_ext (m - k) (fun i => nth i w' 0%R) (fun i => (c * nth i w 0)%R)) by (intros; apply W; lia). rewrite rsum_scal. unfold Rdiv. ring. }
  rewrite M1', (wsf_spec w' E' m k) by lia. set (g' := fun q => if Nat.ltb q (m - k) then 0%R else wsf_weight (noise_mean w' m k) (nth q w' 0%R)).
  assert (G : forall q, (q < m)%nat -> g' q = (c * g q)%R).
  { intros q Hq. unfold g', g. destruct (Nat.ltb q (m - k)); [ring|]. rewrite (W q Hq), NM. unfold wsf_weight. destruct (Req_EM_T (nth q w 0%R) 0) as [->|N]; [rewrite Rmult_0_r; unfold Rdiv; rewrite Rinv_0; ring|field; split; lra]. }
  assert (CE : mscal (RtoC c) (cj U M) ==m mscal (RtoC c) (cj U (spec_sum g E2 m))) by (apply mscal_eq, (cj_eq m U HU); [exact (meq_nr _ _ M1)|exact SU]).
  rewrite CE. pose proof HU as (u1 & u2 & _). split; [cbn; congruence|]. split; [cbn; congruence|]. intros i j Hi Hj. cbn [spec_sum nr nc] in Hi, Hj. cbn [mscal ent]. unfold cj.
  cbn [spec_sum ent].
  assert (RE : forall r q, (r < m)%nat -> (q < m)%nat -> ent E' r q = csum m (fun a => ent U r a * ent E2 a q)).
  { intros r q Hr Hq. rewrite (rec_ent m U E' r q HU e1' Hr ltac:(lia)). unfold mvec. now rewrite u2. }
  cbn [mmul mher nr nc ent]. rewrite u2.
  rewrite (csum_ext m (fun q => RtoC (g' q) * (ent E' i q * Cconj (ent E' j q))) (fun q => csum m (fun b => csum m (fun a => RtoC c * (ent U i a * (RtoC (g q) * (ent E2 a q * Cconj (ent E2 b q))) * Cconj (ent U j b)))))).
  - rewrite csum_swap. rewrite <- csum_scal. apply csum_ext. intros b Hb. rewrite csum_swap.
    rewrite (csum_ext m (fun a => csum m (fun q => RtoC c * (ent U i a * (RtoC (g q) * (ent E2 a q * Cconj (ent E2 b q))) * Cconj (ent U j b)))) (fun a => (RtoC c * Cconj (ent U j b)) * (ent U i a * csum m (fun q => RtoC (g q) * (ent E2 a q * Cconj (ent E2 b q)))))).
    + etransitivity; [apply csum_scal|]. cbn [spec_sum ent]. ring.
    + intros a Ha. rewrite <- !csum_scal. apply csum_ext. intros q Hq. ring.
  - intros q Hq. rewrite (G q Hq), RtoC_mult. rewrite (RE i q Hi Hq), (RE j q Hj Hq). rewrite csum_conj.
    transitivity (csum m (fun b => (RtoC c * RtoC (g q)) * (csum m (fun a => ent U i a * ent E2 a q) * Cconj (ent U j b * ent E2 b q)))).
    + rewrite !csum_scal. ring.
    + apply csum_ext. intros b Hb. rewrite Cmult_conj.
      transitivity (csum m (fun a => (RtoC c * RtoC (g q) * (Cconj (ent U j b) * Cconj (ent E2 b q))) * (ent U i a * ent E2 a q))); [rewrite csum_scal; ring|].
      apply csum_ext. intros a Ha. ring.
Qed.
