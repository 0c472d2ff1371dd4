(** Near-optimal values of the AML objective; candidates that the AML objective cannot tell from the true directions. *)
From Coq Require Import Lra Sorting.Permutation Sorting.Sorted.
From Verif Require Import Base_Np Base_Lin M_utils M_sources M_array M_coarray M_heap M_grid M_core M_ml S_utils S_subspace S_stable S_ml S_invar3 P_utils P_subspace P_subspace2 P_subspace3 P_spectral P_perf3 P_perf5 P_ml3 P_ml4 P_ml5 P_ml6 P_ml7 Prop_ml4 P_oracles P_stable P_pipeline P_signals S_mlc P_mlc P_mlc2 P_mlc5 P_mlc8 P_mlc9.
Open Scope C_scope.

Lemma zconv_aml m zs (Rm P0 : cmat) s : NoDup zs -> (1 <= List.length zs)%nat -> (2 * List.length zs < m)%nat -> exact_cov Rm (ula_matrix m zs) P0 s -> pd P0 -> (0 < s)%R -> zconv AML m zs Rm.
Proof.
  intros ND Hk1 Hk2 HX HP Hs tol Ht. destruct (aml_conv m zs Rm P0 s tol ND Hk1 Hk2 HX HP Hs Ht) as (eps & ep & H). exists eps. split; [exact ep|].
  assert (KL : (List.length zs < m)%nat) by lia. intros env st M Rm' A A' zs' v v' K Hm ((Hp & _) & _ & Hr & _) HH R1 D L U _ EA EA' V V' G. rewrite Hm in Hr. unfold nll in V, V'. rewrite K, Hm in V, V'. pose proof (slogdet_regular_ok _ _ Hr) as SO.
  destruct (aml_matrix (ml_pinv env) m (List.length zs) A Rm') as [H1|] eqn:E1; [|discriminate]. destruct (aml_matrix (ml_pinv env) m (List.length zs) A' Rm') as [H2|] eqn:E2; [|discriminate]. cbn [bind] in V, V'.
  destruct (aml_ok _ m _ _ _ _ Hp (meq_nr _ _ EA) HH R1 KL E1) as (P & OP & Q1). destruct (aml_ok _ m _ _ _ _ Hp (meq_nr _ _ EA') HH R1 KL E2) as (P' & OP' & Q2).
  apply (op_meq _ _ _ EA) in OP. apply (op_meq _ _ _ EA') in OP'.
  destruct (conc_h _ P m OP eq_refl Rm' (List.length zs) HH R1 ltac:(lia)) as (C1 & N1). destruct (conc_h _ P' m OP' eq_refl Rm' (List.length zs) HH R1 ltac:(lia)) as (C2 & N2).
  destruct (eigh_ref_ok _ C1) as (mu & F & _ & OF). destruct (eigh_ref_ok _ C2) as (mu' & F' & _ & OF').
  destruct (H Rm' P P' zs' mu F mu' F' HH R1 D L U OP OP' OF OF') as (POS & HM).
  assert (QS1 : concentrated P Rm' m (List.length zs) ==m H1) by now symmetry. assert (QS2 : concentrated P' Rm' m (List.length zs) ==m H2) by now symmetry.
  assert (NH1 : nr H1 = m) by (rewrite (meq_nr _ _ Q1); exact N1). assert (NH2 : nr H2 = m) by (rewrite (meq_nr _ _ Q2); exact N2).
  rewrite (aml_value_pos (ml_slogdet env) m H1 mu F SO NH1 (hermitian_eq _ _ QS1 C1) (eigh_ok_eq _ _ _ _ QS1 OF) (fun i Hi => proj1 (POS i Hi))) in V.
  rewrite (aml_value_pos (ml_slogdet env) m H2 mu' F' SO NH2 (hermitian_eq _ _ QS2 C2) (eigh_ok_eq _ _ _ _ QS2 OF') (fun i Hi => proj2 (POS i Hi))) in V'.
  injection V as <-. injection V' as <-. exact (HM G).
Qed.

(** *** ambiguity: as many sources as half the sensors *)
Lemma proj_unique A P P' : orth_projector_onto A P -> orth_projector_onto A P' -> P ==m P'.
Proof.
  intros OP OP'. destruct (op_shape _ _ OP) as (s1 & s2). destruct (op_shape _ _ OP') as (t1 & t2). destruct (op_range _ _ OP) as (X & x1 & x2 & EX). destruct (op_range _ _ OP') as (Y & y1 & y2 & EY).
  assert (E1 : P' *m P ==m P). { transitivity (P' *m (A *m X)); [apply mmul_eq_r; [congruence|exact EX]|]. transitivity ((P' *m A) *m X); [symmetry; apply mmul_assoc|]. transitivity (A *m X); [apply mmul_eq_l, (op_fix _ _ OP')|now symmetry]. }
  assert (E2 : P *m P' ==m P'). { transitivity (P *m (A *m Y)); [apply mmul_eq_r; [congruence|exact EY]|]. transitivity ((P *m A) *m Y); [symmetry; apply mmul_assoc|]. transitivity (A *m Y); [apply mmul_eq_l, (op_fix _ _ OP)|now symmetry]. }
  transitivity (mher P); [symmetry; apply (op_herm _ _ OP)|]. transitivity (mher (P' *m P)); [apply mher_eq; now symmetry|]. transitivity (mher P *m mher P'); [apply mher_mmul; congruence|].
  transitivity (P *m P'); [|exact E2]. transitivity (P *m mher P'); [apply mmul_eq_l, (op_herm _ _ OP)|apply mmul_eq_r; [cbn; congruence|apply (op_herm _ _ OP')]].
Qed.
Ltac mdim := solve [cbn [nr nc mmul msub madd mscal mid mher]; congruence].
Ltac mby E i j Y := pose proof (meq_ent _ _ i j E ltac:(mdim) ltac:(mdim)) as Y; cbn [ent mscal madd msub] in Y.
Lemma conc_swap (Rm P P' : cmat) A B m k p s : nr A = m -> nr B = m -> nc A = k -> m = (2 * k)%nat -> (1 <= k)%nat -> inj A -> orth_projector_onto A P -> orth_projector_onto B P' -> P' ==m mid m -m P ->
  Rm ==m mscal (RtoC p) P +m mscal (RtoC s) (mid m) -> concentrated P' Rm m k ==m Rm.
Proof.
  intros A1 B1 Ak Hm Hk HI OP OP' EP ER. destruct (op_shape _ _ OP) as (s1 & s2). destruct (op_shape _ _ OP') as (t1 & t2). rewrite A1 in s1, s2. rewrite B1 in t1, t2.
  assert (R1 : nr Rm = m) by (rewrite (meq_nr _ _ ER); mdim). assert (R2 : nc Rm = m) by (rewrite (meq_nc _ _ ER); mdim).
  assert (EQ : mid m -m P' ==m P). { split; [mdim|]. split; [cbn [msub nc mid]; congruence|]. intros i j Hi Hj. cbn [msub mid nr nc] in Hi, Hj. mby EP i j Y. cbn [msub ent]. rewrite Y. ring. }
  assert (P'P : forall i j, (i < m)%nat -> (j < m)%nat -> ent (P' *m P) i j = RtoC 0).
  { intros i j Hi Hj. assert (E0 : P' *m P ==m P' *m mid m -m P' *m P'). { transitivity (P' *m (mid m -m P')); [apply mmul_eq_r; [congruence|now symmetry]|]. apply mmul_sub_r. }
    mby E0 i j Y. rewrite Y. pose proof (mmul_id_r P' m ltac:(congruence)) as I1. mby I1 i j Y1. mby (op_idem _ _ OP') i j Y2. rewrite Y1, Y2. ring. }
  assert (SUM : forall X, nr X = m -> nc X = m -> X *m Rm ==m mscal (RtoC p) (X *m P) +m mscal (RtoC s) X).
  { intros X x1 x2. transitivity (X *m (mscal (RtoC p) P +m mscal (RtoC s) (mid m))); [apply mmul_eq_r; [congruence|exact ER]|]. etransitivity; [apply mmul_add_r|]. apply madd_eq; [mdim|mdim|apply mscal_mmul_r|].
    etransitivity; [apply mscal_mmul_r|]. apply mscal_eq, mmul_id_r. congruence. }
  assert (PR : P' *m Rm ==m mscal (RtoC s) P').
  { etransitivity; [apply SUM; assumption|]. split; [mdim|]. split; [mdim|]. intros i j Hi Hj. cbn [madd mscal nr nc mmul] in Hi, Hj. cbn [madd mscal ent]. rewrite P'P by congruence. ring. }
  assert (PRP : P' *m Rm *m P' ==m mscal (RtoC s) P').
  { transitivity (mscal (RtoC s) P' *m P'); [apply mmul_eq_l, PR|]. etransitivity; [apply mscal_mmul_l|]. apply mscal_eq, (op_idem _ _ OP'). }
  assert (TR : mtrace ((mid m -m P') *m Rm) = RtoC ((p + s) * INR k)).
  { assert (E1 : (mid m -m P') *m Rm ==m mscal (RtoC (p + s)) P).
    { transitivity (P *m Rm); [apply mmul_eq_l, EQ|]. etransitivity; [apply SUM; assumption|]. split; [mdim|]. split; [mdim|]. intros i j Hi Hj. cbn [madd mscal nr nc mmul] in Hi, Hj. cbn [madd mscal ent]. mby (op_idem _ _ OP) i j Y. rewrite Y, RtoC_plus. ring. }
    rewrite (mtrace_eq ((mid m -m P') *m Rm) _ (eq_sym R2) E1). rewrite mtrace_mscal. rewrite (P_trace A P k OP HI Ak). now rewrite <- RtoC_mult. }
  unfold concentrated. rewrite TR. assert (Kp : (0 < INR k)%R) by (apply lt_0_INR; lia). replace (m - k)%nat with k by lia. replace (RtoC ((p + s) * INR k) / RtoC (INR k)) with (RtoC (p + s)) by (rewrite RtoC_mult; field; intros Z; injection Z; lra).
  etransitivity; [|symmetry; exact ER]. split; [mdim|]. split; [mdim|]. intros i j Hi Hj. cbn [madd mscal nr nc mmul] in Hi, Hj. cbn [madd mscal ent].
  mby PRP i j Y1. mby EQ i j Y2. mby EP i j Y3. change (ent (mid m -m P') i j) with (ent (mid m) i j - ent P' i j) in *. rewrite Y1, Y2, Y3, RtoC_plus. ring.
Qed.
