(** The concentrated covariance of the AML estimator and the log-determinant bound. *)
From Coq Require Import Sorting.Sorted.
From Verif Require Import Base_Np Base_Lin M_utils M_core M_ml S_utils S_subspace S_ml P_utils P_subspace P_subspace2 P_subspace3 P_core2 P_perf2 P_perf3 P_perf5 P_ml3 P_ml4.
Open Scope C_scope.

Lemma trace_real X Y : hermitian X -> hermitian Y -> nr X = nr Y -> Im (mtrace (X *m Y)) = 0%R.
Proof.
  intros HX HY E. assert (X1 : nc X = nr X) by (symmetry; apply HX). assert (Y1 : nc Y = nr Y) by (symmetry; apply HY).
  assert (C1 : Cconj (mtrace (X *m Y)) = mtrace (X *m Y)).
  { transitivity (mtrace (mher (X *m Y))); [unfold mtrace; cbn [mher mmul nr nc ent]; rewrite csum_conj, Y1, E; reflexivity|].
    rewrite (mtrace_eq (mher (X *m Y)) (Y *m X)).
    - apply mtrace_mmul_comm; congruence.
    - cbn [mher mmul nr nc]. congruence.
    - etransitivity; [apply mher_mmul; congruence|]. apply mmul_eq; [cbn [mher nr nc]; congruence | apply hermitian_mher; exact HY | apply hermitian_mher; exact HX]. }
  apply (f_equal Im) in C1. cbn [Cconj Im snd] in C1. unfold Im in *. cbn [snd] in C1. lra.
Qed.

Section Conc.
  Variables (B P Rm : cmat) (m k : nat).
  Hypothesis OP : orth_projector_onto B P.
  Hypothesis HB : nr B = m.
  Hypothesis HR : hermitian Rm.
  Hypothesis R1 : nr Rm = m.
  Let Q := mid m -m P.
  Let c := (Re (mtrace (Q *m Rm)) / INR (m - k))%R.
  Hypothesis Hkm : (k < m)%nat.
  Let Cc := P *m Rm *m P +m mscal (RtoC c) Q.
  Lemma R2 : nc Rm = m. Proof. rewrite <- R1. symmetry. apply HR. Qed.
  Lemma P1 : nr P = m. Proof. rewrite <- HB. apply (op_shape _ _ OP). Qed.
  Lemma P2 : nc P = m. Proof. rewrite <- HB. apply (op_shape _ _ OP). Qed.
  Lemma Qh : hermitian Q. Proof. apply hermitian_mher. unfold Q. rewrite <- HB. apply (q_herm B P OP). Qed.
  Lemma Ph : hermitian P. Proof. apply hermitian_mher. apply (op_herm _ _ OP). Qed.
  Lemma trace_c : mtrace (Q *m Rm) / RtoC (INR (m - k)) = RtoC c.
  Proof.
    unfold c. pose proof (trace_real Q Rm Qh HR (eq_sym R1)) as I0. assert (E : mtrace (Q *m Rm) = RtoC (Re (mtrace (Q *m Rm)))) by (apply injective_projections; [reflexivity | exact I0]). rewrite E at 1. unfold Cdiv, Rdiv. rewrite <- RtoC_inv, <- RtoC_mult by (apply not_0_INR; lia). reflexivity.
  Qed.
  Lemma conc_eq : concentrated P Rm m k = Cc.
  Proof. unfold concentrated. fold Q. now rewrite trace_c. Qed.
  Lemma conc_dims : nr Cc = m /\ nc Cc = m. Proof. cbn [Cc madd mmul nr nc]. split; [apply P1 | apply P2]. Qed.
  Lemma conc_herm : hermitian Cc.
  Proof.
    unfold Cc. pose proof P1 as X1. pose proof P2 as X2. pose proof R2 as X3. apply hermitian_madd; [cbn [mmul mscal Q msub mid nr]; congruence | | apply hermitian_mscal, Qh].
    apply (hermitian_eq (mher P *m Rm *m P)); [apply mmul_eq_l, mmul_eq_l; apply (op_herm _ _ OP) | apply hermitian_congr; congruence || exact HR].
  Qed.
  Lemma PQ_0 : P *m Q ==m Mat m m (fun _ _ => RtoC 0).
  Proof.
    pose proof P1 as X1. pose proof P2 as X2. unfold Q. etransitivity; [apply mmul_sub_r|]. split; [exact X1|]. split; [reflexivity|]. intros i j Hi Hj. cbn [msub ent]. cbn [msub mmul mid nr nc] in Hi, Hj.
    rewrite (meq_ent _ _ i j (mmul_id_r P m (eq_sym X2))) by (cbn [mmul mid nr nc]; lia). rewrite (meq_ent _ _ i j (op_idem _ _ OP)) by (cbn [mmul nr nc]; lia). ring.
  Qed.
  Lemma QQ : Q *m Q ==m Q. Proof. unfold Q. rewrite <- HB. apply (q_idem B P OP). Qed.
  Lemma conc_P : Cc *m P ==m P *m Rm *m P.
  Proof.
    pose proof P1 as X1. pose proof P2 as X2. pose proof R2 as X3. unfold Cc. etransitivity; [apply mmul_add_l; cbn [mmul mscal Q msub mid nr nc]; congruence|].
    assert (A1 : P *m Rm *m P *m P ==m P *m Rm *m P) by (etransitivity; [apply mmul_assoc|]; apply mmul_eq_r; [cbn [mmul nr nc]; congruence | apply (op_idem _ _ OP)]).
    assert (A2 : mscal (RtoC c) Q *m P ==m Mat m m (fun _ _ => RtoC 0)).
    { etransitivity; [apply mscal_mmul_l|]. assert (Z : Q *m P ==m Mat m m (fun _ _ => RtoC 0)).
      { etransitivity; [apply mmul_sub_l; cbn [mid nr nc]; congruence|]. split; [reflexivity|]. split; [exact X2|]. intros i j Hi Hj. cbn [msub ent]. cbn [msub mmul mid nr nc] in Hi, Hj.
        rewrite (meq_ent _ _ i j (mmul_id_l P m (eq_sym X1))) by (cbn [mmul mid nr nc]; lia). rewrite (meq_ent _ _ i j (op_idem _ _ OP)) by (cbn [mmul nr nc]; lia). ring. }
      split; [reflexivity|]. split; [exact X2|]. intros i j Hi Hj. cbn [mscal ent]. rewrite (meq_ent _ _ i j Z) by assumption. cbn [ent]. ring. }
    etransitivity; [apply madd_eq; [cbn [mmul mscal Q msub mid nr nc]; congruence | cbn [mmul nc]; congruence | exact A1 | exact A2]|]. split; [reflexivity|]. split; [reflexivity|]. intros i j Hi Hj. cbn [madd ent]. ring.
  Qed.
  Lemma conc_Q : Cc *m Q ==m mscal (RtoC c) Q.
  Proof.
    pose proof P1 as X1. pose proof P2 as X2. pose proof R2 as X3. unfold Cc. etransitivity; [apply mmul_add_l; cbn [mmul mscal Q msub mid nr nc]; congruence|].
    assert (A1 : P *m Rm *m P *m Q ==m Mat m m (fun _ _ => RtoC 0)).
    { etransitivity; [apply mmul_assoc|]. etransitivity; [apply mmul_eq_r; [cbn [mmul nr nc]; congruence | exact PQ_0]|]. split; [exact X1|]. split; [reflexivity|]. intros i j Hi Hj. rewrite mmul_ent_mvec. cbn [ent]. apply mvec_0. reflexivity. }
    assert (A2 : mscal (RtoC c) Q *m Q ==m mscal (RtoC c) Q) by (etransitivity; [apply mscal_mmul_l|]; apply mscal_eq, QQ).
    etransitivity; [apply madd_eq; [cbn [mmul mscal Q msub mid nr nc]; congruence | reflexivity | exact A1 | exact A2]|]. split; [reflexivity|]. split; [reflexivity|]. intros i j Hi Hj. cbn [madd ent]. ring.
  Qed.
  Lemma conc_qform x : qform Cc x = qform Rm (mvec P x) + RtoC c * RtoC (vnorm2 m (mvec Q x)).
  Proof.
    pose proof P1 as X1. pose proof P2 as X2. pose proof R2 as X3. unfold Cc. rewrite qform_madd by (cbn [mmul mscal Q msub mid nr nc]; congruence). f_equal.
    - rewrite (qform_eq _ (mher P *m Rm *m P)) by (apply mmul_eq_l, mmul_eq_l; symmetry; apply (op_herm _ _ OP)). apply qform_congr; [congruence | apply HR].
    - rewrite qform_mscal. f_equal. rewrite (qform_eq Q (mher Q *m Q)).
      + rewrite qform_gram. reflexivity.
      + symmetry. etransitivity; [apply mmul_eq_l; apply hermitian_mher, Qh | apply QQ].
  Qed.

  Hypothesis HPD : pd Rm.
  Hypothesis HI : inj B.
  Hypothesis Hk : (nc B = k)%nat.
  Lemma Q_trace : mtrace Q = RtoC (INR (m - k)).
  Proof. pose proof (q_trace_val B P OP HI) as T. rewrite HB, Hk in T. fold Q in T. rewrite T. f_equal. rewrite minus_INR by lia. reflexivity. Qed.
  Lemma P_trace : mtrace P = RtoC (INR k).
  Proof. rewrite (p_trace B P OP HI). now rewrite Hk. Qed.
  Lemma c_pos : (0 < c)%R.
  Proof.
    assert (D : (0 < INR (m - k))%R) by (apply lt_0_INR; lia). unfold c. apply Rdiv_lt_0_compat; [|exact D].
    pose proof (resid_nonneg B P OP Rm (pd_psd Rm HPD) ltac:(congruence)) as (N & _). rewrite HB in N. fold Q in N. destruct N as [N|N]; [exact N|]. exfalso.
    assert (Z : forall l, (l < m)%nat -> forall i, (i < m)%nat -> ent Q i l = RtoC 0).
    { intros l Hl i Hi. pose proof (resid_0 B P OP Rm (pd_psd Rm HPD) ltac:(congruence)) as W. rewrite HB in W. fold Q in W. specialize (W (eq_sym N) l Hl). apply (pd_zero Rm (col Q l) HPD); [now rewrite W | lia]. }
    pose proof Q_trace as T. unfold mtrace in T. rewrite csum_0 in T by (intros i Hi; cbn [Q msub mid nr] in Hi; now apply Z). injection T as T. lra.
  Qed.
  Lemma conc_pd : pd Cc.
  Proof.
    split; [exact conc_herm|]. destruct conc_dims as (D1 & D2). rewrite D1. intros x (i & Hi & Nx). rewrite conc_qform. rewrite <- RtoC_mult. unfold Re. cbn [fst Cplus RtoC]. fold (Re (qform Rm (mvec P x))). pose proof c_pos as Cp.
    destruct (nonzero_dec m (mvec P x)) as [Z|(i' & Hi' & Nz)].
    - assert (N2 : vnorm2 m (mvec Q x) = vnorm2 m x). { apply vnorm2_ext. intros j Hj. pose proof (q_mvec B P OP x j) as W. rewrite HB in W. fold Q in W. rewrite W by exact Hj. rewrite Z by exact Hj. ring. }
      rewrite N2. assert (V : (0 < vnorm2 m x)%R) by (destruct (vnorm2_nonneg m x) as [V|V]; [exact V|]; exfalso; apply Nx; symmetry in V; exact (vnorm2_0 m x V i Hi)). pose proof (proj2 (pd_psd Rm HPD) (mvec P x)). nra.
    - pose proof (proj2 HPD (mvec P x) ltac:(exists i'; split; [lia | exact Nz])) as V. assert (0 <= vnorm2 m (mvec Q x))%R by (apply vnorm2_nonneg). nra.
  Qed.
End Conc.
