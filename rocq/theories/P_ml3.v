(** Projectors, residual traces and subspace fits. *)
From Verif Require Import Base_Np Base_Lin S_utils S_subspace P_utils P_subspace P_subspace3 P_perf2 P_perf3.
Open Scope C_scope.

Lemma pd_psd X : pd X -> psd X.
Proof.
  intros (HH & HQ). split; [exact HH|]. intros y. destruct (nonzero_dec (nr X) y) as [Z|Y]; [|left; now apply HQ]. right. unfold qform. rewrite csum_0; [reflexivity|]. intros i Hi. apply csum_0. intros r Hr. rewrite (Z i Hi), Cconj_RtoC. ring.
Qed.
Lemma pd_zero X x : pd X -> Re (qform X x) = 0%R -> forall i, (i < nr X)%nat -> x i = RtoC 0.
Proof. intros (HH & HQ) H i Hi. destruct (nonzero_dec (nr X) x) as [Z|Y]; [now apply Z|]. specialize (HQ x Y). lra. Qed.
Lemma psd_trace_0 X : psd X -> Re (mtrace X) = 0%R -> forall i, (i < nr X)%nat -> Re (ent X i i) = 0%R.
Proof.
  intros HX. pose proof (fun i Hi => proj1 (psd_diag X i HX Hi)) as D. unfold mtrace. intros H. rewrite csum_Re in H. apply (rsum_nonneg_0 (nr X) (fun i => Re (ent X i i)) D H).
Qed.
Lemma congr_diag S Q l : nr Q = nr S -> nr S = nc S -> (l < nc Q)%nat -> ent (mher Q *m S *m Q) l l = qform S (col Q l).
Proof.
  intros H1 H2 Hl. unfold qform, col. cbn [mmul mher ent nr nc]. rewrite (csum_ext _ _ (fun q => csum (nr Q) (fun p => Cconj (ent Q p l) * ent S p q * ent Q q l))).
  - rewrite csum_swap. rewrite <- H1, <- H2, H1. apply csum_ext. intros p Hp. apply csum_ext. intros q Hq. reflexivity.
  - intros q Hq. rewrite Cmult_comm, <- csum_scal. apply csum_ext. intros. ring.
Qed.

Section Proj.
  Variables (B P : cmat).
  Hypothesis OP : orth_projector_onto B P.
  Let m := nr B.
  Let Q := mid m -m P.
  Lemma q_herm : mher Q ==m Q.
  Proof. pose proof (op_shape _ _ OP) as (S1 & S2). unfold Q. etransitivity; [apply mher_msub; cbn; auto|]. apply msub_eq; cbn; auto; [apply mher_mid | apply (op_herm _ _ OP)]. Qed.
  Lemma q_mvec x i : (i < m)%nat -> mvec Q x i = x i - mvec P x i.
  Proof.
    intros Hi. pose proof (op_shape _ _ OP) as (S1 & S2). rewrite <- (mvec_mid m x i Hi). unfold mvec, Q. cbn [msub nc ent mid]. rewrite S2. fold m. rewrite <- csum_minus. apply csum_ext. intros. ring.
  Qed.
  Lemma p_mvec_idem x i : (i < m)%nat -> mvec P (mvec P x) i = mvec P x i.
  Proof. intros Hi. rewrite <- mvec_mmul. pose proof (op_shape _ _ OP) as (S1 & S2). apply mvec_eq; [apply (op_idem _ _ OP) | cbn [mmul nr]; lia]. Qed.
  Lemma q_idem : Q *m Q ==m Q.
  Proof.
    pose proof (op_shape _ _ OP) as (S1 & S2). split; [reflexivity|]. split; [reflexivity|]. intros i j Hi Hj. cbn [Q msub mid mmul nr nc] in Hi, Hj. rewrite mmul_ent_mvec. rewrite q_mvec by exact Hi. change (fun l => ent Q l j) with (col Q j).
    assert (Z : mvec P (col Q j) i = RtoC 0).
    { unfold col, Q. cbn [msub mid ent]. unfold mvec. rewrite (csum_ext _ _ (fun l => ent P i l * (if Nat.eqb l j then RtoC 1 else RtoC 0) - ent P i l * ent P l j)) by (intros; ring). rewrite csum_minus.
      assert (E1 : csum (nc P) (fun l => ent P i l * (if Nat.eqb l j then RtoC 1 else RtoC 0)) = ent P i j) by (apply (mvec_unit P i j); lia). rewrite E1.
      pose proof (meq_ent _ _ i j (op_idem _ _ OP) ltac:(cbn [mmul nr]; lia) ltac:(cbn [mmul nc]; lia)) as E2. cbn [mmul ent] in E2. rewrite E2. ring. }
    rewrite Z. unfold col. ring.
  Qed.
  Lemma q_span a : in_span B a <-> forall i, (i < m)%nat -> mvec Q a i = RtoC 0.
  Proof.
    pose proof (op_shape _ _ OP) as (S1 & S2). split.
    - intros (x & Hx) i Hi. rewrite q_mvec by exact Hi. rewrite (mvec_ext P a (mvec B x) i) by (intros j Hj; apply Hx; lia). rewrite <- mvec_mmul. rewrite (mvec_eq _ B x i (op_fix _ _ OP)) by (cbn [mmul nr]; lia). rewrite (Hx i Hi). ring.
    - intros H. destruct (op_range _ _ OP) as (X & X1 & X2 & EX). exists (mvec X a). intros i Hi. rewrite <- mvec_mmul. rewrite <- (mvec_eq P (B *m X) a i EX) by lia. specialize (H i Hi). rewrite q_mvec in H by exact Hi. replace (mvec P a i) with (a i - (a i - mvec P a i)) by ring. rewrite H. ring.
  Qed.
  Lemma q_trace S : nr S = m -> nc S = m -> mtrace (Q *m S) = mtrace (mher Q *m S *m Q).
  Proof.
    intros H1 H2. etransitivity; [apply mtrace_eq; [cbn [mmul Q msub mid nr nc]; congruence|]; apply mmul_eq_l; symmetry; exact q_idem|].
    etransitivity; [apply mtrace_eq; [cbn [mmul Q msub mid nr nc]; congruence|]; apply mmul_assoc|]. rewrite mtrace_mmul_comm by (cbn [mmul Q msub mid nr nc]; congruence).
    apply mtrace_eq; [cbn [mmul Q msub mid nr nc]; congruence|]. apply mmul_eq_l. apply mmul_eq_l. symmetry. exact q_herm.
  Qed.
  (** the residual trace of a positive semidefinite matrix *)
  Lemma resid_nonneg S : psd S -> nr S = m -> (0 <= Re (mtrace (Q *m S)))%R /\ Im (mtrace (Q *m S)) = 0%R.
  Proof.
    intros HS H1. assert (H2 : nc S = m) by (destruct HS as ((X & _) & _); congruence). rewrite q_trace by assumption. apply psd_trace_nonneg. apply psd_congr; [cbn [Q msub mid nr]; congruence | exact HS].
  Qed.
  Lemma resid_0 S : psd S -> nr S = m -> Re (mtrace (Q *m S)) = 0%R -> forall l, (l < m)%nat -> qform S (col Q l) = RtoC 0.
  Proof.
    intros HS H1 H l Hl. assert (H2 : nc S = m) by (destruct HS as ((X & _) & _); congruence). rewrite q_trace in H by assumption.
    assert (HC : psd (mher Q *m S *m Q)) by (apply psd_congr; [cbn [Q msub mid nr]; congruence | exact HS]).
    pose proof (psd_trace_0 _ HC H l Hl) as E. rewrite congr_diag in E by (cbn [Q msub mid nr nc]; congruence || exact Hl). rewrite qform_real by apply HS. now rewrite E.
  Qed.
  (** A0 P0 A0^H with P0 positive definite has no residual iff the columns of A0 lie in the span of B *)
  Lemma fit_0 A0 P0 : nr A0 = m -> nr P0 = nc A0 -> pd P0 ->
    (Re (mtrace (Q *m (A0 *m P0 *m mher A0))) = 0%R <-> forall c, (c < nc A0)%nat -> in_span B (col A0 c)).
  Proof.
    intros H1 H2 HP. assert (H3 : nc P0 = nc A0) by (destruct HP as ((X & _) & _); congruence). pose proof (pd_psd P0 HP) as PS.
    assert (HS : psd (A0 *m P0 *m mher A0)) by (apply psd_congr'; [congruence | exact PS]).
    assert (QF : forall y, qform (A0 *m P0 *m mher A0) y = qform P0 (mvec (mher A0) y)).
    { intros y. assert (EQ : A0 *m P0 *m mher A0 ==m mher (mher A0) *m P0 *m mher A0) by (apply mmul_eq_l, mmul_eq_l; symmetry; apply mher_mher). rewrite (qform_eq _ _ y EQ). apply qform_congr; cbn [mher nr]; congruence. }
    split.
    - intros H c Hc. apply q_span. intros i Hi. pose proof (resid_0 _ HS H1 H i Hi) as Z. rewrite QF in Z.
      assert (V : mvec (mher A0) (col Q i) c = RtoC 0) by (apply (pd_zero P0 _ HP); [rewrite Z; reflexivity | congruence]).
      apply (f_equal Cconj) in V. rewrite Cconj_0 in V. rewrite <- V. unfold mvec, col. cbn [mher nc ent]. rewrite csum_conj. rewrite H1. cbn [Q msub mid nc]. fold m. apply csum_ext. intros l Hl.
      rewrite Cmult_conj, Cconj_conj. pose proof (meq_ent _ _ i l q_herm Hi Hl) as E. cbn [mher ent] in E. rewrite <- E. ring.
    - intros H. assert (Z : Q *m (A0 *m P0 *m mher A0) ==m Mat m m (fun _ _ => RtoC 0)).
      { split; [reflexivity|]. split; [exact H1|]. intros i j Hi Hj. cbn [ent]. rewrite mmul_ent_mvec.
        rewrite (mvec_ext Q _ (fun l => csum (nc A0) (fun c => ent (P0 *m mher A0) c j * ent A0 l c)) i).
        - rewrite (mvec_sum Q (nc A0) (fun c => ent (P0 *m mher A0) c j) (fun c l => ent A0 l c) i). apply csum_0. intros c Hc. change (fun l => ent A0 l c) with (col A0 c). rewrite (proj1 (q_span _) (H c Hc) i Hi). ring.
        - intros l Hl. rewrite (meq_ent _ _ l j (mmul_assoc A0 P0 (mher A0))); [|cbn [mmul nr]; rewrite H1; exact Hl | cbn [mmul mher nc]; rewrite H1; cbn [mmul mher nc] in Hj; rewrite H1 in Hj; exact Hj]. cbn [mmul ent]. apply csum_ext. intros. ring. }
      rewrite (mtrace_eq (Q *m (A0 *m P0 *m mher A0)) _ (eq_sym H1) Z). unfold mtrace. cbn [nr ent]. rewrite csum_0 by reflexivity. reflexivity.
  Qed.
  (** trace of the projector *)
  Lemma p_trace : inj B -> mtrace P = RtoC (INR (nc B)) .
  Proof.
    intros HI. destruct (op_range _ _ OP) as (X & X1 & X2 & EX). pose proof (op_shape _ _ OP) as (S1 & S2). rewrite (mtrace_eq P (B *m X)) by (congruence || exact EX). rewrite mtrace_mmul_comm by congruence.
    assert (XB : X *m B ==m mid (nc B)).
    { apply (inj_cancel B); [cbn [mmul nr]; congruence | reflexivity | reflexivity | exact HI|]. etransitivity; [symmetry; apply mmul_assoc|]. etransitivity; [apply mmul_eq_l; symmetry; exact EX|]. etransitivity; [apply (op_fix _ _ OP)|]. symmetry. apply mmul_id_r. reflexivity. }
    rewrite (mtrace_eq (X *m B) _ X1 XB). unfold mtrace. cbn [mid nr ent]. rewrite (csum_ext _ _ (fun _ => RtoC 1)) by (intros i _; now rewrite Nat.eqb_refl). rewrite csum_const; ring.
  Qed.
  Lemma q_trace_val : inj B -> mtrace Q = RtoC (INR m - INR (nc B)).
  Proof.
    intros HI. pose proof (p_trace HI) as TP. pose proof (op_shape _ _ OP) as (S1 & S2). unfold mtrace in *. rewrite S1 in TP. cbn [Q msub mid nr ent]. fold m in TP. rewrite RtoC_minus, <- TP. rewrite csum_minus. f_equal.
    rewrite (csum_ext _ _ (fun _ => RtoC 1)) by (intros i _; now rewrite Nat.eqb_refl). rewrite csum_const; ring.
  Qed.
End Proj.
