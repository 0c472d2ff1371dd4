(** AML: tr(H^-1 R) = m and the lower bound of the log-determinant; the value at the true directions. *)
From Coq Require Import Sorting.Sorted.
From Verif Require Import Base_Np Base_Lin M_utils M_core M_ml S_utils S_subspace S_ml P_utils P_subspace P_subspace2 P_subspace3 P_core2 P_perf2 P_perf3 P_perf5 P_ml3 P_ml4 P_ml5.
Open Scope C_scope.

Lemma mtrace_mid n : mtrace (mid n) = RtoC (INR n).
Proof. unfold mtrace. cbn [mid nr ent]. rewrite (csum_ext _ _ (fun _ => RtoC 1)) by (intros i _; now rewrite Nat.eqb_refl). rewrite csum_const. ring. Qed.
Lemma eigh_pos X w E : pd X -> eigh_ok X w E -> forall i, (i < nr X)%nat -> (0 < nth i w 0)%R.
Proof.
  intros HP HE i Hi. pose proof (proj2 HP (col E i)) as V. assert (QV : qform X (col E i) = RtoC (nth i w 0%R)).
  { rewrite <- bform_qform, bform_vdot. rewrite (vdot_ext _ _ (col E i) _ (fun r => RtoC (nth i w 0%R) * col E i r)); [|reflexivity | intros r Hr; rewrite (eigh_vec X w E i HE Hi r Hr); reflexivity]. rewrite vdot_scal, (eigh_orth X w E i i HE Hi Hi), Nat.eqb_refl. ring. }
  rewrite QV in V. apply V. destruct (nonzero_dec (nr X) (col E i)) as [Z|N]; [|exact N]. exfalso. pose proof (eigh_orth X w E i i HE Hi Hi) as O. rewrite Nat.eqb_refl in O. rewrite vdot_self in O. injection O as O. unfold vnorm2 in O. rewrite rsum_0 in O; [lra|]. intros r Hr. rewrite (Z r Hr). unfold Cnorm2. cbn. ring.
Qed.
(** the inverse of a positive definite matrix from its eigenvectors *)
Definition einv (w : list R) (E : cmat) (n : nat) : cmat := E *m mdiag n (fun i => RtoC (/ nth i w 0)%R) *m mher E.
Lemma einv_right X w E : eigh_ok X w E -> (forall i, (i < nr X)%nat -> nth i w 0%R <> 0%R) -> X *m einv w E (nr X) ==m mid (nr X).
Proof.
  intros HE HN. pose proof HE as (S0 & E1 & E2 & L & _ & U & V). unfold einv. etransitivity; [symmetry; apply mmul_assoc|]. etransitivity; [apply mmul_eq_l; symmetry; apply mmul_assoc|]. etransitivity; [apply mmul_eq_l, mmul_eq_l; exact V|].
  etransitivity; [apply mmul_eq_l, mmul_assoc|].
  assert (DD : mdiag (nr X) (fun i => RtoC (nth i w 0%R)) *m mdiag (nr X) (fun i => RtoC (/ nth i w 0)%R) ==m mid (nr X)).
  { etransitivity; [apply mmul_diag_l; reflexivity|]. split; [reflexivity|]. split; [reflexivity|]. intros i j Hi Hj. cbn [mdiag mid ent nr nc] in *. destruct (Nat.eqb_spec i j) as [->|]; [|ring]. rewrite <- RtoC_mult. rewrite Rinv_r by (now apply HN). reflexivity. }
  etransitivity; [apply mmul_eq_l, mmul_eq_r; [cbn [mmul mdiag nr]; congruence | exact DD]|]. etransitivity; [apply mmul_eq_l, mmul_id_r; congruence|]. apply (eigh_right X w E HE).
Qed.
Lemma einv_trace w E n S : nr E = n -> nc E = n -> nr S = n -> nc S = n ->
  mtrace (einv w E n *m S) = csum n (fun i => RtoC (/ nth i w 0)%R * qform S (col E i)).
Proof.
  intros E1 E2 S1 S2. unfold einv. rewrite (mtrace_eq _ (E *m (mdiag n (fun i => RtoC (/ nth i w 0)%R) *m (mher E *m S)))).
  - rewrite mtrace_mmul_comm by (cbn [mmul mdiag mher nr nc]; congruence). rewrite (mtrace_eq _ (mdiag n (fun i => RtoC (/ nth i w 0)%R) *m (mher E *m S *m E))).
    + unfold mtrace. cbn [mmul mdiag nr]. apply csum_ext. intros i Hi.
      rewrite (meq_ent _ _ i i (mmul_diag_l n (fun i => RtoC (/ nth i w 0)%R) (mher E *m S *m E) ltac:(cbn [mmul mher nr]; congruence)) Hi ltac:(cbn [mmul nc]; lia)).
      cbn [ent nr nc]. f_equal. apply congr_diag; congruence || lia.
    + cbn [mmul mdiag nr nc]. congruence.
    + apply mmul_assoc.
  - cbn [mmul mher nr nc]. congruence.
  - etransitivity; [apply mmul_assoc|]. etransitivity; [apply mmul_assoc|]. reflexivity.
Qed.

Section Bound.
  Variables (B P Rm : cmat) (m k : nat).
  Hypothesis OP : orth_projector_onto B P.
  Hypothesis HB : nr B = m.
  Hypothesis R1' : nr Rm = m.
  Hypothesis Hkm : (k < m)%nat.
  Hypothesis HPD : pd Rm.
  Hypothesis HI : inj B.
  Hypothesis Hk : (nc B = k)%nat.
  Let Q := mid m -m P.
  Let c := (Re (mtrace (Q *m Rm)) / INR (m - k))%R.
  Let Cc := P *m Rm *m P +m mscal (RtoC c) Q.
  Variables (mu : list R) (F : cmat).
  Hypothesis HE : eigh_ok Cc mu F.
  Let HR : hermitian Rm := proj1 HPD.
  Let D1 : nr Cc = m := proj1 (conc_dims B P Rm m k OP HB).
  Let D2 : nc Cc = m := proj2 (conc_dims B P Rm m k OP HB).
  Let CPD : pd Cc := conc_pd B P Rm m k OP HB HR R1' Hkm HPD HI Hk.
  Let Hinv := einv mu F m.
  Lemma b_mu i : (i < m)%nat -> (0 < nth i mu 0)%R.
  Proof. intros Hi. apply (eigh_pos Cc mu F CPD HE). now rewrite D1. Qed.
  Lemma b_F : nr F = m /\ nc F = m. Proof. pose proof HE as (_ & E1 & E2 & _). rewrite D1 in E1, E2. auto. Qed.
  Lemma b_dims : nr Hinv = m /\ nc Hinv = m. Proof. destruct b_F. cbn [Hinv einv mmul mher nr nc]. auto. Qed.
  Lemma b_right : Cc *m Hinv ==m mid m.
  Proof. assert (N : forall i, (i < nr Cc)%nat -> nth i mu 0%R <> 0%R) by (rewrite D1; intros i Hi; pose proof (b_mu i Hi); lra). pose proof (einv_right Cc mu F HE N) as X. rewrite D1 in X. exact X. Qed.
  Lemma b_left : Hinv *m Cc ==m mid m.
  Proof. destruct b_dims. apply (left_inv_right Hinv Cc m); auto. exact b_right. Qed.
  Lemma b_Q : Hinv *m Q ==m mscal (RtoC (/ c)) Q.
  Proof.
    destruct b_dims as (I1 & I2). pose proof (c_pos B P Rm m k OP HB R1' Hkm HPD HI Hk) as Cp. fold Q in Cp. fold c in Cp.
    assert (A : mscal (RtoC c) (Hinv *m Q) ==m Q).
    { etransitivity; [symmetry; apply mscal_mmul_r|]. etransitivity; [apply mmul_eq_r; [cbn [mscal Q msub mid nr]; congruence|]; symmetry; apply (conc_Q B P Rm m k OP HB HR R1' Hkm)|]. etransitivity; [symmetry; apply mmul_assoc|]. etransitivity; [apply mmul_eq_l; exact b_left|]. apply mmul_id_l. reflexivity. }
    split; [exact I1|]. split; [reflexivity|]. intros i j Hi Hj. pose proof (meq_ent _ _ i j A Hi Hj) as X. cbn [mscal ent] in X |- *. rewrite <- X. rewrite Cmult_assoc, <- RtoC_mult. rewrite Rinv_l by lra. ring.
  Qed.
  Lemma b_split X : nr X = m -> Hinv *m X ==m Hinv *m P *m X +m Hinv *m Q *m X.
  Proof.
    intros HX. destruct b_dims as (I1 & I2). pose proof (P1 B P m OP HB) as X1. pose proof (P2 B P m OP HB) as X2. symmetry. etransitivity; [symmetry; apply mmul_add_l; cbn [mmul Q msub mid nr nc]; congruence|]. apply mmul_eq_l.
    etransitivity; [symmetry; apply mmul_add_r|]. assert (PQI : P +m Q ==m mid m) by (split; [exact X1|]; split; [exact X2|]; intros i j _ _; cbn [madd Q msub mid ent]; ring).
    etransitivity; [apply mmul_eq_r; [cbn [madd nr]; congruence | exact PQI]|]. apply mmul_id_r. congruence.
  Qed.
  (** tr(H^-1 R) = m *)
  Lemma b_P : Hinv *m P ==m P *m Hinv.
  Proof.
    (* both sides equal Hinv - c^-1 Q *)
    destruct b_dims as (I1 & I2). pose proof (P1 B P m OP HB) as X1. pose proof (P2 B P m OP HB) as X2.
    assert (CC : Cc *m P ==m P *m Cc).
    { etransitivity; [apply (conc_P B P Rm m k OP HB HR R1' Hkm)|]. assert (S : mher (Cc *m P) ==m mher (P *m Rm *m P)).
      { pose proof (conc_P B P Rm m k OP HB HR R1' Hkm) as Z. fold Q in Z. fold c in Z. fold Cc in Z. split; [cbn [mher nr]; apply (meq_nc _ _ Z)|]. split; [cbn [mher nc]; apply (meq_nr _ _ Z)|]. intros i j Hi Hj. cbn [mher ent nr nc] in *. f_equal. now apply (meq_ent _ _ j i Z). }
      assert (S1 : mher (P *m Rm *m P) ==m P *m Rm *m P).
      { apply hermitian_mher. apply (hermitian_eq (mher P *m Rm *m P)); [apply mmul_eq_l, mmul_eq_l; apply (op_herm _ _ OP) | apply hermitian_congr; congruence || exact HR]. }
      etransitivity; [symmetry; exact S1|]. etransitivity; [symmetry; exact S|]. etransitivity; [apply mher_mmul; congruence|].
      apply mmul_eq; [cbn [mher nr nc]; congruence | apply (op_herm _ _ OP) | apply hermitian_mher, CPD]. }
    (* Hinv (Cc P) Hinv = Hinv (P Cc) Hinv *)
    assert (L : Hinv *m (Cc *m P) *m Hinv ==m P *m Hinv).
    { apply mmul_eq_l. etransitivity; [symmetry; apply mmul_assoc|]. etransitivity; [apply mmul_eq_l, b_left|]. apply mmul_id_l. congruence. }
    assert (R' : Hinv *m (P *m Cc) *m Hinv ==m Hinv *m P).
    { etransitivity; [apply mmul_assoc|]. apply mmul_eq_r; [cbn [mmul nr]; congruence|]. etransitivity; [apply mmul_assoc|]. etransitivity; [apply mmul_eq_r; [cbn [mmul nr]; congruence | apply b_right]|]. apply mmul_id_r. congruence. }
    etransitivity; [symmetry; exact R'|]. etransitivity; [|exact L]. apply mmul_eq_l. apply mmul_eq_r; [cbn [mmul nr]; congruence | symmetry; exact CC].
  Qed.
  Lemma b_trace : mtrace (Hinv *m Rm) = RtoC (INR m).
  Proof.
    destruct b_dims as (I1 & I2). pose proof (P1 B P m OP HB) as X1. pose proof (P2 B P m OP HB) as X2. assert (X3 : nc Rm = m) by (rewrite <- R1'; symmetry; apply HR). pose proof (c_pos B P Rm m k OP HB R1' Hkm HPD HI Hk) as Cp. fold Q in Cp. fold c in Cp.
    rewrite (mtrace_eq (Hinv *m Rm) (Hinv *m P *m Rm +m Hinv *m Q *m Rm)) by (cbn [mmul nr nc]; congruence || apply b_split; exact R1'). rewrite mtrace_sum by reflexivity.
    assert (T1 : mtrace (Hinv *m P *m Rm) = RtoC (INR k)).
    { rewrite (mtrace_eq (Hinv *m P *m Rm) (P *m (Hinv *m P *m Rm))).
      - rewrite mtrace_mmul_comm by (cbn [mmul nr nc]; congruence). rewrite (mtrace_eq _ (Hinv *m Cc *m P)).
        + rewrite (mtrace_eq (Hinv *m Cc *m P) P); [apply (P_trace B P k OP HI Hk) | cbn [mmul nr nc]; congruence |]. etransitivity; [apply mmul_eq_l, b_left|]. apply mmul_id_l. congruence.
        + cbn [mmul nr nc]. congruence.
        + etransitivity; [apply mmul_assoc|]. etransitivity; [apply mmul_assoc|]. etransitivity; [|symmetry; apply mmul_assoc]. apply mmul_eq_r; [cbn [mmul nr]; congruence|]. etransitivity; [symmetry; apply mmul_assoc|]. symmetry. apply (conc_P B P Rm m k OP HB HR R1' Hkm).
      - cbn [mmul nr nc]. congruence.
      - etransitivity; [|apply mmul_assoc]. apply mmul_eq_l. etransitivity; [apply b_P|]. etransitivity; [apply mmul_eq_l; symmetry; apply (op_idem _ _ OP)|]. etransitivity; [apply mmul_assoc|]. apply mmul_eq_r; [cbn [mmul nr]; congruence | symmetry; apply b_P]. }
    assert (T2 : mtrace (Hinv *m Q *m Rm) = RtoC (INR (m - k))).
    { rewrite (mtrace_eq (Hinv *m Q *m Rm) (mscal (RtoC (/ c)) (Q *m Rm))); [|cbn [mmul nr nc]; congruence | etransitivity; [apply mmul_eq_l, b_Q | apply mscal_mmul_l]]. rewrite mtrace_mscal.
      assert (TR : mtrace (Q *m Rm) = RtoC (Re (mtrace (Q *m Rm)))) by (apply injective_projections; [reflexivity | apply (trace_real Q Rm (Qh B P m OP HB) HR (eq_sym R1'))]). rewrite TR, <- RtoC_mult. f_equal.
      assert (N0 : INR (m - k) <> 0%R) by (apply not_0_INR; lia). assert (EC : Re (mtrace (Q *m Rm)) = (c * INR (m - k))%R) by (unfold c; field; exact N0). rewrite EC. field. lra. }
    rewrite T1, T2, <- RtoC_plus, <- plus_INR. do 2 f_equal. lia.
  Qed.
  Lemma b_sum : rsum m (fun i => Re (qform Rm (col F i)) / nth i mu 0)%R = INR m.
  Proof.
    destruct b_F as (F1 & F2). assert (X3 : nc Rm = m) by (rewrite <- R1'; symmetry; apply HR). pose proof b_trace as T. unfold Hinv in T. rewrite einv_trace in T by assumption. apply (f_equal Re) in T. rewrite csum_Re in T. cbn in T. rewrite <- T. apply rsum_ext. intros i Hi. unfold Rdiv, Re, RtoC, Cmult; cbn [fst snd]. ring.
  Qed.
End Bound.

Lemma ln_le_sub x : (0 < x)%R -> (ln x <= x - 1)%R.
Proof. intros H. pose proof (exp_ineq1_le (ln x)) as E. rewrite exp_ln in E by exact H. lra. Qed.
(** eigenvalue sums: expanding a quadratic form in the eigenbasis *)
Lemma qform_eig X w E x : hermitian X -> eigh_ok X w E -> Re (qform X x) = rsum (nr X) (fun j => nth j w 0 * Cnorm2 (vdot (nr X) (col E j) x))%R.
Proof.
  intros HX HE. set (n := nr X). assert (EX : forall i, (i < n)%nat -> mvec X x i = csum n (fun j => vdot n (col E j) x * RtoC (nth j w 0%R) * ent E i j)).
  { intros i Hi. rewrite (mvec_ext X x (fun r => csum n (fun j => vdot n (col E j) x * ent E r j)) i) by (intros r Hr; apply (eigh_expand X w E x r HE); destruct HX as (S0 & _); rewrite S0; exact Hr).
    rewrite (mvec_sum X n (fun j => vdot n (col E j) x) (fun j r => ent E r j) i). apply csum_ext. intros j Hj. change (fun r => ent E r j) with (col E j). rewrite (eigh_vec X w E j HE Hj i Hi). ring. }
  rewrite <- bform_qform, bform_vdot. fold n. rewrite (vdot_ext n x x _ (fun i => csum n (fun j => (vdot n (col E j) x * RtoC (nth j w 0%R)) * col E j i))) by (reflexivity || exact EX).
  rewrite (vdot_sum n n (fun j => vdot n (col E j) x * RtoC (nth j w 0%R)) (fun j => col E j) x). rewrite csum_Re. apply rsum_ext. intros j Hj. rewrite <- (vdot_conj n (col E j) x).
  replace (vdot n (col E j) x * RtoC (nth j w 0%R) * Cconj (vdot n (col E j) x)) with (RtoC (nth j w 0%R) * (vdot n (col E j) x * Cconj (vdot n (col E j) x))) by ring. rewrite Cmult_conj_norm2, <- RtoC_mult. reflexivity.
Qed.
Lemma parseval X w E x : hermitian X -> eigh_ok X w E -> rsum (nr X) (fun j => Cnorm2 (vdot (nr X) (col E j) x)) = vnorm2 (nr X) x.
Proof.
  intros HX HE. set (n := nr X). assert (V : vdot n x x = csum n (fun j => vdot n (col E j) x * vdot n x (col E j))).
  { rewrite (vdot_ext n x x x (fun i => csum n (fun j => vdot n (col E j) x * col E j i))) at 1 by (reflexivity || (intros i Hi; apply (eigh_expand X w E x i HE Hi))). apply (vdot_sum n n (fun j => vdot n (col E j) x) (fun j => col E j) x). }
  rewrite vdot_self in V. apply (f_equal Re) in V. rewrite csum_Re in V. change (Re (RtoC (vnorm2 n x))) with (vnorm2 n x) in V. rewrite V. apply rsum_ext. intros j Hj. rewrite <- (vdot_conj n (col E j) x). now rewrite Cmult_conj_norm2.
Qed.
(** for two orthonormal bases: sum of ln of the diagonal of R in one basis is at least the sum of ln of its eigenvalues *)
Lemma logdet_diag Rm w E F : pd Rm -> eigh_ok Rm w E -> (forall p q, (p < nr Rm)%nat -> (q < nr Rm)%nat -> vdot (nr Rm) (col F p) (col F q) = if Nat.eqb p q then RtoC 1 else RtoC 0) ->
  (forall x, rsum (nr Rm) (fun j => Cnorm2 (vdot (nr Rm) (col F j) x)) = vnorm2 (nr Rm) x) ->
  (rsum (nr Rm) (fun j => ln (nth j w 0)) <= rsum (nr Rm) (fun i => ln (Re (qform Rm (col F i)))))%R.
Proof.
  intros HPD HE HF PF. set (m := nr Rm) in *. set (S := fun i j => Cnorm2 (vdot m (col E j) (col F i))). set (r := fun i => Re (qform Rm (col F i))).
  assert (row : forall i, (i < m)%nat -> rsum m (S i) = 1%R).
  { intros i Hi. unfold S. pose proof (parseval Rm w E (col F i) (proj1 HPD) HE) as PV. fold m in PV. rewrite PV. assert (O := HF i i Hi Hi). rewrite Nat.eqb_refl, vdot_self in O. now injection O. }
  assert (colm : forall j, (j < m)%nat -> rsum m (fun i => S i j) = 1%R).
  { intros j Hj. rewrite (rsum_ext _ _ (fun i => Cnorm2 (vdot m (col F i) (col E j)))) by (intros i Hi; unfold S; rewrite <- vdot_conj; apply Cnorm2_conj). rewrite PF. pose proof (eigh_orth Rm w E j j HE Hj Hj) as O. rewrite Nat.eqb_refl, vdot_self in O. now injection O. }
  assert (rv : forall i, (i < m)%nat -> r i = rsum m (fun j => S i j * nth j w 0)%R).
  { intros i Hi. unfold r. rewrite (qform_eig Rm w E _ (proj1 HPD) HE). fold m. apply rsum_ext. intros j Hj. unfold S. ring. }
  assert (wp : forall j, (j < m)%nat -> (0 < nth j w 0)%R) by (intros j Hj; exact (eigh_pos Rm w E HPD HE j Hj)).
  assert (rp : forall i, (i < m)%nat -> (0 < r i)%R).
  { intros i Hi. apply (proj2 HPD). destruct (nonzero_dec m (col F i)) as [Z|N]; [|exact N]. exfalso. assert (O := HF i i Hi Hi). rewrite Nat.eqb_refl, vdot_self in O. injection O as O. unfold vnorm2 in O. rewrite rsum_0 in O; [lra|]. intros q Hq. rewrite (Z q Hq). unfold Cnorm2. cbn. ring. }
  assert (Sn : forall i j, (0 <= S i j)%R) by (intros; unfold S; apply Cnorm2_nonneg).
  apply Rle_trans with (rsum m (fun i => rsum m (fun j => S i j * ln (nth j w 0)))%R).
  - right. rewrite rsum_swap. apply rsum_ext. intros j Hj. rewrite (rsum_ext _ _ (fun i => ln (nth j w 0) * S i j)%R) by (intros; ring). rewrite rsum_scal, colm by exact Hj. ring.
  - apply rsum_le. intros i Hi. fold (r i). apply Rle_trans with (rsum m (fun j => S i j * (ln (r i) + (nth j w 0 / r i - 1)))%R).
    + apply rsum_le. intros j Hj. apply Rmult_le_compat_l; [apply Sn|]. pose proof (ln_le_sub (nth j w 0 / r i)%R ltac:(apply Rdiv_lt_0_compat; auto)) as L. rewrite Rcomplements.ln_div in L by auto. lra.
    + right. rewrite (rsum_ext _ _ (fun j => (ln (r i) - 1) * S i j + / r i * (S i j * nth j w 0))%R) by (intros; unfold Rdiv; ring). rewrite rsum_plus, !rsum_scal, row, <- rv by exact Hi. pose proof (rp i Hi). field. lra.
Qed.
