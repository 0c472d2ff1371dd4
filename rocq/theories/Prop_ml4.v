(** C79, continued: f_nll_stouc away from positive definite covariances *)
From Verif Require Import Base_Np Base_Lin M_utils M_sources M_array M_designs M_coarray M_heap M_grid M_core M_ml S_utils S_model S_subspace S_perf S_ml P_utils P_model P_subspace P_subspace3 P_eig2 P_gauss P_perf2 P_perf3 P_perf5 Prop_perf3 P_ml3 P_ml4 P_ml6 P_ml7 P_ml8 P_ml9 P_spectral P_oracles P_courant Prop_ml2 Prop_ml3.
Open Scope C_scope.

(** sign and logarithm of the absolute value of the determinant, from the eigenvalues *)
Fixpoint eig_sign (w : list R) (n : nat) : R := match n with O => 1%R | S q => (eig_sign w q * (if Rlt_dec (nth q w 0%R) 0 then -1 else 1))%R end.
Definition eig_logabs (w : list R) (n : nat) : R := rsum n (fun i => ln (Rabs (nth i w 0%R))).
(** contract of np.linalg.slogdet for Hermitian matrices of order n: a regular matrix, and a singular one (sign 0, logarithm -inf) *)
Definition slogdet_regular (n : nat) (slogdet : cmat -> res (C * option R)) : Prop :=
  forall H w E, nr H = n -> hermitian H -> eigh_ok H w E -> (forall i, (i < n)%nat -> nth i w 0%R <> 0%R) -> slogdet H = Ok (RtoC (eig_sign w n), Some (eig_logabs w n)).
Definition slogdet_singular (n : nat) (slogdet : cmat -> res (C * option R)) : Prop :=
  forall H w E, nr H = n -> hermitian H -> eigh_ok H w E -> (exists i, (i < n)%nat /\ nth i w 0%R = 0%R) -> slogdet H = Ok (RtoC 0, None).

Lemma eig_sign_cases w n : eig_sign w n = 1%R \/ eig_sign w n = (-1)%R.
Proof. induction n as [|n IH]; cbn; [now left|]. destruct (Rlt_dec _ _), IH as [-> | ->]; [right|left|left|right]; ring. Qed.
Lemma eig_sign_pos w n : (forall i, (i < n)%nat -> (0 < nth i w 0)%R) -> eig_sign w n = 1%R.
Proof. induction n as [|n IH]; cbn; intros H; [reflexivity|]. rewrite IH by (intros; apply H; lia). pose proof (H n ltac:(lia)). destruct (Rlt_dec _ _); [lra|ring]. Qed.
Lemma slogdet_regular_ok n slogdet : slogdet_regular n slogdet -> slogdet_ok n slogdet.
Proof.
  intros HS H w E Hn HH HE HP. rewrite Hn in HP. rewrite (HS H w E Hn HH HE) by (intros i Hi; pose proof (HP i Hi); lra). rewrite (eig_sign_pos w n HP), Hn. do 3 f_equal.
  apply rsum_ext. intros i Hi. rewrite Rabs_right; [reflexivity|]. left. apply HP, Hi.
Qed.
(** such a routine exists for every order *)
Definition slogdet_eig (A : cmat) : res (C * option R) :=
  let! (w, _) := eigh_ref A in if existsb (fun i => Reqb (nth i w 0%R) 0) (seq 0 (nr A)) then Ok (RtoC 0, None) else Ok (RtoC (eig_sign w (nr A)), Some (eig_logabs w (nr A))).
Lemma slogdet_eig_ok n : slogdet_regular n slogdet_eig /\ slogdet_singular n slogdet_eig.
Proof.
  split.
  - intros H w E Hn HH HE HW. unfold slogdet_eig. destruct (eigh_ref_ok H HH) as (w' & E' & Er & HE'). rewrite Er. cbn [bind]. rewrite <- (eig_unique H w E w' E' HH HE HE'), Hn.
    replace (existsb _ _) with false; [reflexivity|]. symmetry. apply Bool.not_true_is_false. intros X. apply existsb_exists in X as (i & Hi & X). apply in_seq in Hi. unfold Reqb in X. destruct (Req_EM_T (nth i w 0%R) 0) as [Z|]; [|discriminate]. apply (HW i); [lia|exact Z].
  - intros H w E Hn HH HE (i & Hi & Z). unfold slogdet_eig. destruct (eigh_ref_ok H HH) as (w' & E' & Er & HE'). rewrite Er. cbn [bind]. rewrite <- (eig_unique H w E w' E' HH HE HE').
    replace (existsb _ _) with true; [reflexivity|]. symmetry. apply existsb_exists. exists i. split; [apply in_seq; lia|]. unfold Reqb. destruct (Req_EM_T (nth i w 0%R) 0); [reflexivity|contradiction].
Qed.

Section C79.
  Variables (slogdet : cmat -> res (C * option R)) (solve : cmat -> cmat -> res cmat).
  Variables (Rm A : cmat) (arr : array) (s : sources) (lam : R) (p : powers) (sigma : R) (DA : list cmat).
  Let m := ar_size arr.
  Let S := model_cov A (power_of p) sigma.
  Hypothesis HSr : slogdet_regular m slogdet.
  Hypothesis HSs : slogdet_singular m slogdet.
  Hypothesis HA : steering_matrix arr s lam false "all" true = Ok (Flat A, DA).
  Hypothesis HAm : nr A = m.
  Hypothesis Hp : powers_fit p (nc A).
  Variables (mu : list R) (F : cmat).
  Hypothesis HF : eigh_ok S mu F.
  Lemma nll_open : exists S', S' ==m S /\ hermitian S' /\ eigh_ok S' mu F /\ nr S' = m /\
    f_nll_stouc slogdet solve Rm arr s lam p sigma = (let! (sgn, ld) := slogdet S' in
      match ld with None => Ok None | Some ld => if clt0 sgn || Rltb ld 0 then Ok None else let! Y := solve S' Rm in Ok (Some (RtoC ld + np_trace Y)%C) end).
  Proof.
    pose proof (stouc_cov A (power_of p) sigma) as EQ. rewrite HAm in EQ. fold S in EQ. eexists. split; [exact EQ|].
    split; [eapply hermitian_eq; [symmetry; exact EQ | apply model_cov_herm]|]. split; [apply (eigh_ok_eq S); [symmetry; exact EQ | exact HF]|]. split; [rewrite (meq_nr _ _ EQ); exact HAm|].
    unfold f_nll_stouc. rewrite HA. cbn [bind]. rewrite times_powers_ok by exact Hp. cbn [bind]. rewrite matmul_ok by reflexivity. cbn [bind]. change (nr (_ *m mher A)) with (nr A). rewrite HAm. fold m. rewrite Nat.eqb_refl. cbn [negb]. reflexivity.
  Qed.
  (** a singular covariance, or one with a negative determinant, has likelihood zero: Inf *)
  Theorem C79_not_positive : (exists i, (i < m)%nat /\ nth i mu 0%R = 0%R) \/ ((forall i, (i < m)%nat -> nth i mu 0%R <> 0%R) /\ eig_sign mu m = (-1)%R) ->
    f_nll_stouc slogdet solve Rm arr s lam p sigma = Ok None.
  Proof.
    intros H. destruct nll_open as (S' & _ & HH & HE & N & ->). destruct H as [Z|(NZ & Sg)].
    - rewrite (HSs S' mu F N HH HE Z). reflexivity.
    - rewrite (HSr S' mu F N HH HE NZ), Sg. cbn [bind]. replace (clt0 (RtoC (-1))) with true; [reflexivity|]. unfold clt0, Rltb. cbn [Re Im RtoC fst snd]. destruct (Rlt_dec (-1) 0); [reflexivity|lra].
  Qed.
  (** but an indefinite S with an even number of negative eigenvalues is taken for a covariance matrix *)
  Theorem C79_indefinite_accepted_defect : solve_exact solve -> nr Rm = m -> nc Rm = m ->
    (forall i, (i < m)%nat -> nth i mu 0%R <> 0%R) -> eig_sign mu m = 1%R -> (0 <= eig_logabs mu m)%R ->
    exists Y, nr Y = m /\ nc Y = m /\ S *m Y ==m Rm /\ f_nll_stouc slogdet solve Rm arr s lam p sigma = Ok (Some (RtoC (eig_logabs mu m) + mtrace Y)).
  Proof.
    intros HSo R1 R2 NZ Sg HL. destruct nll_open as (S' & EQ & HH & HE & N & V). assert (N2 : nc S' = m) by (rewrite (meq_nc _ _ EQ); exact HAm).
    destruct (proj2 HSo S' Rm ltac:(congruence) ltac:(congruence)) as (Y & EY).
    { intros x Zx. destruct (Classical_Prop.classic (forall j, (j < nc S')%nat -> x j = RtoC 0)) as [G|G]; [exact G|]. exfalso.
      destruct (Classical_Prop.classic (exists j, (j < nr S')%nat /\ x j <> RtoC 0)) as [G2|G2].
      - destruct (proj1 (singular_zero_eig S' mu F HH HE)) as (i & Hi & Z0); [exists x; split; [exact G2|exact Zx]|]. apply (NZ i); [congruence|exact Z0].
      - apply G. intros j Hj. destruct (P_spectral.C_eq_dec (x j) (RtoC 0)) as [E0|E0]; [exact E0|]. exfalso. apply G2. exists j. split; [congruence|exact E0]. }
    destruct (proj1 HSo _ _ _ EY) as (_ & _ & Y1 & Y2 & HY). exists Y. split; [congruence|]. split; [congruence|]. split; [etransitivity; [apply mmul_eq_l; symmetry; exact EQ | exact HY]|].
    rewrite V, (HSr S' mu F N HH HE NZ), Sg. cbn [bind]. replace (clt0 (RtoC 1)) with false.
    - unfold Rltb. destruct (Rlt_dec _ 0); [lra|]. cbn [orb]. rewrite EY. cbn [bind]. rewrite np_trace_sq by congruence. reflexivity.
    - unfold clt0, Rltb, Reqb. cbn [Re Im RtoC fst snd]. destruct (Rlt_dec 1 0); [lra|]. destruct (Req_EM_T 1 0); [lra | reflexivity].
  Qed.
End C79.
(** two sensors, one source of power 1: noise power -1 makes the determinant negative, -2 makes it zero, -3 makes both eigenvalues negative *)
Example C79_example_indefinite : exists A, steering_matrix ex_arr (FF1 [0%R] "rad") 1 false "all" true = Ok (Flat A, []) /\
  f_nll_stouc slogdet_eig solve0 (mid 2) ex_arr (FF1 [0%R] "rad") 1 (PwScalar 1) (-1) = Ok None /\
  f_nll_stouc slogdet_eig solve0 (mid 2) ex_arr (FF1 [0%R] "rad") 1 (PwScalar 1) (-2) = Ok None /\
  exists y, f_nll_stouc slogdet_eig solve0 (mid 2) ex_arr (FF1 [0%R] "rad") 1 (PwScalar 1) (-3) = Ok (Some y).
Proof.
  destruct ex_steer as (A & HA & EA). exists A. split; [exact HA|]. assert (A1 : nr A = 2%nat) by exact (meq_nr _ _ EA). destruct (slogdet_eig_ok 2) as (OR & OS).
  split; [|split].
  - refine (C79_not_positive slogdet_eig solve0 (mid 2) A ex_arr _ 1 (PwScalar 1) (-1) [] OR OS HA A1 I _ _ (ex_eig A (-1) EA) _). right. split.
    + intros [|[|i]] Hi; cbn in Hi |- *; [lra|lra|lia].
    + cbn. destruct (Rlt_dec (-1) 0); [|lra]. destruct (Rlt_dec (-1 + 2) 0); [lra|]. ring.
  - refine (C79_not_positive slogdet_eig solve0 (mid 2) A ex_arr _ 1 (PwScalar 1) (-2) [] OR OS HA A1 I _ _ (ex_eig A (-2) EA) _). left. exists 1%nat. split; [cbn; lia|]. cbn. ring.
  - destruct (C79_indefinite_accepted_defect slogdet_eig solve0 (mid 2) A ex_arr _ 1 (PwScalar 1) (-3) [] OR HA A1 I _ _ (ex_eig A (-3) EA) solve0_exact eq_refl eq_refl) as (Y & _ & _ & _ & V).
    + intros [|[|i]] Hi; cbn in Hi |- *; [lra|lra|lia].
    + cbn. destruct (Rlt_dec (-3) 0); [|lra]. destruct (Rlt_dec (-3 + 2) 0); [|lra]. ring.
    + unfold eig_logabs. cbn. replace (Rabs (-3)) with 3%R by (rewrite Rabs_left; lra). replace (Rabs (-3 + 2)) with 1%R by (rewrite Rabs_left; lra). rewrite ln_1. rewrite <- ln_1 at 1. pose proof (ln_increasing 1 3 ltac:(lra) ltac:(lra)). lra.
    + eexists. exact V.
Qed.
Print Assumptions C79_not_positive. Print Assumptions C79_indefinite_accepted_defect.
