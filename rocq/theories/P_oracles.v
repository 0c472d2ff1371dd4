(** Reference routines that meet the contracts of numpy.linalg.eigh, slogdet and scipy.linalg.sqrtm for matrices of every order. *)
From Coq Require Import Sorting.Sorted.
From Verif Require Import Base_Np Base_Lin M_utils S_subspace S_ml S_signals P_spectral P_ml6 P_ml7.
Open Scope C_scope.

Lemma all_dec n (P : nat -> Prop) : (forall i, {P i} + {~ P i}) -> {forall i, (i < n)%nat -> P i} + {~ forall i, (i < n)%nat -> P i}.
Proof.
  intros D. induction n as [|n [H|H]]; [left; lia | | right; intros G; apply H; intros i Hi; apply G; lia].
  destruct (D n) as [Y|N]; [left; intros i Hi; destruct (Nat.eq_dec i n) as [->|]; [exact Y | apply H; lia] | right; intros G; apply N, G; lia].
Qed.
Lemma herm_dec A : {hermitian A} + {~ hermitian A}.
Proof.
  unfold hermitian. destruct (Nat.eq_dec (nr A) (nc A)) as [E|N]; [|right; tauto].
  destruct (all_dec (nr A) (fun i => forall j, (j < nr A)%nat -> ent A i j = Cconj (ent A j i)) (fun i => all_dec (nr A) _ (fun j => C_eq_dec (ent A i j) (Cconj (ent A j i))))) as [H|H];
  [left; split; [exact E | intros i j Hi Hj; exact (H i Hi j Hj)] | right; intros (_ & G); apply H; intros i Hi j Hj; exact (G i j Hi Hj)].
Qed.
Definition eigh_ref (A : cmat) : res (list R * cmat) :=
  match herm_dec A with
  | left H => Ok (projT1 (spectral A H), proj1_sig (projT2 (spectral A H)))
  | right _ => Raise ValueError
  end.
Lemma eigh_ref_ok A : hermitian A -> exists w E, eigh_ref A = Ok (w, E) /\ eigh_ok A w E.
Proof. intros H. unfold eigh_ref. destruct (herm_dec A) as [H'|N]; [|contradiction]. destruct (spectral A H') as (w & E & HE). exists w, E. split; [reflexivity | exact HE]. Qed.
Lemma eigh_ref_contract n : eigh_contract n eigh_ref.
Proof. intros A H _. exact (eigh_ref_ok A H). Qed.

Definition sqrtm_ref (A : cmat) : res cmat :=
  let! (w, E) := eigh_ref A in Ok (E *m mdiag (nr A) (fun i => RtoC (sqrt (nth i w 0%R))) *m mher E).
Lemma psd_eig_nonneg A w E i : psd A -> eigh_ok A w E -> (i < nr A)%nat -> (0 <= nth i w 0)%R.
Proof.
  intros (HH & HP) HE Hi. pose proof HH as (Hs & _). specialize (HP (col E i)). rewrite (qform_vdot A _ Hs) in HP. rewrite (vdot_ext _ _ _ (col E i) (fun a => RtoC (nth i w 0%R) * col E i a) (fun _ _ => eq_refl) (fun a Ha => eigh_vec A w E i HE Hi a Ha)), vdot_scal, (eigh_orth A w E i i HE Hi Hi), Nat.eqb_refl in HP.
  rewrite <- RtoC_mult in HP. change (Re (RtoC (nth i w 0%R * 1))) with (nth i w 0 * 1)%R in HP. lra.
Qed.
Ltac dims := cbn [mmul mher mdiag mid mscal madd msub nr nc] in *; lia.
Lemma sqrtm_ref_ok : sqrtm_ok sqrtm_ref.
Proof.
  intros A HP. pose proof HP as (HH & _). pose proof HH as (Hs & _). destruct (eigh_ref_ok A HH) as (w & E & Er & HE). pose proof HE as (_ & E1 & E2 & LW & _ & EU & EV). remember (nr A) as n eqn:En.
  set (Dg := mdiag n (fun i => RtoC (sqrt (nth i w 0%R)))). assert (DD : mher Dg ==m Dg).
  { split; [reflexivity|]. split; [reflexivity|]. cbn [Dg mdiag mher nr nc ent]. intros i j Hi Hj. destruct (Nat.eqb_spec j i) as [->|N]; [rewrite Nat.eqb_refl; apply Cconj_RtoC|]. destruct (Nat.eqb_spec i j); [congruence | apply Cconj_0]. }
  exists (E *m Dg *m mher E). unfold sqrtm_ref. rewrite Er. cbn [bind]. rewrite <- En. split; [reflexivity|]. split; [|split].
  - apply hermitian_mher. etransitivity; [apply mher_mmul; unfold Dg; dims|]. etransitivity; [apply mmul_eq_l, mher_mher|]. etransitivity; [apply mmul_eq_r; [unfold Dg; dims | apply mher_mmul; unfold Dg; dims]|].
    etransitivity; [symmetry; apply mmul_assoc|]. apply mmul_eq_l. apply mmul_eq_r; [unfold Dg; dims | exact DD].
  - cbn [mmul nr]. rewrite E1. reflexivity.
  - assert (EH : mher E *m E ==m mid n) by exact EU.
    assert (SQ : Dg *m Dg ==m mdiag n (fun i => RtoC (nth i w 0%R))).
    { etransitivity; [apply mmul_diag_l; reflexivity|]. split; [reflexivity|]. split; [reflexivity|]. cbn [Dg mdiag nr nc ent]. intros i j Hi Hj. destruct (Nat.eqb_spec i j) as [->|]; [|ring]. rewrite <- RtoC_mult, sqrt_sqrt; [reflexivity|]. apply (psd_eig_nonneg A w E j HP HE). lia. }
    etransitivity; [apply mmul_assoc|]. etransitivity; [apply mmul_eq_r; [unfold Dg; dims|]; etransitivity; [symmetry; apply mmul_assoc|]; apply mmul_eq_l; etransitivity; [symmetry; apply mmul_assoc|]; etransitivity; [apply mmul_eq_l; exact EH|]; apply mmul_id_l; reflexivity|].
    etransitivity; [symmetry; apply mmul_assoc|]. etransitivity; [apply mmul_eq_l; etransitivity; [apply mmul_assoc|]; apply mmul_eq_r; [unfold Dg; dims | exact SQ]|].
    etransitivity; [apply mmul_eq_l; symmetry; exact EV|]. etransitivity; [apply mmul_assoc|]. etransitivity; [apply mmul_eq_r; [rewrite <- Hs; cbn [mmul nr]; congruence | exact (eigh_right A w E HE)]|]. apply mmul_id_r. congruence.
Qed.

Definition slogdet_ref (A : cmat) : res (C * option R) :=
  let! (w, _) := eigh_ref A in Ok (RtoC 1, Some (logdet w (nr A))).
Lemma slogdet_ref_ok n : slogdet_ok n slogdet_ref.
Proof.
  intros H w E Hn HH HE HW. destruct (eigh_ref_ok H HH) as (w' & E' & Er & HE'). unfold slogdet_ref. rewrite Er. cbn [bind]. do 3 f_equal. apply (logdet_unique H w' E' w E); [|exact HE' | exact HE].
  split; [exact HH|]. intros x (i & Hi & Ni). rewrite (qform_eig H w E x HH HE).
  assert (NN : forall j, (j < nr H)%nat -> (0 <= nth j w 0 * Cnorm2 (vdot (nr H) (col E j) x))%R) by (intros j Hj; apply Rmult_le_pos; [left; apply HW; exact Hj | apply Cnorm2_nonneg]).
  destruct (nonzero_dec (nr H) (fun j => vdot (nr H) (col E j) x)) as [Z|(j & Hj & Nj)].
  - exfalso. apply Ni. rewrite (eigh_expand H w E x i HE Hi). apply csum_0. intros j Hj. rewrite Z by exact Hj. ring.
  - eapply Rlt_le_trans; [|exact (rsum_ge _ _ j Hj NN)]. cbv beta. apply Rmult_lt_0_compat; [apply HW; exact Hj | apply Cnorm2_pos; exact Nj].
Qed.
Lemma eigh_nonzero A w E i : eigh_ok A w E -> (i < nr A)%nat -> (exists j, (j < nr A)%nat /\ col E i j <> RtoC 0) /\ forall q, (q < nr A)%nat -> mvec A (col E i) q = RtoC (nth i w 0%R) * col E i q.
Proof.
  intros HE Hi. split; [|intros q Hq; exact (eigh_vec A w E i HE Hi q Hq)]. destruct (nonzero_dec (nr A) (col E i)) as [Z|X]; [|exact X]. exfalso.
  pose proof (eigh_orth A w E i i HE Hi Hi) as O. rewrite Nat.eqb_refl in O. unfold vdot in O. rewrite csum_0 in O by (intros j Hj; rewrite Z by exact Hj; ring). injection O as O. lra.
Qed.
Lemma eigh_coef A w E x i : hermitian A -> eigh_ok A w E -> (i < nr A)%nat -> vdot (nr A) (col E i) (mvec A x) = RtoC (nth i w 0%R) * vdot (nr A) (col E i) x.
Proof.
  intros HA HE Hi. rewrite vdot_mvec_her. assert (NC : nc A = nr A) by (symmetry; apply HA). rewrite NC. unfold vdot. rewrite <- csum_scal. apply csum_ext. intros q Hq.
  rewrite (mvec_eq (mher A) A); [|apply hermitian_mher; exact HA | cbn [mher nr]; lia]. rewrite (eigh_vec A w E i HE Hi q Hq). unfold col. unfold Cconj, RtoC, Cmult. apply injective_projections; cbn [fst snd]; ring.
Qed.
(** a slogdet for every positive semidefinite matrix: sign 0 if an eigenvalue is zero *)
Definition slogdet_ref0 (A : cmat) : res (C * option R) :=
  let! (w, _) := eigh_ref A in if existsb (fun i => Reqb (nth i w 0%R) 0) (seq 0 (nr A)) then Ok (RtoC 0, None) else Ok (RtoC 1, Some (logdet w (nr A))).
Lemma singular_zero_eig A w E : hermitian A -> eigh_ok A w E -> (singular (nr A) A <-> exists i, (i < nr A)%nat /\ nth i w 0%R = 0%R).
Proof.
  intros HA HE. split.
  - intros (x & (j & Hj & Nj) & Z). destruct (nonzero_dec (nr A) (fun i => vdot (nr A) (col E i) x)) as [Z'|(i & Hi & Ni)].
    + exfalso. apply Nj. rewrite (eigh_expand A w E x j HE Hj). apply csum_0. intros i Hi. rewrite Z' by exact Hi. ring.
    + exists i. split; [exact Hi|]. assert (T : RtoC (nth i w 0%R) * vdot (nr A) (col E i) x = RtoC 0).
      { rewrite <- (eigh_coef A w E x i HA HE Hi). unfold vdot. apply csum_0. intros q Hq. rewrite Z by exact Hq. ring. }
      destruct (Req_EM_T (nth i w 0%R) 0) as [Q|Q]; [exact Q|]. exfalso. exact (Cmult_neq_0 _ _ (RtoC_neq_0 _ Q) Ni T).
  - intros (i & Hi & Z). destruct (eigh_nonzero A w E i HE Hi) as (NZ & EV). exists (col E i). split; [exact NZ|]. intros q Hq. rewrite EV by exact Hq. rewrite Z. ring.
Qed.
Lemma slogdet_ref0_ok n : slogdet_ok n slogdet_ref0 /\ slogdet_zero n slogdet_ref0.
Proof.
  split.
  - intros H w E Hn HH HE HW. pose proof (slogdet_ref_ok n H w E Hn HH HE HW) as R0. unfold slogdet_ref in R0. unfold slogdet_ref0. destruct (eigh_ref_ok H HH) as (w' & E' & Er & HE'). rewrite Er in R0 |- *. cbn [bind] in R0 |- *.
    replace (existsb _ _) with false; [exact R0|]. symmetry. apply Bool.not_true_is_false. intros X. apply existsb_exists in X as (i & Hi & X). apply in_seq in Hi. unfold Reqb in X. destruct (Req_EM_T (nth i w' 0%R) 0) as [Z|]; [|discriminate].
    assert (SG : singular (nr H) H) by (apply (singular_zero_eig H w' E' HH HE'); exists i; split; [lia | exact Z]). destruct (proj1 (singular_zero_eig H w E HH HE) SG) as (q & Hq & Zq). pose proof (HW q Hq). lra.
  - intros H Hn HH SG. unfold slogdet_ref0. destruct (eigh_ref_ok H HH) as (w' & E' & Er & HE'). rewrite Er. cbn [bind]. rewrite <- Hn in SG. destruct (proj1 (singular_zero_eig H w' E' HH HE') SG) as (i & Hi & Z).
    replace (existsb _ _) with true; [eexists; reflexivity|]. symmetry. apply existsb_exists. exists i. split; [apply in_seq; lia|]. unfold Reqb. destruct (Req_EM_T (nth i w' 0%R) 0); [reflexivity | contradiction].
Qed.
Print Assumptions eigh_ref_contract.
Print Assumptions sqrtm_ref_ok.
Print Assumptions slogdet_ref_ok.
