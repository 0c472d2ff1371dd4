(** C79: the stochastic negative log-likelihood f_nll_stouc *)
From Verif Require Import Base_Np Base_Lin M_utils M_sources M_array M_designs M_coarray M_heap M_grid M_core M_ml S_utils S_model S_subspace S_perf S_ml P_utils P_model P_subspace P_subspace3 P_eig2 P_gauss P_perf2 P_perf3 P_perf5 Prop_perf3 P_ml3 P_ml4 P_ml6 P_ml7 P_ml8 P_ml9 Prop_ml2.
Open Scope C_scope.

Lemma times_powers_ok A p : powers_fit p (nc A) -> times_powers A p = Ok (Mat (nr A) (nc A) (fun i j => ent A i j * RtoC (power_of p j))).
Proof.
  destruct p as [x|[|x [|x' l]]]; cbn [powers_fit times_powers power_of]; try reflexivity.
  - intros [<-|H]; [reflexivity | discriminate].
  - intros [<-|H]; [now rewrite Nat.eqb_refl | discriminate].
Qed.
Section C79.
  Variables (slogdet : cmat -> res (C * option R)) (solve : cmat -> cmat -> res cmat).
  Variables (Rm A : cmat) (arr : array) (s : sources) (lam : R) (p : powers) (sigma : R) (DA : list cmat).
  Let m := ar_size arr.
  Let S := model_cov A (power_of p) sigma.
  Hypothesis HSl : slogdet_ok m slogdet.
  Hypothesis HSo : solve_exact solve.
  Hypothesis HA : steering_matrix arr s lam false "all" true = Ok (Flat A, DA).
  Hypothesis HAm : nr A = m.
  Hypothesis Hp : powers_fit p (nc A).
  Hypothesis HS : pd S.
  Hypothesis R1 : nr Rm = m.
  Variables (mu : list R) (F : cmat).
  Hypothesis HF : eigh_ok S mu F.
  Lemma nll_stouc_eq : exists S', S' ==m S /\
    f_nll_stouc slogdet solve Rm arr s lam p sigma = (if Rltb (logdet mu m) 0 then Ok None else let! Y := solve S' Rm in Ok (Some (RtoC (logdet mu m) + np_trace Y)%C)).
  Proof.
    pose proof (stouc_cov A (power_of p) sigma) as EQ. rewrite HAm in EQ. fold S in EQ. eexists. split; [exact EQ|]. unfold f_nll_stouc. rewrite HA. cbn [bind]. rewrite times_powers_ok by exact Hp. cbn [bind]. rewrite matmul_ok by reflexivity. cbn [bind]. change (nr (_ *m mher A)) with (nr A). rewrite HAm. fold m. rewrite Nat.eqb_refl. cbn [negb].
    set (S' := _ +m _) in *. assert (N : nr S' = m) by (rewrite (meq_nr _ _ EQ); exact HAm). assert (HF' : eigh_ok S' mu F) by (apply (eigh_ok_eq S); [symmetry; exact EQ | exact HF]).
    assert (P' : pd S') by (split; [eapply hermitian_eq; [symmetry; exact EQ | apply HS] | intros x Hx; rewrite (qform_eq _ _ x EQ); apply HS; rewrite <- (meq_nr _ _ EQ); exact Hx]).
    rewrite (HSl S' mu F N (proj1 P') HF' (eigh_pos S' mu F P' HF')). cbn [bind]. rewrite N. replace (clt0 (RtoC 1)) with false; [reflexivity|]. unfold clt0, Rltb, Reqb. cbn [Re Im RtoC fst snd]. destruct (Rlt_dec 1 0); [lra|]. destruct (Req_EM_T 1 0); [lra | reflexivity].
  Qed.
  (** when det S >= 1 the value is log det S + tr(S^-1 R), S = A diag(p) A^H + sigma I *)
  Theorem C79_value : (0 <= logdet mu m)%R -> nc Rm = m ->
    exists Y, nr Y = m /\ nc Y = m /\ S *m Y ==m Rm /\ f_nll_stouc slogdet solve Rm arr s lam p sigma = Ok (Some (RtoC (logdet mu m) + mtrace Y)).
  Proof.
    intros HL R2. destruct nll_stouc_eq as (S' & EQ & V). assert (N : nr S' = m) by (rewrite (meq_nr _ _ EQ); exact HAm). assert (N2 : nc S' = m) by (rewrite (meq_nc _ _ EQ); exact HAm).
    destruct (proj2 HSo S' Rm ltac:(congruence) ltac:(congruence)) as (Y & EY). { apply pd_inj. split; [eapply hermitian_eq; [symmetry; exact EQ | apply HS] | intros x Hx; rewrite (qform_eq _ _ x EQ); apply HS; rewrite <- (meq_nr _ _ EQ); exact Hx]. }
    destruct (proj1 HSo _ _ _ EY) as (_ & _ & Y1 & Y2 & HY). exists Y. split; [congruence|]. split; [congruence|]. split; [etransitivity; [apply mmul_eq_l; symmetry; exact EQ | exact HY]|]. rewrite V, EY. cbn [bind]. unfold Rltb. destruct (Rlt_dec _ 0); [lra|]. rewrite np_trace_sq by congruence. reflexivity.
  Qed.
  (** for a positive definite R the value is real, at least log det R + m, and equal to it exactly when S = R *)
  Theorem C79_minimum : (0 <= logdet mu m)%R -> pd Rm -> forall w E, eigh_ok Rm w E ->
    exists y, f_nll_stouc slogdet solve Rm arr s lam p sigma = Ok (Some (RtoC y)) /\ (logdet w m + INR m <= y)%R /\ (y = (logdet w m + INR m)%R <-> S ==m Rm).
  Proof.
    intros HL HR w E HE. assert (R2 : nc Rm = m) by (rewrite <- R1; symmetry; apply HR). destruct (C79_value HL R2) as (Y & Y1 & Y2 & HY & V). assert (SN : nr S = m) by exact HAm.
    pose proof (l_trace S Rm Y m mu F HS HR SN R1 HF HY Y1) as T. rewrite T, <- RtoC_plus in V. eexists. split; [exact V|]. split; [exact (l_bound S Rm m mu w F E HS HR SN R1 HF HE)|]. split; [exact (l_strict S Rm m mu w F E HS HR SN R1 HF HE)|].
    intros EQ. assert (YI : Y ==m mid m).
    { apply (inj_cancel S); [rewrite Y1; exact HAm | exact HAm | exact Y2 | now apply pd_inj |]. etransitivity; [exact HY|]. etransitivity; [symmetry; exact EQ|]. symmetry. apply mmul_id_r. symmetry. exact HAm. }
    assert (TY : mtrace Y = RtoC (INR m)) by (rewrite (mtrace_eq Y (mid m)); [apply mtrace_mid | congruence | exact YI]). rewrite T in TY. injection TY as TY. rewrite TY. f_equal. rewrite <- R1. rewrite (logdet_unique Rm w E mu F); [reflexivity | exact HR | exact HE |]. apply (eigh_ok_eq S); [exact EQ | exact HF].
  Qed.
  (** but when det S < 1 the function answers Inf, although the likelihood is finite *)
  Theorem C79_small_determinant_defect : (logdet mu m < 0)%R -> f_nll_stouc slogdet solve Rm arr s lam p sigma = Ok None.
  Proof. intros HL. destruct nll_stouc_eq as (S' & _ & ->). unfold Rltb. destruct (Rlt_dec _ 0); [reflexivity | lra]. Qed.
End C79.

(** one source in front of two sensors, power 1: the likelihood is finite for noise power 1 and Inf for noise power 1/8 *)
Definition ex_arr : array := Array (LArr DFloat (Mat 2 1 (fun i _ => INR i))) "a" ISOTROPIC_SCALAR_SENSOR [].
Definition ex_ones : cmat := Mat 2 1 (fun _ _ => RtoC 1).
Lemma ex_steer : exists A, steering_matrix ex_arr (FF1 [0%R] "rad") 1 false "all" true = Ok (Flat A, []) /\ A ==m ex_ones.
Proof. eexists. split; [unfold steering_matrix, phase_delay_matrix; rewrite (P_sources.Reqb_neq 1 0 R1_neq_R0); reflexivity|]. split; [reflexivity|]. split; [reflexivity|]. intros [|[|i]] [|j] Hi Hj; cbn in Hi, Hj; try lia; cbn; rewrite sin_0, !Rmult_0_r, ?Rplus_0_l, ?cis_0; apply injective_projections; cbn; try ring; rewrite ?Rmult_0_l, ?Rmult_0_r, ?cos_0, ?sin_0; reflexivity. Qed.
Definition ex_F : cmat := Mat 2 2 (fun i j => RtoC (if (Nat.eqb i 1 && Nat.eqb j 0)%bool then - / sqrt 2 else / sqrt 2)).
Lemma ex_eig A sigma : A ==m ex_ones -> eigh_ok (model_cov A (power_of (PwScalar 1)) sigma) [sigma; (sigma + 2)%R] ex_F.
Proof.
  intros EA. pose proof (inv_sqrt_sq 2 ltac:(lra)) as Q. set (q := (/ sqrt 2)%R) in Q. apply (eigh_ok_eq (model_cov ex_ones (power_of (PwScalar 1)) sigma)); [apply model_cov_eq; symmetry; exact EA|].
  unfold eigh_ok. cbv zeta. cbn [nr nc model_cov madd mmul ex_ones mher ex_F List.length]. split; [reflexivity|]. split; [reflexivity|]. split; [reflexivity|]. split; [reflexivity|]. split.
  { repeat (apply Sorting.Sorted.SSorted_cons || apply Sorting.Sorted.SSorted_nil || apply Forall_cons || apply Forall_nil). lra. }
  split; (split; [reflexivity|]; split; [reflexivity|]); intros [|[|i]] [|[|j]] Hi Hj; cbn in Hi, Hj; try lia; cbn; fold q; apply injective_projections; cbn; try nra; ring_simplify; nra.
Qed.
Lemma ex_cov_pd A sigma : A ==m ex_ones -> (0 < sigma)%R -> pd (model_cov A (power_of (PwScalar 1)) sigma).
Proof.
  intros EA Hs. assert (P : psd (model_cov A (power_of (PwScalar 1)) sigma)) by (apply model_cov_psd; [intros; cbn; lra | lra]). split; [apply P|]. intros x Hx. destruct P as (_ & P). specialize (P x). destruct (Rle_lt_or_eq_dec _ _ P) as [L|Z]; [exact L|]. exfalso.
  assert (I : inj (model_cov A (power_of (PwScalar 1)) sigma)) by (apply (cov_inj A (mdiag (nc A) (fun k => RtoC 1)) sigma); [reflexivity | apply (psd_mdiag (nc A) (fun _ => 1%R)); intros; lra | exact Hs]).
  destruct Hx as (i & Hi & Nx). apply Nx. apply I; [|exact Hi]. intros a Ha. apply (psd_null _ x); [apply model_cov_psd; [intros; cbn; lra | lra] | symmetry; exact Z | exact Ha].
Qed.
Example C79_example : exists A w E, steering_matrix ex_arr (FF1 [0%R] "rad") 1 false "all" true = Ok (Flat A, []) /\
  eigh_ok (model_cov A (fun _ => 1%R) 1) w E /\
  f_nll_stouc slogdet2 solve0 (model_cov A (fun _ => 1%R) 1) ex_arr (FF1 [0%R] "rad") 1 (PwScalar 1) 1 = Ok (Some (RtoC (ln 3 + 2))) /\
  f_nll_stouc slogdet2 solve0 (model_cov A (fun _ => 1%R) 1) ex_arr (FF1 [0%R] "rad") 1 (PwScalar 1) (/ 8) = Ok None.
Proof.
  destruct ex_steer as (A & HA & EA). exists A, [1; (1 + 2)]%R, ex_F. split; [exact HA|]. assert (A1 : nr A = 2%nat) by exact (meq_nr _ _ EA). pose proof (ex_eig A 1 EA) as H1. pose proof (ex_cov_pd A 1 EA ltac:(lra)) as P1.
  split; [exact H1|]. assert (L1 : logdet [1; (1 + 2)]%R 2 = ln 3) by (unfold logdet; cbn [rsum nth]; rewrite ln_1; replace (1 + 2)%R with 3%R by ring; ring). split.
  - destruct (C79_minimum slogdet2 solve0 (model_cov A (fun _ => 1%R) 1) A ex_arr (FF1 [0%R] "rad") 1 (PwScalar 1) 1 [] slogdet2_ok solve0_exact HA A1 I P1 A1 _ _ H1) with (w := [1; (1 + 2)]%R) (E := ex_F) as (y & V & _ & Q); [|exact P1|exact H1|].
    + rewrite (L1 : logdet _ (ar_size ex_arr) = _). rewrite <- ln_1. left. apply ln_increasing; lra.
    + rewrite V. assert (Y : y = (logdet [1; (1 + 2)]%R 2 + INR 2)%R) by (apply Q; reflexivity). rewrite Y, L1. reflexivity.
  - apply (C79_small_determinant_defect slogdet2 solve0 (model_cov A (fun _ => 1%R) 1) A ex_arr (FF1 [0%R] "rad") 1 (PwScalar 1) (/ 8) [] slogdet2_ok HA A1 I (ex_cov_pd A (/ 8) EA ltac:(lra)) [/ 8; (/ 8 + 2)]%R ex_F (ex_eig A (/ 8) EA)).
    change (ar_size ex_arr) with 2%nat. unfold logdet. cbn [rsum nth]. rewrite Rplus_0_l, <- ln_mult by lra. rewrite <- ln_1. apply ln_increasing; lra.
Qed.
Print Assumptions C79_minimum.
Print Assumptions C79_small_determinant_defect.
