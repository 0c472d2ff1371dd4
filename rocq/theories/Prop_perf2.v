(** Properties of the uncorrelated stochastic CRB and of the asymptotic covariances of MUSIC (C71, C72). *)
From Coquelicot Require Import Hierarchy Derive AutoDerive.
From Verif Require Import Base_Np Base_Lin Base_Trig M_utils P_utils S_utils M_sources M_array S_array S_model S_subspace P_array P_array2 P_array3 S_sources P_sources P_model P_subspace2 P_subspace3 P_subspace4 P_subspace5 M_core M_perf S_perf P_gauss P_perf P_perf2 P_perf3 P_perf4 Prop_perf.
Open Scope C_scope.

(** ** C71: crb_stouc_farfield_1d
    [dcov A D p r] of S_perf is the derivative of the model covariance A diag(p) A^H + sigma I in the r-th parameter (locations, powers, noise power): *)
Theorem C71_derivative_location : forall a l u lam k p sigma St DA, wf_array a -> (k < List.length l)%nat ->
  steering_matrix a (FF1 l u) lam true "all" false = Ok (St, DA) ->
  exists A D : R -> cmat, (forall t, steering_matrix a (FF1 (upd l k t) u) lam true "all" false = Ok (Flat (A t), [D t])) /\
    forall x i j, (i < ar_size a)%nat -> (j < ar_size a)%nat -> (u = "sin"%string -> ar_ndim a = 1%nat \/ (-1 < x < 1)%R) ->
      (u = "sin"%string -> (forall e kn, ~ In (LocErr e kn) (perturbations a)) \/ (-1 < x < 1)%R) ->
      cderiv (fun t => ent (model_cov (A t) p sigma) i j) x (ent (dcov (A x) (D x) p k) i j).
Proof. exact cov_deriv_theta. Qed.
Theorem C71_derivative_power : forall A D p sigma r x i j, (r < nc A)%nat ->
  cderiv (fun t => ent (model_cov A (fun q => if Nat.eqb q r then t else p q) sigma) i j) x (ent (dcov A D p (nc A + r)) i j).
Proof. exact cov_deriv_p. Qed.
Theorem C71_derivative_noise : forall A D p x i j, cderiv (fun t => ent (model_cov A p t) i j) x (ent (dcov A D p (2 * nc A)) i j).
Proof. exact cov_deriv_sigma. Qed.

(** The full result is the leading k x k block of the inverse of a symmetric matrix F, divided by N.  F is the Fisher information (Slepian-Bangs) except in the
    block of the powers, whose entry (i, j) is Re ((a_i^H R^-1 a_j)^2) where |a_i^H R^-1 a_j|^2 is right; both agree iff a_i^H R^-1 a_j is real, in particular for i = j. *)
Theorem C71_fisher_blocks : forall cinv rinv a l u lam p P pr sigma N V, cinv_exact cinv -> rinv_exact rinv -> wf_array a ->
  denotes (List.length l) p P -> (forall i, (i < List.length l)%nat -> P i i = RtoC (pr i)) ->
  crb_stouc_farfield_1d cinv rinv a (FF1 l u) lam p sigma N "full" = Ok (OFull V) ->
  exists A D Q F X, let k := List.length l in
    steering_matrix a (FF1 l u) lam true "all" false = Ok (Flat A, [D]) /\ nc A = k /\ nc D = k /\ nr A = nr D /\
    nr Q = nr A /\ nc Q = nr A /\ model_cov A pr sigma *m Q ==m mid (nr A) /\
    nr F = (2 * k + 1)%nat /\ rsym F /\ scaled_inverse F 1 X /\
    nr V = k /\ rsym V /\ (forall i j, (i < k)%nat -> (j < k)%nat -> ent V i j = (ent X i j / N)%R) /\
    (forall r c, (r < 2 * k + 1)%nat -> (c < 2 * k + 1)%nat -> ~ ((k <= r < 2 * k)%nat /\ (k <= c < 2 * k)%nat) -> RtoC (ent F r c) = slepian_bangs Q (dcov A D pr r) (dcov A D pr c)) /\
    (forall i j, (i < k)%nat -> (j < k)%nat -> let z := bform Q (col A i) (col A j) in
       ent F (k + i) (k + j) = Re (z * z) /\ slepian_bangs Q (dcov A D pr (k + i)) (dcov A D pr (k + j)) = RtoC (Cnorm2 z) /\
       (RtoC (ent F (k + i) (k + j)) = slepian_bangs Q (dcov A D pr (k + i)) (dcov A D pr (k + j)) <-> Im z = 0%R) /\ (i = j -> Im z = 0%R)).
Proof.
  intros cinv rinv a l u lam p P pr sigma N V CO RO W HD Hp H.
  destruct (stouc_inv cinv rinv RO a l u lam p sigma N _ _ W H) as (A & D & pa & F & X & ES & A1 & A2 & D1 & D2 & HU & _ & HF & HI & HR & _). apply full_inv in HR. subst V.
  destruct (C68_agree p _ P HD) as (M & v & _ & HU' & _ & _ & SV & WV & _ & HV). rewrite HU in HU'. injection HU' as <-.
  assert (LP : List.length (nd_data pa) = List.length l) by (unfold nd_wf in WV; rewrite WV, SV; cbn; lia).
  assert (HPR : forall i, (i < List.length (nd_data pa))%nat -> nth i (nd_data pa) (RtoC 0) = RtoC (pr i)) by (intros i Hi; rewrite LP in Hi; rewrite HV by exact Hi; now apply Hp).
  destruct (fim_inv cinv (ar_size a) A D (nd_data pa) pr sigma F CO A1 ltac:(congruence) D1 ltac:(congruence) HPR HF) as (Q & Q1 & Q2 & QH & HQ & F1 & F2 & FA & FP).
  pose proof (fim_sym cinv (ar_size a) A D (nd_data pa) pr sigma F CO A1 ltac:(congruence) D1 ltac:(congruence) HPR HF) as SF. rewrite LP in F1, F2. rewrite A2 in FA, FP.
  pose proof (inv_sym _ _ SF HI) as (X1 & X2). pose proof HI as (I1 & I2 & I3 & I4).
  assert (SY : forall i j, (i < List.length l)%nat -> (j < List.length l)%nat -> ent X i j = ent X j i) by (intros; apply X2; lia).
  exists A, D, Q, F, X. cbv zeta. do 4 (split; [congruence|]). do 2 (split; [congruence|]). split; [rewrite A1; exact HQ|]. do 2 (split; [assumption|]). split.
  { split; [congruence|]. split; [congruence|]. intros i j Hi Hj. rewrite Rmult_1_l. now apply I4. }
  split; [reflexivity|]. split; [apply symmetrised_sym; reflexivity|]. split.
  { intros i j Hi Hj. cbn [symmetrised rscal ent]. rewrite (SY j i) by assumption. unfold Rdiv. lra. }
  split; [intros r c Hr Hc; apply FA; lia|]. intros i j Hi Hj. destruct (FP i j Hi Hj) as (P1 & P2). cbv zeta in P1, P2. split; [exact P1|]. split; [exact P2|].
  set (z := bform Q (col A i) (col A j)) in *. rewrite P1, P2. split.
  - unfold Cnorm2. split.
    + intros E. apply RtoC_inj in E. rewrite Re_mult in E. nra.
    + intros E. rewrite Re_mult, E. f_equal. ring.
  - intros <-. pose proof (bform_flip Q QH (col A i) (col A i)) as E. fold z in E. apply (f_equal Im) in E. rewrite Im_conj in E. lra.
Qed.
(** for a single source the bound is the Cramer-Rao bound: the block of the inverse of the whole Fisher information *)
Theorem C71_single_source : forall cinv rinv a t u lam p P pr sigma N V, cinv_exact cinv -> rinv_exact rinv -> wf_array a ->
  denotes 1 p P -> P 0%nat 0%nat = RtoC pr ->
  crb_stouc_farfield_1d cinv rinv a (FF1 [t] u) lam p sigma N "full" = Ok (OFull V) ->
  exists A D Q F X, steering_matrix a (FF1 [t] u) lam true "all" false = Ok (Flat A, [D]) /\
    nr Q = nr A /\ nc Q = nr A /\ model_cov A (fun _ => pr) sigma *m Q ==m mid (nr A) /\
    nr F = 3%nat /\ (forall r c, (r < 3)%nat -> (c < 3)%nat -> RtoC (ent F r c) = slepian_bangs Q (dcov A D (fun _ => pr) r) (dcov A D (fun _ => pr) c)) /\
    scaled_inverse F 1 X /\ nr V = 1%nat /\ ent V 0 0 = (ent X 0 0 / N)%R.
Proof.
  intros cinv rinv a t u lam p P pr sigma N V CO RO W HD Hp H.
  destruct (C71_fisher_blocks cinv rinv a [t] u lam p P (fun _ => pr) sigma N V CO RO W HD ltac:(cbn [List.length]; intros i Hi; assert (i = 0)%nat as -> by lia; exact Hp) H) as (A & D & Q & F & X & R). cbv zeta in R. cbn [List.length] in R.
  destruct R as (ES & A2 & D2 & AD & Q1 & Q2 & HQ & F1 & SF & HX & V1 & _ & HV & FA & FP). exists A, D, Q, F, X. do 5 (split; [assumption|]). split.
  - intros r c Hr Hc. destruct (Nat.eq_dec r 1) as [->|Nr]; [destruct (Nat.eq_dec c 1) as [->|Nc]|].
    + destruct (FP 0%nat 0%nat ltac:(lia) ltac:(lia)) as (_ & _ & E & R). cbn [Nat.add] in E. apply E, R. reflexivity.
    + apply FA; lia.
    + apply FA; lia.
  - split; [exact HX|]. split; [exact V1|]. apply HV; lia.
Qed.
(** inversely proportional to the number of snapshots *)
Theorem C71_snapshots : forall cinv rinv a l u lam p sigma N N' V, rinv_exact rinv -> wf_array a -> N <> 0%R -> N' <> 0%R ->
  crb_stouc_farfield_1d cinv rinv a (FF1 l u) lam p sigma N "full" = Ok (OFull V) ->
  exists V', crb_stouc_farfield_1d cinv rinv a (FF1 l u) lam p sigma N' "full" = Ok (OFull V') /\ nr V' = nr V /\ forall i j, ent V' i j = (N / N' * ent V i j)%R.
Proof.
  intros cinv rinv a l u lam p sigma N N' V RO W HN HN' H. destruct (stouc_inv cinv rinv RO a l u lam p sigma N _ _ W H) as (A & D & pa & F & X & _ & _ & _ & _ & _ & _ & _ & _ & _ & HR & HA). apply full_inv in HR. subst V.
  eexists. split; [rewrite HA; reflexivity|]. split; [reflexivity|]. intros i j. cbn [symmetrised rscal ent]. field. tauto.
Qed.

(** the block of the powers is wrong: two sensors half a wavelength apart, unit-power sources at 0 and 30 degrees, unit noise *)
Definition ex_angles : list R := [0; PI / 6]%R.
Lemma ex_steering2 : exists A D, steering_matrix ex_array (FF1 ex_angles "rad") 1 true "all" false = Ok (Flat A, [D]) /\ nr A = 2%nat /\ nc A = 2%nat /\ nr D = 2%nat /\ nc D = 2%nat /\
  ent A 0 0 = RtoC 1 /\ ent A 1 0 = RtoC 1 /\ ent A 0 1 = RtoC 1 /\ ent A 1 1 = Ci.
Proof.
  eexists _, _. split; [unfold steering_matrix, phase_delay_matrix; rewrite (P_sources.Reqb_neq 1 0 R1_neq_R0); reflexivity|]. do 4 (split; [reflexivity|]). cbn. rewrite sin_0, sin_PI6, !Rmult_0_r, cis_0.
  replace (2 * PI / 1 * (0 / 2 * (1 / 2)))%R with 0%R by field. replace (2 * PI / 1 * (1 / 2 * (1 / 2)))%R with (PI / 2)%R by field. rewrite cis_0. do 3 (split; [reflexivity|]). unfold cis. rewrite cos_PI2, sin_PI2. reflexivity.
Qed.
Lemma fim_defined cinv m A D pl pr sigma : cinv_exact cinv -> nr A = m -> nc A = List.length pl -> nr D = m -> nc D = List.length pl -> (forall i, (i < List.length pl)%nat -> nth i pl (RtoC 0) = RtoC (pr i)) ->
  inj (model_cov A pr sigma) -> exists F, fim_stouc cinv m A D pl sigma = Ok F.
Proof.
  intros CO A1 A2 D1 D2 Hp HI. unfold fim_stouc.
  rewrite matmul_ok by (cbn [mher nr nc]; congruence). cbn [bind]. match goal with |- exists F, (let! R0 := cinv ?M in _) = _ => set (Rm := M) end.
  assert (ER : Rm ==m model_cov A pr sigma). { etransitivity; [|apply stouc_cov]. unfold Rm. rewrite A1. apply madd_eq; [reflexivity | exact A1 | | reflexivity]. apply mmul_eq_l. repeat split. intros i j Hi Hj. cbn [ent nc] in *. rewrite Hp by lia. reflexivity. }
  destruct (proj2 CO Rm) as (R0 & E0); [cbn [Rm madd mmul mher nr nc]; congruence | apply (Base_Lin.inj_eq (model_cov A pr sigma)); [symmetry; exact ER | exact HI] |]. rewrite E0. cbn [bind].
  destruct (proj1 CO _ _ E0) as (_ & S1 & S2 & _). cbn [Rm madd mmul nr nc mher] in S1, S2.
  repeat (rewrite matmul_ok by (cbn [mmul mscal madd mher nr nc]; congruence); cbn [bind]). eexists. reflexivity.
Qed.
(** the bound is defined whenever the matrix described by C71_fisher_blocks is nonsingular *)
Theorem C71_defined : forall cinv rinv a l u lam p P pr sigma N mode A D, cinv_exact cinv -> rinv_exact rinv -> wf_array a ->
  denotes (List.length l) p P -> (forall i, (i < List.length l)%nat -> P i i = RtoC (pr i) /\ (0 <= pr i)%R) -> (0 < sigma)%R ->
  steering_matrix a (FF1 l u) lam true "all" false = Ok (Flat A, [D]) -> In mode ["full"; "diag"; "mean_diag"]%string ->
  let k := List.length l in
  (forall Q F, nr Q = nr A -> nc Q = nr A -> model_cov A pr sigma *m Q ==m mid (nr A) -> nr F = (2 * k + 1)%nat -> nc F = (2 * k + 1)%nat ->
     (forall r c, (r < 2 * k + 1)%nat -> (c < 2 * k + 1)%nat -> ~ ((k <= r < 2 * k)%nat /\ (k <= c < 2 * k)%nat) -> RtoC (ent F r c) = slepian_bangs Q (dcov A D pr r) (dcov A D pr c)) ->
     (forall i j, (i < k)%nat -> (j < k)%nat -> ent F (k + i) (k + j) = Re (bform Q (col A i) (col A j) * bform Q (col A i) (col A j))) -> rinj F) ->
  exists o, crb_stouc_farfield_1d cinv rinv a (FF1 l u) lam p sigma N mode = Ok o.
Proof.
  intros cinv rinv a l u lam p P pr sigma N mode A D CO RO W HD Hp Hs ES HM k HF. destruct (steering_shape _ _ _ _ _ _ _ W ES) as (A1 & A2 & D1 & D2).
  destruct (C68_agree p _ P HD) as (M & v & _ & HU & _ & _ & SV & WV & _ & HV).
  assert (LP : List.length (nd_data v) = List.length l) by (unfold nd_wf in WV; rewrite WV, SV; cbn; lia).
  assert (HPR : forall i, (i < List.length (nd_data v))%nat -> nth i (nd_data v) (RtoC 0) = RtoC (pr i)) by (intros i Hi; rewrite LP in Hi; rewrite HV by exact Hi; now apply Hp).
  assert (HI : inj (model_cov A pr sigma)) by (unfold model_cov; apply cov_inj; [reflexivity | apply psd_mdiag; intros i Hi; apply Hp; lia | exact Hs]).
  destruct (fim_defined cinv (ar_size a) A D (nd_data v) pr sigma CO A1 ltac:(congruence) D1 ltac:(congruence) HPR HI) as (F & EF).
  destruct (fim_inv cinv (ar_size a) A D (nd_data v) pr sigma F CO A1 ltac:(congruence) D1 ltac:(congruence) HPR EF) as (Q & Q1 & Q2 & QH & HQ & F1 & F2 & FA & FP). rewrite LP in F1, F2. rewrite A2 in FA, FP. fold k in F1, F2, FA, FP.
  assert (RI : rinj F). { apply (HF Q F); [congruence | congruence | rewrite A1; exact HQ | exact F1 | exact F2 | intros r c Hr Hc; apply FA; lia | intros i j Hi Hj; apply (FP i j Hi Hj)]. }
  destruct (proj2 RO F ltac:(congruence) RI) as (X & HX).
  unfold crb_stouc_farfield_1d. cbn [src_size]. rewrite HU. cbn [bind]. rewrite (steering_AD_eq _ _ _ _ _ _ ES). cbn [bind].
  assert (EV : as_vector v = Ok (nd_data v)) by (unfold as_vector; rewrite SV; reflexivity). rewrite EV. cbn [bind]. rewrite EF. cbn [bind]. rewrite HX. cbn [bind].
  destruct HM as [<-|[<-|[<-|[]]]]; eexists; reflexivity.
Qed.
Theorem C71_power_block_defect : exists A D Q F, let k := 2%nat in
  steering_matrix ex_array (FF1 ex_angles "rad") 1 true "all" false = Ok (Flat A, [D]) /\ model_cov A (fun _ => 1%R) 1 *m Q ==m mid (nr A) /\
  fim_stouc cinv0 (ar_size ex_array) A D [RtoC 1; RtoC 1] 1 = Ok F /\
  ent F (k + 0) (k + 1) = 0%R /\ slepian_bangs Q (dcov A D (fun _ => 1%R) (k + 0)) (dcov A D (fun _ => 1%R) (k + 1)) = RtoC (2 / 49).
Proof.
  destruct ex_steering2 as (A & D & ES & A1 & A2 & D1 & D2 & E00 & E10 & E01 & E11).
  assert (HP : forall i, (i < 2)%nat -> nth i [RtoC 1; RtoC 1] (RtoC 0) = RtoC 1) by (intros i Hi; destruct i as [|[|i]]; [reflexivity..|lia]).
  assert (ME : forall i j, (i < 2)%nat -> (j < 2)%nat -> ent (model_cov A (fun _ => 1%R) 1) i j = csum 2 (fun k => ent A i k * Cconj (ent A j k)) + (if Nat.eqb i j then RtoC 1 else RtoC 0)).
  { intros i j Hi Hj. rewrite model_cov_ent by lia. rewrite A2. f_equal. apply csum_ext; intros; ring. }
  assert (HI : inj (model_cov A (fun _ => 1%R) 1)).
  { unfold model_cov. apply cov_inj; [reflexivity | apply psd_mdiag; intros; lra | lra]. }
  destruct (fim_defined cinv0 (ar_size ex_array) A D [RtoC 1; RtoC 1] (fun _ => 1%R) 1 cinv0_exact A1 A2 D1 D2 HP HI) as (F & HF).
  destruct (fim_inv cinv0 (ar_size ex_array) A D [RtoC 1; RtoC 1] (fun _ => 1%R) 1 F cinv0_exact A1 A2 D1 D2 HP HF) as (Q & Q1 & Q2 & QH & HQ & F1 & F2 & FA & FP).
  exists A, D, Q, F. cbv zeta. split; [exact ES|]. split; [rewrite A1; exact HQ|]. split; [exact HF|].
  destruct (FP 0%nat 1%nat ltac:(lia) ltac:(lia)) as (P1 & P2). cbv zeta in P1, P2. rewrite A2 in P1, P2. rewrite P1, P2.
  change (ar_size ex_array) with 2%nat in *.
  assert (B : bform Q (col A 0) (col A 1) = RtoC (/ 7) * (RtoC 1 + Ci)).
  { unfold bform, col. rewrite Q1, Q2. cbn [csum]. rewrite E00, E10, E01, E11.
    assert (MQ : forall i j, (i < 2)%nat -> (j < 2)%nat -> csum 2 (fun k => ent (model_cov A (fun _ => 1%R) 1) i k * ent Q k j) = ent (mid 2) i j).
    { intros i j Hi Hj. pose proof (meq_ent _ _ i j HQ) as E. cbn [mmul nr nc ent] in E. rewrite Q2 in E. change (nr (model_cov A (fun _ => 1%R) 1)) with (nr A) in E. change (nc (model_cov A (fun _ => 1%R) 1)) with (nr A) in E. rewrite A1 in E. exact (E Hi Hj). }
    pose proof (MQ 0 0 ltac:(lia) ltac:(lia))%nat as M00. pose proof (MQ 0 1 ltac:(lia) ltac:(lia))%nat as M01. pose proof (MQ 1 0 ltac:(lia) ltac:(lia))%nat as M10. pose proof (MQ 1 1 ltac:(lia) ltac:(lia))%nat as M11.
    cbn [csum] in M00, M01, M10, M11. rewrite !ME in M00, M01, M10, M11 by lia. cbn [csum Nat.eqb mid ent] in M00, M01, M10, M11. rewrite E00, E10, E01, E11 in M00, M01, M10, M11.
    destruct (ent Q 0 0) as [a0 b0], (ent Q 0 1) as [a1 b1], (ent Q 1 0) as [a2 b2], (ent Q 1 1) as [a3 b3].
    apply (f_equal fst) in M00 as X1. apply (f_equal snd) in M00 as X2. apply (f_equal fst) in M01 as X3. apply (f_equal snd) in M01 as X4. apply (f_equal fst) in M10 as X5. apply (f_equal snd) in M10 as X6. apply (f_equal fst) in M11 as X7. apply (f_equal snd) in M11 as X8.
    clear M00 M01 M10 M11. cbn in X1, X2, X3, X4, X5, X6, X7, X8. apply injective_projections; cbn; lra. }
  rewrite B. split; [cbn; field|]. f_equal. unfold Cnorm2. cbn. field.
Qed.
(** the bound is defined for a unit-power source at broadside *)
Lemma ex_inv2 Q Rm : nr Q = 2%nat -> nc Q = 2%nat -> nr Rm = 2%nat -> nc Rm = 2%nat -> ent Rm 0 0 = RtoC 2 -> ent Rm 0 1 = RtoC 1 -> ent Rm 1 0 = RtoC 1 -> ent Rm 1 1 = RtoC 2 -> Rm *m Q ==m mid 2 ->
  ent Q 0 0 = RtoC (2 / 3) /\ ent Q 0 1 = RtoC (- 1 / 3) /\ ent Q 1 0 = RtoC (- 1 / 3) /\ ent Q 1 1 = RtoC (2 / 3).
Proof.
  intros Q1 Q2 R1 R2 E00 E01 E10 E11 HQ.
  assert (MQ : forall i j, (i < 2)%nat -> (j < 2)%nat -> csum 2 (fun k => ent Rm i k * ent Q k j) = ent (mid 2) i j).
  { intros i j Hi Hj. pose proof (meq_ent _ _ i j HQ) as E. cbn [mmul nr nc ent] in E. rewrite R1, R2, Q2 in E. exact (E Hi Hj). }
  pose proof (MQ 0 0 ltac:(lia) ltac:(lia))%nat as M00. pose proof (MQ 0 1 ltac:(lia) ltac:(lia))%nat as M01. pose proof (MQ 1 0 ltac:(lia) ltac:(lia))%nat as M10. pose proof (MQ 1 1 ltac:(lia) ltac:(lia))%nat as M11.
  cbn [csum mid ent Nat.eqb] in M00, M01, M10, M11. rewrite E00, E01, ?E10, ?E11 in M00, M01. rewrite E10, E11 in M10, M11.
  destruct (ent Q 0 0) as [a0 b0], (ent Q 0 1) as [a1 b1], (ent Q 1 0) as [a2 b2], (ent Q 1 1) as [a3 b3].
  apply (f_equal fst) in M00 as X1. apply (f_equal snd) in M00 as X2. apply (f_equal fst) in M01 as X3. apply (f_equal snd) in M01 as X4. apply (f_equal fst) in M10 as X5. apply (f_equal snd) in M10 as X6. apply (f_equal fst) in M11 as X7. apply (f_equal snd) in M11 as X8.
  clear M00 M01 M10 M11. cbn in X1, X2, X3, X4, X5, X6, X7, X8. repeat split; apply injective_projections; cbn; lra.
Qed.
Example C71_example : exists V, crb_stouc_farfield_1d cinv0 rinv0 ex_array (FF1 [0%R] "rad") 1 (PScalar 1) 1 10 "full" = Ok (OFull V).
Proof.
  destruct ex_steering as (A & D & ES & A1 & A2 & D1 & D2 & E0 & E1 & G0 & G1). pose proof PI_RGT_0 as PP.
  assert (HI : inj (model_cov A (fun _ => 1%R) 1)) by (unfold model_cov; apply cov_inj; [reflexivity | apply psd_mdiag; intros; lra | lra]).
  assert (HP : forall i, (i < 1)%nat -> nth i [RtoC 1] (RtoC 0) = RtoC 1) by (intros i Hi; destruct i; [reflexivity | lia]).
  destruct (fim_defined cinv0 2 A D [RtoC 1] (fun _ => 1%R) 1 cinv0_exact A1 A2 D1 D2 HP HI) as (F & HF).
  destruct (fim_inv cinv0 2 A D [RtoC 1] (fun _ => 1%R) 1 F cinv0_exact A1 A2 D1 D2 HP HF) as (Q & Q1 & Q2 & QH & HQ & F1 & F2 & FA & FP). cbn [List.length Nat.mul Nat.add] in F1, F2. rewrite A2 in FA, FP.
  assert (ME : forall i j, (i < 2)%nat -> (j < 2)%nat -> ent (model_cov A (fun _ => 1%R) 1) i j = if Nat.eqb i j then RtoC 2 else RtoC 1).
  { intros i j Hi Hj. rewrite model_cov_ent by lia. rewrite A2. cbn [csum]. destruct i as [|[|i]], j as [|[|j]]; try lia; rewrite ?E0, ?E1; cbn [Nat.eqb]; apply injective_projections; cbn; lra. }
  destruct (ex_inv2 Q (model_cov A (fun _ => 1%R) 1) Q1 Q2 A1 A1 (ME 0 0 ltac:(lia) ltac:(lia))%nat (ME 0 1 ltac:(lia) ltac:(lia))%nat (ME 1 0 ltac:(lia) ltac:(lia))%nat (ME 1 1 ltac:(lia) ltac:(lia))%nat HQ) as (U00 & U01 & U10 & U11).
  assert (BF : forall x y, bform Q x y = Cconj (x 0%nat) * (RtoC (2/3) * y 0%nat + RtoC (-1/3) * y 1%nat) + Cconj (x 1%nat) * (RtoC (-1/3) * y 0%nat + RtoC (2/3) * y 1%nat)).
  { intros x y. unfold bform. rewrite Q1, Q2. cbn [csum]. rewrite U00, U01, U10, U11. ring. }
  assert (BQ : forall x y, bform (Q *m Q) x y = Cconj (x 0%nat) * (RtoC (5/9) * y 0%nat + RtoC (-4/9) * y 1%nat) + Cconj (x 1%nat) * (RtoC (-4/9) * y 0%nat + RtoC (5/9) * y 1%nat)).
  { intros x y. unfold bform. cbn [mmul nr nc ent]. rewrite Q1, Q2. cbn [csum]. rewrite U00, U01, U10, U11. destruct (x 0%nat), (x 1%nat), (y 0%nat), (y 1%nat). apply injective_projections; cbn; field. }
  assert (T00 : ent F 0 0 = (2 * PI * PI / 3)%R).
  { apply RtoC_inj. rewrite FA by lia. rewrite (sb_tt 2 1) by (assumption || lia). rewrite !BF. unfold col. rewrite E0, E1, G0, G1. f_equal. cbn. field. }
  assert (T01 : ent F 0 1 = 0%R).
  { apply RtoC_inj. rewrite FA by lia. change (dcov A D (fun _ => 1%R) 1) with (dcov A D (fun _ => 1%R) (1 + 0)). rewrite (sb_tp 2 1) by (assumption || lia). rewrite !BF. unfold col. rewrite E0, E1, G0, G1. f_equal. cbn. field. }
  assert (T02 : ent F 0 2 = 0%R).
  { apply RtoC_inj. rewrite FA by lia. change (dcov A D (fun _ => 1%R) 2) with (dcov A D (fun _ => 1%R) (2 * 1)). rewrite (sb_ts 2 1) by (assumption || lia). rewrite !BQ. unfold col. rewrite E0, E1, G0, G1. f_equal. cbn. field. }
  assert (T12 : ent F 1 2 = (2 / 9)%R).
  { apply RtoC_inj. rewrite FA by lia. change (dcov A D (fun _ => 1%R) 2) with (dcov A D (fun _ => 1%R) (2 * 1)). change (dcov A D (fun _ => 1%R) 1) with (dcov A D (fun _ => 1%R) (1 + 0)). rewrite (sb_ps 2 1) by (assumption || lia). rewrite !BQ. unfold col. rewrite E0, E1. f_equal. cbn. field. }
  assert (T22 : ent F 2 2 = (10 / 9)%R).
  { apply RtoC_inj. rewrite FA by lia. change (dcov A D (fun _ => 1%R) 2) with (dcov A D (fun _ => 1%R) (2 * 1)). rewrite (sb_ss 2 1) by (assumption || lia). f_equal. unfold mtrace. cbn [mmul nr nc ent]. rewrite Q1, Q2. cbn [csum]. rewrite U00, U01, U10, U11. cbn. field. }
  assert (T11 : ent F 1 1 = (4 / 9)%R).
  { destruct (FP 0%nat 0%nat ltac:(lia) ltac:(lia)) as (P1 & _). cbn [Nat.add] in P1. cbv zeta in P1. rewrite P1, !BF. unfold col. rewrite E0, E1. cbn. field. }
  destruct (fim_sym cinv0 2 A D [RtoC 1] (fun _ => 1%R) 1 F cinv0_exact A1 A2 D1 D2 HP HF) as (SQ & SY).
  assert (RI : rinj F).
  { intros x Hx. rewrite F1, F2 in *. pose proof (Hx 0%nat ltac:(lia)) as X0. pose proof (Hx 1%nat ltac:(lia)) as X1. pose proof (Hx 2%nat ltac:(lia)) as X2. cbn [rsum] in X0, X1, X2.
    rewrite (SY 1%nat 0%nat) in X1 by lia. rewrite (SY 2%nat 0%nat), (SY 2%nat 1%nat) in X2 by lia. rewrite T00, T01, T02 in X0. rewrite T01, T11, T12 in X1. rewrite T02, T12, T22 in X2.
    assert (0 < PI * PI)%R by nra. assert (x 0%nat = 0)%R by (apply (Rmult_eq_reg_l (PI * PI)); lra). assert (x 1%nat = 0)%R by lra. assert (x 2%nat = 0)%R by lra. intros j Hj. destruct j as [|[|[|j]]]; try assumption. lia. }
  destruct (proj2 rinv0_exact F SQ RI) as (X & HX).
  eexists. unfold crb_stouc_farfield_1d. cbn [src_size List.length unify_p_to_vector bind]. rewrite (steering_AD_eq _ _ _ _ _ _ ES). cbn [bind as_vector nd_shape nd_data repeat]. change (ar_size ex_array) with 2%nat. rewrite HF. cbn [bind]. rewrite HX. cbn [bind]. reflexivity.
Qed.
Print Assumptions C71_derivative_location. Print Assumptions C71_derivative_power. Print Assumptions C71_derivative_noise.
Print Assumptions C71_fisher_blocks. Print Assumptions C71_single_source. Print Assumptions C71_snapshots. Print Assumptions C71_power_block_defect. Print Assumptions C71_defined.

(** ** C72: ecov_music_1d
    Closed form: h_ij = d_i^H (I - Pi) d_j, B = P^-1 + sigma P^-1 (A^H A)^-1 P^-1 and V_ij = sigma / 2N Re (h_ij B_ji) / (h_ii h_jj). *)
Theorem C72_formula : forall solve cinv a l u lam p sigma N sel V, solve_exact solve -> cinv_exact cinv -> wf_array a ->
  ecov_music_1d solve cinv a (FF1 l u) lam p sigma N sel "full" = Ok (Some (OFull V)) ->
  exists A D Pi Pa Pv Gv B, let k := List.length l in let P := nd_mat (RtoC 0) Pa in let h := fun i j => bform (mid (nr D) -m Pi) (col D i) (col D j) in
    (k < ar_size a)%nat /\ steering_matrix a (FF1 l u) lam true sel false = Ok (Flat A, [D]) /\ nr A = ar_size a /\ nc A = k /\ orth_projector_onto A Pi /\
    N <> 0%R /\ unify_p_to_matrix p k = Ok Pa /\ nr P = k /\ nc P = k /\ nr Pv = k /\ nc Pv = k /\ nr Gv = k /\ nc Gv = k /\
    P *m Pv ==m mid k /\ mher A *m A *m Gv ==m mid k /\ B ==m Pv +m mscal (RtoC sigma) (Pv *m Gv *m Pv) /\
    nr V = k /\ nc V = k /\ (forall i, (i < k)%nat -> Re (h i i) <> 0%R) /\
    (forall i j, (i < k)%nat -> (j < k)%nat -> ent V i j = (sigma / (2 * N) * Re (h i j * ent B j i)%C / (Re (h i i) * Re (h j j)))%R) /\
    (hermitian P -> rsym V) /\
    (psd P -> (0 <= sigma)%R -> (0 < N)%R -> rpsd V /\ forall i, (i < k)%nat -> (0 <= ent V i i)%R).
Proof.
  intros solve cinv a l u lam p sigma N sel V SO CO W H.
  destruct (music_inv solve cinv SO CO a l u lam p sigma N sel _ _ W H) as (A & D & Pi & Pa & Pv & Gv & B & Hk & ES & A1 & A2 & D1 & D2 & HP & HN & HU & HX & R). cbv zeta in HX, R. destruct HX as (P1 & P2 & V1 & V2 & G1 & G2 & HPv & HGv & HB). destruct R as (Hh & V0 & W1 & W2 & HV & HR).
  apply full_inv in HR. subst V0. exists A, D, Pi, Pa, Pv, Gv, B. cbv zeta. do 20 (split; [assumption|]).
  set (k := List.length l) in *. set (h := fun i j => bform (mid (nr D) -m Pi) (col D i) (col D j)).
  assert (SH : forall i j, (i < k)%nat -> (j < k)%nat -> ent V i j = (sigma / (2 * N) * (ent (info_matrix D Pi B) i j * (/ Re (h i i) * / Re (h j j))))%R).
  { intros i j Hi Hj. rewrite HV by assumption. cbn [info_matrix ent]. unfold h. cbv beta. unfold Rdiv. rewrite !Rinv_mult.
 ring. }
  assert (BN : nr B = nc D) by (destruct HB as (B1 & _); cbn [madd nr] in B1; congruence).
  split.
  - intros HH. assert (HBh : hermitian B) by (apply (music_B_herm k A (nd_mat (RtoC 0) Pa) Pv Gv B sigma); assumption).
    destruct (info_sym A D Pi B HP ltac:(congruence) BN HBh) as (S1 & S2). cbn [info_matrix nr nc] in S1, S2. split; [congruence|]. rewrite W1. intros i j Hi Hj. rewrite (SH i j), (SH j i), S2 by (rewrite ?D2; assumption). ring.
  - intros HH Hs HNp. assert (HBp : psd B) by (apply (music_B_psd k A (nd_mat (RtoC 0) Pa) Pv Gv B sigma); assumption).
    pose proof (info_psd A D Pi B HP ltac:(congruence) BN HBp) as ((S1 & S2) & S3). cbn [info_matrix nr nc] in S1, S2.
    assert (VS : rsym V) by (split; [congruence|]; rewrite W1; intros i j Hi Hj; rewrite (SH i j), (SH j i), S2 by (rewrite ?D2; assumption); ring).
    assert (VP : rpsd V).
    { split; [exact VS|]. intros x. rewrite (diag_scaled_form (info_matrix D Pi B) V (fun i => / Re (h i i))%R (sigma / (2 * N)) x); [|reflexivity | cbn [info_matrix nr]; congruence | cbn [info_matrix nr]; rewrite D2; exact SH].
      apply Rmult_le_pos; [|apply S3]. unfold Rdiv. apply Rmult_le_pos; [exact Hs | left; apply Rinv_0_lt_compat; lra]. }
    split; [exact VP|]. intros i Hi. pose proof (proj2 VP (fun q => if Nat.eqb q i then 1 else 0)%R) as G. unfold rform in G. rewrite W1 in G.
    rewrite (rsum_single _ _ i) in G; [| exact Hi |]. 2:{ intros q _ Nq. destruct (Nat.eqb_spec q i); [congruence | ring]. }
    rewrite Nat.eqb_refl in G. rewrite (rsum_single _ _ i) in G; [| exact Hi |]. 2:{ intros q _ Nq. destruct (Nat.eqb_spec q i); [congruence | ring]. }
    rewrite Nat.eqb_refl in G. lra.
Qed.
(** inversely proportional to the number of snapshots *)
Theorem C72_snapshots : forall solve cinv a l u lam p sigma N N' sel V, N' <> 0%R ->
  ecov_music_1d solve cinv a (FF1 l u) lam p sigma N sel "full" = Ok (Some (OFull V)) ->
  exists V', ecov_music_1d solve cinv a (FF1 l u) lam p sigma N' sel "full" = Ok (Some (OFull V')) /\ nr V' = nr V /\ forall i j, ent V' i j = (N / N' * ent V i j)%R.
Proof.
  intros solve cinv a l u lam p sigma N N' sel V HN' H. unfold ecov_music_1d in *. cbv zeta in *. match type of H with (if ?b then _ else _) = _ => destruct b; [discriminate|] end.
  repeat (match type of H with (let! _ := pydiv _ _ in _) = _ => fail 1 | bind ?e _ = _ => destruct e; cbn [bind] in H |- *; [|discriminate] | (let (_, _) := ?e in _) = _ => destruct e; cbn [bind] in H |- * end).
  apply bind_Ok_inv in H as (c & Hc & H). apply pydiv_inv in Hc as (HN & ->). unfold pydiv. destruct (Req_EM_T N' 0); [contradiction|]. cbn [bind].
  match type of H with (if ?b then _ else _) = _ => destruct b; [discriminate|] end. cbn in H. injection H as <-. eexists. split; [reflexivity|]. split; [reflexivity|]. intros i j. cbn [ent].
 rewrite Re_mult. unfold Re, Im, Rdiv. repeat match goal with |- context [Rinv (fst ?z)] => generalize (Rinv (fst z)); intro end. field. tauto.
Qed.
(** k >= M, other placements, wrong powers *)
Theorem C72_rejects : forall solve cinv a s lam p sigma N sel mode,
  ((ar_size a <= src_size s)%nat \/ (forall l u, s <> FF1 l u) \/ (flat_parg p /\ forall M, ~ denotes (src_size s) p M)) ->
  ecov_music_1d solve cinv a s lam p sigma N sel mode = Raise ValueError.
Proof.
  intros solve cinv a s lam p sigma N sel mode H. destruct s as [l u| |]; [|reflexivity..]. unfold ecov_music_1d. cbv zeta. destruct (Nat.leb_spec (ar_size a) (src_size (FF1 l u))); [reflexivity|].
  destruct H as [H|[H|(H1 & H2)]]; [lia | exfalso; eapply H; reflexivity |]. destruct (C68_rejects p _ H1 H2) as (E & _). rewrite E. reflexivity.
Qed.
(** defined for fewer sources than sensors with independent steering vectors, a non-singular P and non-zero h_ii *)
Theorem C72_defined : forall solve cinv a l u lam p Pm sigma N sel A D, solve_exact solve -> cinv_exact cinv -> wf_array a -> (List.length l < ar_size a)%nat ->
  steering_matrix a (FF1 l u) lam true sel false = Ok (Flat A, [D]) -> inj A -> N <> 0%R -> denotes (List.length l) p Pm -> inj (Mat (List.length l) (List.length l) Pm) ->
  (forall Pi, orth_projector_onto A Pi -> forall i, (i < List.length l)%nat -> Re (bform (mid (nr D) -m Pi) (col D i) (col D i)) <> 0%R) ->
  exists V, ecov_music_1d solve cinv a (FF1 l u) lam p sigma N sel "full" = Ok (Some (OFull V)).
Proof.
  intros solve cinv a l u lam p Pm sigma N sel A D SO CO W Hk ES HA HN HD HI Hh. destruct (steering_shape _ _ _ _ _ _ _ W ES) as (A1 & A2 & D1 & D2).
  destruct (C68_agree p _ Pm HD) as (M & v & HU & _ & SM & _ & _ & _ & HM & _). unfold ecov_music_1d. cbv zeta. cbn [src_size]. destruct (Nat.leb_spec (ar_size a) (List.length l)); [lia|].
  rewrite HU. cbn [bind]. rewrite (steering_AD_eq _ _ _ _ _ _ ES). cbn [bind]. rewrite (matmul_ok (mher A) A) by reflexivity. cbn [bind].
  assert (IG : inj (mher A *m A)) by (apply pd_inj, gram_pd, HA).
  destruct (proj2 SO (mher A *m A) (mher A) eq_refl eq_refl IG) as (X & EX). rewrite EX. cbn [bind]. destruct (proj1 SO _ _ _ EX) as (_ & _ & X1 & X2 & HX). cbn [mmul mher nr nc] in X1, X2.
  rewrite (matmul_ok A X) by congruence. cbn [bind]. rewrite (matmul_ok (mher D)) by (cbn [mher msub mid nr nc]; congruence). cbn [bind]. rewrite matmul_ok by (cbn [mher msub mmul mid nr nc]; congruence). cbn [bind].
  assert (EM : as_matrix M = Ok (nd_mat (RtoC 0) M)) by (unfold as_matrix; rewrite SM; reflexivity). rewrite EM. cbn [bind].
  assert (MN : nr (nd_mat (RtoC 0) M) = List.length l /\ nc (nd_mat (RtoC 0) M) = List.length l) by (unfold nd_mat; rewrite SM; split; reflexivity). destruct MN as (N1 & N2).
  assert (IM : inj (nd_mat (RtoC 0) M)).
  { apply (Base_Lin.inj_eq (Mat (List.length l) (List.length l) Pm)); [|exact HI]. split; [symmetry; exact N1|]. split; [symmetry; exact N2|]. cbn [nr nc ent]. intros i j Hi Hj. unfold nd_mat. rewrite SM. cbn [nth ent]. symmetry. now apply HM. }
  destruct (proj2 CO (nd_mat (RtoC 0) M) ltac:(congruence) IM) as (Pv & EP). rewrite EP. cbn [bind]. destruct (proj1 CO _ _ EP) as (_ & P1 & P2 & _). rewrite N1 in P1, P2.
  destruct (proj2 SO (mher A *m A) Pv eq_refl ltac:(cbn [mmul mher nr]; congruence) IG) as (Y & EY). rewrite EY. cbn [bind]. destruct (proj1 SO _ _ _ EY) as (_ & _ & Y1 & Y2 & _). cbn [mmul mher nr nc] in Y1, Y2.
  rewrite matmul_ok by (cbn [madd mid mscal nr]; congruence). cbn [bind]. unfold pydiv. destruct (Req_EM_T N 0); [contradiction|]. cbn [bind].
  match goal with |- exists V, (if ?b then _ else _) = _ => destruct b eqn:EB end; [exfalso|eexists; reflexivity].
  apply existsb_exists in EB as (i & Hi & EB). apply in_seq in Hi. destruct (Req_EM_T _ 0) as [Z|]; [|discriminate].
  assert (HPr : orth_projector_onto A (A *m X)).
  { apply normal_eq_projector; assumption. }
  apply (Hh _ HPr i ltac:(lia)). rewrite <- Z. f_equal. rewrite <- bform_bil by (cbn [msub mid nr nc]; congruence). rewrite D1. reflexivity.
Qed.
Example C72_example : exists V, ecov_music_1d solve0 cinv0 ex_array (FF1 [0%R] "rad") 1 (PScalar 1) 1 10 "all" "full" = Ok (Some (OFull V)).
Proof.
  destruct ex_steering as (A & D & ES & A1 & A2 & D1 & D2 & E0 & E1 & F0 & F1). pose proof PI_RGT_0 as PP.
  apply (C72_defined solve0 cinv0 ex_array [0%R] "rad" 1 (PScalar 1) (fun i j => if Nat.eqb i j then RtoC 1 else RtoC 0) 1 10 "all" A D); try assumption; [apply solve0_exact | apply cinv0_exact | apply wf_empty | cbn; lia | now apply ex_inj | lra | constructor | |].
  - intros x H j Hj. cbn [nc List.length] in Hj. assert (j = 0)%nat by lia. subst j. specialize (H 0%nat ltac:(cbn; lia)). unfold mvec in H. cbn in H. rewrite Cplus_0_l, Cmult_1_l in H. exact H.
  - intros Pi HP i Hi. cbn [List.length] in Hi. assert (i = 0)%nat by lia. subst i. rewrite (ex_h A D Pi) by assumption. rewrite Re_RtoC. nra.
Qed.
Print Assumptions C72_formula. Print Assumptions C72_snapshots. Print Assumptions C72_rejects. Print Assumptions C72_defined.
