(** C03, C76, C77: the l1/l2,1 problems and the sparse estimators.
    In the statements: [doc_solution], [doc_solution21] (S_sparse.v) are the documented optimisation problems; [minimises m n pr x] says that x is an optimal point of the
    problem pr handed to cvxpy; [sv] is the cvxpy solver, arbitrary unless said otherwise. *)
From Verif Require Import Base_Np Base_Mem M_utils P_utils M_sources M_array S_array P_array P_array2 M_grid S_grid P_grid M_coarray M_heap M_core P_core P_core2 M_sparse S_sparse P_sparse P_sparse2 P_sparse3 Prop_grid M_designs P_array3 Prop_perf3.
Open Scope nat_scope.

(** ** C77 *)
Theorem C77_names : forall cvx m k f nonnegative,
  (cvx = true -> known_formulation f -> exists p, mk_l1 cvx m k f nonnegative = Ok p) /\
  (cvx = true -> ~ known_formulation f -> mk_l1 cvx m k f nonnegative = Raise ValueError) /\
  (cvx = false -> mk_l1 cvx m k f nonnegative = Raise RuntimeError).
Proof.
  intros cvx m k f nn. split; [intros -> ; apply mk_l1_ok|]. split; [intros -> H | intros ->; reflexivity]. unfold mk_l1, known_formulation in *. cbn [negb bind].
  destruct (String.eqb_spec f "penalizedl1"); [tauto|]. destruct (String.eqb_spec f "constrainedl1"); [tauto|]. destruct (String.eqb_spec f "constrainedl2"); [tauto | reflexivity].
Qed.
Theorem C77_needs_cvxpy : forall cvx m k n cplx, (cvx = true -> exists p, mk_l21 cvx m k n cplx = Ok p) /\ (cvx = false -> mk_l21 cvx m k n cplx = Raise RuntimeError).
Proof. intros cvx m k n cplx. split; intros ->; [eexists|]; reflexivity. Qed.
(** after any history of calls: the solver gets the documented problem for the data of this call, and its answer is what solve returns (zeros unless 'optimal') *)
Theorem C77_solve : forall sv m k f nonnegative p0 calls A b l o,
  mk_l1 true m k f nonnegative = Ok p0 -> nr A = m -> nc A = k -> nr b = m -> nc b = 1 -> (0 <= l)%R ->
  exists pr warm, (forall x, minimises k 1 pr x <-> doc_solution f nonnegative A b l x) /\
    fst (l1_solve sv (after_solves sv p0 calls) A b l o) =
      match sv pr warm o with
      | Raise e => Raise e
      | Ok (status, x) => Ok (if String.eqb status "optimal" then LCol x else LZeros k)
      end.
Proof.
  intros sv m k f nn p0 calls A b l o H0 A1 A2 B1 B2 Hl. destruct (l1_after sv m k f nn p0 (after_solves sv p0 calls) A b l H0 (after_same sv calls p0) A1 A2 B1 B2 Hl) as (M1 & M2).
  eexists; eexists. split; [exact M1|]. rewrite M2. reflexivity.
Qed.
(** with a solver that is right whenever it reports 'optimal', solve returns an optimum of the documented problem or zeros *)
Theorem C77_optimum : forall sv m k f nonnegative p0 calls A b l o v,
  (forall pr warm o x, sv pr warm o = Ok ("optimal"%string, x) -> minimises k 1 pr x) ->
  mk_l1 true m k f nonnegative = Ok p0 -> nr A = m -> nc A = k -> nr b = m -> nc b = 1 -> (0 <= l)%R ->
  fst (l1_solve sv (after_solves sv p0 calls) A b l o) = Ok v ->
  (exists x, v = LCol x /\ doc_solution f nonnegative A b l x) \/ v = LZeros k.
Proof.
  intros sv m k f nn p0 calls A b l o v HS H0 A1 A2 B1 B2 Hl HV. destruct (C77_solve sv m k f nn p0 calls A b l o H0 A1 A2 B1 B2 Hl) as (pr & w & M & E). rewrite E in HV.
  destruct (sv pr w o) as [(st, x)|] eqn:ES; [|discriminate]. injection HV as <-. destruct (String.eqb_spec st "optimal") as [->|]; [|now right]. left. exists x. split; [reflexivity|]. apply M. eapply HS. exact ES.
Qed.
(** data of the wrong shape and negative l are refused, before the solver is called *)
Theorem C77_rejects : forall sv m k f nonnegative p0 calls A b l o,
  mk_l1 true m k f nonnegative = Ok p0 -> ~ (nr A = m /\ nc A = k /\ nr b = m /\ nc b = 1 /\ (0 <= l)%R) ->
  fst (l1_solve sv (after_solves sv p0 calls) A b l o) = Raise ValueError.
Proof.
  intros sv m k f nn p0 calls A b l o H0 HB. destruct (mk_l1_known _ _ _ _ _ _ H0) as (_ & _ & M1 & M2 & _). destruct (after_same sv calls p0) as (S1 & S2 & _). rewrite M1 in S1. rewrite M2 in S2.
  unfold l1_solve, check_shape, check_nonneg. rewrite S1, S2.
  destruct (Nat.eqb_spec (nr A) m); [|reflexivity]. destruct (Nat.eqb_spec (nc A) k); [|reflexivity]. cbn [andb l1_m]. destruct (Nat.eqb_spec (nr b) m); [|reflexivity]. destruct (Nat.eqb_spec (nc b) 1); [|reflexivity]. cbn [andb]. destruct (Rle_dec 0 l); [|reflexivity]. exfalso. apply HB. auto.
Qed.
(** the group-sparse problem *)
Theorem C77_solve21 : forall sv m k n cplx p0 calls A B l o,
  mk_l21 true m k n cplx = Ok p0 -> nr A = m -> nc A = k -> nr B = m -> nc B = n -> (0 <= l)%R ->
  (cplx = false -> (forall i j, i < nr A -> j < nc A -> Im (ent A i j) = 0%R) /\ (forall i j, i < nr B -> j < nc B -> Im (ent B i j) = 0%R)) ->
  exists pr warm, (forall X, minimises k n pr X <-> doc_solution21 cplx A B l X) /\
    fst (l21_solve sv (after_solves21 sv p0 calls) A B l o) =
      match sv pr warm o with
      | Raise e => Raise e
      | Ok (status, X) => Ok (if String.eqb status "optimal" then X else Mat k n (fun _ _ => RtoC 0))
      end.
Proof.
  intros sv m k n cplx p0 calls A B l o H0 A1 A2 B1 B2 Hl HC. injection H0 as <-. pose proof (after_same21 sv calls (L21Prob m k n cplx None)) as (S1 & S2 & S3 & S4). cbn [l2_m l2_k l2_n l2_complex] in *.
  exists (l21_instance cplx A B l), (l2_x (after_solves21 sv (L21Prob m k n cplx None) calls)). split; [intros X; rewrite <- A2, <- B2; apply l21_equiv; congruence|].
  rewrite l21_solve_ok; [rewrite S2, S3, S4; reflexivity | congruence.. | exact Hl|]. rewrite S4. intros E. destruct (HC E) as (C1 & C2). split; apply all_real_iff; assumption.
Qed.
Theorem C77_rejects21 : forall sv m k n cplx p0 calls A B l o,
  mk_l21 true m k n cplx = Ok p0 -> ~ (nr A = m /\ nc A = k /\ nr B = m /\ nc B = n /\ (0 <= l)%R) ->
  fst (l21_solve sv (after_solves21 sv p0 calls) A B l o) = Raise ValueError.
Proof.
  intros sv m k n cplx p0 calls A B l o H0 HB. injection H0 as <-. pose proof (after_same21 sv calls (L21Prob m k n cplx None)) as (S1 & S2 & S3 & S4). cbn [l2_m l2_k l2_n l2_complex] in *.
  unfold l21_solve, check_param, check_shape, check_nonneg. rewrite S1, S2, S3, S4.
  destruct (Nat.eqb_spec (nr A) m); [|reflexivity]. destruct (Nat.eqb_spec (nc A) k); [|reflexivity]. cbn [andb bind]. destruct (cplx || all_real A); [|reflexivity]. cbn [bind]. destruct (Nat.eqb_spec (nr B) m); [|reflexivity]. destruct (Nat.eqb_spec (nc B) n); [|reflexivity]. cbn [andb bind]. destruct (cplx || all_real B); [|reflexivity]. cbn [bind]. destruct (Rle_dec 0 l); [|reflexivity]. exfalso. apply HB. auto.
Qed.

(** consequences of optimality when the data are explained by a feasible x0 up to a residual *)
Lemma ssq_nonneg n f : (0 <= ssq n f)%R.
Proof. apply rsum_nonneg. intros i _. rewrite <- Rsqr_pow2. apply Rle_0_sqr. Qed.
Lemma ssq_zero n f : (ssq n f <= 0)%R -> forall i, i < n -> f i = 0%R.
Proof.
  induction n as [|n IH]; intros H i Hi; [lia|]. unfold ssq in *. cbn [rsum] in H. pose proof (ssq_nonneg n f) as N. unfold ssq in N. assert (Q : (0 <= f n ^ 2)%R) by (rewrite <- Rsqr_pow2; apply Rle_0_sqr).
  destruct (Nat.eq_dec i n) as [->|]; [|apply IH; [lra | lia]]. assert (f n ^ 2 = 0)%R by lra. rewrite <- Rsqr_pow2 in H0. now apply Rsqr_0_uniq.
Qed.
Lemma l1norm_nonneg n x : (0 <= l1norm n x)%R.
Proof. apply rsum_nonneg. intros i _. apply Rabs_pos. Qed.
Lemma ssq_all_zero n f : (forall i, i < n -> f i = 0%R) -> ssq n f = 0%R.
Proof. intros H. unfold ssq. induction n as [|n IH]; cbn [rsum]; [reflexivity|]. rewrite IH, H by auto. ring. Qed.
Theorem C77_exact_data : forall f nonnegative A b l x x0,
  doc_solution f nonnegative A b l x -> (forall i, i < nr A -> residual A b x0 i = 0%R) ->
  (nonnegative = true -> forall j, j < nc A -> (0 <= x0 j)%R) -> (0 <= l)%R ->
  let xs := fun j => ent x j 0 in
  (f = "constrainedl1"%string -> (l1norm (nc A) x0 <= l)%R -> forall i, i < nr A -> residual A b xs i = 0%R) /\
  (f = "constrainedl2"%string -> (l1norm (nc A) xs <= l1norm (nc A) x0)%R /\ (ssq (nr A) (residual A b xs) <= l ^ 2)%R) /\
  (f = "penalizedl1"%string -> (ssq (nr A) (residual A b xs) <= 2 * l * l1norm (nc A) x0)%R /\ (0 < l -> l1norm (nc A) xs <= l1norm (nc A) x0)%R).
Proof.
  intros f nn A b l x x0 (X1 & X2 & (F1 & F2 & F3) & XM) HR HN Hl xs. pose proof (ssq_all_zero (nr A) (residual A b x0) HR) as Z.
  split; [|split].
  - intros -> HB. apply ssq_zero. specialize (XM x0). unfold doc_objective in XM. cbn [String.eqb Ascii.eqb Bool.eqb] in XM. rewrite Z in XM. apply XM. split; [auto|]. split; [discriminate | exact HN].
  - intros ->. split.
    + specialize (XM x0). unfold doc_objective in XM. cbn [String.eqb Ascii.eqb Bool.eqb] in XM. apply XM. split; [discriminate|]. split; [|exact HN]. intros _. rewrite Z, sqrt_0. exact Hl.
    + specialize (F2 eq_refl). fold xs in F2. pose proof (ssq_nonneg (nr A) (residual A b xs)) as N. rewrite <- (sqrt_sqrt _ N). pose proof (sqrt_pos (ssq (nr A) (residual A b xs))). nra.
  - intros ->. specialize (XM x0). unfold doc_objective in XM. cbn [String.eqb Ascii.eqb Bool.eqb] in XM. rewrite Z in XM. fold xs in XM.
    assert (Q : doc_feasible "penalizedl1" nn A b l x0) by (split; [discriminate|]; split; [discriminate | exact HN]). specialize (XM Q).
    pose proof (ssq_nonneg (nr A) (residual A b xs)) as N1. pose proof (l1norm_nonneg (nc A) xs) as N2. split; [nra|]. intros Hp. apply Rmult_le_reg_l with l; [exact Hp | nra].
Qed.

(** ** C03 *)
(** the dictionary the estimator builds for the grid, applied to the true parameters, is the vector it builds from the covariance matrix *)
Theorem C03_identity : forall arr lam g A noise_known, grid_steering arr lam g A ->
  exists Phi, scm_atom arr lam noise_known g = Ok Phi /\ nr Phi = 2 * (ar_size arr * ar_size arr) /\ nc Phi = (if noise_known then sg_size g else sg_size g + 1) /\
    forall p s Rm, Rm ==m grid_cov A p s ->
      exists r, scm_vector (denoised noise_known s Rm) = Ok r /\ nr r = nr Phi /\ nc r = 1 /\
        forall row, row < nr Phi -> rsum (nc Phi) (fun c => ent Phi row c * (if Nat.ltb c (sg_size g) then p c else s))%R = ent r row 0.
Proof.
  intros arr lam g A nk HG. destruct (dictionary_ok arr lam g A nk HG) as (A1 & A2 & Phi & E & D1 & D2 & D3). exists Phi. split; [exact E|]. split; [congruence|]. split; [now rewrite D2, A2|].
  intros p s Rm HR. destruct (scm_vector_ok (denoised nk s Rm)) as (r & ER & SR). exists r. split; [exact ER|]. pose proof HR as (H1 & H2 & H3). cbn [grid_cov nr nc] in H1, H2.
  split; [destruct SR as (-> & _); cbn [denoised nr nc]; rewrite H1, H2; congruence|]. split; [apply SR|]. intros row Hr.
  specialize (D3 p s r). rewrite A2 in D3. unfold truth in D3. apply D3; [|exact Hr]. apply (stacks_ext r (denoised nk s Rm)); [|exact SR].
  split; [exact H1|]. split; [exact H2|]. cbn [denoised nr nc ent]. intros i j Hi Hj. rewrite H3 by assumption. cbn [grid_cov ent]. destruct nk, (Nat.eqb i j); ring.
Qed.
Lemma stacks_inj r A B : nr A = nr B -> nc A = nc B -> stacks r A -> stacks r B -> A ==m B.
Proof.
  intros E1 E2 (_ & _ & SA) (_ & _ & SB). split; [exact E1|]. split; [exact E2|]. intros i j Hi Hj. destruct (SA i j Hi Hj) as (a1 & a2). rewrite <- E1, <- E2 in SB. destruct (SB i j Hi Hj) as (b1 & b2).
  destruct (ent A i j) as (u, v), (ent B i j) as (u', v'). cbn in *. congruence.
Qed.
Lemma dictionary_reproduces A nk Phi r x s s0 Rm : is_dictionary A nk Phi -> stacks r (denoised nk s0 Rm) -> nr Rm = nr A -> nc Rm = nr A ->
  (forall row, row < nr Phi -> rsum (nc Phi) (fun c => ent Phi row c * x c)%R = ent r row 0) -> s = (if nk then s0 else x (nc A)) -> grid_cov A x s ==m Rm.
Proof.
  intros (D1 & D2 & D3) SR R1 R2 HE ->. destruct (scm_vector_ok (grid_cov A x (if nk then 0%R else x (nc A)))) as (r' & _ & SR').
  assert (ER : r' ==m r).
  { destruct SR as (S1 & S2 & S3). cbn [denoised nr nc] in S1. rewrite R1, R2 in S1. pose proof SR' as (T1 & T2 & _). cbn [grid_cov nr nc] in T1. split; [congruence|]. split; [congruence|]. intros i j Hi Hj. rewrite T2 in Hj. assert (j = 0) as -> by lia.
    rewrite <- HE by congruence. rewrite <- (D3 x (x (nc A)) r' SR') by congruence. apply rsum_ext. intros c Hc. f_equal. unfold truth. rewrite D2 in Hc. destruct (Nat.ltb_spec c (nc A)); [reflexivity|]. f_equal. destruct nk; lia. }
  assert (SR2 : stacks r' (denoised nk s0 Rm)).
  { destruct ER as (E1 & E2 & E3). destruct SR as (S1 & S2 & S3). split; [congruence|]. split; [congruence|]. intros i j Hi Hj. cbn [denoised nr nc] in *. assert (Q : i + j * nr Rm < nr Rm * nc Rm) by nia. rewrite !E3 by lia. apply S3; assumption. }
  pose proof (stacks_inj r' (grid_cov A x (if nk then 0%R else x (nc A))) (denoised nk s0 Rm) ltac:(cbn [grid_cov denoised nr]; congruence) ltac:(cbn [grid_cov denoised nc]; congruence) SR' SR2) as (E1 & E2 & E3). cbn [grid_cov denoised nr nc ent] in E1, E2, E3.
  split; [exact E1|]. split; [exact E2|]. cbn [grid_cov nr nc ent]. intros i j Hi Hj. specialize (E3 i j Hi Hj). destruct nk.
  - replace (ent Rm i j) with ((ent Rm i j - (if Nat.eqb i j then RtoC s0 else RtoC 0)) + (if Nat.eqb i j then RtoC s0 else RtoC 0))%C by (destruct (Nat.eqb i j); ring). rewrite <- E3. destruct (Nat.eqb i j); ring.
  - rewrite E3. ring.
Qed.
(** exact covariance data: every solution of the 'constrainedl1' problem with a sufficient budget reproduces the covariance matrix, and equals the true powers if
    the columns of the dictionary are linearly independent *)
Theorem C03_recovery : forall A noise_known Phi r p s l x,
  is_dictionary A noise_known Phi -> stacks r (denoised noise_known s (grid_cov A p s)) -> (forall c, c < nc A -> (0 <= p c)%R) -> (0 <= s)%R ->
  (rsum (nc A) p + (if noise_known then 0 else s) <= l)%R -> doc_solution "constrainedl1" true Phi r l x ->
  let xs := fun j => ent x j 0 in
  grid_cov A xs (if noise_known then s else xs (nc A)) ==m grid_cov A p s /\
  ((forall z, (forall row, row < nr Phi -> rsum (nc Phi) (fun c => ent Phi row c * z c)%R = 0%R) -> forall c, c < nc Phi -> z c = 0%R) ->
   forall c, c < nc A -> xs c = p c).
Proof.
  intros A nk Phi r p s l x ID SR Hp Hs HB HD xs. pose proof ID as (D1 & D2 & D3).
  assert (SR0 : stacks r (grid_cov A p (if nk then 0%R else s))).
  { apply (stacks_ext r (denoised nk s (grid_cov A p s))); [|exact SR]. split; [reflexivity|]. split; [reflexivity|]. cbn [denoised nr nc ent grid_cov]. intros i j _ _. destruct nk, (Nat.eqb i j); ring. }
  assert (ZT : forall i, i < nr Phi -> residual Phi r (truth (nc A) p s) i = 0%R) by (intros i Hi; unfold residual; rewrite (D3 p s r SR0 i Hi); ring).
  assert (PT : forall j, j < nc Phi -> (0 <= truth (nc A) p s j)%R) by (intros j _; unfold truth; destruct (Nat.ltb_spec j (nc A)); auto).
  assert (NT : l1norm (nc Phi) (truth (nc A) p s) = (rsum (nc A) p + (if nk then 0 else s))%R).
  { unfold l1norm. assert (S0 : rsum (nc A) (fun i => Rabs (truth (nc A) p s i)) = rsum (nc A) p) by (apply rsum_ext; intros i Hi; unfold truth; pose proof Hi as Hi'; apply Nat.ltb_lt in Hi'; rewrite Hi'; apply Rabs_pos_eq; auto).
    rewrite D2. destruct nk; [rewrite S0; ring|]. rewrite Nat.add_1_r. cbn [rsum]. rewrite S0. unfold truth. rewrite Nat.ltb_irrefl, Rabs_pos_eq by assumption. reflexivity. }
  assert (Hl : (0 <= l)%R) by (pose proof (l1norm_nonneg (nc Phi) (truth (nc A) p s)); lra).
  destruct (C77_exact_data "constrainedl1" true Phi r l x (truth (nc A) p s) HD ZT (fun _ => PT) Hl) as (C & _). specialize (C eq_refl ltac:(rewrite NT; exact HB)).
  assert (HE : forall row, row < nr Phi -> rsum (nc Phi) (fun c => ent Phi row c * xs c)%R = ent r row 0) by (intros row Hr; specialize (C row Hr); apply Rminus_diag_uniq; exact C).
  split.
  - apply (dictionary_reproduces A nk Phi r xs _ s (grid_cov A p s) ID SR eq_refl eq_refl HE eq_refl).
  - intros INJ c Hc. specialize (INJ (fun c => (xs c - truth (nc A) p s c)%R)). assert (Q : (xs c - truth (nc A) p s c)%R = 0%R).
    { apply INJ; [|rewrite D2; destruct nk; lia]. intros row Hr. rewrite (rsum_ext _ _ (fun c => (ent Phi row c * xs c + -1 * (ent Phi row c * truth (nc A) p s c))%R)) by (intros; ring). rewrite rsum_plus, rsum_scal. rewrite (HE row Hr), (D3 p s r SR0 row Hr). ring. }
    unfold truth in Q. apply Nat.ltb_lt in Hc. rewrite Hc in Q. lra.
Qed.

(** ** C76 *)
(** for every object reached by any calls of estimate: the dictionary and data vector of the identity C03, the documented problem for this call's R, l and sigma, what becomes of
    each outcome of the solver; no array that existed before the call is modified *)
Theorem C76_estimate : forall sv arr lam g pl pf argsort caching noise_known f c0 c A h m Rv k l sigma s o return_spectrum,
  grid_steering arr lam g A -> mk_scm true arr lam g pl pf argsort caching noise_known f = Ok c0 -> scm_reach sv c0 c ->
  v_nr Rv = ar_size arr -> v_nc Rv = ar_size arr -> (0 <= l)%R -> (noise_known = true -> sigma = Some s) ->
  exists Phi r pr w, is_dictionary A noise_known Phi /\ nr Phi = 2 * (ar_size arr * ar_size arr) /\ nc Phi = (if noise_known then sg_size g else sg_size g + 1) /\
    stacks r (denoised noise_known s (v_read m Rv)) /\ (forall x, minimises (nc Phi) 1 pr x <-> doc_solution f true Phi r l x) /\
    let '(rr, c', h', m') := scm_estimate sv c h m Rv k l sigma o (Skw None return_spectrum) in
    (forall v, v_buf v < m_next m -> v_read m' v = v_read m v) /\
    match sv pr w o with
    | Raise e => rr = Raise e /\ h' = h
    | Ok (status, x) => (status = "optimal"%string -> nr x = nc Phi /\ nc x = 1) ->
        exists sp, List.length sp = sg_size g /\
          (status = "optimal"%string -> sp = map (fun i => ent x i 0) (seq 0 (sg_size g))) /\
          (status <> "optimal"%string -> sp = repeat 0%R (sg_size g)) /\
          (rr, h') = from_spectrum g pl pf argsort h sp k return_spectrum
    end.
Proof. exact scm_estimate_ok. Qed.
(** R is never modified, whatever the arguments *)
Theorem C76_R_untouched : forall sv c h m Rv k l sigma o kw v, v_buf v < m_next m ->
  v_read (snd (scm_estimate sv c h m Rv k l sigma o kw)) v = v_read m v.
Proof.
  intros. unfold scm_estimate. destruct (kw_refine kw); [reflexivity|].
  assert (Q : forall m1 Rv1, (let! _ := ensure_covariance_size [v_nr Rv; v_nc Rv] (ar_size (sc_array c)) in if sc_known c then match sigma with None => Raise ValueError | Some s => let! D := np_sub (v_read m Rv) (mscal (RtoC s) (mid (ar_size (sc_array c)))) in Ok (m_alloc m D) end else Ok (m, Rv)) = Ok (m1, Rv1) -> v_read m1 v = v_read m v).
  { intros m1 Rv1 E. apply bind_Ok_inv in E as (? & _ & E). destruct (sc_known c); [|injection E as <- _; reflexivity]. destruct sigma; [|discriminate]. apply bind_Ok_inv in E as (D & _ & E). injection E as <- _. now apply read_alloc_old. }
  destruct (bind _ _) as [(m1, Rv1)|]; [|reflexivity]. specialize (Q m1 Rv1 eq_refl). destruct (get_atom_matrix _ _) as [[Phi|] est]; cbn [snd]; [|exact Q]. destruct (scm_spectrum _ _ _ _ _ _ _) as (sp, p). rewrite do_estimate_from_pure. destruct (estimate_from _ _ _ _ _ _) as [(oc, h')|]; exact Q.
Qed.
(** guards: grid refinement (whatever its value), missing sigma, wrong number of rows; nothing is changed *)
Theorem C76_guards : forall sv c h m Rv k l sigma o kw,
  (kw_refine kw <> None \/ v_nr Rv <> ar_size (sc_array c) \/ (sc_known c = true /\ sigma = None)) ->
  scm_estimate sv c h m Rv k l sigma o kw = (Raise ValueError, c, h, m).
Proof.
  intros sv c h m Rv k l sigma o kw H. unfold scm_estimate. destruct (kw_refine kw); [reflexivity|]. unfold ensure_covariance_size. cbn [List.length nth Nat.eqb negb bind]. destruct (Nat.eqb_spec (v_nr Rv) (ar_size (sc_array c))); [|reflexivity]. cbn [negb orb bind].
  destruct H as [H|[H|(H1 & H2)]]; [congruence..|]. rewrite H1, H2. reflexivity.
Qed.
(** a non-square R: refused if the noise is unknown *)
Theorem C76_nonsquare : forall sv arr lam g pl pf argsort caching f c0 c A h m Rv k l sigma o return_spectrum,
  grid_steering arr lam g A -> mk_scm true arr lam g pl pf argsort caching false f = Ok c0 -> scm_reach sv c0 c ->
  v_nr Rv = ar_size arr -> v_nc Rv <> ar_size arr -> 0 < ar_size arr ->
  fst (fst (fst (scm_estimate sv c h m Rv k l sigma o (Skw None return_spectrum)))) = Raise ValueError.
Proof.
  intros sv arr lam g pl pf argsort caching f c0 c A h m Rv k l sigma o rs HG H0 HR V1 V2 HM. destruct (dictionary_ok arr lam g A false HG) as (A1 & A2 & Phi & EP & ID).
  unfold mk_scm in H0. apply bind_Ok_inv in H0 as (p0 & HP & H0). injection H0 as <-. set (est0 := Est g pl (scm_atom arr lam false) pf argsort caching None) in *.
  destruct (scm_reach_inv sv (Scm arr false est0 p0) c eq_refl HR) as (C1 & C2 & C3 & C4). cbn [sc_array sc_known sc_est sc_prob] in *.
  destruct (get_atom_ok est0 (sc_est c) eq_refl C3) as (G1 & G2). cbn [est0 e_atom e_grid] in G1. rewrite EP in G1. pose proof ID as (D1 & D2 & _). rewrite A1 in D1. rewrite A2 in D2.
  unfold scm_estimate. cbn [kw_refine kw_spectrum]. unfold ensure_covariance_size. cbn [List.length nth Nat.eqb negb bind]. rewrite C1, V1, Nat.eqb_refl. cbn [negb orb bind]. rewrite C2. destruct (get_atom_matrix (sc_est c) None) as (ga, est). cbn [fst] in G1. rewrite G1.
  unfold scm_spectrum. destruct (scm_vector_ok (v_read m Rv)) as (r & ER & SR). rewrite ER.
  assert (LS : fst (l1_solve sv (sc_prob c) Phi r l o) = Raise ValueError).
  { destruct (mk_l1_known _ _ _ _ _ _ HP) as (_ & _ & M1 & M2 & _). destruct C4 as (S1 & S2 & _). rewrite M1 in S1. rewrite M2 in S2. unfold l1_solve, check_shape. rewrite S1, S2, D1, D2, !Nat.eqb_refl. cbn [andb l1_m]. destruct SR as (R1 & _). cbn [v_read nr nc] in R1. rewrite V1 in R1.
    destruct (Nat.eqb_spec (nr r) (2 * (ar_size arr * ar_size arr))); [exfalso; nia | reflexivity]. }
  destruct (l1_solve sv (sc_prob c) Phi r l o) as (v, p). cbn [fst] in LS. subst v. cbn [bind]. rewrite do_estimate_from_pure, from_raise. reflexivity.
Qed.
(** ... but an M x 1 array is silently repeated to M x M if the noise is known: the estimate is computed from repeated columns *)
Theorem C76_column_accepted_defect : forall sv arr lam g pl pf argsort caching f c0 c A h m Rv k l s o return_spectrum,
  grid_steering arr lam g A -> mk_scm true arr lam g pl pf argsort caching true f = Ok c0 -> scm_reach sv c0 c ->
  v_nr Rv = ar_size arr -> v_nc Rv = 1 -> (0 <= l)%R ->
  exists Phi r pr w, is_dictionary A true Phi /\ stacks r (denoised true s (repeat_column (ar_size arr) (v_read m Rv))) /\ (forall x, minimises (nc Phi) 1 pr x <-> doc_solution f true Phi r l x) /\
    let '(rr, c', h', m') := scm_estimate sv c h m Rv k l (Some s) o (Skw None return_spectrum) in
    forall status x, sv pr w o = Ok (status, x) -> (status = "optimal"%string -> nr x = nc Phi /\ nc x = 1) ->
        exists sp, (status = "optimal"%string -> sp = map (fun i => ent x i 0) (seq 0 (sg_size g))) /\ (rr, h') = from_spectrum g pl pf argsort h sp k return_spectrum.
Proof.
  intros sv arr lam g pl pf argsort caching f c0 c A h m Rv k l s o rs HG H0 HR V1 V2 Hl.
  destruct (scm_estimate_gen sv arr lam g pl pf argsort caching true f c0 c A h m Rv k l (Some s) (denoised true s (repeat_column (ar_size arr) (v_read m Rv))) o rs HG H0 HR V1 V1 eq_refl Hl (pre_column arr m Rv s V1 V2)) as (Phi & r & pr & w & G1 & _ & _ & G2 & G3 & G4).
  exists Phi, r, pr, w. split; [exact G1|]. split; [exact G2|]. split; [exact G3|]. destruct (scm_estimate _ _ _ _ _ _ _ _ _ _) as (((rr, c'), h'), m'). destruct G4 as (_ & G4). intros st x E HX. rewrite E in G4. destruct (G4 HX) as (sp & _ & P1 & _ & P3). exists sp. auto.
Qed.
(** GroupSparseEstimator *)
Theorem C76_group_estimate : forall sv arr lam g pl pf argsort caching n c0 c A h Y k l o return_spectrum,
  grid_steering arr lam g A -> mk_gsparse true arr lam g pl pf argsort caching n = Ok c0 -> gs_reach sv c0 c ->
  nr Y = ar_size arr -> nc Y = n -> (0 <= l)%R ->
  exists pr w, (forall X, minimises (sg_size g) n pr X <-> doc_solution21 true A Y l X) /\
    let '(rr, c', h') := gs_estimate sv c h Y k l o (Skw None return_spectrum) in
    match sv pr w o with
    | Raise e => rr = Raise e /\ h' = h
    | Ok (status, X) => (status = "optimal"%string -> nr X = sg_size g) ->
        exists sp, List.length sp = sg_size g /\
          (status = "optimal"%string -> sp = map (fun i => sqrt (rsum (nc X) (fun j => Cnorm2 (ent X i j)))) (seq 0 (sg_size g))) /\
          (status <> "optimal"%string -> sp = repeat 0%R (sg_size g)) /\
          (rr, h') = from_spectrum g pl pf argsort h sp k return_spectrum
    end.
Proof. exact gs_estimate_ok. Qed.
Theorem C76_group_guards : forall sv arr lam g pl pf argsort caching n c0 c h Y k l o kw,
  mk_gsparse true arr lam g pl pf argsort caching n = Ok c0 -> gs_reach sv c0 c ->
  kw_refine kw <> None \/ nr Y <> ar_size arr \/ nc Y <> n ->
  gs_estimate sv c h Y k l o kw = (Raise ValueError, c, h).
Proof.
  intros sv arr lam g pl pf argsort caching n c0 c h Y k l o kw H0 HR H. injection H0 as H0. assert (N0 : e_cache (gs_est c0) = None) by (rewrite <- H0; reflexivity). destruct (gs_reach_inv sv c0 c N0 HR) as (C1 & C2 & _). rewrite <- H0 in C1, C2. cbn [gs_array gs_n] in C1, C2. unfold gs_estimate. destruct (kw_refine kw); [reflexivity|].
  rewrite C1, C2. destruct (Nat.eqb_spec (nr Y) (ar_size arr)); [|reflexivity]. destruct (Nat.eqb_spec (nc Y) n); [|reflexivity]. destruct H as [H|[H|H]]; congruence.
Qed.
(** a failed solver on a 1-D grid: with a peak finder that sees no peak in a constant spectrum, the estimate is reported as unresolved *)
Theorem C76_failure_1d : forall g pl find_peaks argsort h k n return_spectrum, sg_shape g = [n] -> find_peaks (repeat 0%R n) = [] -> (1 <= k)%Z ->
  from_spectrum g pl (find_peaks_simple find_peaks) argsort h (repeat 0%R (sg_size g)) k return_spectrum = (Ok (Outcome false None (if return_spectrum then Some (repeat 0%R (sg_size g)) else None)), h).
Proof.
  intros g pl fp argsort h k n rs SH HF Hk. assert (SZ : sg_size g = n) by (unfold sg_size; rewrite SH; cbn; lia). unfold from_spectrum. rewrite estimate_eq. cbn [get_atom_matrix e_cache e_atom e_caching]. unfold estimate_from. cbn [e_grid e_pf bind o_spectrum]. rewrite SH, SZ, repeat_length. cbn [prod_list fold_right]. rewrite Nat.mul_1_r, Nat.eqb_refl. cbn [negb bind].
  unfold find_peaks_simple. cbn [List.length Nat.eqb]. rewrite HF. cbn [map List.length Z.of_nat]. destruct (Z.ltb_spec 0 k); [reflexivity | lia].
Qed.
(** on a 2-D grid every point of the zero spectrum counts as a peak: estimate reports resolved = True although the solver failed *)
Theorem C76_failure_2d_defect : forall g pl find_peaks argsort h k return_spectrum,
  List.length (sg_shape g) = 2 -> est_ok (Est g pl (fun _ => Ok tt) (find_peaks_simple find_peaks) argsort false None) h ->
  (forall v, is_argsort v (argsort v)) -> 1 <= k -> k <= sg_size g ->
  exists est h', from_spectrum g pl (find_peaks_simple find_peaks) argsort h (repeat 0%R (sg_size g)) (Z.of_nat k) return_spectrum =
    (Ok (Outcome true (Some est) (if return_spectrum then Some (repeat 0%R (sg_size g)) else None)), h').
Proof.
  intros g pl fp argsort h k rs SH EO AS K1 K2. set (e := Est g pl (fun _ => Ok tt) (find_peaks_simple fp) argsort false None) in *. set (sp := repeat 0%R (sg_size g)).
  destruct (C47_local_maxima fp (sg_shape g) sp ltac:(lia)) as (PK & _ & _).
  assert (AZ : forall idx, at_idx (sg_shape g) sp idx = 0%R) by (intros idx; unfold at_idx, sp; apply nth_repeat).
  assert (PA : find_peaks_simple fp (sg_shape g) sp = all_indices (sg_shape g)).
  { unfold find_peaks_simple. destruct (Nat.eqb_spec (List.length (sg_shape g)) 1); [lia|]. assert (FT : forall (f : list nat -> bool) l, (forall a, f a = true) -> filter f l = l) by (intros f l Hf; induction l as [|a l IH]; cbn; [reflexivity | rewrite Hf, IH; reflexivity]). apply FT. intros idx. unfold maximum_filter3. rewrite AZ. unfold Reqb. match goal with |- (if Req_EM_T _ ?b then _ else _) = _ => replace b with 0%R end; [destruct (Req_EM_T 0 0); [reflexivity | lra]|].
    symmetry. induction (window (sg_shape g) idx) as [|a l IH]; cbn [map fold_left]; [reflexivity|]. rewrite AZ. unfold Rmax. destruct (Rle_dec 0 0); exact IH. }
  destruct (C46_k_largest_peaks unit e h (fun _ => Ok sp) tt sp k (Opts rs false 10 3) EO eq_refl eq_refl) as (e' & _ & EK).
  - unfold sp. apply repeat_length.
  - cbn [e e_grid e_pf]. intros p Hp. apply PK in Hp. tauto.
  - apply AS.
  - exact K1.
  - reflexivity.
  - cbn [e e_grid e_pf] in EK. rewrite PA in EK. assert (LA : k <= List.length (all_indices (sg_shape g))).
    { rewrite length_all_indices. exact K2. }
    destruct (EK LA) as (est & h' & ch & rest & EE & _). exists est, h'. unfold from_spectrum. fold e. rewrite EE. reflexivity.
Qed.

(** ** Non-vacuity *)
(** every valid grid has a steering matrix: the hypothesis [grid_steering] is met by every unperturbed array of scalar isotropic elements *)
Lemma grid_steering_exists arr lam g : lam <> 0%R -> wf_array arr -> scalar_isotropic arr -> la_dt (ar_loc arr) = DFloat -> 1 <= ar_ndim arr <= 3 -> 0 < ar_size arr -> ar_perts arr = [] -> valid_grid g ->
  exists A, grid_steering arr lam g A.
Proof.
  intros NZ W I D N Sz P V. pose proof V as (PG & _). destruct (proj1 (proj1 (placement_spec g PG)) V) as (s & Hs).
  destruct (steering_defined arr s lam "known" [] true NZ I D N Sz) as (A & HA); [unfold select_perturbations, perturbations; rewrite P; reflexivity | intros p []|].
  exists A. split; [exact W|]. split; [exact I|]. split; [exact PG|]. exists s, []. auto.
Qed.
Definition ex_grid : sgrid := e_grid k0_est.
Example ex_grid_steering : exists v A, mk_ULA 2 (D0Scalar 1) None no_kwargs = Ok v /\ ar_size (gd_array v) = 2 /\ grid_steering (gd_array v) 2 ex_grid A.
Proof.
  destruct (ex_ula 1) as (v & w & E & _ & _ & _ & Pe & Iso & W). exists v. destruct (grid_steering_exists (gd_array v) 2 ex_grid ltac:(lra) W Iso) as (A & HA); try (cbn in E; injection E as <-; cbn; lia || reflexivity); [apply k0_valid|].
  exists A. split; [exact E|]. split; [cbn in E; injection E as <-; reflexivity | exact HA].
Qed.
(** the truth solves the problem of C03_recovery, so that a correct solver has something to return *)
Example C03_truth_is_solution : forall A noise_known Phi r p s l,
  is_dictionary A noise_known Phi -> stacks r (denoised noise_known s (grid_cov A p s)) -> (forall c, c < nc A -> (0 <= p c)%R) -> (0 <= s)%R ->
  (rsum (nc A) p + (if noise_known then 0 else s) <= l)%R -> doc_solution "constrainedl1" true Phi r l (Mat (nc Phi) 1 (fun c _ => truth (nc A) p s c)).
Proof.
  intros A nk Phi r p s l ID SR Hp Hs HB. pose proof ID as (D1 & D2 & D3).
  assert (SR0 : stacks r (grid_cov A p (if nk then 0%R else s))).
  { apply (stacks_ext r (denoised nk s (grid_cov A p s))); [|exact SR]. split; [reflexivity|]. split; [reflexivity|]. cbn [denoised nr nc ent grid_cov]. intros i j _ _. destruct nk, (Nat.eqb i j); ring. }
  split; [reflexivity|]. split; [reflexivity|]. cbn [ent]. split.
  - split; [|split; [discriminate|]].
    + intros _. unfold l1norm. assert (S0 : rsum (nc A) (fun i => Rabs (truth (nc A) p s i)) = rsum (nc A) p) by (apply rsum_ext; intros i Hi; unfold truth; pose proof Hi as Hi'; apply Nat.ltb_lt in Hi'; rewrite Hi'; apply Rabs_pos_eq; auto).
      rewrite D2. destruct nk; [rewrite S0; lra|]. rewrite Nat.add_1_r. cbn [rsum]. rewrite S0. unfold truth. rewrite Nat.ltb_irrefl, Rabs_pos_eq by assumption. exact HB.
    + intros _ j _. unfold truth. destruct (Nat.ltb_spec j (nc A)); auto.
  - intros y _. unfold doc_objective. cbn [String.eqb Ascii.eqb Bool.eqb]. rewrite ssq_all_zero; [apply ssq_nonneg|]. intros i Hi. unfold residual. cbn [ent]. rewrite (D3 p s r SR0 i Hi). ring.
Qed.
(** an estimator object on that grid, and a run with a solver that gives up *)
Example C76_example : exists v A c, mk_ULA 2 (D0Scalar 1) None no_kwargs = Ok v /\ grid_steering (gd_array v) 2 ex_grid A /\
  mk_scm true (gd_array v) 2 ex_grid (e_pl k0_est) (find_peaks_simple (fun _ => [])) (fun _ => []) true false "penalizedl1" = Ok c /\
  exists c' m', scm_estimate (fun _ _ _ => Ok ("infeasible"%string, Mat 0 0 (fun _ _ => 0%R))) c [[[0]; [1]; [2]]]%R (Mem 1 (fun _ _ => RtoC 1)) (View 0 0 2 2 2) 1 (1 / 2) None "" (Skw None true)
    = (Ok (Outcome false None (Some [0; 0; 0]%R)), c', [[[0]; [1]; [2]]]%R, m').
Proof.
  destruct ex_grid_steering as (v & A & E & Sz & HA). destruct (mk_l1_ok (2 * (ar_size (gd_array v) * ar_size (gd_array v))) (sg_size ex_grid + 1) "penalizedl1" true ltac:(left; reflexivity)) as (p & HP).
  exists v, A. unfold mk_scm. rewrite HP. cbn [bind]. eexists. split; [exact E|]. split; [exact HA|]. split; [reflexivity|].
  set (c := Scm _ _ _ _). set (sv := fun _ _ _ => Ok _). set (m := Mem 1 _). set (Rv := View 0 0 2 2 2).
  assert (MC : mk_scm true (gd_array v) 2 ex_grid (e_pl k0_est) (find_peaks_simple (fun _ => [])) (fun _ => []) true false "penalizedl1" = Ok c) by (unfold mk_scm; rewrite HP; reflexivity).
  destruct (C76_estimate sv (gd_array v) 2 ex_grid (e_pl k0_est) (find_peaks_simple (fun _ => [])) (fun _ => []) true false "penalizedl1" c c A [[[0]; [1]; [2]]]%R m Rv 1 (1 / 2) None 0%R ""%string true HA MC (scm_new sv c)) as (Phi & r & pr & w & _ & _ & _ & _ & _ & H); [rewrite Sz; reflexivity | rewrite Sz; reflexivity | lra | discriminate|].
  destruct (scm_estimate sv c _ m Rv 1 (1 / 2) None ""%string (Skw None true)) as (((rr, c'), h'), m'). destruct H as (_ & H). cbn [sv] in H. destruct (H ltac:(discriminate)) as (sp & _ & _ & Z & FS). rewrite Z in FS by discriminate.
  rewrite (C76_failure_1d ex_grid (e_pl k0_est) (fun _ => []) (fun _ => []) _ 1 3 true eq_refl eq_refl ltac:(lia)) in FS. injection FS as -> ->. exists c', m'. reflexivity.
Qed.
(** a 2 x 2 grid meeting the hypotheses of C76_failure_2d_defect *)
Definition ex_grid2 : sgrid := SGrid G2D [vec1 [0; 1]%R; vec1 [0; 1]%R] "rad" DFloat.
Example C76_failure_2d_example : exists est h', from_spectrum ex_grid2 (Placement "FarField2DSourcePlacement" ["rad"%string] 0) (find_peaks_simple (fun _ => [])) (fun v => seq 0 (List.length v)) [[[0; 0]; [0; 1]; [1; 0]; [1; 1]]]%R (repeat 0%R 4) 1 false
  = (Ok (Outcome true (Some est) None), h').
Proof.
  eexists _, _. unfold from_spectrum. rewrite estimate_eq. cbn [get_atom_matrix e_cache e_atom e_caching]. unfold estimate_from. cbn [e_grid e_pf e_pl e_argsort bind o_spectrum o_refine repeat List.length].
  assert (PA : find_peaks_simple (fun _ => []) (sg_shape ex_grid2) [0; 0; 0; 0]%R = [[0; 0]; [0; 1]; [1; 0]; [1; 1]]).
  { unfold find_peaks_simple. cbn [ex_grid2 sg_shape map sg_axes ax_len vec1 nd_shape hd List.length Nat.eqb]. cbn -[Reqb Rmax]. repeat rewrite (Rmax_left 0 0) by lra. unfold Reqb. destruct (Req_EM_T 0 0); [reflexivity | lra]. }
  rewrite PA. cbn. reflexivity.
Qed.
Example C77_example : forall sv, exists p, mk_l1 true 1 1 "constrainedl1" true = Ok p /\ doc_solution "constrainedl1" true (Mat 1 1 (fun _ _ => 2%R)) (Mat 1 1 (fun _ _ => 4%R)) 3 (Mat 1 1 (fun _ _ => 2%R)) /\
  exists pr warm, fst (l1_solve sv (after_solves sv p [(Mat 1 1 (fun _ _ => 7%R), Mat 1 1 (fun _ _ => 1%R), 1%R, ""%string)]) (Mat 1 1 (fun _ _ => 2%R)) (Mat 1 1 (fun _ _ => 4%R)) 3 "") = l1_answer 1 (sv pr warm ""%string) /\ minimises 1 1 pr (Mat 1 1 (fun _ _ => 2%R)).
Proof.
  intros sv. destruct (mk_l1_ok 1 1 "constrainedl1" true ltac:(right; left; reflexivity)) as (p & HP). exists p. split; [exact HP|].
  assert (DS : doc_solution "constrainedl1" true (Mat 1 1 (fun _ _ => 2%R)) (Mat 1 1 (fun _ _ => 4%R)) 3 (Mat 1 1 (fun _ _ => 2%R))).
  { split; [reflexivity|]. split; [reflexivity|]. split.
    - split; [intros _; unfold l1norm; cbn; rewrite Rabs_pos_eq; lra|]. split; [discriminate|]. intros; cbn; lra.
    - intros y _. unfold doc_objective. cbn [String.eqb Ascii.eqb Bool.eqb]. rewrite ssq_all_zero; [apply ssq_nonneg|]. intros i _. unfold residual. cbn. ring. }
  split; [exact DS|]. destruct (C77_solve sv 1 1 "constrainedl1" true p [(Mat 1 1 (fun _ _ => 7%R), Mat 1 1 (fun _ _ => 1%R), 1%R, ""%string)] (Mat 1 1 (fun _ _ => 2%R)) (Mat 1 1 (fun _ _ => 4%R)) 3 ""%string HP eq_refl eq_refl eq_refl eq_refl ltac:(lra)) as (pr & w & M & E).
  exists pr, w. split; [exact E | apply M; exact DS].
Qed.
(** the group-sparse problem has solutions: zero data *)
Example C77_group_example : doc_solution21 true (Mat 1 1 (fun _ _ => RtoC 1)) (Mat 1 1 (fun _ _ => RtoC 0)) 1 (Mat 1 1 (fun _ _ => RtoC 0)).
Proof.
  split; [repeat split; discriminate|]. intros Y (Y1 & Y2 & _). unfold doc_objective21. cbn [nr nc ent rsum csum].
  rewrite (Rplus_comm 0). match goal with |- (?a <= ?b)%R => assert (a = 0)%R as -> end.
  { replace (_ + _ - _)%C with (RtoC 0) by ring. unfold Cnorm2, RtoC, Re, Im. cbn [fst snd]. rewrite !Rmult_0_l, !Rplus_0_l, sqrt_0. ring. }
  pose proof (Cnorm2_nonneg (RtoC 0 + RtoC 1 * ent Y 0%nat 0%nat - RtoC 0)%C). assert (0 <= rsum (nr Y) (fun i => sqrt (rsum (nc Y) (fun j => Cnorm2 (ent Y i j)))))%R by (apply rsum_nonneg; intros; apply sqrt_pos). nra.
Qed.

Print Assumptions C77_names. Print Assumptions C77_solve. Print Assumptions C77_optimum. Print Assumptions C77_rejects. Print Assumptions C77_solve21. Print Assumptions C77_rejects21. Print Assumptions C77_exact_data.
Print Assumptions C03_identity. Print Assumptions C03_recovery.
Print Assumptions C76_estimate. Print Assumptions C76_R_untouched. Print Assumptions C76_guards. Print Assumptions C76_nonsquare. Print Assumptions C76_column_accepted_defect. Print Assumptions C76_group_estimate. Print Assumptions C76_group_guards. Print Assumptions C76_failure_1d. Print Assumptions C76_failure_2d_defect.
