(** C97: maximum-likelihood objectives and estimates depend on the physical scene only. *)
From Coq Require Import Sorting.Sorted Sorting.Permutation.
From Verif Require P_signals P_sparse P_subspace3 Prop_array.
From Verif Require Import Base_Np Base_Lin M_utils M_sources M_array M_designs M_coarray M_heap M_grid M_core M_ml S_utils S_sources S_array S_model S_subspace S_perf S_ml P_utils P_model P_sources3 P_subspace P_subspace2 P_heap P_ml P_ml2 Prop_ml P_perf2 P_perf3 P_perf5 P_courant
  P_ml3 P_ml4 P_ml5 P_ml6 P_ml7 P_ml9 P_oracles P_gauss Prop_ml3 Prop_ml4 S_invar P_invar P_invar3 Prop_invar Prop_invar2 S_invar3 P_invar5 P_pinv.
Open Scope nat_scope.

(** *** the objective *)
(** The objective of a candidate placement, as estimate() computes it from the covariance matrix, and the objective of the same candidate with
    everything recorded in other coordinates (another order of the sensors, known phases) and in another amplitude scale c *)
Theorem C97_objective : forall env env' m U c k A A' (Rm Rm' : cmat) st st',
  ml_kind env' = ml_kind env -> ar_size (ml_array env) = m -> ar_size (ml_array env') = m -> ml_routines env -> ml_routines env' ->
  unitary m U -> (0 < c)%R -> k < m -> nr Rm = m -> hermitian Rm -> recorded_cov m U c 0 Rm Rm' -> same_subspace m U A A' ->
  (ml_kind env = WSF -> 1 <= k /\ forall w E, eigh_ok Rm w E -> gap k w) ->
  exists M M' v v', prepare_M env st Rm k = Ok M /\ prepare_M env' st' Rm' k = Ok M' /\
    nll env M A Rm k = Ok v /\ nll env' M' A' Rm' k = Ok v' /\ value_changed (ml_kind env) m c v v'.
Proof.
  intros env env' m U c k A A' Rm Rm' st st' HK Hm Hm' (Hp & Hg & Hr & Hz) (Hp' & Hg' & Hr' & Hz') HU Hc Hk R1 RH HR HS HW. rewrite Hm in Hp, Hg, Hr, Hz. rewrite Hm' in Hp', Hg', Hr', Hz'.
  destruct (rec_sizes m U c 0 Rm Rm' HU HR) as (t1 & t2). assert (R2 : nc Rm = m) by (rewrite <- R1; symmetry; apply RH).
  unfold prepare_M, nll. rewrite HK, Hm, Hm'. destruct (ml_kind env) eqn:EK.
  - destruct (aml_rec (ml_pinv env) (ml_pinv env') (ml_slogdet env) (ml_slogdet env') m k U c A A' Rm Rm' Hp Hp' Hr Hz Hr' Hz' HU Hc Hk HS R1 RH HR) as (v & v' & V & V' & Q).
    exists (ms_M st), (ms_M st'), v, v'. auto.
  - destruct (cml_rec (ml_pinv env) (ml_pinv env') m U c 0 A A' Rm Rm' Hp Hp' HU HS R1 R2 HR) as (P & x & y & _ & V & V' & Q). exists (ms_M st), (ms_M st'), (Some x), (Some y). do 4 (split; [auto; fail|]). cbn [value_changed]. rewrite Q. ring.
  - destruct (HW eq_refl) as (K1 & HG). destruct (Hg Rm RH ltac:(lia)) as (w & E & Ew & OE). assert (RH' : hermitian Rm') by (eapply (rec_hermitian m U c 0 Rm); eauto). destruct (Hg' Rm' RH' ltac:(lia)) as (w' & E' & Ew' & OE').
    pose proof (HG w E OE) as G. unfold gap in G. destruct OE as (o1 & o2 & o3 & o4 & o5) eqn:OEE. rewrite o4, R1 in G. clear OEE.
    destruct (wsf_rec (ml_eigh env) (ml_eigh env') m U c k Rm Rm' w E w' E' HU Hc ltac:(lia) R1 RH HR Ew ltac:(repeat (split; [assumption|]); assumption) Ew' OE' G) as (M & M' & EM & EM' & M1 & M2 & HM).
    rewrite EM, EM'. cbn [bind]. destruct (cml_rec (ml_pinv env) (ml_pinv env') m U c 0 A A' M M' Hp Hp' HU HS M1 M2 HM) as (P & x & y & _ & V & V' & Q). exists (Some M), (Some M'), (Some x), (Some y). do 4 (split; [auto; fail|]). cbn [value_changed]. rewrite Q. ring.
Qed.
(** hence the candidates are ordered in the same way, and the same ones are optimal *)
Theorem C97_same_minimisers : forall env env' m U c k A A' B B' (Rm Rm' : cmat) st st',
  ml_kind env' = ml_kind env -> ar_size (ml_array env) = m -> ar_size (ml_array env') = m -> ml_routines env -> ml_routines env' ->
  unitary m U -> (0 < c)%R -> k < m -> nr Rm = m -> hermitian Rm -> recorded_cov m U c 0 Rm Rm' -> same_subspace m U A A' -> same_subspace m U B B' ->
  (ml_kind env = WSF -> 1 <= k /\ forall w E, eigh_ok Rm w E -> gap k w) ->
  exists M M' a a' b b', prepare_M env st Rm k = Ok M /\ prepare_M env' st' Rm' k = Ok M' /\
    nll env M A Rm k = Ok a /\ nll env' M' A' Rm' k = Ok a' /\ nll env M B Rm k = Ok b /\ nll env' M' B' Rm' k = Ok b' /\
    (no_larger a b <-> no_larger a' b').
Proof.
  intros env env' m U c k A A' B B' Rm Rm' st st' HK Hm Hm' HE HE' HU Hc Hk R1 RH HR HA HB HW.
  destruct (C97_objective env env' m U c k A A' Rm Rm' st st' HK Hm Hm' HE HE' HU Hc Hk R1 RH HR HA HW) as (M & M' & a & a' & P1 & P2 & V1 & V2 & Q1).
  destruct (C97_objective env env' m U c k B B' Rm Rm' st st' HK Hm Hm' HE HE' HU Hc Hk R1 RH HR HB HW) as (N & N' & b & b' & P3 & P4 & V3 & V4 & Q2).
  rewrite P1 in P3. injection P3 as <-. rewrite P2 in P4. injection P4 as <-. exists M, M', a, a', b, b'. do 6 (split; [assumption|]).
  destruct a as [a|], a' as [a'|], b as [b|], b' as [b'|]; cbn in *; try tauto. subst a' b'.
  destruct (ml_kind env); [split; lra| |]; (split; [intros H; apply Rmult_le_compat_l; lra | intros H; apply (Rmult_le_reg_l c); assumption]).
Qed.
(** the conditional objective also keeps its order when the noise floor changes: every candidate (of k distinguishable sources) gains delta (m - k) *)
Theorem C97_cml_noise_floor : forall env env' m U c delta k A A' (Rm Rm' : cmat) M M',
  ml_kind env = CML -> ml_kind env' = CML -> ar_size (ml_array env) = m -> ar_size (ml_array env') = m -> ml_routines env -> ml_routines env' ->
  unitary m U -> nr Rm = m -> nc Rm = m -> recorded_cov m U c delta Rm Rm' -> same_subspace m U A A' -> inj A ->
  exists x, nll env M A Rm k = Ok (Some x) /\ nll env' M' A' Rm' k = Ok (Some (c * x + delta * (INR m - INR (nc A)))%R).
Proof.
  intros env env' m U c d k A A' Rm Rm' M M' HK HK' Hm Hm' (Hp & _) (Hp' & _) HU R1 R2 HR HS HA. rewrite Hm in Hp. rewrite Hm' in Hp'. unfold nll. rewrite HK, HK', Hm, Hm'.
  destruct (cml_rec (ml_pinv env) (ml_pinv env') m U c d A A' Rm Rm' Hp Hp' HU HS R1 R2 HR) as (P & x & y & OP & V & V' & Q). exists x. split; [exact V|]. rewrite V', Q. pose proof HS as (a1 & _).
  pose proof (q_trace_val A P OP HA) as T. rewrite a1 in T. rewrite T. reflexivity.
Qed.

(** *** the estimate *)
Lemma eval_heap env st o Rm k x h : snd (eval_nll env st o Rm k x h) = snd (update_from_x o x h).
Proof. unfold eval_nll, steering_from_x. destruct (update_from_x o x h) as [[u|e] h']; [|reflexivity]. destruct (let! s := _ in _); reflexivity. Qed.
Lemma value_inj s s' rows : value_of s' DFloat = with_rows (value_of s DFloat) rows -> same_type s s' /\ pl_sources (pv_pl (value_of s DFloat)) rows = Ok s' \/ src_size s' <> src_size s.
Proof.
  intros E. destruct (Nat.eq_dec (src_size s') (src_size s)) as [Q|]; [left|now right].
  assert (R0 : pv_rows (value_of s' DFloat) = rows) by now rewrite E. assert (C0 : pv_class (value_of s' DFloat) = pv_class (value_of s DFloat)) by now rewrite E. assert (U0 : pv_units (value_of s' DFloat) = pv_units (value_of s DFloat)) by now rewrite E.
  split; [split; [exact C0|split; [exact U0|exact Q]]|]. rewrite <- R0, value_rows. rewrite <- (value_sources s' DFloat). unfold pl_sources, pv_pl. cbn [p_class p_units]. now rewrite C0, U0.
Qed.
Lemma objective_alike env env' m U s0 M M' Rm Rm' rows s st st' :
  ml_kind env' = ml_kind env -> ml_routines env -> ml_routines env' -> unitary m U -> src_size s0 < m -> nr Rm = m -> hermitian Rm -> recorded_cov m U 1 0 Rm Rm' ->
  (ml_kind env = WSF -> 1 <= src_size s0 /\ forall w E, eigh_ok Rm w E -> gap (src_size s0) w) ->
  see_alike m U (ml_array env) (ml_array env') (ml_lam env) (ml_lam env') s0 ->
  prepare_M env st Rm (src_size s0) = Ok M -> prepare_M env' st' Rm' (src_size s0) = Ok M' ->
  value_of s DFloat = with_rows (value_of s0 DFloat) rows -> valid_sources s -> src_size s = src_size s0 ->
  objective_at env M Rm (value_of s0 DFloat) rows = objective_at env' M' Rm' (value_of s0 DFloat) rows.
Proof.
  intros HK HE HE' HU Hk R1 RH HR HW (Hm & Hm' & HA) EM EM' EV VS SZ. destruct (value_inj s0 s rows EV) as [(TY & PS)|]; [|contradiction].
  destruct (HA s VS TY) as (A & A' & d & d' & E1 & E2 & SS). unfold objective_at. rewrite PS, value_len. cbn [bind]. rewrite E1, E2. cbn [bind].
  destruct (C97_objective env env' m U 1 (src_size s0) A A' Rm Rm' st st' HK Hm Hm' HE HE' HU ltac:(lra) Hk R1 RH HR SS HW) as (N & N' & v & v' & P1 & P2 & V1 & V2 & Q).
  rewrite EM in P1. injection P1 as <-. rewrite EM' in P2. injection P2 as <-. rewrite V1, V2. f_equal.
  destruct v as [v|], v' as [v'|]; cbn in Q; try tauto. subst v'. f_equal. destruct (ml_kind env); rewrite ?ln_1; ring.
Qed.
(** Two estimators of the same kind, on arrays that see every placement alike, given the same covariance (in the coordinates of either) and
    the same initial guess: the same flag and estimates (or error), the same stored estimates, and the same contents of all location arrays *)
Theorem C97_estimate : forall env env' m U s0 (Rm Rm' : cmat) mini st st' o h,
  ml_kind env' = ml_kind env -> ml_routines env -> ml_routines env' -> unitary m U -> nr Rm = m -> hermitian Rm -> recorded_cov m U 1 0 Rm Rm' ->
  see_alike m U (ml_array env) (ml_array env') (ml_lam env) (ml_lam env') s0 -> ms_est st' = ms_est st ->
  valid_sources s0 -> orel h o (value_of s0 DFloat) ->
  (ml_kind env = WSF -> 1 <= src_size s0 /\ forall w E, eigh_ok Rm w E -> gap (src_size s0) w) ->
  (forall bounds, opt_bounds (pv_pl (value_of s0 DFloat)) (src_rows s0) = Ok bounds -> stays_within bounds (mini (opt_x0 (src_rows s0)) bounds)) ->
  same_ml_results (ml_estimate env mini st Rm o h) (ml_estimate env' mini st' Rm' o h).
Proof.
  intros env env' m U s0 Rm Rm' mini st st' o h HK HE HE' HU R1 RH HR HA HS VS HO HW HB.
  destruct (rec_sizes m U 1 0 Rm Rm' HU HR) as (t1 & t2). pose proof HA as (Hm & Hm' & _). destruct HO as (O1 & O2 & O3 & O4 & O5).
  unfold ml_estimate. rewrite O5, value_len, Hm, Hm'. unfold ensure_n_resolvable_sources, ensure_covariance_size. cbn [List.length Nat.eqb nth negb]. rewrite R1, t1, Nat.eqb_refl. cbn [negb orb].
  destruct (Z.gtb_spec (Z.of_nat (src_size s0)) (Z.of_nat m - 1)) as [L|L]; cbn [bind]; [repeat split; exact (eq_sym HS)|].
  rewrite getitem_all. cbn [bind]. set (est := LObj _ (lo_dt o)). set (h1 := h ++ [buf h (lo_pl o)]).
  assert (PM : exists M M', prepare_M env (MlSt (Some est) (ms_M st)) Rm (src_size s0) = Ok M /\ prepare_M env' (MlSt (Some est) (ms_M st')) Rm' (src_size s0) = Ok M').
  { destruct (proj2 (proj2 HA) s0 VS ltac:(repeat split)) as (A & A' & d & d' & _ & _ & SS).
    destruct (C97_objective env env' m U 1 (src_size s0) A A' Rm Rm' (MlSt (Some est) (ms_M st)) (MlSt (Some est) (ms_M st')) HK Hm Hm' HE HE' HU ltac:(lra) ltac:(lia) R1 RH HR SS HW) as (M & M' & _ & _ & P1 & P2 & _). now exists M, M'. }
  destruct PM as (M & M' & P1 & P2). rewrite P1, P2.
  assert (B1 : buf h1 (lo_pl o) = src_rows s0). { unfold buf, h1. rewrite app_nth1 by exact O1. fold (buf h (lo_pl o)). now rewrite O5, value_rows. } rewrite B1.
  assert (OB : opt_bounds (lo_pl o) (src_rows s0) = opt_bounds (pv_pl (value_of s0 DFloat)) (src_rows s0)) by (unfold opt_bounds; now rewrite (pl_sources_pv (lo_pl o) (value_of s0 DFloat))). rewrite OB.
  destruct (C66_variables s0 DFloat VS) as (vr & bounds & _ & EB & _). rewrite EB. specialize (HB bounds EB). revert HB. generalize (mini (opt_x0 (src_rows s0)) bounds). intros t Ht.
  assert (RUN : forall t, stays_within bounds t -> forall h rows, orel h est (with_rows (value_of s0 DFloat) rows) -> List.length rows = src_size s0 ->
    run_opt (eval_nll env (MlSt (Some est) M) est Rm (src_size s0)) t h = run_opt (eval_nll env' (MlSt (Some est) M') est Rm' (src_size s0)) t h).
  { clear t Ht. intros t Ht. induction Ht as [b x|e|x next L1 L2 _ IH]; intros h0 rows HO HL; [reflexivity|reflexivity|]. cbn [run_opt].
    destruct (C66_result_valid s0 x bounds VS EB L1 L2) as (r & s' & PL & EV & VS' & SZ). pose proof (value_len s0 DFloat) as VL.
    pose proof (eval_rel env (MlSt (Some est) M) M Rm h0 est (value_of s0 DFloat) rows x eq_refl HO ltac:(congruence)) as F. rewrite PL in F. destruct F as (h2 & F1 & F2 & F3 & _).
    pose proof (eval_rel env' (MlSt (Some est) M') M' Rm' h0 est (value_of s0 DFloat) rows x eq_refl HO ltac:(congruence)) as F'. rewrite PL in F'. destruct F' as (h2' & F1' & _). rewrite VL in F1, F1'.
    assert (HH : h2' = h2). { transitivity (snd (update_from_x est x h0)); [rewrite <- (eval_heap env' (MlSt (Some est) M') est Rm' (src_size s0)), F1'; reflexivity|rewrite <- (eval_heap env (MlSt (Some est) M) est Rm (src_size s0)), F1; reflexivity]. } subst h2'. rewrite F1, F1'.
    rewrite <- (objective_alike env env' m U s0 M M' Rm Rm' r s' _ _ HK HE HE' HU ltac:(lia) R1 RH HR HW HA P1 P2 EV VS' SZ). destruct (objective_at env M Rm (value_of s0 DFloat) r) as [v|e]; [|reflexivity]. apply (IH v h2 r F2). congruence. }
  assert (OE : orel h1 est (with_rows (value_of s0 DFloat) (src_rows s0))).
  { unfold est, h1. split; [cbn; rewrite app_length; cbn; lia|]. cbn [lo_pl lo_dt p_class p_units with_rows pv_class pv_units pv_dt pv_rows]. split; [exact O2|]. split; [exact O3|]. split; [exact O4|]. unfold buf at 1. cbn [p_addr]. rewrite app_nth2, Nat.sub_diag by lia. cbn [nth]. now rewrite O5, value_rows. }
  rewrite (RUN t Ht h1 (src_rows s0) OE) by (rewrite <- (value_rows s0 DFloat); apply value_len).
  destruct (run_opt _ t h1) as [[[[|] x]|e] h2]; [|repeat split|repeat split]. destruct (update_from_x est x h2) as [[u|e] h3]; [|repeat split]. unfold get_last_estimates. cbn [ms_est]. rewrite getitem_all. repeat split.
Qed.
(** in particular: far-field sources seen by the same sensors, listed in another order, measured in another unit of length (wavelength
    included) and from another origin *)
Theorem C97_same_sensors : forall env env' idx v m s0 (Rm Rm' : cmat) mini st st' o h,
  m = ar_size (ml_array env) -> same_sensors (ml_array env) (ml_lam env) (ml_array env') (ml_lam env') idx v ->
  ml_kind env' = ml_kind env -> ml_routines env -> ml_routines env' -> nr Rm = m -> hermitian Rm -> same_measurements m idx 1 0 Rm Rm' ->
  ms_est st' = ms_est st -> valid_sources s0 -> is_far_field s0 = true -> orel h o (value_of s0 DFloat) ->
  (ml_kind env = WSF -> 1 <= src_size s0 /\ forall w E, eigh_ok Rm w E -> gap (src_size s0) w) ->
  (forall bounds, opt_bounds (pv_pl (value_of s0 DFloat)) (src_rows s0) = Ok bounds -> stays_within bounds (mini (opt_x0 (src_rows s0)) bounds)) ->
  same_ml_results (ml_estimate env mini st Rm o h) (ml_estimate env' mini st' Rm' o h).
Proof.
  intros env env' idx v m s0 Rm Rm' mini st st' o h Hm SS HK HE HE' R1 RH HR HS VS FF HO HW HB. pose proof (ss_order _ _ _ _ _ _ SS) as (PI & Hm'). rewrite <- Hm in PI, Hm'.
  assert (HU : unitary m (perm_matrix m idx)) by now apply perm_unitary. assert (R2 : nc Rm = m) by (rewrite <- R1; symmetry; apply RH).
  apply (C97_estimate env env' m (perm_matrix m idx) s0); try assumption; [now apply perm_cov|].
  split; [now symmetry|]. split; [exact Hm'|]. intros s Vs (Cl & _). assert (Fs : is_far_field s = true) by (destruct s, s0; try reflexivity; cbn in Cl, FF; discriminate).
  destruct (same_sensors_atoms _ _ _ _ _ _ s SS Vs Fs) as (A & A' & E1 & E2 & RA). rewrite <- Hm in RA. exists A, A', [], []. split; [exact E1|]. split; [exact E2|]. now apply atoms_subspace.
Qed.

(** *** the order in which the candidate sources are listed *)
Lemma cols_subspace m A A' idx : nr A = m -> cols_of A A' idx -> Permutation idx (seq 0 (nc A)) -> same_subspace m (mid m) A A'.
Proof.
  intros HA (c1 & c2 & c3) PI. assert (LI : List.length idx = nc A) by (rewrite (Permutation_length PI); apply seq_length).
  assert (EA : mid m *m A ==m A) by (apply mmul_id_l; now symmetry).
  split; [exact HA|]. split; [congruence|]. split.
  - intros j Hj. assert (IN : In j idx) by (apply (Permutation_in _ (Permutation_sym PI)), in_seq; lia). destruct (In_nth _ _ 0 IN) as (q & Hq & Eq).
    exists (fun r => if Nat.eqb r q then RtoC 1 else RtoC 0). intros i Hi. unfold col. rewrite (meq_ent _ _ i j EA) by (cbn; lia). unfold mvec. rewrite (csum_single _ _ q); [|lia|intros r _ Nr; destruct (Nat.eqb_spec r q); [lia|ring]]. rewrite Nat.eqb_refl, c3, Eq by lia. ring.
  - intros j Hj. assert (LJ : nth j idx 0 < nc A). { assert (IN : In (nth j idx 0) (seq 0 (nc A))) by (apply (Permutation_in _ PI), nth_In; lia). apply in_seq in IN. lia. }
    exists (fun r => if Nat.eqb r (nth j idx 0) then RtoC 1 else RtoC 0). intros i Hi. cbn in Hi. rewrite (mvec_eq _ _ _ i EA) by (cbn; lia). unfold mvec. rewrite (csum_single _ _ (nth j idx 0)); [|lia|intros r _ Nr; destruct (Nat.eqb_spec r (nth j idx 0)); [lia|ring]]. rewrite Nat.eqb_refl. unfold col. rewrite c3 by lia. ring.
Qed.
(** the objective does not depend on the order in which the candidate sources are listed *)
Theorem C97_source_order : forall env m s (Rm : cmat) st M idx St D, ml_routines env -> m = ar_size (ml_array env) -> wf_array (ml_array env) -> scalar_isotropic (ml_array env) ->
  steering_matrix (ml_array env) s (ml_lam env) false "known" true = Ok (St, D) ->
  nr Rm = m -> hermitian Rm -> 1 <= src_size s < m -> prepare_M env st Rm (src_size s) = Ok M -> Permutation idx (seq 0 (src_size s)) ->
  exists v, objective_at env M Rm (value_of s DFloat) (src_rows s) = Ok v /\
    objective_at env M Rm (value_of s DFloat) (src_rows (select_sources s idx)) = Ok v.
Proof.
  intros env m s Rm st M idx St D HE Hm WF SI ES R1 RH Hk HM PI. destruct HE as (Hp & Hg & Hr & Hz). rewrite <- Hm in Hp, Hg, Hr, Hz.
  assert (IL : forall i, In i idx -> i < src_size s) by (intros i Hi; apply (Permutation_in _ PI), in_seq in Hi; lia).
  assert (LI : List.length idx = src_size s) by (rewrite (Permutation_length PI); apply seq_length).
  destruct (P_sparse.steering_dims _ _ _ _ _ _ WF SI ES) as (A & -> & A1 & A2). rewrite <- Hm in A1.
  destruct (Prop_array.C23_columns _ s _ _ _ _ _ D idx WF SI IL ES) as (A0 & A' & D' & E0 & ES' & CO & _). injection E0 as <-. rewrite <- A2 in PI. pose proof (cols_subspace m A A' idx A1 CO PI) as SS.
  assert (HU : unitary m (mid m)) by apply unitary_mid.
  assert (PS : pl_sources (pv_pl (value_of s DFloat)) (src_rows (select_sources s idx)) = Ok (select_sources s idx)) by (generalize (value_sources (select_sources s idx) DFloat); clear; destruct s; intros X; exact X).
  assert (RI : forall X : cmat, nr X = m -> nc X = m -> recorded_cov m (mid m) 1 0 X X).
  { intros X x1 x2. apply (rec_cov_0 m (mid m) 1 X X HU). unfold cj. split; [cbn; congruence|]. split; [cbn; congruence|]. intros i j Hi Hj. cbn [mscal ent]. transitivity (ent (mid m *m X *m mher (mid m)) i j); [|ring]. symmetry.
    assert (E1 : mid m *m X *m mher (mid m) ==m X). { transitivity (X *m mher (mid m)); [apply mmul_eq_l, mmul_id_l; now symmetry|]. transitivity (X *m mid m); [apply mmul_eq_r; [cbn; congruence|apply mher_mid]|apply mmul_id_r; now symmetry]. }
    apply (meq_ent _ _ i j E1); cbn; lia. }
  assert (R2 : nc Rm = m) by (rewrite <- R1; symmetry; apply RH).
  unfold objective_at. rewrite value_sources, PS, value_len. cbn [bind]. rewrite ES, ES'. cbn [bind]. unfold nll. rewrite <- Hm. unfold prepare_M in HM. rewrite <- Hm in HM. destruct (ml_kind env).
  - destruct (aml_rec (ml_pinv env) (ml_pinv env) (ml_slogdet env) (ml_slogdet env) m (src_size s) (mid m) 1 A A' Rm Rm Hp Hp Hr Hz Hr Hz HU ltac:(lra) ltac:(lia) SS R1 RH (RI Rm R1 R2)) as (v & v' & V & V' & Q).
    exists v. split; [exact V|]. rewrite V'. f_equal. destruct v, v'; cbn in Q; try tauto. subst. rewrite ln_1. f_equal. ring.
  - destruct (cml_rec (ml_pinv env) (ml_pinv env) m (mid m) 1 0 A A' Rm Rm Hp Hp HU SS R1 R2 (RI Rm R1 R2)) as (P & x & y & _ & V & V' & Q). exists (Some x). split; [exact V|]. rewrite V', Q. do 2 f_equal. ring.
  - destruct (Hg Rm RH ltac:(lia)) as (w & E & Ew & OE). destruct (wsf_matrix (ml_eigh env) m Rm (src_size s)) as [M0|] eqn:EM; [|discriminate]. injection HM as <-.
    assert (MM : nr M0 = m /\ nc M0 = m). { destruct OE as (_ & o2 & o3 & o4 & _). destruct (wsf_ok (ml_eigh env) m Rm (src_size s) w E Ew ltac:(congruence) ltac:(congruence) ltac:(congruence) ltac:(lia)) as (M1 & EM1 & EQ & _). rewrite EM in EM1. injection EM1 as <-. split; [exact (meq_nr _ _ EQ)|exact (meq_nc _ _ EQ)]. } destruct MM as (M1 & M2).
    destruct (cml_rec (ml_pinv env) (ml_pinv env) m (mid m) 1 0 A A' M0 M0 Hp Hp HU SS M1 M2 (RI M0 M1 M2)) as (P & x & y & _ & V & V' & Q). exists (Some x). split; [exact V|]. rewrite V', Q. do 2 f_equal. ring.
Qed.

(** *** the stochastic negative log-likelihood *)
Lemma quad_ent (X : cmat) n d i j : nc X = n -> i < nr X -> j < nr X -> ent (X *m mdiag n d *m mher X) i j = csum n (fun q => (ent X i q * d q * Cconj (ent X j q))%C).
Proof.
  intros Hn Hi Hj. transitivity (csum n (fun q => (ent (X *m mdiag n d) i q * Cconj (ent X j q))%C)); [reflexivity|]. apply csum_ext. intros q Hq. f_equal.
  assert (E : X *m mdiag n d ==m Mat (nr X) (nc X) (fun i j => ent X i j * d j)%C) by (apply mmul_diag_r; now symmetry). rewrite (meq_ent _ _ i q E); [reflexivity|exact Hi|cbn; congruence].
Qed.
Lemma model_recorded m U c A A' p sigma : unitary m U -> recorded_atoms m U A A' ->
  recorded_cov m U c 0 (model_cov A p sigma) (model_cov A' (fun q => c * p q)%R (c * sigma)).
Proof.
  intros HU (a1 & a2 & a3 & t & Ht & HA). pose proof HU as (u1 & u2 & _). apply (rec_cov_0 m U c _ _ HU). unfold model_cov. rewrite a1, a2, a3.
  set (PD := mdiag (nc A) (fun k => RtoC (p k))). set (G := A *m PD *m mher A).
  assert (EG : cj U G ==m (U *m A) *m PD *m mher (U *m A)).
  { unfold cj, G. transitivity ((U *m (A *m PD)) *m (mher A *m mher U)).
    { transitivity (((U *m (A *m PD)) *m mher A) *m mher U); [apply mmul_eq_l; symmetry; apply mmul_assoc|apply mmul_assoc]. }
    apply mmul_eq; [reflexivity|symmetry; apply mmul_assoc|]. symmetry. apply mher_mmul. congruence. }
  assert (EC : cj U (G +m mscal (RtoC sigma) (mid m)) ==m ((U *m A) *m PD *m mher (U *m A)) +m mscal (RtoC sigma) (mid m)).
  { etransitivity; [apply cj_add; cbn; congruence|]. apply madd_eq; [cbn; congruence|cbn; congruence|exact EG|]. etransitivity; [apply cj_scal|]. apply P_ml4.mscal_eq, (cj_id m U HU). }
  etransitivity; [|apply P_ml4.mscal_eq; symmetry; exact EC]. split; [cbn; congruence|]. split; [cbn; congruence|]. intros i j Hi Hj. cbn in Hi, Hj. rewrite a2 in Hi, Hj.
  cbn [madd mscal ent]. rewrite (quad_ent A' (nc A)) by congruence. unfold PD. rewrite (quad_ent (U *m A) (nc A) (fun k => RtoC (p k)) i j) by (cbn; congruence). rewrite RtoC_mult. rewrite Cmult_plus_distr_l, <- csum_scal. f_equal; [|cbn; ring]. apply csum_ext. intros q Hq. rewrite !HA by assumption. rewrite Cmult_conj, RtoC_mult.
  pose proof (unit_cancel (t q) (Ht q)) as TT.
  transitivity (t q * Cconj (t q) * (ent (U *m A) i q * (RtoC c * RtoC (p q)) * Cconj (ent (U *m A) j q)))%C; [ring|]. rewrite TT. ring.
Qed.
Lemma model_cov_ext A p q sigma : (forall j, j < nc A -> p j = q j) -> model_cov A p sigma ==m model_cov A q sigma.
Proof.
  intros H. unfold model_cov. apply madd_eq; [reflexivity|reflexivity| |reflexivity]. apply mmul_eq_l, mmul_eq_r; [reflexivity|]. split; [reflexivity|]. split; [reflexivity|]. intros i j Hi Hj. cbn [mdiag ent]. destruct (Nat.eqb_spec i j); [|reflexivity]. subst. now rewrite H.
Qed.
Lemma rec_pd m U c H H' : unitary m U -> (0 < c)%R -> nr H = m -> recorded_cov m U c 0 H H' -> pd H -> pd H'.
Proof.
  intros HU Hc H1 HR HP. assert (HH : hermitian H) by apply HP. assert (H2 : nc H = m) by (rewrite <- H1; symmetry; apply HH). split; [eapply rec_hermitian; eauto|].
  destruct (rec_sizes m U c 0 H H' HU HR) as (s1 & s2). pose proof HU as (u1 & u2 & u3). pose proof (unitary_right m U HU) as u4. apply (rec_cov_0 m U c H H' HU) in HR. intros x (i & Hi & Nx). rewrite (qform_eq _ _ x HR), qform_mscal.
  assert (EJ : cj U H ==m mher (mher U) *m H *m mher U) by (unfold cj; apply mmul_eq_l, mmul_eq_l; symmetry; apply mher_mher).
  rewrite (qform_eq _ _ x EJ), qform_congr by (cbn; congruence).
  assert (P : (0 < Re (qform H (mvec (mher U) x)))%R).
  { apply HP. destruct (nonzero_dec (nr H) (mvec (mher U) x)) as [Z|(j & Hj & Nj)]; [|now exists j]. exfalso. apply Nx. rewrite <- (mvec_mid m x i) by congruence. rewrite <- (mvec_eq _ _ x i u4) by (cbn; congruence). rewrite mvec_mmul. unfold mvec at 1. apply csum_0. intros j Hj. rewrite Z by congruence. ring. }
  unfold Re in *. cbn. nra.
Qed.
Theorem C97_likelihood : forall slogdet solve slogdet' solve' arr arr' s s' lam lam' m U c A A' D D' p p' sigma (Rm Rm' : cmat),
  slogdet_ok m slogdet -> slogdet_ok m slogdet' -> solve_exact solve -> solve_exact solve' -> ar_size arr = m -> ar_size arr' = m ->
  steering_matrix arr s lam false "all" true = Ok (Flat A, D) -> steering_matrix arr' s' lam' false "all" true = Ok (Flat A', D') ->
  unitary m U -> (0 < c)%R -> recorded_atoms m U A A' -> powers_fit p (nc A) -> powers_fit p' (nc A') -> (forall q, q < nc A -> power_of p' q = (c * power_of p q)%R) ->
  pd (model_cov A (power_of p) sigma) -> nr Rm = m -> nc Rm = m -> recorded_cov m U c 0 Rm Rm' ->
  exists v v', f_nll_stouc slogdet solve Rm arr s lam p sigma = Ok v /\ f_nll_stouc slogdet' solve' Rm' arr' s' lam' p' (c * sigma) = Ok v' /\
    (c = 1%R -> v' = v) /\ ((1 <= c)%R -> v' = None -> v = None) /\ (forall y y', v = Some y -> v' = Some y' -> y' = (y + RtoC (INR m * ln c))%C).
Proof.
  intros slogdet solve slogdet' solve' arr arr' s s' lam lam' m U c A A' D D' p p' sigma Rm Rm' HSl HSl' HSo HSo' Hm Hm' EA EA' HU Hc RA Fp Fp' HP PD R1 R2 HR.
  pose proof RA as (a1 & a2 & a3 & _). set (S0 := model_cov A (power_of p) sigma) in *. set (S1 := model_cov A' (power_of p') (c * sigma)).
  assert (RS : recorded_cov m U c 0 S0 S1). { unfold recorded_cov. etransitivity; [|exact (model_recorded m U c A A' (power_of p) sigma HU RA)]. apply model_cov_ext. intros j Hj. apply HP. congruence. }
  assert (N0 : nr S0 = m) by exact a1. assert (N1 : nr S1 = m) by exact a2. assert (C0 : nc S0 = m) by exact a1. assert (C1 : nc S1 = m) by exact a2.
  pose proof (rec_pd m U c S0 S1 HU Hc N0 RS PD) as PD'. destruct (eigh_ref_ok S0 (proj1 PD)) as (mu & F & _ & OF). destruct (eigh_ref_ok S1 (proj1 PD')) as (mu' & F' & _ & OF').
  pose proof (rec_eigenvalues m U c 0 S0 S1 mu F mu' F' HU N0 (proj1 PD) Hc RS OF OF') as EW. pose proof (eigh_pos S0 mu F PD OF) as PM. rewrite N0 in PM. assert (LM : List.length mu = m) by (rewrite <- N0; apply OF).
  assert (LD : logdet mu' m = (logdet mu m + INR m * ln c)%R).
  { unfold logdet. rewrite <- rsum_const, <- rsum_plus. apply rsum_ext. intros i Hi. rewrite EW. rewrite (nth_indep (map (fun v => c * v + 0)%R mu) 0%R ((fun v => c * v + 0)%R 0%R)) by (rewrite map_length; lia). rewrite (map_nth (fun v => (c * v + 0)%R)). rewrite Rplus_0_r. rewrite ln_mult by (try apply PM; assumption). ring. }
  subst m. destruct (rec_sizes _ U c 0 Rm Rm' HU HR) as (t1 & t2).
  assert (V0 : (logdet mu (ar_size arr) < 0)%R /\ f_nll_stouc slogdet solve Rm arr s lam p sigma = Ok None \/ exists Y, nr Y = ar_size arr /\ nc Y = ar_size arr /\ S0 *m Y ==m Rm /\ (0 <= logdet mu (ar_size arr))%R /\ f_nll_stouc slogdet solve Rm arr s lam p sigma = Ok (Some (RtoC (logdet mu (ar_size arr)) + mtrace Y)%C)).
  { destruct (Rlt_le_dec (logdet mu (ar_size arr)) 0) as [L|L].
    - left. split; [exact L|]. eapply C79_small_determinant_defect; eauto.
    - right. destruct (C79_value slogdet solve Rm A arr s lam p sigma D HSl HSo EA a1 Fp PD R1 mu F OF L R2) as (Y & y1 & y2 & y3 & y4). exists Y. auto. }
  assert (V1 : (logdet mu' (ar_size arr) < 0)%R /\ f_nll_stouc slogdet' solve' Rm' arr' s' lam' p' (c * sigma) = Ok None \/ exists Y, nr Y = ar_size arr /\ nc Y = ar_size arr /\ S1 *m Y ==m Rm' /\ (0 <= logdet mu' (ar_size arr))%R /\ f_nll_stouc slogdet' solve' Rm' arr' s' lam' p' (c * sigma) = Ok (Some (RtoC (logdet mu' (ar_size arr)) + mtrace Y)%C)).
  { rewrite <- Hm' in HSl', a2, t1, t2 |- *. destruct (Rlt_le_dec (logdet mu' (ar_size arr')) 0) as [L|L].
    - left. split; [exact L|]. eapply C79_small_determinant_defect; eauto.
    - right. destruct (C79_value slogdet' solve' Rm' A' arr' s' lam' p' (c * sigma) D' HSl' HSo' EA' a2 Fp' PD' t1 mu' F' OF' L t2) as (Y & y1 & y2 & y3 & y4). exists Y. auto. }
  destruct V0 as [(L0 & E0)|(Y0 & y1 & y2 & y3 & L0 & E0)], V1 as [(L1 & E1)|(Y1 & z1 & z2 & z3 & L1 & E1)]; rewrite E0, E1; eexists; eexists; (split; [reflexivity|]); (split; [reflexivity|]).
  - split; [reflexivity|]. split; [reflexivity|]. intros y y' X. discriminate X.
  - split; [|split; [intros _ X; discriminate X|intros y y' X; discriminate X]]. intros ->. rewrite ln_1 in LD. exfalso. lra.
  - split; [|split; [|intros y y' _ X; discriminate X]]; [intros ->; rewrite ln_1 in LD; exfalso; lra|]. intros H1. exfalso. assert (0 <= ln c)%R by (rewrite <- ln_1; destruct H1 as [H1|<-]; [left; apply ln_increasing; lra|right; reflexivity]). assert (0 <= INR (ar_size arr) * ln c)%R by (apply Rmult_le_pos; [apply pos_INR|assumption]). lra.
  - assert (YY : Y1 ==m cj U Y0).
    { pose proof HU as (u1 & u2 & _). apply (P_subspace3.inj_cancel S1); [congruence|cbn; congruence|cbn; congruence|now apply pd_inj|]. etransitivity; [exact z3|]. apply (rec_cov_0 _ U c _ _ HU) in HR. apply (rec_cov_0 _ U c _ _ HU) in RS.
      etransitivity; [exact HR|]. symmetry. etransitivity; [apply mmul_eq_l; exact RS|]. etransitivity; [apply mscal_mmul_l|]. apply P_ml4.mscal_eq. etransitivity; [apply (cj_mul (ar_size arr) U HU); congruence|]. apply (cj_eq (ar_size arr) U HU); [exact N0|exact y3]. }
    assert (TT : mtrace Y1 = mtrace Y0) by (rewrite (mtrace_eq Y1 (cj U Y0)) by (congruence || exact YY); apply (cj_trace (ar_size arr) U HU); assumption).
    rewrite TT, LD. split; [intros ->; rewrite ln_1; rewrite Rmult_0_r, Rplus_0_r; reflexivity|]. split; [intros _ X; discriminate X|]. intros y y' X X'. injection X as <-. injection X' as <-. rewrite RtoC_plus. ring.
Qed.

(** *** examples *)
(** two sensors half a wavelength apart, and the same sensors in the opposite order, in another unit of length and from another origin; routines
    which meet their contracts; an optimiser that compares the guess with the broadside direction *)
Definition ex_env (kd : mlkind) (a : array) (lam : R) : mlenv := MlEnv kd a lam pinv_ref eigh_ref slogdet_eig.
Lemma ex_routines kd a lam : ml_routines (ex_env kd a lam).
Proof.
  split; [split; [apply pinv_ref_ok|intros A _; apply pinv_ref_def]|]. split; [apply eigh_ref_contract|]. apply slogdet_eig_ok.
Qed.
Definition ex_mini : minimizer := fun x0 _ => OEval x0 (fun v => OEval [0%R] (fun v' =>
  ODone true (match v, v' with Some x, Some y => if Rlt_dec x y then x0 else [0%R] | _, _ => x0 end))).
Definition ex_guess : lobj := LObj (Placement "FarField1DSourcePlacement" ["deg"%string] 0) DFloat.
Lemma ex_alike : see_alike 2 (perm_matrix 2 [1; 0]) ex_a ex_a' 1 2 (FF1 [30]%R "deg").
Proof.
  split; [reflexivity|]. split; [reflexivity|]. intros s Vs (Cl & _). assert (Fs : is_far_field s = true) by (destruct s; try reflexivity; cbn in Cl; discriminate).
  destruct (same_sensors_atoms _ _ _ _ _ _ s ex_same Vs Fs) as (A & A' & E1 & E2 & RA). exists A, A', [], []. split; [exact E1|]. split; [exact E2|]. apply atoms_subspace; [apply perm_unitary, perm_swap|exact RA].
Qed.
Example C97_example : forall kd, exists r st h st',
  ml_estimate (ex_env kd ex_a 1) ex_mini ml_init Prop_subspace.ex_R ex_guess [[[30]]]%R = (Ok (true, Some r), st, h) /\
  ml_estimate (ex_env kd ex_a' 2) ex_mini ml_init Prop_subspace.ex_R ex_guess [[[30]]]%R = (Ok (true, Some r), st', h) /\ ms_est st' = ms_est st.
Proof.
  intros kd. assert (VA : forall x, (-90 <= x <= 90)%R -> valid_sources (FF1 [x]%R "deg")) by (intros x Hx; split; [right; now left|]; constructor; [|constructor]; right; left; now split).
  assert (HG : forall w E, eigh_ok Prop_subspace.ex_R w E -> gap 1 w).
  { intros w E OE. rewrite (P_courant.eig_unique _ w E _ _ ex_R_herm OE Prop_subspace.ex_eig). unfold gap, Prop_subspace.ex_w. cbn. lra. }
  assert (HW : kd = WSF -> 1 <= 1 /\ forall w E, eigh_ok Prop_subspace.ex_R w E -> gap 1 w) by (intros _; split; [lia|exact HG]).
  assert (SM : same_measurements 2 [1; 0] 1 0 Prop_subspace.ex_R Prop_subspace.ex_R). { split; [reflexivity|]. split; [reflexivity|]. intros [|[|i]] [|[|j]] Hi Hj; try lia; apply injective_projections; cbn; ring. }
  assert (HO : orel [[[30]]]%R ex_guess (value_of (FF1 [30]%R "deg") DFloat)) by (split; [cbn; lia|repeat split]).
  assert (EST : same_ml_results (ml_estimate (ex_env kd ex_a 1) ex_mini ml_init Prop_subspace.ex_R ex_guess [[[30]]]%R) (ml_estimate (ex_env kd ex_a' 2) ex_mini ml_init Prop_subspace.ex_R ex_guess [[[30]]]%R)).
  { apply (C97_same_sensors (ex_env kd ex_a 1) (ex_env kd ex_a' 2) [1; 0] _ 2 (FF1 [30]%R "deg") Prop_subspace.ex_R Prop_subspace.ex_R ex_mini ml_init ml_init ex_guess [[[30]]]%R eq_refl ex_same eq_refl (ex_routines _ _ _) (ex_routines _ _ _) eq_refl ex_R_herm SM eq_refl (VA 30%R ltac:(lra)) eq_refl HO HW).
    intros bounds EB. cbn in EB. injection EB as <-. unfold ex_mini. apply SWEval; [reflexivity|intros [|q] Hq; [|cbn in Hq; lia]|].
    { change (-90 <= 30 <= 90)%R; lra. }
    intros v. apply SWEval; [reflexivity|intros [|q] Hq; [|cbn in Hq; lia]|]. { change (-90 <= 0 <= 90)%R; lra. }
    intros v'. apply SWDone. }
  destruct (proj2 (proj2 ex_alike) (FF1 [30]%R "deg") (VA 30%R ltac:(lra)) ltac:(repeat split)) as (A1 & A1' & d1 & d1' & E1 & E1' & SS1).
  destruct (proj2 (proj2 ex_alike) (FF1 [0]%R "deg") (VA 0%R ltac:(lra)) ltac:(repeat split)) as (A2 & A2' & d2 & d2' & E2 & E2' & SS2).
  assert (HU : unitary 2 (perm_matrix 2 [1; 0])) by apply perm_unitary, perm_swap. assert (HR : recorded_cov 2 (perm_matrix 2 [1; 0]) 1 0 Prop_subspace.ex_R Prop_subspace.ex_R) by (apply perm_cov; [apply perm_swap|reflexivity|reflexivity|exact SM]).
  destruct (C97_objective (ex_env kd ex_a 1) (ex_env kd ex_a' 2) 2 _ 1 1 A1 A1' Prop_subspace.ex_R Prop_subspace.ex_R ml_init ml_init eq_refl eq_refl eq_refl (ex_routines _ _ _) (ex_routines _ _ _) HU ltac:(lra) ltac:(lia) eq_refl ex_R_herm HR SS1 HW) as (M & M' & v1 & v1' & P1 & _ & V1 & _ & _).
  destruct (C97_objective (ex_env kd ex_a 1) (ex_env kd ex_a' 2) 2 _ 1 1 A2 A2' Prop_subspace.ex_R Prop_subspace.ex_R ml_init ml_init eq_refl eq_refl eq_refl (ex_routines _ _ _) (ex_routines _ _ _) HU ltac:(lra) ltac:(lia) eq_refl ex_R_herm HR SS2 HW) as (M2 & M2' & v2 & v2' & P2 & _ & V2 & _ & _).
  rewrite P1 in P2. injection P2 as <-.
  assert (O1 : objective_at (ex_env kd ex_a 1) M Prop_subspace.ex_R (value_of (FF1 [30]%R "deg") DFloat) [[30]]%R = Ok v1) by (unfold objective_at; cbn -[steering_matrix nll]; rewrite E1; exact V1).
  assert (O2 : objective_at (ex_env kd ex_a 1) M Prop_subspace.ex_R (value_of (FF1 [30]%R "deg") DFloat) [[0]]%R = Ok v2) by (unfold objective_at; cbn -[steering_matrix nll]; rewrite E2; exact V2).
  destruct (estimate_rel (ex_env kd ex_a 1) ex_mini ml_init (VSt None None) Prop_subspace.ex_R ex_guess _ _ HO eq_refl) as (st1 & h1 & _ & _ & _ & _ & _ & _ & RES).
  set (g := value_of (FF1 [30]%R "deg") DFloat) in *.
  assert (VE : exists w st, v_estimate (ex_env kd ex_a 1) ex_mini (VSt None None) Prop_subspace.ex_R g = (Ok (true, Some w), st)).
  { unfold v_estimate. change (prepare_M _ _ _ (List.length (pv_rows g))) with (prepare_M (ex_env kd ex_a 1) ml_init Prop_subspace.ex_R 1). rewrite P1.
    change (Nat.leb _ _ || _) with false. cbv iota. change (opt_bounds (pv_pl g) (pv_rows g)) with (Ok [(Some (-90)%R, Some 90%R)]). cbv iota. unfold ex_mini. cbn [optimise]. change (place_at g (List.concat (pv_rows g))) with (Ok [[30%R]]). cbv iota. rewrite O1. cbv iota. cbn [optimise]. change (place_at g [0%R]) with (Ok [[0%R]]). cbv iota. rewrite O2. cbv iota. cbn [optimise]. change (List.concat (pv_rows g)) with [30%R].
    set (x := match v1 with Some _ => _ | None => _ end). assert (X : x = [30]%R \/ x = [0]%R) by (subst x; destruct v1, v2; try destruct (Rlt_dec _ _); auto). destruct X as [-> | ->]; eexists; eexists; reflexivity. }
  destruct VE as (w & vst & VE). rewrite VE in RES. cbn [fst] in RES. destruct RES as (r & RES & _). destruct EST as (S1 & S2 & S3).
  destruct (ml_estimate (ex_env kd ex_a 1) _ _ _ _ _) as ((r1 & st) & h). destruct (ml_estimate (ex_env kd ex_a' 2) _ _ _ _ _) as ((r1' & st') & h'). cbn [fst snd] in *. subst. exists r, st, h', st'. auto.
Qed.
(** the likelihood of the same source, in units in which every power is three times as large *)
Example C97_likelihood_example : exists A, steering_matrix ex_arr (FF1 [0%R] "rad") 1 false "all" true = Ok (Flat A, []) /\
  exists y, f_nll_stouc Prop_ml2.slogdet2 solve0 (model_cov A (fun _ => 1%R) 1) ex_arr (FF1 [0%R] "rad") 1 (PwScalar 1) 1 = Ok (Some y) /\
  f_nll_stouc Prop_ml2.slogdet2 solve0 (mscal (RtoC 3) (model_cov A (fun _ => 1%R) 1)) ex_arr (FF1 [0%R] "rad") 1 (PwScalar 3) 3 = Ok (Some (y + RtoC (2 * ln 3))%C).
Proof.
  destruct C79_example as (A & w & E & HA & OE & V & _). exists A. split; [exact HA|]. exists (RtoC (ln 3 + 2)). split; [exact V|].
  destruct ex_steer as (A0 & HA0 & EA). rewrite HA in HA0. injection HA0 as <-. assert (A1 : nr A = 2) by exact (meq_nr _ _ EA). set (Rm := model_cov A (fun _ => 1%R) 1) in *. assert (R1 : nr Rm = 2) by exact A1. assert (R2 : nc Rm = 2) by exact A1.
  assert (RI : forall X : cmat, nr X = 2 -> nc X = 2 -> mid 2 *m X *m mher (mid 2) ==m X).
  { intros X x1 x2. transitivity (X *m mher (mid 2)); [apply mmul_eq_l, mmul_id_l; now symmetry|]. transitivity (X *m mid 2); [apply mmul_eq_r; [cbn; congruence|apply mher_mid]|apply mmul_id_r; now symmetry]. }
  destruct (C97_likelihood Prop_ml2.slogdet2 solve0 Prop_ml2.slogdet2 solve0 ex_arr ex_arr (FF1 [0%R] "rad") (FF1 [0%R] "rad") 1 1 2 (mid 2) 3 A A [] [] (PwScalar 1) (PwScalar 3) 1 Rm (mscal (RtoC 3) Rm)
    Prop_ml2.slogdet2_ok Prop_ml2.slogdet2_ok solve0_exact solve0_exact eq_refl eq_refl HA HA (unitary_mid 2) ltac:(lra)) as (v & v' & E0 & E1 & _ & H2 & H3).
  - split; [exact A1|]. split; [exact A1|]. split; [reflexivity|]. exists (fun _ => RtoC 1). split; [intros _; apply Cmod_1|]. intros i j Hi Hj. assert (EI : mid 2 *m A ==m A) by (apply mmul_id_l; now symmetry). rewrite (meq_ent _ _ i j EI) by (cbn; lia). ring.
  - exact I.
  - exact I.
  - intros q _. cbn. ring.
  - apply (ex_cov_pd A 1 EA). lra.
  - exact R1.
  - exact R2.
  - apply rec_cov_0; [apply unitary_mid|]. apply P_ml4.mscal_eq. symmetry. now apply RI.
  - rewrite V in E0. injection E0 as <-. rewrite Rmult_1_r in E1. destruct v' as [y'|]; [|discriminate (H2 ltac:(lra) eq_refl)]. rewrite E1. rewrite (H3 _ _ eq_refl eq_refl). reflexivity.
Qed.
Print Assumptions C97_objective. Print Assumptions C97_same_minimisers. Print Assumptions C97_cml_noise_floor. Print Assumptions C97_estimate. Print Assumptions C97_same_sensors. Print Assumptions C97_source_order. Print Assumptions C97_likelihood.
