(** End-to-end property with an unknown number of sources (C92): detect with mdl or aic, then locate with the detected number. *)
From Coq Require Import Lra Sorted Permutation.
From Verif Require Import Base_Np Base_Trig Base_Lin S_model M_utils S_utils P_utils M_sources S_sources P_sources M_array S_array P_array P_array2 P_array3 M_designs S_designs P_designs M_coarray S_coarray P_coarray P_coarray2 P_model
  M_grid S_grid P_grid M_core P_core P_core2 M_sparse M_subspace S_subspace P_subspace P_subspace5 P_perf5 M_srcnum M_pipeline S_pipeline P_pipeline P_pipeline2 P_pipeline3 P_gauss P_fta2 Prop_pipeline Prop_pipeline2.
From Verif Require P_oracles Prop_subspace Prop_esprit Prop_srcnum2.
Open Scope nat_scope.

(** np.linalg.eigvalsh: the eigenvalues of a Hermitian matrix in ascending order, i.e. the first component of some eigendecomposition *)
Definition eigvalsh_contract (n : nat) (eigvalsh : cmat -> res (list R)) : Prop :=
  forall A, hermitian A -> (nr A <= n)%nat -> exists w E, eigvalsh A = Ok w /\ eigh_ok A w E.

(** A program that does not know the number of sources: k = mdl(R, N) (or aic(R, N)), then MUSIC with that k, on the exact
    covariance of a uniform linear array; from some number of snapshots on both counts are right and the directions are exact. *)
Theorem C92_detect_then_music : forall eigvalsh eigh find_peaks argsort n d name lam u angles dt caching h0 g sg e0 h1 e h truth (A P Rm : cmat) s o,
  mk_ULA (Z.of_nat n) (D0Scalar d) name no_kwargs = Ok g -> mk_grid_axes G1D [angles] dt u = Ok sg ->
  new_estimator (gd_array g) lam sg (find_peaks_simple find_peaks) argsort caching h0 = Ok (e0, h1) -> music_reach eigh n e0 h1 e h ->
  eigvalsh_contract n eigvalsh -> eigh_contract n eigh -> scipy_find_peaks find_peaks -> (forall x, is_argsort x (argsort x)) ->
  (0 < d)%R -> (0 < lam)%R -> unambiguous d lam u angles ->
  separated (List.length angles) truth -> 1 <= List.length truth < n ->
  steering_matrix (gd_array g) (FF1 (at_positions angles truth) u) lam false "all" true = Ok (Flat A, []) ->
  exact_cov Rm A P s -> pd P -> (0 < s)%R -> o_refine o = false ->
  exists N0, forall N, (N0 <= N)%R -> exists k sp est e' h', mdl eigvalsh (EMat Rm) N = Ok k /\ aic eigvalsh (EMat Rm) N = Ok k /\
    music_estimate eigh n e h Rm (Z.of_nat k) o = (Ok (Outcome true (Some est) (if o_spectrum o then Some sp else None)), e', h') /\
    buf h' est = map (fun a => [a]) (at_positions angles truth).
Proof.
  intros ev eigh fp asort n d nm lam u angles dt c h0 g sg e0 h1 e h truth A P Rm s o Eg Es HN HR VC EC FP AS Hd Hl U SEP Hk HA HX HP Hs Hr.
  destruct (C83_music_on_ula eigh fp asort n d nm lam u angles dt c h0 g sg e0 h1 e h truth A P Rm s o Eg Es HN HR EC FP AS Hd Hl U SEP Hk HA HX HP Hr) as (sp & est & e' & h' & R1 & R2).
  apply grid_axes_inv in Es. subst sg. destruct (estimator_valid _ _ _ _ _ _ _ _ _ _ _ HN) as (K & V). destruct (ULA_facts _ _ _ _ Eg) as (PL & Pe & I & DT & _).
  assert (IB : forall i, In i truth -> i < List.length angles) by (destruct SEP as (_ & F); rewrite Forall_forall in F; intros i Hi; apply F in Hi; lia).
  assert (VT : valid_sources (FF1 (at_positions angles truth) u)).
  { split; [exact K|]. apply Forall_forall. intros a Ia. apply in_map_iff in Ia as (i & <- & Hi). rewrite Forall_forall in V. apply V, nth_In. now apply IB. }
  pose proof (ula_steering g n d u _ lam PL Pe I VT A HA) as EA. pose proof EA as (A1 & A2 & _). cbn [ula_matrix nr nc] in A1, A2. unfold at_positions in A2. rewrite !map_length in A2.
  assert (IA : inj A).
  { apply (Base_Lin.inj_eq (ula_matrix n (map (zof d lam u) (at_positions angles truth)))); [now symmetry|]. apply ula_inj; [|rewrite map_length; unfold at_positions; rewrite map_length; lia].
    unfold at_positions. rewrite map_map. pose proof (sep_lt _ _ SEP) as (_ & NT). apply NoDup_map_in; [exact NT|]. intros i j Hi Hj E. destruct U as (UN & UU). apply (zof_inj d lam u angles) in E; try assumption; [|split; assumption | now apply nth_In, IB | now apply nth_In, IB].
    apply (proj1 (NoDup_nth angles 0%R) UN); auto. }
  destruct (ex_dims Rm A P s HX) as (D1 & D2).
  destruct (VC Rm (exact_herm _ _ _ _ HX (proj1 HP)) ltac:(lia)) as (w & E & EW & OE).
  destruct (Prop_srcnum2.C87_exact_covariance ev Rm A P s w E HX IA HP Hs ltac:(lia) EW OE) as (_ & (N0 & HN0) & _).
  exists N0. intros N LN. destruct (HN0 N LN) as (Ea & Em). rewrite A2 in Ea, Em. exists (List.length truth), sp, est, e', h'. auto.
Qed.

(** the same with ESPRIT: the directions need not lie on a grid *)
Theorem C92_detect_then_esprit : forall eigvalsh eigh solve eigvals n d name g lam doas u src (A P Rm : cmat) s D formulation rw,
  mk_ULA (Z.of_nat n) (D0Scalar d) name no_kwargs = Ok g -> mk_FF1 (vec1 doas) u = Ok src ->
  steering_matrix (gd_array g) src lam false "all" true = Ok (Flat A, []) -> exact_cov Rm A P s -> pd P -> (0 < s)%R ->
  (0 < d)%R -> (0 < lam)%R -> NoDup doas ->
  Forall (fun a => - (lam / 2) < d * INR D * sin (to_rad u a) <= lam / 2)%R doas ->
  1 <= D -> 1 <= List.length doas -> List.length doas + D <= n ->
  eigvalsh_contract n eigvalsh -> eigh_contract (Nat.max n (2 * List.length doas)) eigh -> solve_contract (List.length doas) solve -> eigvals_contract (List.length doas) eigvals ->
  formulation = "tls"%string \/ formulation = "ls"%string -> Prop_esprit.harmless_weights rw n D ->
  exists N0, forall N, (N0 <= N)%R -> exists k l, mdl eigvalsh (EMat Rm) N = Ok k /\ aic eigvalsh (EMat Rm) N = Ok k /\
    esprit eigh solve eigvals lam Rm (Z.of_nat k) (Some d) (Z.of_nat D) formulation rw u = Ok (true, (map Some l, u)) /\ ascending l /\ Permutation l doas.
Proof.
  intros ev eigh solve eigvals n d nm g lam doas u src A P Rm s D formulation rw Eg Es HA HX HP Hs Hd Hl ND W HD Hk Hkm WC EC SC VC HF HW.
  destruct (C85_esprit_on_ula eigh solve eigvals n d nm g lam doas u src A P Rm s D formulation rw Eg Es HA HX HP Hd Hl ND W HD Hk Hkm EC SC VC HF HW) as (l & R1 & R2 & R3).
  apply mk_FF1_ok in Es as (_ & K & V & Es). cbn [vec1 nd_data] in V, Es. subst src. destruct (ULA_facts _ _ _ _ Eg) as (PL & Pe & I & DT & _).
  pose proof (ula_steering g n d u doas lam PL Pe I (conj K V) A HA) as EA. pose proof EA as (A1 & A2 & _). cbn [ula_matrix nr nc] in A1, A2. rewrite map_length in A2.
  assert (IA : inj A).
  { apply (Base_Lin.inj_eq (ula_matrix n (map (zof d lam u) doas))); [now symmetry|]. apply ula_inj; [|rewrite map_length; lia]. apply NoDup_map_in; [exact ND|]. rewrite Forall_forall in V, W.
    intros a b Ia Ib E. apply to_rad_inj with (u := u); auto. destruct (to_rad_range u a (V a Ia)), (to_rad_range u b (V b Ib)). pose proof PI_RGT_0 as PI0. pose proof (W a Ia) as Wa. pose proof (W b Ib) as Wb. unfold zof in E.
    assert (D1 : (1 <= INR D)%R) by (change 1%R with (INR 1); apply le_INR; lia). assert (Q : (0 < 2 * PI / lam)%R) by (apply Rdiv_lt_0_compat; lra). assert (Q2 : (2 * PI / lam * (lam / 2) = PI)%R) by (field; lra).
    assert (B : forall x, (- (lam / 2) < d * INR D * x <= lam / 2 -> - PI < 2 * PI / lam * d * x <= PI)%R).
    { intros x (X1 & X2). rewrite Rmult_assoc. replace (d * INR D * x)%R with (INR D * (d * x))%R in X1, X2 by ring. set (y := (d * x)%R) in *. clearbody y. assert (Y : (- (lam / 2) < y <= lam / 2)%R) by (destruct (Rle_dec 0 y); split; nra). split; nra. }
    apply cis_inj in E; [|now apply B|now apply B]. apply Rmult_eq_reg_l in E; [|apply Rgt_not_eq, Rmult_lt_0_compat; assumption].
    rewrite <- (asin_sin (to_rad u a)), <- (asin_sin (to_rad u b)) by lra. now rewrite E. }
  destruct (ex_dims Rm A P s HX) as (D1 & D2).
  destruct (WC Rm (exact_herm _ _ _ _ HX (proj1 HP)) ltac:(lia)) as (w & E & EW & OE).
  destruct (Prop_srcnum2.C87_exact_covariance ev Rm A P s w E HX IA HP Hs ltac:(lia) EW OE) as (_ & (N0 & HN0) & _).
  exists N0. intros N LN. destruct (HN0 N LN) as (Ea & Em). rewrite A2 in Ea, Em. exists (List.length doas), l. auto.
Qed.

(** instances: eigenvalues from the reference eigendecomposition *)
Definition eigvalsh_ref (A : cmat) : res (list R) := let! (w, _) := P_oracles.eigh_ref A in Ok w.
Lemma eigvalsh_ref_contract n : eigvalsh_contract n eigvalsh_ref.
Proof. intros A HA L. destruct (P_oracles.eigh_ref_contract n A HA L) as (w & E & EE & OE). exists w, E. split; [unfold eigvalsh_ref; now rewrite EE | exact OE]. Qed.
(** two correlated sources at 45 and -30 degrees on four sensors half a wavelength apart: the program finds that there are two, and where *)
Example C92_example : exists g src (A Rm : cmat),
  mk_ULA 4 (D0Scalar 1) None no_kwargs = Ok g /\ mk_FF1 (vec1 [45; -30]%R) "deg" = Ok src /\
  steering_matrix (gd_array g) src 2 false "all" true = Ok (Flat A, []) /\ exact_cov Rm A correlated2 1 /\
  exists N0, forall N, (N0 <= N)%R -> exists k l, mdl eigvalsh_ref (EMat Rm) N = Ok k /\ aic eigvalsh_ref (EMat Rm) N = Ok k /\
    esprit P_oracles.eigh_ref solve0 eigvals_ref 2 Rm (Z.of_nat k) (Some 1%R) 1 "tls" (RWStr "none") "deg" = Ok (true, (map Some l, "deg"%string)) /\ ascending l /\ Permutation l [45; -30]%R.
Proof.
  destruct (Prop_designs.C10_constructible 4 0 0 1 None) as ((g & Eg) & _). destruct (ULA_facts _ _ _ _ Eg) as (PL & X2 & X3 & X4 & _). assert (K : known_unit "deg") by (right; left; reflexivity).
  assert (V : Forall (valid_angle "deg") [45; -30]%R) by (apply Forall_cons; [|apply Forall_cons; [|apply Forall_nil]]; right; left; (split; [reflexivity | lra])).
  assert (Es : mk_FF1 (vec1 [45; -30]%R) "deg" = Ok (FF1 [45; -30]%R "deg")) by (apply mk_FF1_ok; split; [cbn; lia|]; split; [exact K|]; split; [exact V | reflexivity]).
  destruct (steering_defined (gd_array g) (FF1 [45; -30]%R "deg") 2 "all" [] true ltac:(lra) X3 X4) as (A & HA);
    [rewrite (pl_ndim _ _ _ PL); lia | rewrite (pl_size _ _ _ PL), ULA_indices_length; lia | unfold select_perturbations, perturbations; now rewrite X2 | intros ? []|].
  assert (L2 : nc A = 2) by (destruct (response_1d g _ 1 _ 2 A PL X2 X3 (conj K V : valid_sources (FF1 [45; -30]%R "deg")) eq_refl HA) as (_ & N & _); exact N).
  assert (HX : exact_cov (model_cov_P A correlated2 1) A correlated2 1) by (split; [|split; [|reflexivity]]; cbn; congruence).
  exists g, (FF1 [45; -30]%R "deg"), A, (model_cov_P A correlated2 1). do 4 (split; [assumption|]).
  apply (C92_detect_then_esprit eigvalsh_ref P_oracles.eigh_ref solve0 eigvals_ref 4 1 None g 2 [45; -30]%R "deg" _ A correlated2 (model_cov_P A correlated2 1) 1 1 "tls" (RWStr "none") Eg Es HA HX correlated2_pd); try lra; try lia.
  - repeat constructor; cbn; lra.
  - apply Forall_forall. intros a Ia. cbn [INR]. rewrite Rmult_1_r, Rmult_1_l. replace (2 / 2)%R with 1%R by lra. pose proof PI_RGT_0. split; [|apply SIN_bound].
    replace (- (1))%R with (sin (- (PI / 2))) by (rewrite sin_neg, sin_PI2; lra). destruct Ia as [<-|[<-|[]]]; cbn; apply sin_increasing_1; lra.
  - cbn; lia.
  - cbn; lia.
  - apply eigvalsh_ref_contract.
  - apply P_oracles.eigh_ref_contract.
  - apply solve0_contract.
  - apply eigvals_ref_contract.
  - now left.
  - left. reflexivity.
Qed.
Print Assumptions C92_detect_then_music.
Print Assumptions C92_detect_then_esprit.
