(** End-to-end properties, continued: ESPRIT on designed arrays (C85) and spatial smoothing of coherent sources (C86). *)
From Coq Require Import Lra Sorted Permutation.
From Verif Require Import Base_Np Base_Trig Base_Lin S_model M_utils S_utils P_utils M_sources S_sources P_sources M_array S_array P_array P_array2 P_array3 M_designs S_designs P_designs M_coarray S_coarray P_coarray P_coarray2 P_model
  M_grid S_grid P_grid M_core P_core P_core2 M_sparse M_subspace S_subspace P_subspace P_subspace5 P_perf5 M_srcnum M_pipeline S_pipeline P_pipeline P_pipeline2 P_pipeline3 P_gauss P_fta2 Prop_pipeline.
From Verif Require P_oracles Prop_subspace Prop_esprit Prop_designs Prop_grid Prop_coarray Prop_coarray2 Prop_perf3.
Open Scope nat_scope.

Lemma exact_cov_eq Rm A B P s : A ==m B -> exact_cov Rm A P s -> exact_cov Rm B P s.
Proof.
  intros E (P1 & P2 & H). pose proof E as (E1 & E2 & E3). split; [congruence|]. split; [congruence|]. rewrite H. rewrite E1. destruct (mmul_eq_l _ _ P E) as (F1 & F2 & F3).
  split; [exact E1|]. split; [exact E1|]. intros i j Hi Hj. cbn [madd nr nc mscal mid ent mmul mher] in Hi, Hj |- *. f_equal. apply csum_ext. intros q Hq. cbn in F3. rewrite F3 by assumption. f_equal. rewrite P2 in Hq. now rewrite E3.
Qed.

Lemma to_rad_inj u a b : valid_angle u a -> valid_angle u b -> to_rad u a = to_rad u b -> a = b.
Proof. intros Va Vb E. now rewrite <- (of_to_rad u a Va), <- (of_to_rad u b Vb), E. Qed.
Lemma mod_zof d lam u a : Cmod (zof d lam u a) = 1%R.
Proof. apply cis_mod. Qed.
(** directions an array of spacing d and displacement D can tell apart: the phase d D sin(theta) stays within half a wavelength *)
Lemma esprit_ula eigh solve eigvals m d lam u doas A P s Rm D formulation rw : (0 < d)%R -> (0 < lam)%R -> known_unit u -> Forall (valid_angle u) doas -> NoDup doas ->
  Forall (fun a => - (lam / 2) < d * INR D * sin (to_rad u a) <= lam / 2)%R doas ->
  A ==m ula_matrix m (map (zof d lam u) doas) -> exact_cov Rm A P s -> pd P ->
  eigh_contract (Nat.max m (2 * List.length doas)) eigh -> solve_contract (List.length doas) solve -> eigvals_contract (List.length doas) eigvals ->
  1 <= D -> 1 <= List.length doas -> List.length doas + D <= m ->
  formulation = "tls"%string \/ formulation = "ls"%string -> Prop_esprit.harmless_weights rw m D ->
  exists l, esprit eigh solve eigvals lam Rm (Z.of_nat (List.length doas)) (Some d) (Z.of_nat D) formulation rw u = Ok (true, (map Some l, u)) /\
    ascending l /\ Permutation l doas.
Proof.
  intros Hd Hl K V ND W EA HX HP EC SC VC HD Hk Hkm HF HW. pose proof PI_RGT_0 as PP. rewrite Forall_forall in V, W.
  set (ts := map (to_rad u) doas). assert (Lt : List.length ts = List.length doas) by apply map_length.
  destruct (Prop_esprit.C63_directions eigh solve eigvals Rm P s ts m D formulation rw lam (Some d) u) as (l & E & AS & PM); rewrite ?Lt; try assumption.
  - apply NoDup_map_in; [exact ND|]. intros a b Ia Ib. apply to_rad_inj; auto.
  - apply Forall_forall. intros t It. apply in_map_iff in It as (a & <- & Ia). split; [apply to_rad_range; auto|]. specialize (W a Ia). rewrite INR_IZR_INZ in W.
    replace (2 * PI * (d * IZR (Z.of_nat D)) / lam * sin (to_rad u a))%R with ((2 * PI / lam) * (d * IZR (Z.of_nat D) * sin (to_rad u a)))%R by (field; lra).
    assert (0 < 2 * PI / lam)%R by (apply Rdiv_lt_0_compat; lra). assert (2 * PI / lam * (lam / 2) = PI)%R by (field; lra). split; nra.
  - apply (exact_cov_eq Rm A); [|exact HX]. unfold ts. rewrite map_map. replace (map _ doas) with (map (zof d lam u) doas); [exact EA|]. apply map_ext. intros a. unfold zof. f_equal. field. lra.
  - rewrite Lt in E. exists l. split; [exact E|]. split; [exact AS|]. unfold ts in PM. rewrite map_map in PM. rewrite (map_ext_in _ (fun a => a)), map_id in PM; [exact PM|]. intros a Ia. apply of_to_rad. auto.
Qed.

(** C85: ESPRIT on a uniform linear array of n sensors with spacing d.  For distinct directions whose phase over the
    displacement D stays within half a wavelength, fewer than n - D + 1 of them, and the covariance A P A^H + s I, the
    estimator called with that spacing returns the directions, sorted. *)
Theorem C85_esprit_on_ula : forall eigh solve eigvals n d name g lam doas u src (A P Rm : cmat) s D formulation rw,
  mk_ULA (Z.of_nat n) (D0Scalar d) name no_kwargs = Ok g -> mk_FF1 (vec1 doas) u = Ok src ->
  steering_matrix (gd_array g) src lam false "all" true = Ok (Flat A, []) -> exact_cov Rm A P s -> pd P ->
  (0 < d)%R -> (0 < lam)%R -> NoDup doas -> Forall (fun a => - (lam / 2) < d * INR D * sin (to_rad u a) <= lam / 2)%R doas ->
  1 <= D -> 1 <= List.length doas -> List.length doas + D <= n ->
  eigh_contract (Nat.max n (2 * List.length doas)) eigh -> solve_contract (List.length doas) solve -> eigvals_contract (List.length doas) eigvals ->
  formulation = "tls"%string \/ formulation = "ls"%string -> Prop_esprit.harmless_weights rw n D ->
  exists l, esprit eigh solve eigvals lam Rm (Z.of_nat (List.length doas)) (Some d) (Z.of_nat D) formulation rw u = Ok (true, (map Some l, u)) /\
    ascending l /\ Permutation l doas.
Proof.
  intros eigh solve eigvals n d nm g lam doas u src A P Rm s D formulation rw Eg Es HA HX HP Hd Hl ND W HD Hk Hkn EC SC VC HF HW.
  apply mk_FF1_ok in Es as (_ & K & V & ->). cbn [vec1 nd_data] in *. destruct (ULA_facts _ _ _ _ Eg) as (PL & Pe & I & _ & _).
  pose proof (ula_steering g n d u doas lam PL Pe I (conj K V) A HA) as EA. apply (esprit_ula eigh solve eigvals n d lam u doas A P s Rm D formulation rw); assumption.
Qed.
(** in particular at a spacing of at most half a wavelength and with the default displacement every set of directions
    other than exactly -90 degrees is recovered *)
Theorem C85_half_wavelength : forall eigh solve eigvals n d name g lam doas u src (A P Rm : cmat) s formulation rw,
  mk_ULA (Z.of_nat n) (D0Scalar d) name no_kwargs = Ok g -> mk_FF1 (vec1 doas) u = Ok src ->
  steering_matrix (gd_array g) src lam false "all" true = Ok (Flat A, []) -> exact_cov Rm A P s -> pd P ->
  (0 < d <= lam / 2)%R -> NoDup doas -> (forall a, In a doas -> to_rad u a <> (- (PI / 2))%R) ->
  1 <= List.length doas < n ->
  eigh_contract (Nat.max n (2 * List.length doas)) eigh -> solve_contract (List.length doas) solve -> eigvals_contract (List.length doas) eigvals ->
  formulation = "tls"%string \/ formulation = "ls"%string -> Prop_esprit.harmless_weights rw n 1 ->
  exists l, esprit eigh solve eigvals lam Rm (Z.of_nat (List.length doas)) (Some d) 1 formulation rw u = Ok (true, (map Some l, u)) /\
    ascending l /\ Permutation l doas.
Proof.
  intros eigh solve eigvals n d nm g lam doas u src A P Rm s formulation rw Eg Es HA HX HP Hd ND NE Hk EC SC VC HF HW.
  apply (C85_esprit_on_ula eigh solve eigvals n d nm g lam doas u src A P Rm s 1 formulation rw); try assumption; try lra; try lia.
  apply mk_FF1_ok in Es as (_ & K & V & _). cbn [vec1 nd_data] in V. rewrite Forall_forall in V. apply Forall_forall. intros a Ia. cbn [INR]. rewrite Rmult_1_r.
  destruct (to_rad_range u a (V a Ia)) as (B1 & B2). specialize (NE a Ia). pose proof PI_RGT_0 as PP.
  assert (L : (-1 < sin (to_rad u a))%R). { replace (-1)%R with (sin (- (PI / 2))) by (rewrite sin_neg, sin_PI2; lra). apply sin_increasing_1; lra. }
  assert (U : (sin (to_rad u a) <= 1)%R) by apply SIN_bound. split; nra.
Qed.

(** C85 on a coarray: ESPRIT on the augmented covariance of uncorrelated sources *)
Theorem C85_coarray_esprit : forall eigh solve eigvals g l d w0 calls m lam doas u src (A Rm : cmat) p sigma D method formulation rw,
  places_1d g l d -> gd_d0 g = [d] -> NoDup l -> ar_perts (gd_array g) = [] -> scalar_isotropic (gd_array g) ->
  mk_WeightFunction1D g = Ok w0 -> first_hole l (Z.of_nat m) -> mk_FF1 (vec1 doas) u = Ok src ->
  steering_matrix (gd_array g) src lam false "all" true = Ok (Flat A, []) ->
  Rm ==m model_cov A p sigma -> (forall k, k < List.length doas -> (0 < p k)%R) -> (0 <= sigma)%R ->
  (0 < d)%R -> (0 < lam)%R -> NoDup doas -> Forall (fun a => - (lam / 2) < d * INR D * sin (to_rad u a) <= lam / 2)%R doas ->
  1 <= D -> 1 <= List.length doas -> List.length doas + D <= m ->
  eigh_contract (Nat.max m (2 * List.length doas)) eigh -> solve_contract (List.length doas) solve -> eigvals_contract (List.length doas) eigvals ->
  method = "da"%string \/ method = "ss"%string -> formulation = "tls"%string \/ formulation = "ls"%string -> Prop_esprit.harmless_weights rw m D ->
  exists Ra r, transform (Acm g (after w0 calls)) Rm method = Ok Ra /\
    esprit eigh solve eigvals lam Ra (Z.of_nat (List.length doas)) (Some d) (Z.of_nat D) formulation rw u = Ok (true, (map Some r, u)) /\
    ascending r /\ Permutation r doas.
Proof.
  intros eigh solve eigvals g l d w0 calls m lam doas u src A Rm p sigma D method formulation rw PL D0 NDl Pe Iso Hw FH Es HA HRm Hp Hs Hd Hl ND W HD Hk Hkm EC SC VC HM HF HW.
  apply mk_FF1_ok in Es as (_ & K & V & ->). cbn [vec1 nd_data] in *. assert (VS : valid_sources (FF1 doas u)) by exact (conj K V).
  assert (Nl : l <> []). { intros ->. destruct FH as (_ & _ & X). specialize (X 0%Z ltac:(lia)). destruct X as (? & ? & [] & _). }
  pose proof (places_grid_1d g l d PL) as Hg.
  assert (Em : Z.of_nat m = Z.of_nat (mv0 g)) by exact (Prop_coarray.C37_first_hole_unique l _ _ FH (mv0_hole g l Hg)).
  destruct (Prop_coarray2.C40_exact g l d w0 calls _ lam p sigma None A Rm PL D0 Hw Nl NDl Pe Iso VS eq_refl HA HRm) as (v & Av & Da & Ev & HAv & ED & HDa).
  assert (VF : places_1d v (ULA_indices (Z.of_nat m)) d /\ ar_perts (gd_array v) = [] /\ scalar_isotropic (gd_array v)).
  { unfold get_virtual_ula in Ev. cbn [acm_array] in Ev. rewrite D0 in Ev. assert (Eo : acm_output_size (Acm g (after w0 calls)) = Z.of_nat (mv0 g)) by exact (central_ula g l Hg w0 Hw calls true). rewrite Eo, <- Em in Ev.
    destruct (ULA_virtual (Z.of_nat m) d (Some (name_or None ("Virtual ULA of " ++ ar_name (gd_array g))))) as (v2 & E2 & X). rewrite Ev in E2. injection E2 as <-. exact X. }
  destruct VF as (PV & PeV & IsoV). pose proof (ula_steering v m d u _ lam PV PeV IsoV VS Av HAv) as EA. pose proof EA as (A1 & A2 & _). cbn [ula_matrix nr nc] in A1, A2. rewrite map_length in A2.
  assert (X0 : exact_cov Da Av (mdiag (nc Av) (fun k => RtoC (p k))) sigma) by (split; [reflexivity|]; split; [reflexivity|]; exact HDa).
  assert (PP : pd (mdiag (nc Av) (fun k => RtoC (p k)))) by (apply pd_mdiag; intros k Hk'; apply Hp; lia).
  destruct HM as [-> | ->].
  - destruct (esprit_ula eigh solve eigvals m d lam u doas Av _ sigma Da D formulation rw Hd Hl K V ND W EA X0 PP EC SC VC HD Hk Hkm HF HW) as (r & R1 & R2). exists Da, r. auto.
  - assert (IA : inj Av).
    { apply (Base_Lin.inj_eq (ula_matrix m (map (zof d lam u) doas))); [now symmetry|]. apply ula_inj; [|rewrite map_length; lia]. apply NoDup_map_in; [exact ND|]. rewrite Forall_forall in V, W.
      intros a b Ia Ib E. apply to_rad_inj with (u := u); auto. destruct (to_rad_range u a (V a Ia)), (to_rad_range u b (V b Ib)). pose proof PI_RGT_0 as PI0. pose proof (W a Ia) as Wa. pose proof (W b Ib) as Wb. unfold zof in E.
      assert (D1 : (1 <= INR D)%R) by (change 1%R with (INR 1); apply le_INR; lia). assert (Q : (0 < 2 * PI / lam)%R) by (apply Rdiv_lt_0_compat; lra). assert (Q2 : (2 * PI / lam * (lam / 2) = PI)%R) by (field; lra).
      assert (B : forall x, (- (lam / 2) < d * INR D * x <= lam / 2 -> - PI < 2 * PI / lam * d * x <= PI)%R).
      { intros x (X1 & X2). rewrite Rmult_assoc. replace (d * INR D * x)%R with (INR D * (d * x))%R in X1, X2 by ring. set (y := (d * x)%R) in *. clearbody y. assert (Y : (- (lam / 2) < y <= lam / 2)%R) by (destruct (Rle_dec 0 y); split; nra). split; nra. }
      apply cis_inj in E; [|now apply B|now apply B]. apply Rmult_eq_reg_l in E; [|apply Rgt_not_eq, Rmult_lt_0_compat; assumption].
      rewrite <- (asin_sin (to_rad u a)), <- (asin_sin (to_rad u b)) by lra. now rewrite E. }
    pose proof HRm as (R1 & R2 & _). cbn in R1, R2. destruct (response_1d g l d _ lam A PL Pe Iso VS eq_refl HA) as (A3 & _).
    destruct (Prop_coarray.C39_ss g l w0 calls Rm (Z.of_nat m) Hg Hw Nl FH ltac:(congruence) ltac:(congruence)) as (D' & Sm & ED' & ES & EG & _). rewrite ED in ED'. injection ED' as <-.
    destruct (gram_exact Da Sm Av _ sigma (/ IZR (Z.of_nat m)) X0 IA PP Hs ltac:(apply Rinv_0_lt_compat, IZR_lt; lia) EG) as (P' & X1 & PP').
    destruct (esprit_ula eigh solve eigvals m d lam u doas Av P' _ Sm D formulation rw Hd Hl K V ND W EA X1 PP' EC SC VC HD Hk Hkm HF HW) as (r & Q1 & Q2). exists Sm, r. auto.
Qed.

(** C86: spatial smoothing decorrelates.  Sources of an n-sensor uniform linear array with ANY (possibly singular: fully
    coherent) source covariance P in which every source has power: smoothing over l subarrays, at least as many as there
    are sources, gives a covariance matrix of the (n - l + 1)-sensor array of the same spacing, with the same noise level
    and a NONSINGULAR source covariance. *)
Theorem C86_rank_restored : forall n l d name name' g g' lam doas u src (A A' P Rm : cmat) s fb,
  mk_ULA (Z.of_nat n) (D0Scalar d) name no_kwargs = Ok g -> mk_ULA (Z.of_nat (n - l + 1)) (D0Scalar d) name' no_kwargs = Ok g' ->
  mk_FF1 (vec1 doas) u = Ok src -> steering_matrix (gd_array g) src lam false "all" true = Ok (Flat A, []) ->
  steering_matrix (gd_array g') src lam false "all" true = Ok (Flat A', []) ->
  (0 < d)%R -> (0 < lam)%R -> unambiguous d lam u doas ->
  exact_cov Rm A P s -> psd P -> (forall k, k < List.length doas -> ent P k k <> RtoC 0) ->
  1 <= List.length doas <= l -> l <= n ->
  exists B P', spatial_smooth MComplex Rm (Z.of_nat l) fb = Ok B /\ exact_cov B A' P' s /\ pd P'.
Proof.
  intros n l d nm nm' g g' lam doas u src A A' P Rm s fb Eg Eg' Es HA HA' Hd Hl U HX HP Hp Hk Hln.
  apply mk_FF1_ok in Es as (_ & K & V & ->). cbn [vec1 nd_data] in *. assert (VS : valid_sources (FF1 doas u)) by exact (conj K V).
  destruct (ULA_facts _ _ _ _ Eg) as (PL & Pe & I & _ & _). destruct (ULA_facts _ _ _ _ Eg') as (PL' & Pe' & I' & _ & _).
  pose proof (ula_steering g n d u doas lam PL Pe I VS A HA) as EA. pose proof (ula_steering g' (n - l + 1) d u doas lam PL' Pe' I' VS A' HA') as EA'.
  pose proof HX as (P1 & P2 & _). pose proof EA as (_ & EA2 & _). cbn [ula_matrix nc] in EA2. rewrite map_length in EA2.
  destruct (smooth_restores MComplex Rm n (map (zof d lam u) doas) P s l fb) as (B & P' & R1 & R2 & R3); rewrite ?map_length; try assumption.
  - apply NoDup_map_in; [exact (proj1 U)|]. intros a b Ia Ib. now apply (zof_inj d lam u doas).
  - apply Forall_forall. intros z Iz. apply in_map_iff in Iz as (a & <- & _). apply mod_zof.
  - exact (exact_cov_eq _ _ _ _ _ EA HX).
  - intros j Hj. apply Hp. lia.
  - now left.
  - exists B, P'. split; [exact R1|]. split; [|exact R3]. apply (exact_cov_eq _ (ula_matrix (n - l + 1) (map (zof d lam u) doas))); [now symmetry | exact R2].
Qed.
(** so MUSIC on the smoothed matrix returns the directions of coherent sources *)
Theorem C86_smoothed_music : forall eigh find_peaks argsort n l d name name' g g' lam u angles dt caching h0 sg e0 h1 e h truth (A P Rm : cmat) s fb o,
  mk_ULA (Z.of_nat n) (D0Scalar d) name no_kwargs = Ok g -> let m := n - l + 1 in mk_ULA (Z.of_nat m) (D0Scalar d) name' no_kwargs = Ok g' ->
  mk_grid_axes G1D [angles] dt u = Ok sg ->
  new_estimator (gd_array g') lam sg (find_peaks_simple find_peaks) argsort caching h0 = Ok (e0, h1) -> music_reach eigh m e0 h1 e h ->
  eigh_contract m eigh -> scipy_find_peaks find_peaks -> (forall x, is_argsort x (argsort x)) ->
  (0 < d)%R -> (0 < lam)%R -> unambiguous d lam u angles ->
  separated (List.length angles) truth -> 1 <= List.length truth <= l -> l <= n -> List.length truth < m ->
  steering_matrix (gd_array g) (FF1 (at_positions angles truth) u) lam false "all" true = Ok (Flat A, []) ->
  exact_cov Rm A P s -> psd P -> (forall k, k < List.length truth -> ent P k k <> RtoC 0) -> o_refine o = false ->
  exists B sp est e' h', spatial_smooth MComplex Rm (Z.of_nat l) fb = Ok B /\
    music_estimate eigh m e h B (Z.of_nat (List.length truth)) o = (Ok (Outcome true (Some est) (if o_spectrum o then Some sp else None)), e', h') /\
    buf h' est = map (fun a => [a]) (at_positions angles truth).
Proof.
  intros eigh fp asort n l d nm nm' g g' lam u angles dt c h0 sg e0 h1 e h truth A P Rm s fb o Eg m Eg' Es HN HR EC FP AS Hd Hl U SEP Hk Hln Hkm HA HX HP Hp Hr.
  apply grid_axes_inv in Es. subst sg. destruct (estimator_valid _ _ _ _ _ _ _ _ _ _ _ HN) as (K & V). destruct (ULA_facts _ _ _ _ Eg') as (PL' & Pe' & I' & DT' & _).
  assert (IB : forall i, In i truth -> i < List.length angles) by (destruct SEP as (_ & F); rewrite Forall_forall in F; intros i Hi; apply F in Hi; lia).
  assert (VT : Forall (valid_angle u) (at_positions angles truth)).
  { apply Forall_forall. intros a Ia. apply in_map_iff in Ia as (i & <- & Hi). rewrite Forall_forall in V. apply V, nth_In. now apply IB. }
  assert (UT : unambiguous d lam u (at_positions angles truth)).
  { destruct U as (UN & UU). pose proof (sep_lt _ _ SEP) as (_ & NT). split.
    - apply NoDup_map_in; [exact NT|]. intros i j Hi Hj E. apply (proj1 (NoDup_nth angles 0%R) UN); auto.
    - intros a b Ia Ib. apply in_map_iff in Ia as (i & <- & Hi). apply in_map_iff in Ib as (j & <- & Hj). apply UU; apply nth_In; auto. }
  assert (LT : List.length (at_positions angles truth) = List.length truth) by apply map_length.
  destruct (steering_defined (gd_array g') (FF1 (at_positions angles truth) u) lam "all" [] true (steering_nonzero _ _ _ _ _ _ _ HA) I' DT') as (A' & HA');
    [rewrite (pl_ndim _ _ _ PL'); lia | rewrite (pl_size _ _ _ PL'), ULA_indices_length; lia | unfold select_perturbations, perturbations; now rewrite Pe' | intros ? []|].
  destruct (C86_rank_restored n l d nm nm' g g' lam (at_positions angles truth) u (FF1 (at_positions angles truth) u) A A' P Rm s fb) as (B & P' & R1 & R2 & R3); rewrite ?LT; try assumption.
  - apply mk_FF1_ok. split; [cbn; lia|]. split; [exact K|]. split; [exact VT | reflexivity].
  - destruct (music_ula eigh fp asort g' m d lam u angles dt c h0 e0 h1 e h truth A' P' s B o) as (sp & est & e' & h' & Q1 & Q2); try assumption; [lia|]. exists B, sp, est, e', h'. auto.
Qed.
(** and so does ESPRIT *)
Theorem C86_smoothed_esprit : forall eigh solve eigvals n l d name g lam doas u src (A P Rm : cmat) s fb D formulation rw,
  mk_ULA (Z.of_nat n) (D0Scalar d) name no_kwargs = Ok g -> mk_FF1 (vec1 doas) u = Ok src ->
  steering_matrix (gd_array g) src lam false "all" true = Ok (Flat A, []) -> exact_cov Rm A P s ->
  psd P -> (forall k, k < List.length doas -> ent P k k <> RtoC 0) ->
  (0 < d)%R -> (0 < lam)%R -> unambiguous d lam u doas -> Forall (fun a => - (lam / 2) < d * INR D * sin (to_rad u a) <= lam / 2)%R doas ->
  let m := n - l + 1 in 1 <= D -> 1 <= List.length doas <= l -> l <= n -> List.length doas + D <= m ->
  eigh_contract (Nat.max m (2 * List.length doas)) eigh -> solve_contract (List.length doas) solve -> eigvals_contract (List.length doas) eigvals ->
  formulation = "tls"%string \/ formulation = "ls"%string -> Prop_esprit.harmless_weights rw m D ->
  exists B r, spatial_smooth MComplex Rm (Z.of_nat l) fb = Ok B /\
    esprit eigh solve eigvals lam B (Z.of_nat (List.length doas)) (Some d) (Z.of_nat D) formulation rw u = Ok (true, (map Some r, u)) /\
    ascending r /\ Permutation r doas.
Proof.
  intros eigh solve eigvals n l d nm g lam doas u src A P Rm s fb D formulation rw Eg Es HA HX HP Hp Hd Hl U W m HD Hk Hln Hkm EC SC VC HF HW.
  destruct (Prop_perf3.ULA_scalar (Z.of_nat m) d None) as (g' & Eg' & _). destruct (ULA_facts _ _ _ _ Eg') as (PL' & Pe' & I' & DT' & _).
  assert (SD : exists A', steering_matrix (gd_array g') src lam false "all" true = Ok (Flat A', [])).
  { apply mk_FF1_ok in Es as (_ & K & V & ->). apply (steering_defined (gd_array g') (FF1 (nd_data (vec1 doas)) u) lam "all" [] true (steering_nonzero _ _ _ _ _ _ _ HA) I' DT');
    [rewrite (pl_ndim _ _ _ PL'); lia | rewrite (pl_size _ _ _ PL'), ULA_indices_length; lia | unfold select_perturbations, perturbations; now rewrite Pe' | intros ? []]. }
  destruct SD as (A' & HA').
  destruct (C86_rank_restored n l d nm None g g' lam doas u src A A' P Rm s fb) as (B & P' & R1 & R2 & R3); try assumption.
  destruct (C85_esprit_on_ula eigh solve eigvals m d None g' lam doas u src A' P' B s D formulation rw) as (r & Q1 & Q2); try assumption; [exact (proj1 U) | lia | exists B, r; auto].
Qed.

(** ** Non-vacuity *)
(** four sensors, two fully coherent sources (the source covariance has rank one), smoothing over two subarrays of three sensors *)
Definition coherent2 : cmat := Mat 2 2 (fun _ _ => RtoC 1).
Lemma coherent2_psd : psd coherent2.
Proof.
  split; [split; [reflexivity|]; intros i j _ _; cbn; now rewrite Cconj_RtoC|]. intros x.
  assert (E : qform coherent2 x = RtoC (Cnorm2 (x 0%nat + x 1%nat)%C)).
  { unfold qform. cbn [coherent2 nr nc ent csum]. unfold Cnorm2. destruct (x 0) as [a b], (x 1) as [a' b']. unfold Cconj, Cmult, Cplus, RtoC. cbn. f_equal; ring. }
  rewrite E. cbn [Re fst RtoC]. apply Cnorm2_nonneg.
Qed.
Lemma coherent2_singular : ~ pd coherent2.
Proof.
  intros (_ & H). specialize (H (fun i => if Nat.eqb i 0 then RtoC 1 else RtoC (-1))). cbn [coherent2 nr] in H. unfold qform in H. cbn [nr nc ent csum Nat.eqb] in H.
  assert (X : (0 < 0)%R); [|lra]. eapply Rlt_le_trans; [apply H; exists 0; split; [lia | cbn; intros E; apply (f_equal Re) in E; cbn in E; lra]|].
  unfold Cconj, Cmult, Cplus, RtoC. cbn. lra.
Qed.
Example C86_example : forall fb, exists g g' l e0 h1 (A Rm B : cmat) sp est e' h',
  mk_ULA 4 (D0Scalar 1) None no_kwargs = Ok g /\ mk_ULA 3 (D0Scalar 1) None no_kwargs = Ok g' /\ mk_grid1d None None 180 "deg" = Ok (SGrid G1D [vec1 l] "deg" DFloat) /\
  new_estimator (gd_array g') 2 (SGrid G1D [vec1 l] "deg" DFloat) (find_peaks_simple peaks_ref) Prop_subspace.argsort_R true [] = Ok (e0, h1) /\
  steering_matrix (gd_array g) (FF1 (at_positions l [30; 100]) "deg") 2 false "all" true = Ok (Flat A, []) /\ exact_cov Rm A coherent2 1 /\
  spatial_smooth MComplex Rm 2 fb = Ok B /\
  music_estimate P_oracles.eigh_ref 3 e0 h1 B 2 (Opts false false 10 3) = (Ok (Outcome true (Some est) sp), e', h') /\
  buf h' est = map (fun a => [a]) (at_positions l [30; 100]).
Proof.
  intros fb. destruct (Prop_designs.C10_constructible 4 0 0 1 None) as ((g & Eg) & _). destruct (Prop_designs.C10_constructible 3 0 0 1 None) as ((g' & Eg') & _). destruct (ULA_facts _ _ _ _ Eg) as (PL & X2 & X3 & X4 & _).
  assert (K : known_unit "deg") by (right; left; reflexivity).
  destruct (default_grid_estimator (gd_array g') 2 "deg" 180 (find_peaks_simple peaks_ref) Prop_subspace.argsort_R true [] K) as (l & e0 & h1 & El & Ll & HN).
  destruct (steering_defined (gd_array g) (FF1 (at_positions l [30; 100]) "deg") 2 "all" [] true ltac:(lra) X3 X4) as (A & HA);
    [rewrite (pl_ndim _ _ _ PL); lia | rewrite (pl_size _ _ _ PL), ULA_indices_length; lia | unfold select_perturbations, perturbations; now rewrite X2 | intros ? []|].
  destruct (default_unambiguous 1 2 "deg" 180 l K ltac:(lra) El) as (_ & U).
  assert (L2 : nc A = 2).
  { destruct (estimator_valid _ _ _ _ _ _ _ _ _ _ _ HN) as (_ & V). rewrite Forall_forall in V.
    assert (VT : valid_sources (FF1 (at_positions l [30; 100]) "deg")) by (split; [exact K|]; repeat (constructor; [apply V, nth_In; lia|]); constructor).
    destruct (response_1d g _ 1 _ 2 A PL X2 X3 VT eq_refl HA) as (_ & N & _). exact N. }
  assert (HX : exact_cov (model_cov_P A coherent2 1) A coherent2 1) by (split; [|split; [|reflexivity]]; cbn; congruence).
  destruct (C86_smoothed_music P_oracles.eigh_ref peaks_ref Prop_subspace.argsort_R 4 2 1 None None g g' 2 "deg" l DFloat true [] (SGrid G1D [vec1 l] "deg" DFloat) e0 h1 e0 h1 [30; 100] A coherent2 (model_cov_P A coherent2 1) 1 fb (Opts false false 10 3)) as (B & sp & est & e' & h' & R1 & R2 & R3);
    try assumption; try lia; try lra.
  - reflexivity.
  - constructor.
  - apply P_oracles.eigh_ref_contract.
  - exact peaks_ref_ok.
  - exact Prop_subspace.argsort_R_ok.
  - rewrite Ll. split; [repeat (constructor; [|repeat (constructor; [lia|]); constructor]); constructor | repeat (constructor; [lia|]); constructor].
  - cbn; lia.
  - cbn; lia.
  - exact coherent2_psd.
  - intros k _. cbn. intros E. apply (f_equal Re) in E. cbn in E. lra.
  - reflexivity.
  - exists g, g', l, e0, h1, A, (model_cov_P A coherent2 1), B, None, est, e', h'. repeat (split; [assumption|]). exact R3.
Qed.
(** four sensors, two correlated sources at -30 and 45 degrees: every formulation, library-independent reference routines *)
Definition correlated2 : cmat := Mat 2 2 (fun i j => if Nat.eqb i j then RtoC 2 else RtoC 1).
Lemma correlated2_pd : pd correlated2.
Proof.
  split; [split; [reflexivity|]; intros i j _ _; cbn [correlated2 ent]; rewrite (Nat.eqb_sym j i); destruct (Nat.eqb i j); now rewrite Cconj_RtoC|].
  intros x (i & Hi & Nx). cbn [correlated2 nr] in Hi. assert (E : qform correlated2 x = RtoC (Cnorm2 (x 0%nat) + Cnorm2 (x 1%nat) + Cnorm2 (x 0%nat + x 1%nat)%C)%R).
  { unfold qform. cbn [correlated2 nr nc ent csum Nat.eqb]. unfold Cnorm2. destruct (x 0) as [a b], (x 1) as [a' b']. unfold Cconj, Cmult, Cplus, RtoC. cbn. f_equal; ring. }
  rewrite E. cbn [Re fst RtoC]. pose proof (Cnorm2_nonneg (x 0)). pose proof (Cnorm2_nonneg (x 1)). pose proof (Cnorm2_nonneg (x 0%nat + x 1%nat)%C).
  assert (0 < Cnorm2 (x i))%R. { destruct (Cnorm2_nonneg (x i)) as [L|L]; [exact L|]. exfalso. apply Nx. apply Cnorm2_0. now symmetry. }
  destruct i as [|[|]]; [| |lia]; lra.
Qed.
Example C85_example : exists g src (A Rm : cmat),
  mk_ULA 4 (D0Scalar 1) None no_kwargs = Ok g /\ mk_FF1 (vec1 [45; -30]%R) "deg" = Ok src /\
  steering_matrix (gd_array g) src 2 false "all" true = Ok (Flat A, []) /\ exact_cov Rm A correlated2 1 /\
  forall formulation, formulation = "tls"%string \/ formulation = "ls"%string ->
  esprit P_oracles.eigh_ref solve0 eigvals_ref 2 Rm 2 (Some 1%R) 1 formulation (RWStr "none") "deg" = Ok (true, (map Some [-30; 45]%R, "deg"%string)).
Proof.
  destruct (Prop_designs.C10_constructible 4 0 0 1 None) as ((g & Eg) & _). destruct (ULA_facts _ _ _ _ Eg) as (PL & X2 & X3 & X4 & _). assert (K : known_unit "deg") by (right; left; reflexivity).
  assert (V : Forall (valid_angle "deg") [45; -30]%R) by (apply Forall_cons; [|apply Forall_cons; [|apply Forall_nil]]; right; left; (split; [reflexivity | lra])).
  assert (Es : mk_FF1 (vec1 [45; -30]%R) "deg" = Ok (FF1 [45; -30]%R "deg")) by (apply mk_FF1_ok; split; [cbn; lia|]; split; [exact K|]; split; [exact V | reflexivity]).
  destruct (steering_defined (gd_array g) (FF1 [45; -30]%R "deg") 2 "all" [] true ltac:(lra) X3 X4) as (A & HA);
    [rewrite (pl_ndim _ _ _ PL); lia | rewrite (pl_size _ _ _ PL), ULA_indices_length; lia | unfold select_perturbations, perturbations; now rewrite X2 | intros ? []|].
  assert (L2 : nc A = 2) by (destruct (response_1d g _ 1 _ 2 A PL X2 X3 (conj K V : valid_sources (FF1 [45; -30]%R "deg")) eq_refl HA) as (_ & N & _); exact N).
  assert (HX : exact_cov (model_cov_P A correlated2 1) A correlated2 1) by (split; [|split; [|reflexivity]]; cbn; congruence).
  exists g, (FF1 [45; -30]%R "deg"), A, (model_cov_P A correlated2 1). do 4 (split; [assumption|]). intros f Hf.
  destruct (C85_half_wavelength P_oracles.eigh_ref solve0 eigvals_ref 4 1 None g 2 [45; -30]%R "deg" _ A correlated2 (model_cov_P A correlated2 1) 1 f (RWStr "none") Eg Es HA HX correlated2_pd) as (l & E & AS & PM); try assumption.
  - lra.
  - repeat constructor; cbn; lra.
  - pose proof PI_RGT_0. intros a [<-|[<-|[]]]; cbn; lra.
  - cbn; lia.
  - apply P_oracles.eigh_ref_contract.
  - apply solve0_contract.
  - apply eigvals_ref_contract.
  - left. reflexivity.
  - cbn [List.length] in E. change (Z.of_nat 2) with 2%Z in E. rewrite E. f_equal. f_equal. f_equal. f_equal. clear - AS PM.
    assert (L : List.length l = 2) by (rewrite (Permutation_length PM); reflexivity). destruct l as [|a [|b [|c l]]]; try discriminate L. apply StronglySorted_inv in AS as (_ & F). inversion_clear F as [|? ? F1 _].
    apply Permutation_sym, Permutation_length_2_inv in PM as [X|X]; injection X as -> ->; [lra | reflexivity].
Qed.

Print Assumptions C85_esprit_on_ula.
Print Assumptions C85_half_wavelength.
Print Assumptions C85_coarray_esprit.
Print Assumptions C86_rank_restored.
Print Assumptions C86_smoothed_music.
Print Assumptions C86_smoothed_esprit.
(** the contracts of the numerical routines used by ESPRIT (C63, C85, C86) are met, for every order, by one triple of routines *)
Example C63_contracts : forall n, eigh_contract n P_oracles.eigh_ref /\ solve_contract n solve0 /\ eigvals_contract n eigvals_ref.
Proof. intros n. split; [apply P_oracles.eigh_ref_contract|]. split; [apply solve0_contract | apply eigvals_ref_contract]. Qed.
