(** End-to-end properties, continued: Min-Norm on designed arrays (C88) and the beamformers with one source (C89). *)
From Coq Require Import Lra Sorted Permutation.
From Verif Require Import Base_Np Base_Trig Base_Lin S_model M_utils S_utils P_utils M_sources S_sources P_sources M_array S_array P_array P_array2 P_array3 M_designs S_designs P_designs M_coarray S_coarray P_coarray P_coarray2 P_model
  M_grid S_grid P_grid M_core P_core P_core2 M_sparse M_subspace S_subspace P_subspace P_subspace2 P_subspace5 P_perf5 M_pipeline S_pipeline P_pipeline P_pipeline2 P_pipeline4 P_beam Prop_pipeline.
From Verif Require P_oracles Prop_subspace Prop_designs Prop_grid Prop_coarray Prop_coarray2 Prop_perf3.
Open Scope nat_scope.

(** C88: as C83, with a Min-Norm estimator. *)
Theorem C88_min_norm_on_ula : forall eigh find_peaks argsort n d name lam u angles dt caching h0 g sg e0 h1 e h truth (A P Rm : cmat) s o,
  mk_ULA (Z.of_nat n) (D0Scalar d) name no_kwargs = Ok g -> mk_grid_axes G1D [angles] dt u = Ok sg ->
  new_estimator (gd_array g) lam sg (find_peaks_simple find_peaks) argsort caching h0 = Ok (e0, h1) -> reach (min_norm_estimate eigh n) e0 h1 e h ->
  eigh_contract n eigh -> scipy_find_peaks find_peaks -> (forall x, is_argsort x (argsort x)) ->
  (0 < d)%R -> (0 < lam)%R -> unambiguous d lam u angles ->
  separated (List.length angles) truth -> 1 <= List.length truth < n ->
  steering_matrix (gd_array g) (FF1 (at_positions angles truth) u) lam false "all" true = Ok (Flat A, []) ->
  exact_cov Rm A P s -> pd P -> o_refine o = false ->
  exists sp est e' h', min_norm_estimate eigh n e h Rm (Z.of_nat (List.length truth)) o = (Ok (Outcome true (Some est) (if o_spectrum o then Some sp else None)), e', h') /\
    buf h' est = map (fun a => [a]) (at_positions angles truth).
Proof.
  intros eigh fp asort n d nm lam u angles dt c h0 g sg e0 h1 e h truth A P Rm s o Eg Es HN HR EC FP AS Hd Hl U SEP Hk HA HX HP Hr.
  apply grid_axes_inv in Es. subst sg. destruct (estimator_valid _ _ _ _ _ _ _ _ _ _ _ HN) as (K & V). destruct (ULA_facts _ _ _ _ Eg) as (PL & Pe & I & DT & _).
  apply (min_norm_ula eigh fp asort g n d lam u angles dt c h0 e0 h1 e h truth A P s Rm o); assumption.
Qed.
(** the spectrum itself: on a uniform linear array it is infinite at the sources and finite at every other direction, whatever the grid *)
Theorem C88_poles_only_at_sources : forall eigh Rm m zs ws P s w E, NoDup zs -> 1 <= List.length zs < m -> (forall z, In z zs \/ In z ws -> Cmod z = 1%R) ->
  exact_cov Rm (ula_matrix m zs) P s -> pd P -> eigh Rm = Ok (w, E) -> eigh_ok Rm w E ->
  exists En d sp, get_noise_subspace eigh Rm (Z.of_nat (List.length zs)) = Ok En /\ min_norm_vector En = Ok (Some d) /\ f_min_norm (nr En) d (ula_matrix m ws) = Ok sp /\
    List.length sp = List.length ws /\ forall j, j < List.length ws -> (nth j sp None = None <-> In (nth j ws (RtoC 0)) zs).
Proof.
  intros eigh Rm m zs ws P s w E ND Hk U HX HP HE OE.
  destruct (min_norm_ula_poles eigh Rm m (ula_matrix m zs) zs P s w E (ula_matrix m ws) ws ltac:(reflexivity) ltac:(reflexivity) ltac:(auto) ltac:(auto) HX HP ND Hk HE OE) as (En & d & sp & X1 & X2 & X3 & X4 & X5).
  exists En, d, sp. repeat (split; [assumption|]). intros j Hj. rewrite (X5 j Hj). exact (ula_span m zs (nth j ws (RtoC 0)) ND ltac:(lia)).
Qed.
(** C88 with the default grid of the library and any spacing up to half a wavelength *)
Theorem C88_default_grid : forall eigh find_peaks argsort n d name lam u size caching h0 g sg e0 h1 e h truth (A P Rm : cmat) s o,
  mk_ULA (Z.of_nat n) (D0Scalar d) name no_kwargs = Ok g -> (0 < d <= lam / 2)%R ->
  known_unit u -> mk_grid1d None None (Z.of_nat size) u = Ok sg ->
  new_estimator (gd_array g) lam sg (find_peaks_simple find_peaks) argsort caching h0 = Ok (e0, h1) -> reach (min_norm_estimate eigh n) e0 h1 e h ->
  eigh_contract n eigh -> scipy_find_peaks find_peaks -> (forall x, is_argsort x (argsort x)) ->
  separated size truth -> 1 <= List.length truth < n ->
  let doas := at_positions (axis sg 0) truth in
  steering_matrix (gd_array g) (FF1 doas u) lam false "all" true = Ok (Flat A, []) ->
  exact_cov Rm A P s -> pd P -> o_refine o = false ->
  exists sp est e' h', min_norm_estimate eigh n e h Rm (Z.of_nat (List.length truth)) o = (Ok (Outcome true (Some est) (if o_spectrum o then Some sp else None)), e', h') /\
    buf h' est = map (fun a => [a]) doas.
Proof.
  intros eigh fp asort n d nm lam u size c h0 g sg e0 h1 e h truth A P Rm s o Eg Hd K Es HN HR EC FP AS SEP Hk doas HA HX HP Hr.
  destruct (Prop_grid.C43_uniform_1d None None size u) as (X & _). destruct (X K) as (l & E & L & _). rewrite Es in E. injection E as ->. clear X.
  destruct (default_unambiguous d lam u size l K Hd Es) as (_ & U). rewrite <- L in SEP. unfold doas in *. cbn [axis sg_axes nth vec1 nd_data] in *.
  apply (C88_min_norm_on_ula eigh fp asort n d nm lam u l DFloat c h0 g (SGrid G1D [vec1 l] u DFloat) e0 h1 e h truth A P Rm s o); try assumption; try reflexivity; lra.
Qed.
(** C88 on the virtual array of a sparse linear array *)
Theorem C88_coarray_min_norm : forall eigh find_peaks argsort g l d w0 calls name m v lam u angles dt caching h0 sg e0 h1 e h truth (A Rm : cmat) p sigma method o,
  places_1d g l d -> gd_d0 g = [d] -> NoDup l -> ar_perts (gd_array g) = [] -> scalar_isotropic (gd_array g) ->
  mk_WeightFunction1D g = Ok w0 -> first_hole l (Z.of_nat m) -> get_virtual_ula (Acm g (after w0 calls)) name = Ok v ->
  mk_grid_axes G1D [angles] dt u = Ok sg ->
  new_estimator (gd_array v) lam sg (find_peaks_simple find_peaks) argsort caching h0 = Ok (e0, h1) -> reach (min_norm_estimate eigh m) e0 h1 e h ->
  eigh_contract m eigh -> scipy_find_peaks find_peaks -> (forall x, is_argsort x (argsort x)) ->
  (0 < d)%R -> (0 < lam)%R -> unambiguous d lam u angles ->
  separated (List.length angles) truth -> 1 <= List.length truth < m ->
  steering_matrix (gd_array g) (FF1 (at_positions angles truth) u) lam false "all" true = Ok (Flat A, []) ->
  Rm ==m model_cov A p sigma -> (forall k, k < List.length truth -> (0 < p k)%R) -> (0 <= sigma)%R ->
  method = "da"%string \/ method = "ss"%string -> o_refine o = false ->
  exists D sp est e' h', transform (Acm g (after w0 calls)) Rm method = Ok D /\
    min_norm_estimate eigh m e h D (Z.of_nat (List.length truth)) o = (Ok (Outcome true (Some est) (if o_spectrum o then Some sp else None)), e', h') /\
    buf h' est = map (fun a => [a]) (at_positions angles truth).
Proof.
  intros eigh fp asort g l d w0 calls nm m v lam u angles dt c h0 sg e0 h1 e h truth A Rm p sigma method o PL D0 ND Pe Iso Hw FH Ev Es HN HR EC FP AS Hd Hl U SEP Hk HA HRm Hp Hs HM Hr.
  apply grid_axes_inv in Es. subst sg. destruct (estimator_valid _ _ _ _ _ _ _ _ _ _ _ HN) as (K & V).
  assert (Nl : l <> []). { intros ->. destruct FH as (_ & _ & X). specialize (X 0%Z ltac:(lia)). destruct X as (? & ? & [] & _). }
  pose proof (places_grid_1d g l d PL) as Hg.
  assert (Em : Z.of_nat m = Z.of_nat (mv0 g)) by exact (Prop_coarray.C37_first_hole_unique l _ _ FH (mv0_hole g l Hg)).
  assert (IB : forall i, In i truth -> i < List.length angles) by (destruct SEP as (_ & F); rewrite Forall_forall in F; intros i Hi; apply F in Hi; lia).
  assert (VT : valid_sources (FF1 (at_positions angles truth) u)).
  { split; [exact K|]. apply Forall_forall. intros a Ia. apply in_map_iff in Ia as (i & <- & Hi). rewrite Forall_forall in V. apply V, nth_In. now apply IB. }
  destruct (Prop_coarray2.C40_exact g l d w0 calls _ lam p sigma nm A Rm PL D0 Hw Nl ND Pe Iso VT eq_refl HA HRm) as (v' & Av & D & Ev' & HAv & ED & HD). rewrite Ev in Ev'. injection Ev' as <-.
  assert (VF : places_1d v (ULA_indices (Z.of_nat m)) d /\ ar_perts (gd_array v) = [] /\ scalar_isotropic (gd_array v) /\ la_dt (ar_loc (gd_array v)) = DFloat).
  { unfold get_virtual_ula in Ev. cbn [acm_array] in Ev. rewrite D0 in Ev. assert (Eo : acm_output_size (Acm g (after w0 calls)) = Z.of_nat (mv0 g)) by exact (central_ula g l Hg w0 Hw calls true). rewrite Eo, <- Em in Ev.
    destruct (ULA_virtual (Z.of_nat m) d (Some (name_or nm ("Virtual ULA of " ++ ar_name (gd_array g))))) as (v2 & E2 & X1 & X2 & X3). rewrite Ev in E2. injection E2 as <-. repeat (split; [assumption|]).
    unfold mk_ULA, mk_Grid in Ev. cbn in Ev. injection Ev as <-. reflexivity. }
  destruct VF as (PV & PeV & IsoV & DTV). pose proof (ula_steering v m d u _ lam PV PeV IsoV VT Av HAv) as EA. pose proof EA as (A1 & A2 & _). cbn [ula_matrix nr nc] in A1, A2. unfold at_positions in A2. rewrite !map_length in A2.
  assert (X0 : exact_cov D Av (mdiag (nc Av) (fun k => RtoC (p k))) sigma) by (split; [reflexivity|]; split; [reflexivity|]; exact HD).
  assert (PP : pd (mdiag (nc Av) (fun k => RtoC (p k)))) by (apply pd_mdiag; intros k Hk'; apply Hp; lia).
  destruct HM as [-> | ->].
  - destruct (min_norm_ula eigh fp asort v m d lam u angles dt c h0 e0 h1 e h truth Av _ sigma D o PV PeV IsoV DTV Hd Hl K V U HN HR EC FP AS SEP Hk HAv X0 PP Hr) as (sp & est & e' & h' & R1 & R2). exists D, sp, est, e', h'. auto.
  - assert (IA : inj Av).
    { apply (Base_Lin.inj_eq (ula_matrix m (map (zof d lam u) (at_positions angles truth)))); [now symmetry|]. apply ula_inj; [|rewrite map_length; unfold at_positions; rewrite map_length; lia].
      unfold at_positions. rewrite map_map. pose proof (sep_lt _ _ SEP) as (_ & NT). apply NoDup_map_in; [exact NT|]. intros i j Hi Hj E. destruct U as (UN & UU). apply (zof_inj d lam u angles) in E; try assumption; [|split; assumption | now apply nth_In, IB | now apply nth_In, IB].
      apply (proj1 (NoDup_nth angles 0%R) UN); auto. }
    pose proof HRm as (R1 & R2 & _). cbn in R1, R2. destruct (response_1d g l d _ lam A PL Pe Iso VT eq_refl HA) as (A3 & _).
    destruct (Prop_coarray.C39_ss g l w0 calls Rm (Z.of_nat m) Hg Hw Nl FH ltac:(congruence) ltac:(congruence)) as (D' & Sm & ED' & ES & EG & _). rewrite ED in ED'. injection ED' as <-.
    destruct (gram_exact D Sm Av _ sigma (/ IZR (Z.of_nat m)) X0 IA PP Hs ltac:(apply Rinv_0_lt_compat, IZR_lt; lia) EG) as (P' & X1 & PP').
    destruct (min_norm_ula eigh fp asort v m d lam u angles dt c h0 e0 h1 e h truth Av P' _ Sm o PV PeV IsoV DTV Hd Hl K V U HN HR EC FP AS SEP Hk HAv X1 PP' Hr) as (sp & est & e' & h' & Q1 & Q2). exists Sm, sp, est, e', h'. auto.
Qed.

(** C89: the beamformers with one source, on any array and grid whose steering vectors all have the same norm (as for sensors of
    unit gain) and where no other grid point has a steering vector parallel to the source's *)
Theorem C89_one_source : forall (e : estimator cmat) (h : lheap) (Rm A B P : cmat) (s r : R) (truth : list nat) (o : options) lstsq,
  let g := e_grid e in let shape := sg_shape g in
  est_ok e h -> e_atom e g = Ok B -> nr B = nr A -> nc B = sg_size g -> nc A = 1 ->
  exact_cov Rm A P s -> pd P -> (0 < r)%R -> vnorm2 (nr A) (col A 0) = r -> (forall j, j < nc B -> vnorm2 (nr A) (col B j) = r) ->
  in_shape shape truth -> (forall p, in_shape shape p -> (in_span A (col B (ravel shape p)) <-> p = truth)) ->
  Prop_subspace.finds (e_pf e) shape [truth] -> (forall sp p, List.length sp = prod_list shape -> In p (e_pf e shape sp) -> in_shape shape p) -> (forall sp, NoDup (e_pf e shape sp)) ->
  (forall v, is_argsort v (e_argsort e v)) -> o_refine o = false ->
  ((0 <= s)%R -> exists sp est e' h', bartlett_estimate (nr A) e h Rm 1 o = (Ok (Outcome true (Some est) (if o_spectrum o then Some sp else None)), e', h') /\ buf h' est = [grid_point g truth]) /\
  ((0 < s)%R -> Prop_subspace.lstsq_contract lstsq ->
   exists sp est e' h', mvdr_estimate lstsq (nr A) e h Rm 1 o = (Ok (Outcome true (Some est) (if o_spectrum o then Some sp else None)), e', h') /\ buf h' est = [grid_point g truth]).
Proof.
  intros e h Rm A B P s r truth o lstsq g shape HO HB B1 B2 A1 HX HP Hr0 NA NB TS TI PF PS PN HS Hr.
  destruct (ex_dims Rm A P s HX) as (D1 & D2).
  assert (PV : forall p, in_shape shape p -> ravel shape p < nc B) by (intros p Hp; rewrite B2; now apply ravel_lt).
  assert (ST : in_span A (col B (ravel shape truth))) by (now apply TI).
  assert (MAIN : forall f sp, f B = Ok sp -> List.length sp = nc B -> (forall i j, i < nc B -> j < nc B -> in_span A (col B i) -> ~ in_span A (col B j) -> (nth j sp 0 < nth i sp 0)%R) ->
    exists est e' h', estimate e h f 1 o = (Ok (Outcome true (Some est) (if o_spectrum o then Some sp else None)), e', h') /\ buf h' est = [grid_point g truth]).
  { intros f sp FB SL ORD. destruct (dominant_recovery e h f B sp [truth] o) as (est & chosen & e' & h' & R1 & R2 & R3 & R4); try assumption.
    - fold g. congruence.
    - cbn. lia.
    - repeat constructor. intros [].
    - intros p [<-|[]]. exact TS.
    - intros p q [<-|[]] Iq Nq. unfold at_idx. apply ORD; [now apply PV | now apply PV | exact ST|]. intros Sq. apply Nq. left. symmetry. now apply TI.
    - intros p q [<-|[]] [<-|[]] _. reflexivity.
    - apply Permutation_length_1_inv in R2 || apply Permutation_sym, Permutation_length_1_inv in R2. subst chosen. exists est, e', h'. split; [exact R1 | exact R4]. }
  split.
  - intros Hs. rewrite (proj1 (Prop_subspace.C60_estimate_uses_spectrum (nr A) e h Rm 1 o lstsq D1)).
    destruct (one_bartlett_order Rm A P s HX A1 HP Hs B B1 ltac:(lra)) as (sp & E & L & O); [intros i j Hi Hj; now rewrite !NB|]. exists sp. now apply MAIN.
  - intros Hs LC. rewrite (proj2 (Prop_subspace.C60_estimate_uses_spectrum (nr A) e h Rm 1 o lstsq D1)).
    destruct (one_mvdr_order Rm A P s HX A1 HP lstsq B LC Hs B1 ltac:(lra)) as (sp & E & L & O); [intros i Hi; now rewrite NB, NA|]. exists (embed_inf sp). apply MAIN.
    + now rewrite E.
    + now rewrite embed_length.
    + intros i j Hi Hj Si Sj. apply embed_order; [lia | lia|]. now apply O.
Qed.
(** complete programs on a uniform linear array *)
Theorem C89_beamformers_on_ula : forall find_peaks argsort lstsq n d name lam u angles dt caching h0 g sg e0 h1 e h t (A P Rm : cmat) s o,
  mk_ULA (Z.of_nat n) (D0Scalar d) name no_kwargs = Ok g -> mk_grid_axes G1D [angles] dt u = Ok sg ->
  new_estimator (gd_array g) lam sg (find_peaks_simple find_peaks) argsort caching h0 = Ok (e0, h1) ->
  scipy_find_peaks find_peaks -> (forall x, is_argsort x (argsort x)) ->
  (0 < d)%R -> (0 < lam)%R -> unambiguous d lam u angles -> 1 < n -> 0 < t -> S t < List.length angles ->
  steering_matrix (gd_array g) (FF1 [nth t angles 0%R] u) lam false "all" true = Ok (Flat A, []) ->
  exact_cov Rm A P s -> pd P -> o_refine o = false ->
  ((0 <= s)%R -> reach (bartlett_estimate n) e0 h1 e h ->
   exists sp est e' h', bartlett_estimate n e h Rm 1 o = (Ok (Outcome true (Some est) (if o_spectrum o then Some sp else None)), e', h') /\ buf h' est = [[nth t angles 0%R]]) /\
  ((0 < s)%R -> Prop_subspace.lstsq_contract lstsq -> reach (mvdr_estimate lstsq n) e0 h1 e h ->
   exists sp est e' h', mvdr_estimate lstsq n e h Rm 1 o = (Ok (Outcome true (Some est) (if o_spectrum o then Some sp else None)), e', h') /\ buf h' est = [[nth t angles 0%R]]).
Proof.
  intros fp asort lstsq n d nm lam u angles dt c h0 g sg e0 h1 e h t A P Rm s o Eg Es HN FP AS Hd Hl U Hn T1 T2 HA HX HP Hr.
  apply grid_axes_inv in Es. subst sg. destruct (estimator_valid _ _ _ _ _ _ _ _ _ _ _ HN) as (K & V). destruct (ULA_facts _ _ _ _ Eg) as (PL & Pe & I & DT & _). split.
  - intros Hs HR. apply (bartlett_ula fp asort g n d lam u angles dt c h0 h1 h e0 e t A P s Rm o); auto.
  - intros Hs LC HR. apply (mvdr_ula fp asort g n d lam u angles dt c h0 h1 h e0 e t A P s Rm o PL Pe I DT Hd Hl K V U HN FP AS (conj T1 T2) Hn HA HX HP Hr lstsq LC Hs HR).
Qed.

(** non-vacuity: three half-wavelength sensors, the default grid *)
Example C88_example : exists g l e0 h1 (A P Rm : cmat) sp est e' h',
  mk_ULA 3 (D0Scalar 1) None no_kwargs = Ok g /\ mk_grid1d None None 180 "deg" = Ok (SGrid G1D [vec1 l] "deg" DFloat) /\
  new_estimator (gd_array g) 2 (SGrid G1D [vec1 l] "deg" DFloat) (find_peaks_simple peaks_ref) Prop_subspace.argsort_R true [] = Ok (e0, h1) /\
  steering_matrix (gd_array g) (FF1 (at_positions l [30; 100]) "deg") 2 false "all" true = Ok (Flat A, []) /\ pd P /\ exact_cov Rm A P 1 /\
  min_norm_estimate P_oracles.eigh_ref 3 e0 h1 Rm 2 (Opts false false 10 3) = (Ok (Outcome true (Some est) sp), e', h') /\
  buf h' est = map (fun a => [a]) (at_positions l [30; 100]).
Proof.
  destruct C83_example as (g & l & e0 & h1 & A & P & Rm & _ & _ & _ & _ & Eg & El & HN & HA & HP & _ & HX & _).
  assert (K : known_unit "deg") by (right; left; reflexivity).
  destruct (C88_default_grid P_oracles.eigh_ref peaks_ref Prop_subspace.argsort_R 3 1 None 2 "deg" 180 true [] g _ e0 h1 e0 h1 [30; 100] A P Rm 1 (Opts false false 10 3) Eg ltac:(lra) K El HN) as (sp & est & e' & h' & R1 & R2);
    try assumption; try lia.
  - constructor.
  - apply P_oracles.eigh_ref_contract.
  - exact peaks_ref_ok.
  - exact Prop_subspace.argsort_R_ok.
  - split; [repeat (constructor; [|repeat (constructor; [lia|]); constructor]); constructor | repeat (constructor; [lia|]); constructor].
  - cbn; lia.
  - reflexivity.
  - exists g, l, e0, h1, A, P, Rm, None, est, e', h'. auto 20.
Qed.
Example C89_example : exists g l e0 h1 (A P Rm : cmat) est e' h' est2 e2 h2,
  mk_ULA 3 (D0Scalar 1) None no_kwargs = Ok g /\ mk_grid1d None None 180 "deg" = Ok (SGrid G1D [vec1 l] "deg" DFloat) /\
  new_estimator (gd_array g) 2 (SGrid G1D [vec1 l] "deg" DFloat) (find_peaks_simple peaks_ref) Prop_subspace.argsort_R true [] = Ok (e0, h1) /\
  steering_matrix (gd_array g) (FF1 [nth 30 l 0%R] "deg") 2 false "all" true = Ok (Flat A, []) /\ pd P /\ exact_cov Rm A P 1 /\
  bartlett_estimate 3 e0 h1 Rm 1 (Opts false false 10 3) = (Ok (Outcome true (Some est) None), e', h') /\ buf h' est = [[nth 30 l 0%R]] /\
  mvdr_estimate P_gauss.solve0 3 e0 h1 Rm 1 (Opts false false 10 3) = (Ok (Outcome true (Some est2) None), e2, h2) /\ buf h2 est2 = [[nth 30 l 0%R]].
Proof.
  destruct (Prop_designs.C10_constructible 3 0 0 1 None) as ((g & Eg) & _). destruct (ULA_facts _ _ _ _ Eg) as (PL & X2 & X3 & X4 & _).
  assert (K : known_unit "deg") by (right; left; reflexivity).
  destruct (default_grid_estimator (gd_array g) 2 "deg" 180 (find_peaks_simple peaks_ref) Prop_subspace.argsort_R true [] K) as (l & e0 & h1 & El & Ll & HN).
  destruct (steering_defined (gd_array g) (FF1 [nth 30 l 0%R] "deg") 2 "all" [] true ltac:(lra) X3 X4) as (A & HA);
    [rewrite (pl_ndim _ _ _ PL); lia | rewrite (pl_size _ _ _ PL), ULA_indices_length; lia | unfold select_perturbations, perturbations; now rewrite X2 | intros ? []|].
  assert (L1 : nc A = 1).
  { destruct (estimator_valid _ _ _ _ _ _ _ _ _ _ _ HN) as (_ & V). rewrite Forall_forall in V.
    assert (VT : valid_sources (FF1 [nth 30 l 0%R] "deg")) by (split; [exact K|]; repeat (constructor; [apply V, nth_In; lia|]); constructor).
    destruct (response_1d g _ 1 _ 2 A PL X2 X3 VT eq_refl HA) as (_ & N & _). exact N. }
  assert (HP : pd (mdiag 1 (fun _ => RtoC 2))) by (apply (pd_mdiag 1 (fun _ => 2%R)); intros; lra).
  assert (HX : exact_cov (model_cov_P A (mdiag 1 (fun _ => RtoC 2)) 1) A (mdiag 1 (fun _ => RtoC 2)) 1) by (split; [|split; [|reflexivity]]; cbn; congruence).
  destruct (default_unambiguous 1 2 "deg" 180 l K ltac:(lra) El) as (_ & U).
  assert (LC : Prop_subspace.lstsq_contract P_gauss.solve0).
  { intros G B S1 HI S2. destruct (proj2 P_gauss.solve0_exact G B S1 S2 HI) as (X & HX'). exists X. split; [exact HX'|]. apply (proj1 P_gauss.solve0_exact) in HX' as (Y1 & Y2 & Y3 & Y4 & Y5). auto. }
  destruct (C89_beamformers_on_ula peaks_ref Prop_subspace.argsort_R P_gauss.solve0 3 1 None 2 "deg" l DFloat true [] g _ e0 h1 e0 h1 30 A _ _ 1 (Opts false false 10 3) Eg eq_refl HN peaks_ref_ok Prop_subspace.argsort_R_ok ltac:(lra) ltac:(lra) U ltac:(lia) ltac:(lia) ltac:(lia) HA HX HP eq_refl) as (R1 & R2).
  destruct (R1 ltac:(lra) ltac:(constructor)) as (sp & est & e' & h' & Q1 & Q2). destruct (R2 ltac:(lra) LC ltac:(constructor)) as (sp2 & est2 & e2 & h2 & Q3 & Q4).
  exists g, l, e0, h1, A, (mdiag 1 (fun _ => RtoC 2)), (model_cov_P A (mdiag 1 (fun _ => RtoC 2)) 1), est, e', h', est2, e2, h2. auto 20.
Qed.
Print Assumptions C88_min_norm_on_ula.
Print Assumptions C88_poles_only_at_sources.
Print Assumptions C88_default_grid.
Print Assumptions C88_coarray_min_norm.
Print Assumptions C89_one_source.
Print Assumptions C89_beamformers_on_ula.
