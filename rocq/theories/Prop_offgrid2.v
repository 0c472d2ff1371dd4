(** Min-Norm, Bartlett and MVDR with sources anywhere between the grid points, with and without refinement (C108). *)
From Coq Require Import Lra Lia Sorted Permutation.
From Coquelicot Require Import Complex.
From Verif Require Import Base_Np Base_Trig Base_Lin S_model M_utils S_utils P_utils M_sources S_sources P_sources P_sources3 M_array S_array P_array P_array2 P_array3 M_designs S_designs P_designs M_coarray S_coarray P_coarray P_coarray2 P_model
  M_grid S_grid P_grid M_core P_core P_core2 M_sparse M_subspace S_subspace P_subspace P_subspace2 P_subspace5 M_pipeline S_pipeline Prop_subspace P_pipeline P_pipeline4 P_beam Prop_pipeline S_stable P_stable P_stable2 P_stable3 P_stable4 Prop_stable S_cont P_cont P_cont2 P_cont4 P_cont5 P_cont6 P_rootc3
  S_offgrid S_refine S_scan P_off1 P_off2 P_off3 P_off4 P_off5 P_off7 P_off8 P_off6 P_off9 P_off10 Prop_offgrid Prop_refine.
From Verif Require P_oracles P_signals P_gauss Prop_esprit Prop_designs Prop_grid Prop_coarray Prop_coarray2 Prop_pipeline2 Prop_rootc.
Open Scope nat_scope.

Lemma both_off_grid run n d name g lam doas u lo hi step tol (Rm : cmat) : mk_ULA (Z.of_nat n) (D0Scalar d) name no_kwargs = Ok g -> (0 <= tol)%R -> both_run run n d lam u doas lo hi step tol Rm ->
  finds_off_grid run g lam doas u lo hi step tol Rm /\ refines_off_grid run g lam doas u lo hi step tol Rm.
Proof.
  intros Eg T0 (H1 & H2). destruct (ULA_facts _ _ _ _ Eg) as (PL & Pe & I & DT & _). split.
  - intros fp asort angles dt sg c h0 e0 h1 e h o FP AS Eq FG HN HR Hr. apply grid_axes_inv in Eq. subst sg. exact (H1 g fp asort angles dt c h0 e0 h1 e h o PL Pe I DT HN FP AS FG HR Hr).
  - intros fp asort angles sg c h0 e0 h1 e h rs D ni FP AS Eq FG HN HR HD Hi. apply grid_axes_inv in Eq. subst sg. exact (H2 T0 g fp asort angles c h0 e0 h1 e h rs D ni PL Pe I DT HN FP AS FG HR HD Hi).
Qed.

(** Min-Norm, any number of sources below the number of sensors: one grid step for the geometry and the directions alone; then for every source covariance matrix and noise level, with the exact covariance matrix and
    with all Hermitian matrices close enough to it *)
Theorem C108_min_norm : forall n d name g lam doas u src (A : cmat) lo hi,
  mk_ULA (Z.of_nat n) (D0Scalar d) name no_kwargs = Ok g -> mk_FF1 (vec1 doas) u = Ok src ->
  steering_matrix (gd_array g) src lam false "all" true = Ok (Flat A, []) ->
  (0 < d)%R -> (0 < lam)%R -> field_of_view d lam u lo hi -> (forall a, In a doas -> (lo < a < hi)%R) -> NoDup doas -> 1 <= List.length doas < n ->
  exists step, (0 < step)%R /\ forall (P Rm : cmat) s, exact_cov Rm A P s -> pd P ->
    (forall eigh, eigh_contract n eigh -> finds_off_grid (min_norm_estimate eigh n) g lam doas u lo hi step 0 Rm /\ refines_off_grid (min_norm_estimate eigh n) g lam doas u lo hi step 0 Rm) /\
    forall tol, (0 < tol)%R -> exists eps, (0 < eps)%R /\ forall Rm' : cmat, hermitian Rm' -> nr Rm' = n -> (distance Rm Rm' < eps)%R ->
      forall eigh, eigh_contract n eigh -> finds_off_grid (min_norm_estimate eigh n) g lam doas u lo hi step tol Rm' /\ refines_off_grid (min_norm_estimate eigh n) g lam doas u lo hi step tol Rm'.
Proof.
  intros n d nm g lam doas u src A lo hi Eg Es HA Hd Hl FV IN ND Hk.
  apply mk_FF1_ok in Es as (_ & K & V & ->). cbn [vec1 nd_data] in *. destruct (ULA_facts _ _ _ _ Eg) as (PL & Pe & I & DT & _).
  pose proof (ula_steering g n d u doas lam PL Pe I (conj K V) A HA) as EA.
  destruct (min_norm_off n d lam u doas lo hi Hd Hl K FV IN ND Hk) as (step & S0 & H). exists step. split; [exact S0|]. intros P Rm s HX HP. destruct (H A P Rm s EA HX HP) as (H1 & H2). split.
  - intros eigh EC. apply (both_off_grid _ n d nm g lam doas u lo hi step 0 Rm Eg (Rle_refl _)). now apply H1.
  - intros tol Ht. destruct (H2 tol Ht) as (eps & He & H3). exists eps. split; [exact He|]. intros Rm' HH N DS eigh EC. apply (both_off_grid _ n d nm g lam doas u lo hi step tol Rm' Eg (Rlt_le _ _ Ht)). now apply H3.
Qed.
(** the Bartlett beamformer, one source; the matrix need not even be Hermitian *)
Theorem C108_bartlett : forall n d name g lam a u src (A : cmat) lo hi,
  mk_ULA (Z.of_nat n) (D0Scalar d) name no_kwargs = Ok g -> mk_FF1 (vec1 [a]) u = Ok src ->
  steering_matrix (gd_array g) src lam false "all" true = Ok (Flat A, []) ->
  (0 < d)%R -> (0 < lam)%R -> field_of_view d lam u lo hi -> (lo < a < hi)%R -> 2 <= n ->
  exists step, (0 < step)%R /\ forall (P Rm : cmat) s, exact_cov Rm A P s -> pd P ->
    finds_off_grid (bartlett_estimate n) g lam [a] u lo hi step 0 Rm /\ refines_off_grid (bartlett_estimate n) g lam [a] u lo hi step 0 Rm /\
    forall tol, (0 < tol)%R -> exists eps, (0 < eps)%R /\ forall Rm' : cmat, nr Rm' = n -> nc Rm' = n -> (distance Rm Rm' < eps)%R ->
      finds_off_grid (bartlett_estimate n) g lam [a] u lo hi step tol Rm' /\ refines_off_grid (bartlett_estimate n) g lam [a] u lo hi step tol Rm'.
Proof.
  intros n d nm g lam a u src A lo hi Eg Es HA Hd Hl FV IN Hn.
  apply mk_FF1_ok in Es as (_ & K & V & ->). cbn [vec1 nd_data] in *. destruct (ULA_facts _ _ _ _ Eg) as (PL & Pe & I & DT & _).
  pose proof (ula_steering g n d u [a] lam PL Pe I (conj K V) A HA) as EA.
  destruct (bartlett_off n d lam u a lo hi Hd Hl K FV IN Hn) as (step & S0 & H). exists step. split; [exact S0|]. intros P Rm s HX HP. destruct (H A P Rm s EA HX HP) as (H1 & H2).
  destruct (both_off_grid _ n d nm g lam [a] u lo hi step 0 Rm Eg (Rle_refl _) H1) as (B1 & B2). split; [exact B1|]. split; [exact B2|].
  intros tol Ht. destruct (H2 tol Ht) as (eps & He & H3). exists eps. split; [exact He|]. intros Rm' N1 N2 DS. apply (both_off_grid _ n d nm g lam [a] u lo hi step tol Rm' Eg (Rlt_le _ _ Ht)). now apply H3.
Qed.
(** the MVDR beamformer, one source and some noise *)
Theorem C108_mvdr : forall n d name g lam a u src (A : cmat) lo hi,
  mk_ULA (Z.of_nat n) (D0Scalar d) name no_kwargs = Ok g -> mk_FF1 (vec1 [a]) u = Ok src ->
  steering_matrix (gd_array g) src lam false "all" true = Ok (Flat A, []) ->
  (0 < d)%R -> (0 < lam)%R -> field_of_view d lam u lo hi -> (lo < a < hi)%R -> 2 <= n ->
  exists step, (0 < step)%R /\ forall (P Rm : cmat) s, exact_cov Rm A P s -> pd P -> (0 < s)%R ->
    (forall lstsq, lstsq_contract lstsq -> finds_off_grid (mvdr_estimate lstsq n) g lam [a] u lo hi step 0 Rm /\ refines_off_grid (mvdr_estimate lstsq n) g lam [a] u lo hi step 0 Rm) /\
    forall tol, (0 < tol)%R -> exists eps, (0 < eps)%R /\ forall Rm' : cmat, nr Rm' = n -> nc Rm' = n -> (distance Rm Rm' < eps)%R ->
      forall lstsq, lstsq_contract lstsq -> finds_off_grid (mvdr_estimate lstsq n) g lam [a] u lo hi step tol Rm' /\ refines_off_grid (mvdr_estimate lstsq n) g lam [a] u lo hi step tol Rm'.
Proof.
  intros n d nm g lam a u src A lo hi Eg Es HA Hd Hl FV IN Hn.
  apply mk_FF1_ok in Es as (_ & K & V & ->). cbn [vec1 nd_data] in *. destruct (ULA_facts _ _ _ _ Eg) as (PL & Pe & I & DT & _).
  pose proof (ula_steering g n d u [a] lam PL Pe I (conj K V) A HA) as EA.
  destruct (mvdr_off n d lam u a lo hi Hd Hl K FV IN Hn) as (step & S0 & H). exists step. split; [exact S0|]. intros P Rm s HX HP Hs. destruct (H A P Rm s EA HX HP Hs) as (H1 & H2). split.
  - intros ls LC. apply (both_off_grid _ n d nm g lam [a] u lo hi step 0 Rm Eg (Rle_refl _)). now apply H1.
  - intros tol Ht. destruct (H2 tol Ht) as (eps & He & H3). exists eps. split; [exact He|]. intros Rm' N1 N2 DS ls LC. apply (both_off_grid _ n d nm g lam [a] u lo hi step tol Rm' Eg (Rlt_le _ _ Ht)). now apply H3.
Qed.

(** *** the library's grids *)
(** What finds_off_grid and refines_off_grid give on the library's uniform grids, for any estimate method: without refinement every error bound above tol is met by all sufficiently fine grids; with refinement one grid
    meets them all *)
Theorem C108_uniform_grid : forall u start stop step,
  let lo := match start with Some a => a | None => of_rad u (- (PI / 2)) end in let hi := match stop with Some b => b | None => of_rad u (PI / 2) end in
  known_unit u -> (lo < hi)%R -> (0 < step)%R ->
  (forall tol t, (0 <= tol < t)%R -> exists size0, forall size, size0 <= size -> exists l, mk_grid1d start stop (Z.of_nat size) u = Ok (SGrid G1D [vec1 l] u DFloat) /\ List.length l = size /\
     forall (method : estimate_method) g lam doas (Rm : cmat) o, finds_off_grid method g lam doas u lo hi step tol Rm -> o_refine o = false -> located method g lam doas u l t o Rm) /\
  exists size0, forall size, size0 <= size -> exists l, mk_grid1d start stop (Z.of_nat size) u = Ok (SGrid G1D [vec1 l] u DFloat) /\ List.length l = size /\
     forall tol t, (0 <= tol < t)%R -> exists n0, forall (method : estimate_method) g lam doas (Rm : cmat) ret_sp density n_iters, refines_off_grid method g lam doas u lo hi step tol Rm -> (2 <= density)%Z -> n0 <= n_iters ->
       located method g lam doas u l t (Opts ret_sp true density n_iters) Rm.
Proof.
  intros u start stop step lo hi K W S0.
  assert (BIG : forall st, (0 < st)%R -> exists N, forall size, S N <= size -> (hi - lo <= st * INR size)%R).
  { intros st Hst. exists (Z.to_nat (up ((hi - lo) / st))). intros size Hs. pose proof (archimed ((hi - lo) / st)) as (X & _). assert (Q : (0 < (hi - lo) / st)%R) by (apply Rdiv_lt_0_compat; lra). assert (X0 : (0 <= up ((hi - lo) / st))%Z) by (apply le_IZR; lra).
    assert (Y : (IZR (up ((hi - lo) / st)) <= INR size)%R). { rewrite INR_IZR_INZ. apply IZR_le. lia. }
    apply Rlt_le. replace (hi - lo)%R with (st * ((hi - lo) / st))%R by (field; lra). apply Rmult_lt_compat_l; [exact Hst|]. lra. }
  split.
  - intros tol t (T0 & Tt). set (st := Rmin step ((t - tol) / 2)). assert (ST : (0 < st)%R) by (apply Rmin_glb_lt; lra). assert (ST1 : (st <= step)%R) by apply Rmin_l. assert (ST2 : (st <= (t - tol) / 2)%R) by apply Rmin_r.
    destruct (BIG st ST) as (N & HN). exists (S N). intros size Hs. destruct (uniform_fine start stop size u st K W ltac:(lia) (HN size Hs)) as (l & E & L & FG). fold lo hi in FG. exists l. split; [exact E|]. split; [exact L|].
    intros method g lam doas Rm o HF Hr fp asort c h0 e0 h1 e h FP AS HNe HR.
    assert (FG' : fine_grid lo hi step l). { destruct FG as (a1 & a2 & a3 & a4 & a5 & a6). repeat split; try assumption; try (apply a3; assumption); try lra. intros i Hi. specialize (a6 i Hi). lra. }
    destruct (HF fp asort l DFloat (SGrid G1D [vec1 l] u DFloat) c h0 e0 h1 e h o FP AS eq_refl FG' HNe HR Hr) as (sp & est & e' & h' & idx & R1 & R2 & R3).
    exists sp, est, e', h', (at_positions l idx). split; [exact R1|]. split; [exact R2|]. apply (brackets_accurate lo hi st l tol doas idx t FG); [lra|exact R3|lra].
  - destruct (BIG step S0) as (N & HN). exists (S N). intros size Hs. destruct (uniform_fine start stop size u step K W ltac:(lia) (HN size Hs)) as (l & E & L & FG). fold lo hi in FG. exists l. split; [exact E|]. split; [exact L|].
    intros tol t (T0 & Tt). destruct (enough_iterations step (t - tol) S0 ltac:(lra)) as (n0 & N0 & N1). exists n0. intros method g lam doas Rm rs D ni HF HD Hi fp asort c h0 e0 h1 e h FP AS HNe HR.
    destruct (HF fp asort l (SGrid G1D [vec1 l] u DFloat) c h0 e0 h1 e h rs D ni FP AS eq_refl FG HNe HR ltac:(lia) ltac:(lia)) as (sp & est & e' & h' & r & R1 & R2 & R3).
    exists sp, est, e', h', r. split; [exact R1|]. split; [exact R2|]. apply R3. specialize (N1 D ni HD Hi). lra.
Qed.
Lemma inside_view u doas : known_unit u -> Forall (valid_angle u) doas -> (forall a, In a doas -> (- (PI / 2) < to_rad u a < PI / 2)%R) -> forall a, In a doas -> (of_rad u (- (PI / 2)) < a < of_rad u (PI / 2))%R.
Proof.
  intros K V IN a Ia. rewrite Forall_forall in V. specialize (V a Ia). specialize (IN a Ia). rewrite <- (of_to_rad u a V). pose proof PI_RGT_0 as PP.
  assert (Q : (0 < 180 / PI)%R) by (apply Rdiv_lt_0_compat; lra). destruct K as [-> | [-> | ->]]; cbn [of_rad String.eqb Ascii.eqb Bool.eqb] in *; unfold rad2deg.
  - exact IN.
  - split; apply Rmult_lt_compat_r; lra.
  - set (x := to_rad "sin" a) in *. split; apply sin_increasing_1; lra.
Qed.
(** the default grids, with refinement, and at most half a wavelength between neighbouring sensors: one grid size for the geometry and the directions alone; every error bound is met by all matrices close enough to the
    covariance matrix after sufficiently many rounds *)
Theorem C108_min_norm_default_grid : forall n d name g lam doas u src (A : cmat),
  mk_ULA (Z.of_nat n) (D0Scalar d) name no_kwargs = Ok g -> mk_FF1 (vec1 doas) u = Ok src ->
  steering_matrix (gd_array g) src lam false "all" true = Ok (Flat A, []) ->
  (0 < d)%R -> (2 * d <= lam)%R -> (forall a, In a doas -> (- (PI / 2) < to_rad u a < PI / 2)%R) -> NoDup doas -> 1 <= List.length doas < n ->
  exists size0, forall size, size0 <= size -> exists l, mk_grid1d None None (Z.of_nat size) u = Ok (SGrid G1D [vec1 l] u DFloat) /\ List.length l = size /\
    forall (P Rm : cmat) s t, exact_cov Rm A P s -> pd P -> (0 < t)%R -> exists n0 eps, (0 < eps)%R /\
      forall (Rm' : cmat) eigh ret_sp density n_iters, hermitian Rm' -> nr Rm' = n -> (distance Rm Rm' < eps)%R -> eigh_contract n eigh -> (2 <= density)%Z -> n0 <= n_iters ->
        located (min_norm_estimate eigh n) g lam doas u l t (Opts ret_sp true density n_iters) Rm'.
Proof.
  intros n d nm g lam doas u src A Eg Es HA Hd Hl IN ND Hk. pose proof Es as Es0. apply mk_FF1_ok in Es0 as (_ & K & V & _). cbn [vec1 nd_data] in V.
  pose proof (whole_view d lam u K Hd Hl) as FV. pose proof FV as (W & _).
  destruct (C108_min_norm n d nm g lam doas u src A _ _ Eg Es HA Hd ltac:(lra) FV (inside_view u doas K V IN) ND Hk) as (step & S0 & H).
  destruct (C108_uniform_grid u None None step K W S0) as (_ & size0 & U). exists size0. intros size Hs. destruct (U size Hs) as (l & E & L & UG). exists l. split; [exact E|]. split; [exact L|].
  intros P Rm s t HX HP Ht. destruct (H P Rm s HX HP) as (_ & H2). destruct (H2 (t / 2)%R ltac:(lra)) as (eps & He & H3). destruct (UG (t / 2)%R t ltac:(lra)) as (n0 & N1).
  exists n0, eps. split; [exact He|]. intros Rm' eigh rs D ni HH N' DS EC HD Hi. apply N1; try assumption. now apply H3.
Qed.
Theorem C108_beamformers_default_grid : forall n d name g lam a u src (A : cmat),
  mk_ULA (Z.of_nat n) (D0Scalar d) name no_kwargs = Ok g -> mk_FF1 (vec1 [a]) u = Ok src ->
  steering_matrix (gd_array g) src lam false "all" true = Ok (Flat A, []) ->
  (0 < d)%R -> (2 * d <= lam)%R -> (- (PI / 2) < to_rad u a < PI / 2)%R -> 2 <= n ->
  exists size0, forall size, size0 <= size -> exists l, mk_grid1d None None (Z.of_nat size) u = Ok (SGrid G1D [vec1 l] u DFloat) /\ List.length l = size /\
    forall (P Rm : cmat) s t, exact_cov Rm A P s -> pd P -> (0 < t)%R -> exists n0 eps, (0 < eps)%R /\
      forall (Rm' : cmat) ret_sp density n_iters, nr Rm' = n -> nc Rm' = n -> (distance Rm Rm' < eps)%R -> (2 <= density)%Z -> n0 <= n_iters ->
        located (bartlett_estimate n) g lam [a] u l t (Opts ret_sp true density n_iters) Rm' /\
        ((0 < s)%R -> forall lstsq, lstsq_contract lstsq -> located (mvdr_estimate lstsq n) g lam [a] u l t (Opts ret_sp true density n_iters) Rm').
Proof.
  intros n d nm g lam a u src A Eg Es HA Hd Hl IN Hn. pose proof Es as Es0. apply mk_FF1_ok in Es0 as (_ & K & V & _). cbn [vec1 nd_data] in V.
  pose proof (whole_view d lam u K Hd Hl) as FV. pose proof FV as (W & _).
  assert (IV : (of_rad u (- (PI / 2)) < a < of_rad u (PI / 2))%R). { apply (inside_view u [a] K V); [|now left]. intros b [<-|[]]. exact IN. }
  destruct (C108_bartlett n d nm g lam a u src A _ _ Eg Es HA Hd ltac:(lra) FV IV Hn) as (s1 & S1 & B). destruct (C108_mvdr n d nm g lam a u src A _ _ Eg Es HA Hd ltac:(lra) FV IV Hn) as (s2 & S2 & M).
  destruct (C108_uniform_grid u None None s1 K W S1) as (_ & z1 & U1). destruct (C108_uniform_grid u None None s2 K W S2) as (_ & z2 & U2). exists (Nat.max z1 z2). intros size Hs.
  destruct (U1 size ltac:(lia)) as (l & E & L & G1). destruct (U2 size ltac:(lia)) as (l' & E' & _ & G2). rewrite E in E'. injection E' as _ E'. subst l'. exists l. split; [exact E|]. split; [exact L|].
  intros P Rm s t HX HP Ht. destruct (B P Rm s HX HP) as (_ & _ & B2). destruct (B2 (t / 2)%R ltac:(lra)) as (e1 & E1 & B3). destruct (G1 (t / 2)%R t ltac:(lra)) as (n1 & N1). destruct (G2 (t / 2)%R t ltac:(lra)) as (n2 & N2).
  destruct (Rlt_le_dec 0 s) as [Ps|Ns].
  - destruct (M P Rm s HX HP Ps) as (_ & M2). destruct (M2 (t / 2)%R ltac:(lra)) as (e2 & E2 & M3). exists (Nat.max n1 n2), (Rmin e1 e2). split; [now apply Rmin_glb_lt|].
    intros Rm' rs D ni X1 X2 DS HD Hi. assert (D1 : (distance Rm Rm' < e1)%R) by (eapply Rlt_le_trans; [exact DS|apply Rmin_l]). assert (D2 : (distance Rm Rm' < e2)%R) by (eapply Rlt_le_trans; [exact DS|apply Rmin_r]). split.
    + apply N1; [now apply B3|assumption|lia].
    + intros _ ls LC. apply N2; [now apply M3|assumption|lia].
  - exists n1, e1. split; [exact E1|]. intros Rm' rs D ni X1 X2 DS HD Hi. split; [|intros; lra]. apply N1; try assumption. now apply B3.
Qed.

(** Consistency on one fixed default grid: as the covariance estimates converge, the refined Min-Norm estimates get within every error bound of the directions *)
Theorem C108_consistency : forall n d name g lam doas u src (A : cmat),
  mk_ULA (Z.of_nat n) (D0Scalar d) name no_kwargs = Ok g -> mk_FF1 (vec1 doas) u = Ok src ->
  steering_matrix (gd_array g) src lam false "all" true = Ok (Flat A, []) ->
  (0 < d)%R -> (2 * d <= lam)%R -> (forall a, In a doas -> (- (PI / 2) < to_rad u a < PI / 2)%R) -> NoDup doas -> 1 <= List.length doas < n ->
  exists size0, forall size, size0 <= size -> exists l, mk_grid1d None None (Z.of_nat size) u = Ok (SGrid G1D [vec1 l] u DFloat) /\ List.length l = size /\
    forall (P Rm : cmat) s t (Rs : nat -> cmat), exact_cov Rm A P s -> pd P -> (forall i, hermitian (Rs i) /\ nr (Rs i) = n) -> converges Rs Rm -> (0 < t)%R -> exists n0 N,
      forall i eigh ret_sp density n_iters, N <= i -> eigh_contract n eigh -> (2 <= density)%Z -> n0 <= n_iters -> located (min_norm_estimate eigh n) g lam doas u l t (Opts ret_sp true density n_iters) (Rs i).
Proof.
  intros n d nm g lam doas u src A Eg Es HA Hd Hl IN ND Hk. destruct (C108_min_norm_default_grid n d nm g lam doas u src A Eg Es HA Hd Hl IN ND Hk) as (size0 & H). exists size0. intros size Hs.
  destruct (H size Hs) as (l & E & L & G). exists l. split; [exact E|]. split; [exact L|]. intros P Rm s t Rs HX HP HR CV Ht. destruct (G P Rm s t HX HP Ht) as (n0 & eps & He & G'). destruct (CV eps He) as (N & HN).
  exists n0, N. intros i eigh rs D ni Hi EC HD Hn. destruct (HR i) as (X1 & X2). apply G'; auto.
Qed.

(** Coarray Min-Norm: the same for the augmented covariance of the virtual array, with possibly more sources than sensors *)
Theorem C108_coarray : forall g l d w0 calls name m v lam doas u src (A Rm : cmat) p sigma method lo hi,
  places_1d g l d -> gd_d0 g = [d] -> NoDup l -> ar_perts (gd_array g) = [] -> scalar_isotropic (gd_array g) ->
  mk_WeightFunction1D g = Ok w0 -> first_hole l (Z.of_nat m) -> get_virtual_ula (Acm g (after w0 calls)) name = Ok v -> mk_FF1 (vec1 doas) u = Ok src ->
  steering_matrix (gd_array g) src lam false "all" true = Ok (Flat A, []) ->
  Rm ==m model_cov A p sigma -> (forall k, k < List.length doas -> (0 < p k)%R) -> (0 <= sigma)%R ->
  (0 < d)%R -> (0 < lam)%R -> field_of_view d lam u lo hi -> (forall a, In a doas -> (lo < a < hi)%R) -> NoDup doas -> 1 <= List.length doas < m -> method = "da"%string \/ method = "ss"%string ->
  exists step, (0 < step)%R /\ forall tol, (0 < tol)%R -> exists eps, (0 < eps)%R /\ forall Rm' : cmat, hermitian Rm' -> nr Rm' = List.length l -> (distance Rm Rm' < eps)%R ->
    exists D, transform (Acm g (after w0 calls)) Rm' method = Ok D /\ forall eigh, eigh_contract m eigh ->
      finds_off_grid (min_norm_estimate eigh m) v lam doas u lo hi step tol D /\ refines_off_grid (min_norm_estimate eigh m) v lam doas u lo hi step tol D.
Proof.
  intros g l d w0 calls nm m v lam doas u src A Rm p sigma method lo hi PL D0 NDl Pe Iso Hw FH Ev Es HA HRm Hp Hs Hd Hl FV IN ND Hk HM.
  pose proof Es as Es0. apply mk_FF1_ok in Es0 as (_ & K & _).
  destruct (min_norm_off m d lam u doas lo hi Hd Hl K FV IN ND Hk) as (step & S0 & H). exists step. split; [exact S0|]. intros tol Ht.
  pose proof (places_grid_1d g l d PL) as Hg. assert (Em : Z.of_nat m = Z.of_nat (mv0 g)) by exact (Prop_coarray.C37_first_hole_unique l _ _ FH (mv0_hole g l Hg)).
  assert (EU : exists nm', mk_ULA (Z.of_nat m) (D0Scalar d) nm' no_kwargs = Ok v).
  { unfold get_virtual_ula in Ev. cbn [acm_array] in Ev. rewrite D0 in Ev. assert (Eo : acm_output_size (Acm g (after w0 calls)) = Z.of_nat (mv0 g)) by exact (central_ula g l Hg w0 Hw calls true). rewrite Eo, <- Em in Ev. eexists. exact Ev. }
  destruct EU as (nm' & EU).
  assert (NZ : NoDup (map (zof d lam u) doas)).
  { pose proof (fine_inner d lam u doas lo hi Hd Hl FV IN) as X1. pose proof (fine_nodup d lam u doas lo hi Hd Hl FV IN ND) as X2. pose proof (fine_wide d lam u lo hi Hl FV) as X3.
    pose proof (shape_nodup (map (phase d lam u) doas) _ _ X3 X1 X2) as X. rewrite map_map in X. exact X. }
  destruct (Prop_rootc.coarray_lift_gen (fun D => forall eigh, eigh_contract m eigh -> both_run (min_norm_estimate eigh m) m d lam u doas lo hi step tol D) g l d w0 calls m lam doas u src A Rm p sigma method PL D0 NDl Pe Iso Hw FH Es HA HRm Hp Hs Hd Hl NZ Hk HM) as (eps & He & H2).
  { intros Av Pa Ra sa EA XA PA. destruct (H Av Pa Ra sa EA XA PA) as (_ & H3). apply H3. exact Ht. }
  exists eps. split; [exact He|]. intros Rm' HH N DS. destruct (H2 Rm' HH N DS) as (D & ED & _ & _ & FA). exists D. split; [exact ED|].
  intros eigh EC. apply (both_off_grid _ m d nm' v lam doas u lo hi step tol D EU (Rlt_le _ _ Ht)). now apply FA.
Qed.

(** two sensors half a wavelength apart, one source at 30 degrees which is on no grid point, and a covariance matrix that is off by a positive amount: all three estimators reach one millionth of a degree by refinement *)
Example C108_example : exists g src (A Rm Rm' : cmat) x l e0 h1 ni,
  mk_ULA 2 (D0Scalar 1) None no_kwargs = Ok g /\ mk_FF1 (vec1 [30]%R) "deg" = Ok src /\
  steering_matrix (gd_array g) src 2 false "all" true = Ok (Flat A, []) /\ exact_cov Rm A (mid 1) 1 /\
  (0 < x)%R /\ hermitian Rm' /\ nr Rm' = 2 /\ distance Rm Rm' = x /\
  mk_grid1d None None (Z.of_nat (List.length l)) "deg" = Ok (SGrid G1D [vec1 l] "deg" DFloat) /\ ~ In 30%R l /\
  new_estimator (gd_array g) 2 (SGrid G1D [vec1 l] "deg" DFloat) (find_peaks_simple local_maxima_ref) Prop_subspace.argsort_R true [] = Ok (e0, h1) /\
  forall method, In method [min_norm_estimate P_oracles.eigh_ref 2; bartlett_estimate 2; mvdr_estimate P_gauss.solve0 2] ->
    exists est e' h' r, method e0 h1 Rm' 1%Z (Opts false true 10 ni) = (Ok (Outcome true (Some est) None), e', h') /\ buf h' est = map (fun a => [a]) r /\ accurate (1 / 1000000) [30]%R r.
Proof.
  pose proof PI_RGT_0 as PP.
  destruct (Prop_designs.C10_constructible 2 0 0 1 None) as ((g & Eg) & _). destruct (ULA_facts _ _ _ _ Eg) as (PL & X2 & X3 & X4 & _). assert (K : known_unit "deg") by (right; left; reflexivity).
  assert (V : Forall (valid_angle "deg") [30%R]) by (apply Forall_cons; [|apply Forall_nil]; right; left; split; [reflexivity|lra]).
  destruct (steering_defined (gd_array g) (FF1 [30]%R "deg") 2 "all" [] true ltac:(lra) X3 X4) as (A & HA);
    [rewrite (pl_ndim _ _ _ PL); lia | rewrite (pl_size _ _ _ PL), ULA_indices_length; lia | unfold select_perturbations, perturbations; now rewrite X2 | intros ? []|].
  pose proof (ula_steering g 2 1 "deg" [30%R] 2 PL X2 X3 (conj K V) A HA) as EA. set (z := zof 1 2 "deg" 30) in *.
  assert (HX0 : exact_cov (Prop_esprit.cov_of (ula_matrix 2 [z])) (ula_matrix 2 [z]) (mid 1) 1) by apply Prop_esprit.cov_of_exact.
  assert (HX : exact_cov (Prop_esprit.cov_of (ula_matrix 2 [z])) A (mid 1) 1) by (apply (Prop_pipeline2.exact_cov_eq _ (ula_matrix 2 [z])); [now symmetry|exact HX0]). set (Rm := Prop_esprit.cov_of (ula_matrix 2 [z])) in *.
  assert (Es : mk_FF1 (vec1 [30]%R) "deg" = Ok (FF1 [30]%R "deg")).
  { apply mk_FF1_ok. cbn. split; [lia|]. split; [exact K|]. split; [exact V|reflexivity]. }
  assert (P1 : pd (mid 1)) by apply Prop_subspace.pd_mid.
  assert (LC : Prop_subspace.lstsq_contract P_gauss.solve0).
  { intros G B S1 HI S2. destruct (proj2 P_gauss.solve0_exact G B S1 S2 HI) as (X & HX'). exists X. split; [exact HX'|]. apply (proj1 P_gauss.solve0_exact) in HX' as (Y1 & Y2 & Y3 & Y4 & Y5). auto. }
  assert (R30 : (- (PI / 2) < to_rad "deg" 30 < PI / 2)%R) by (cbn [to_rad String.eqb Ascii.eqb Bool.eqb]; unfold deg2rad; lra).
  destruct (C108_min_norm_default_grid 2 1 None g 2 [30]%R "deg" (FF1 [30]%R "deg") A Eg Es HA ltac:(lra) ltac:(lra)) as (z1 & H1).
  { intros a [<-|[]]. exact R30. } { constructor; [intros []|constructor]. } { cbn; lia. }
  destruct (C108_beamformers_default_grid 2 1 None g 2 30%R "deg" (FF1 [30]%R "deg") A Eg Es HA ltac:(lra) ltac:(lra) R30 (le_n _)) as (z2 & H2).
  pose proof (exact_herm _ _ _ _ HX (proj1 P1)) as HH. set (size0 := Nat.max z1 z2).
  destruct (H1 (S (3 * size0)) ltac:(lia)) as (l & El & Ll & G1). destruct (G1 (mid 1) Rm 1%R (1 / 1000000)%R HX P1 ltac:(lra)) as (n1 & eps1 & He1 & F1).
  destruct (H2 (S (3 * size0)) ltac:(lia)) as (l' & El' & _ & G2). rewrite El in El'. injection El' as _ El'. subst l'. destruct (G2 (mid 1) Rm 1%R (1 / 1000000)%R HX P1 ltac:(lra)) as (n2 & eps2 & He2 & F2).
  set (eps := Rmin eps1 eps2). assert (He : (0 < eps)%R) by (now apply Rmin_glb_lt). assert (L1 : (eps <= eps1)%R) by apply Rmin_l. assert (L2 : (eps <= eps2)%R) by apply Rmin_r.
  assert (DS : distance Rm (off_by (eps / 2) Rm) = (eps / 2)%R) by (apply off_by_distance; [lra|cbn; lia|cbn; lia]).
  destruct (Prop_grid.C43_uniform_1d None None (S (3 * size0)) "deg") as (Y & _). destruct (Y K) as (l' & El' & _ & Hl'). rewrite El in El'. injection El' as _ El'. subst l'. cbv zeta in Hl'. clear Y.
  cbn [of_rad String.eqb Ascii.eqb Bool.eqb] in Hl'. unfold rad2deg in Hl'. set (N := S (3 * size0)) in *.
  assert (NP : (0 < INR N)%R) by (apply lt_0_INR; lia).
  assert (Hl : forall i, i < N -> (nth i l 0 * INR N = - 90 * INR N + 180 * INR i)%R). { intros i Hi. rewrite Hl' by exact Hi. field. lra. }
  assert (VA : Forall (valid_angle "deg") l).
  { apply Forall_forall. intros a Ia. apply (In_nth _ _ 0%R) in Ia as (i & Hi & <-). rewrite Ll in Hi. specialize (Hl i Hi). assert (0 <= INR i)%R by apply pos_INR. assert (INR i <= INR N)%R by (apply le_INR; lia). right. left. split; [reflexivity|]. split; nra. }
  destruct (grid_estimator g 2 "deg" l K VA) as (e0 & h1 & HN).
  exists g, (FF1 [30]%R "deg"), A, Rm, (off_by (eps / 2) Rm), (eps / 2)%R, l, e0, h1, (Nat.max n1 n2).
  split; [exact Eg|]. split; [exact Es|]. split; [exact HA|]. split; [exact HX|]. split; [lra|]. split; [now apply off_by_herm|]. split; [reflexivity|]. split; [exact DS|]. split; [rewrite Ll; exact El|]. split.
  { intros I. apply (In_nth _ _ 0%R) in I as (i & Hi & E). rewrite Ll in Hi. specialize (Hl i Hi). rewrite E in Hl. assert (Q : (INR 2 * INR N = INR 3 * INR i)%R) by (cbn [INR]; lra). rewrite <- !mult_INR in Q. apply INR_eq in Q. unfold N in Q. lia. }
  split; [exact HN|].
  assert (FIN : forall method : estimate_method, located method g 2 [30]%R "deg" l (1 / 1000000) (Opts false true 10 (Nat.max n1 n2)) (off_by (eps / 2) Rm) ->
    exists est e' h' r, method e0 h1 (off_by (eps / 2) Rm) 1%Z (Opts false true 10 (Nat.max n1 n2)) = (Ok (Outcome true (Some est) None), e', h') /\ buf h' est = map (fun a => [a]) r /\ accurate (1 / 1000000) [30]%R r).
  { intros method Q. destruct (Q local_maxima_ref Prop_subspace.argsort_R true [] e0 h1 e0 h1 local_maxima_ref_ok Prop_subspace.argsort_R_ok HN ltac:(constructor)) as (sp & est & e' & h' & r & R1 & R2 & R3). exists est, e', h', r. auto. }
  destruct (F2 (off_by (eps / 2) Rm) false 10%Z (Nat.max n1 n2) eq_refl eq_refl ltac:(rewrite DS; lra) ltac:(lia) ltac:(lia)) as (B1 & B2).
  intros method [<-|[<-|[<-|[]]]]; apply FIN.
  - apply F1; [now apply off_by_herm|reflexivity|rewrite DS; lra|apply P_oracles.eigh_ref_contract|lia|lia].
  - exact B1.
  - apply B2; [lra|exact LC].
Qed.
Print Assumptions C108_min_norm.
Print Assumptions C108_bartlett.
Print Assumptions C108_mvdr.
Print Assumptions C108_uniform_grid.
Print Assumptions C108_min_norm_default_grid.
Print Assumptions C108_beamformers_default_grid.
Print Assumptions C108_consistency.
Print Assumptions C108_coarray.
