(** Refinement: geometric convergence, and MUSIC with refined estimates (C107). *)
From Coq Require Import Lra Lia Sorted Permutation.
From Coquelicot Require Import Complex.
From Verif Require Import Base_Np Base_Trig Base_Lin S_model M_utils S_utils P_utils M_sources S_sources P_sources P_sources3 M_array S_array P_array P_array2 P_array3 M_designs S_designs P_designs M_coarray S_coarray P_coarray P_coarray2 P_model
  M_grid S_grid P_grid M_core P_core P_core2 M_sparse M_subspace S_subspace P_subspace P_subspace2 P_subspace5 M_pipeline S_pipeline Prop_subspace P_pipeline P_pipeline4 P_beam Prop_pipeline S_stable P_stable P_stable2 P_stable3 P_stable4 Prop_stable S_cont P_cont P_cont2 P_cont4 P_cont5 P_cont6 P_rootc3
  S_offgrid S_refine P_off1 P_off2 P_off3 P_off4 P_off5 P_off7 P_off6 Prop_offgrid.
From Verif Require P_oracles P_signals Prop_esprit Prop_designs Prop_grid Prop_coarray Prop_coarray2 Prop_pipeline2 Prop_rootc.
Open Scope nat_scope.

(** For every estimator on a one-dimensional grid whose spectrum ranks the points by decreasing V: refinement succeeds whenever estimation without refinement does; and an estimate whose two grid neighbours enclose
    one dip of V ends up within (distance of the neighbours) / (2 density^n_iters) of the dip, up to its tolerance *)
Theorem C107_refinement_converges : forall (T : Type) (e : estimator T) h f (V : R -> R) k density n_iters ret_sp est0 sp e0 h0 u angles,
  est_ok e h -> e_grid e = SGrid G1D [vec1 angles] u DFloat -> StronglySorted Rlt angles -> ranks_by e f V -> (1 <= density)%Z -> 1 <= n_iters ->
  estimate e h f k (Opts ret_sp false density n_iters) = (Ok (Outcome true (Some est0) sp), e0, h0) ->
  exists est h', estimate e h f k (Opts ret_sp true density n_iters) = (Ok (Outcome true (Some est) sp), e0, h') /\ List.length (buf h' est) = List.length (buf h0 est0) /\
    forall i, i < List.length (buf h0 est0) -> exists q, nth_error (buf h' est) i = Some [q] /\
      forall m a tol, nth_error (buf h0 est0) i = Some [nth m angles 0%R] -> 0 < m -> S m < List.length angles -> (0 <= tol)%R ->
        dip V (nth (m - 1) angles 0%R) (nth (S m) angles 0%R) a tol ->
        (nth (m - 1) angles 0 <= q <= nth (S m) angles 0)%R /\ (Rabs (q - a) <= (nth (S m) angles 0 - nth (m - 1) angles 0) / (2 * IZR density ^ n_iters) + tol)%R.
Proof. intros. now apply (refined_converges e h f V k density n_iters ret_sp est0 sp e0 h0 u angles). Qed.

(** MUSIC: one grid step for the geometry and the directions alone; on every grid of floats at least that fine the refined estimates are within step / density^n_iters of the directions with the exact covariance
    matrix, and within tol more for all Hermitian matrices close enough to it *)
Theorem C107_music_refined : forall n d name g lam doas u src (A : cmat) lo hi,
  mk_ULA (Z.of_nat n) (D0Scalar d) name no_kwargs = Ok g -> mk_FF1 (vec1 doas) u = Ok src ->
  steering_matrix (gd_array g) src lam false "all" true = Ok (Flat A, []) ->
  (0 < d)%R -> (0 < lam)%R -> field_of_view d lam u lo hi -> (forall a, In a doas -> (lo < a < hi)%R) -> NoDup doas -> 1 <= List.length doas < n ->
  exists step, (0 < step)%R /\ forall (P Rm : cmat) s, exact_cov Rm A P s -> pd P ->
    (forall find_peaks argsort angles sg caching h0 e0 h1 eigh e h ret_sp density n_iters,
       scipy_local_maxima find_peaks -> (forall x, is_argsort x (argsort x)) -> mk_grid_axes G1D [angles] DFloat u = Ok sg -> fine_grid lo hi step angles ->
       new_estimator (gd_array g) lam sg (find_peaks_simple find_peaks) argsort caching h0 = Ok (e0, h1) -> eigh_contract n eigh -> music_reach eigh n e0 h1 e h -> (1 <= density)%Z -> 1 <= n_iters ->
       exists sp est e' h' r, music_estimate eigh n e h Rm (Z.of_nat (List.length doas)) (Opts ret_sp true density n_iters) = (Ok (Outcome true (Some est) (if ret_sp then Some sp else None)), e', h') /\
         buf h' est = map (fun a => [a]) r /\ forall t, (step / IZR density ^ n_iters < t)%R -> accurate t doas r) /\
    forall tol, (0 < tol)%R -> exists eps, (0 < eps)%R /\ forall Rm' : cmat, hermitian Rm' -> nr Rm' = n -> (distance Rm Rm' < eps)%R ->
     forall find_peaks argsort angles sg caching h0 e0 h1 eigh e h ret_sp density n_iters,
       scipy_local_maxima find_peaks -> (forall x, is_argsort x (argsort x)) -> mk_grid_axes G1D [angles] DFloat u = Ok sg -> fine_grid lo hi step angles ->
       new_estimator (gd_array g) lam sg (find_peaks_simple find_peaks) argsort caching h0 = Ok (e0, h1) -> eigh_contract n eigh -> music_reach eigh n e0 h1 e h -> (1 <= density)%Z -> 1 <= n_iters ->
       exists sp est e' h' r, music_estimate eigh n e h Rm' (Z.of_nat (List.length doas)) (Opts ret_sp true density n_iters) = (Ok (Outcome true (Some est) (if ret_sp then Some sp else None)), e', h') /\
         buf h' est = map (fun a => [a]) r /\ forall t, (step / IZR density ^ n_iters + tol < t)%R -> accurate t doas r.
Proof.
  intros n d nm g lam doas u src A lo hi Eg Es HA Hd Hl FV IN ND Hk.
  apply mk_FF1_ok in Es as (_ & K & V & ->). cbn [vec1 nd_data] in *. destruct (ULA_facts _ _ _ _ Eg) as (PL & Pe & I & DT & _).
  pose proof (ula_steering g n d u doas lam PL Pe I (conj K V) A HA) as EA.
  destruct (off_grid n d lam u doas lo hi Hd Hl K FV IN ND Hk) as (step & S0 & H). exists step. split; [exact S0|]. intros P Rm s HX HP. destruct (H A P Rm s EA HX HP) as ((_ & H1) & H2). split.
  - intros fp asort angles sg c h0 e0 h1 eigh e h rs D ni FP AS Eq FG HN EC HR HD Hi. apply grid_axes_inv in Eq. subst sg.
    destruct (H1 (Rle_refl _) g fp asort angles c h0 e0 h1 eigh e h rs D ni PL Pe I DT HN FP AS FG EC HR HD Hi) as (sp & est & e' & h' & r & R1 & R2 & R3). exists sp, est, e', h', r. split; [exact R1|]. split; [exact R2|]. intros t Ht. apply R3. lra.
  - intros tol Ht. destruct (H2 tol Ht) as (eps & He & H3). exists eps. split; [exact He|]. intros Rm' HH N DS fp asort angles sg c h0 e0 h1 eigh e h rs D ni FP AS Eq FG HN EC HR HD Hi.
    apply grid_axes_inv in Eq. subst sg. exact (proj2 (H3 Rm' HH N DS) (Rlt_le _ _ Ht) g fp asort angles c h0 e0 h1 eigh e h rs D ni PL Pe I DT HN FP AS FG EC HR HD Hi).
Qed.

(** *** enough iterations *)
Lemma pow_ge x n m : (2 <= x)%R -> n <= m -> (2 ^ n <= x ^ m)%R.
Proof. intros Hx H. apply Rle_trans with (2 ^ m)%R; [apply Rle_pow; [lra|exact H]|]. apply pow_incr. lra. Qed.
Lemma enough_iterations step t : (0 < step)%R -> (0 < t)%R -> exists n0, 1 <= n0 /\ forall density n_iters, (2 <= density)%Z -> n0 <= n_iters -> (step / IZR density ^ n_iters < t)%R.
Proof.
  intros Hs Ht. destruct (Pow_x_infinity 2 ltac:(rewrite Rabs_right; lra) (step / t + 1)%R) as (N & HN). exists (S N). split; [lia|]. intros D n HD Hn.
  specialize (HN N (le_n _)). rewrite Rabs_right in HN by (apply Rle_ge, pow_le; lra). assert (X : (2 <= IZR D)%R) by (now apply IZR_le). pose proof (pow_ge (IZR D) N n X ltac:(lia)) as Y.
  assert (P0 : (0 < IZR D ^ n)%R) by (apply pow_lt; lra). apply (Rmult_lt_reg_r (IZR D ^ n)); [exact P0|]. unfold Rdiv. rewrite Rmult_assoc, Rinv_l by lra. rewrite Rmult_1_r.
  apply Rlt_le_trans with (t * (step / t + 1))%R; [replace (t * (step / t + 1))%R with (step + t)%R by (field; lra); lra|]. apply Rmult_le_compat_l; lra.
Qed.
(** The library's grids, for every density of at least 2: one grid size, for the geometry and the directions alone, is enough for every error bound *)
Theorem C107_uniform_grid : forall n d name g lam doas u src (A : cmat) start stop,
  mk_ULA (Z.of_nat n) (D0Scalar d) name no_kwargs = Ok g -> mk_FF1 (vec1 doas) u = Ok src ->
  steering_matrix (gd_array g) src lam false "all" true = Ok (Flat A, []) ->
  let lo := match start with Some a => a | None => of_rad u (- (PI / 2)) end in let hi := match stop with Some b => b | None => of_rad u (PI / 2) end in
  (0 < d)%R -> (0 < lam)%R -> field_of_view d lam u lo hi -> (forall a, In a doas -> (lo < a < hi)%R) -> NoDup doas -> 1 <= List.length doas < n ->
  exists size0, forall size, size0 <= size ->
    exists l, mk_grid1d start stop (Z.of_nat size) u = Ok (SGrid G1D [vec1 l] u DFloat) /\ List.length l = size /\
     forall (P Rm : cmat) s t, exact_cov Rm A P s -> pd P -> (0 < t)%R -> exists n0 eps, (0 < eps)%R /\
     forall (Rm' : cmat) find_peaks argsort caching h0 e0 h1 eigh e h ret_sp density n_iters, hermitian Rm' -> nr Rm' = n -> (distance Rm Rm' < eps)%R ->
       scipy_local_maxima find_peaks -> (forall x, is_argsort x (argsort x)) ->
       new_estimator (gd_array g) lam (SGrid G1D [vec1 l] u DFloat) (find_peaks_simple find_peaks) argsort caching h0 = Ok (e0, h1) ->
       eigh_contract n eigh -> music_reach eigh n e0 h1 e h -> (2 <= density)%Z -> n0 <= n_iters ->
       exists sp est e' h' r, music_estimate eigh n e h Rm' (Z.of_nat (List.length doas)) (Opts ret_sp true density n_iters) = (Ok (Outcome true (Some est) (if ret_sp then Some sp else None)), e', h') /\
         buf h' est = map (fun a => [a]) r /\ accurate t doas r.
Proof.
  intros n d nm g lam doas u src A start stop Eg Es HA lo hi Hd Hl FV IN ND Hk.
  destruct (C107_music_refined n d nm g lam doas u src A lo hi Eg Es HA Hd Hl FV IN ND Hk) as (step & S0 & H).
  apply mk_FF1_ok in Es as (_ & K & V & ->). pose proof FV as (W & _).
  exists (S (Z.to_nat (up ((hi - lo) / step)))). intros size Hs.
  assert (HS : (hi - lo <= step * INR size)%R).
  { pose proof (archimed ((hi - lo) / step)) as (X & _). assert (Q : (0 < (hi - lo) / step)%R) by (apply Rdiv_lt_0_compat; lra). assert (X0 : (0 <= up ((hi - lo) / step))%Z) by (apply le_IZR; lra).
    assert (Y : (IZR (up ((hi - lo) / step)) <= INR size)%R). { rewrite INR_IZR_INZ. apply IZR_le. lia. }
    apply Rlt_le. replace (hi - lo)%R with (step * ((hi - lo) / step))%R by (field; lra). apply Rmult_lt_compat_l; [exact S0|]. lra. }
  destruct (uniform_fine start stop size u step K W ltac:(lia) HS) as (l & E & L & FG). fold lo hi in FG. exists l. split; [exact E|]. split; [exact L|]. intros P Rm s t HX HP Ht.
  destruct (H P Rm s HX HP) as (_ & H2). destruct (H2 (t / 2)%R ltac:(lra)) as (eps & He & H3). destruct (enough_iterations step (t / 2) S0 ltac:(lra)) as (n0 & N0 & N1).
  exists n0, eps. split; [exact He|]. intros Rm' fp asort c h0 e0 h1 eigh e h rs D ni HH N' DS FP AS HN EC HR HD Hi.
  destruct (H3 Rm' HH N' DS fp asort l (SGrid G1D [vec1 l] u DFloat) c h0 e0 h1 eigh e h rs D ni FP AS eq_refl FG HN EC HR ltac:(lia) ltac:(lia)) as (sp & est & e' & h' & r & R1 & R2 & R3).
  exists sp, est, e', h', r. split; [exact R1|]. split; [exact R2|]. apply R3. specialize (N1 D ni HD Hi). lra.
Qed.
(** the default grid and at most half a wavelength between neighbouring sensors *)
Theorem C107_default_grid : forall n d name g lam doas u src (A : cmat),
  mk_ULA (Z.of_nat n) (D0Scalar d) name no_kwargs = Ok g -> mk_FF1 (vec1 doas) u = Ok src ->
  steering_matrix (gd_array g) src lam false "all" true = Ok (Flat A, []) ->
  (0 < d)%R -> (2 * d <= lam)%R -> (forall a, In a doas -> (- (PI / 2) < to_rad u a < PI / 2)%R) -> NoDup doas -> 1 <= List.length doas < n ->
  exists size0, forall size, size0 <= size ->
    exists l, mk_grid1d None None (Z.of_nat size) u = Ok (SGrid G1D [vec1 l] u DFloat) /\ List.length l = size /\
     forall (P Rm : cmat) s t, exact_cov Rm A P s -> pd P -> (0 < t)%R -> exists n0 eps, (0 < eps)%R /\
     forall (Rm' : cmat) find_peaks argsort caching h0 e0 h1 eigh e h ret_sp density n_iters, hermitian Rm' -> nr Rm' = n -> (distance Rm Rm' < eps)%R ->
       scipy_local_maxima find_peaks -> (forall x, is_argsort x (argsort x)) ->
       new_estimator (gd_array g) lam (SGrid G1D [vec1 l] u DFloat) (find_peaks_simple find_peaks) argsort caching h0 = Ok (e0, h1) ->
       eigh_contract n eigh -> music_reach eigh n e0 h1 e h -> (2 <= density)%Z -> n0 <= n_iters ->
       exists sp est e' h' r, music_estimate eigh n e h Rm' (Z.of_nat (List.length doas)) (Opts ret_sp true density n_iters) = (Ok (Outcome true (Some est) (if ret_sp then Some sp else None)), e', h') /\
         buf h' est = map (fun a => [a]) r /\ accurate t doas r.
Proof.
  intros n d nm g lam doas u src A Eg Es HA Hd Hl IN ND Hk. pose proof Es as Es0. apply mk_FF1_ok in Es0 as (_ & K & V & _). cbn [vec1 nd_data] in V. rewrite Forall_forall in V.
  apply (C107_uniform_grid n d nm g lam doas u src A None None); try assumption; try lra; [now apply whole_view|].
  intros a Ia. specialize (V a Ia). specialize (IN a Ia). rewrite <- (of_to_rad u a V). pose proof PI_RGT_0 as PP.
  assert (Q : (0 < 180 / PI)%R) by (apply Rdiv_lt_0_compat; lra). destruct K as [-> | [-> | ->]]; cbn [of_rad String.eqb Ascii.eqb Bool.eqb] in *; unfold rad2deg.
  - exact IN.
  - split; apply Rmult_lt_compat_r; lra.
  - set (x := to_rad "sin" a) in *. split; apply sin_increasing_1; lra.
Qed.
(** Consistency on one fixed grid: as the covariance estimates converge, the refined estimates get within every error bound of the directions *)
Theorem C107_consistency : forall n d name g lam doas u src (A : cmat),
  mk_ULA (Z.of_nat n) (D0Scalar d) name no_kwargs = Ok g -> mk_FF1 (vec1 doas) u = Ok src ->
  steering_matrix (gd_array g) src lam false "all" true = Ok (Flat A, []) ->
  (0 < d)%R -> (2 * d <= lam)%R -> (forall a, In a doas -> (- (PI / 2) < to_rad u a < PI / 2)%R) -> NoDup doas -> 1 <= List.length doas < n ->
  exists size0, forall size, size0 <= size ->
    exists l, mk_grid1d None None (Z.of_nat size) u = Ok (SGrid G1D [vec1 l] u DFloat) /\ List.length l = size /\
     forall (P Rm : cmat) s t (Rs : nat -> cmat), exact_cov Rm A P s -> pd P -> (forall i, hermitian (Rs i) /\ nr (Rs i) = n) -> converges Rs Rm -> (0 < t)%R -> exists n0 N,
     forall i find_peaks argsort caching h0 e0 h1 eigh e h ret_sp density n_iters, N <= i ->
       scipy_local_maxima find_peaks -> (forall x, is_argsort x (argsort x)) ->
       new_estimator (gd_array g) lam (SGrid G1D [vec1 l] u DFloat) (find_peaks_simple find_peaks) argsort caching h0 = Ok (e0, h1) ->
       eigh_contract n eigh -> music_reach eigh n e0 h1 e h -> (2 <= density)%Z -> n0 <= n_iters ->
       exists sp est e' h' r, music_estimate eigh n e h (Rs i) (Z.of_nat (List.length doas)) (Opts ret_sp true density n_iters) = (Ok (Outcome true (Some est) (if ret_sp then Some sp else None)), e', h') /\
         buf h' est = map (fun a => [a]) r /\ accurate t doas r.
Proof.
  intros n d nm g lam doas u src A Eg Es HA Hd Hl IN ND Hk. destruct (C107_default_grid n d nm g lam doas u src A Eg Es HA Hd Hl IN ND Hk) as (size0 & H). exists size0. intros size Hs.
  destruct (H size Hs) as (l & E & L & G). exists l. split; [exact E|]. split; [exact L|]. intros P Rm s t Rs HX HP HR CV Ht. destruct (G P Rm s t HX HP Ht) as (n0 & eps & He & G'). destruct (CV eps He) as (N & HN).
  exists n0, N. intros i fp asort c h0 e0 h1 eigh e h rs D ni Hi. destruct (HR i) as (X1 & X2). intros. eapply (G' (Rs i)); eauto.
Qed.

(** Coarray MUSIC *)
Theorem C107_coarray : forall g l d w0 calls name m v lam doas u src (A Rm : cmat) p sigma method lo hi,
  places_1d g l d -> gd_d0 g = [d] -> NoDup l -> ar_perts (gd_array g) = [] -> scalar_isotropic (gd_array g) ->
  mk_WeightFunction1D g = Ok w0 -> first_hole l (Z.of_nat m) -> get_virtual_ula (Acm g (after w0 calls)) name = Ok v -> mk_FF1 (vec1 doas) u = Ok src ->
  steering_matrix (gd_array g) src lam false "all" true = Ok (Flat A, []) ->
  Rm ==m model_cov A p sigma -> (forall k, k < List.length doas -> (0 < p k)%R) -> (0 <= sigma)%R ->
  (0 < d)%R -> (0 < lam)%R -> field_of_view d lam u lo hi -> (forall a, In a doas -> (lo < a < hi)%R) -> NoDup doas -> 1 <= List.length doas < m -> method = "da"%string \/ method = "ss"%string ->
  exists step, (0 < step)%R /\ forall tol, (0 < tol)%R -> exists eps, (0 < eps)%R /\ forall Rm' : cmat, hermitian Rm' -> nr Rm' = List.length l -> (distance Rm Rm' < eps)%R ->
    exists D, transform (Acm g (after w0 calls)) Rm' method = Ok D /\ forall find_peaks argsort angles sg caching h0 e0 h1 eigh e h ret_sp density n_iters,
       scipy_local_maxima find_peaks -> (forall x, is_argsort x (argsort x)) -> mk_grid_axes G1D [angles] DFloat u = Ok sg -> fine_grid lo hi step angles ->
       new_estimator (gd_array v) lam sg (find_peaks_simple find_peaks) argsort caching h0 = Ok (e0, h1) -> eigh_contract m eigh -> music_reach eigh m e0 h1 e h -> (1 <= density)%Z -> 1 <= n_iters ->
       exists sp est e' h' r, music_estimate eigh m e h D (Z.of_nat (List.length doas)) (Opts ret_sp true density n_iters) = (Ok (Outcome true (Some est) (if ret_sp then Some sp else None)), e', h') /\
         buf h' est = map (fun a => [a]) r /\ forall t, (step / IZR density ^ n_iters + tol < t)%R -> accurate t doas r.
Proof.
  intros g l d w0 calls nm m v lam doas u src A Rm p sigma method lo hi PL D0 NDl Pe Iso Hw FH Ev Es HA HRm Hp Hs Hd Hl FV IN ND Hk HM.
  pose proof Es as Es0. apply mk_FF1_ok in Es0 as (_ & K & _).
  destruct (off_grid m d lam u doas lo hi Hd Hl K FV IN ND Hk) as (step & S0 & H). exists step. split; [exact S0|]. intros tol Ht.
  pose proof (places_grid_1d g l d PL) as Hg. assert (Em : Z.of_nat m = Z.of_nat (mv0 g)) by exact (Prop_coarray.C37_first_hole_unique l _ _ FH (mv0_hole g l Hg)).
  assert (VF : places_1d v (ULA_indices (Z.of_nat m)) d /\ ar_perts (gd_array v) = [] /\ scalar_isotropic (gd_array v) /\ la_dt (ar_loc (gd_array v)) = DFloat).
  { unfold get_virtual_ula in Ev. cbn [acm_array] in Ev. rewrite D0 in Ev. assert (Eo : acm_output_size (Acm g (after w0 calls)) = Z.of_nat (mv0 g)) by exact (central_ula g l Hg w0 Hw calls true). rewrite Eo, <- Em in Ev.
    destruct (ULA_virtual (Z.of_nat m) d (Some (name_or nm ("Virtual ULA of " ++ ar_name (gd_array g))))) as (v2 & E2 & X1 & X2 & X3). rewrite Ev in E2. injection E2 as <-. repeat (split; [assumption|]).
    unfold mk_ULA, mk_Grid in Ev. cbn in Ev. injection Ev as <-. reflexivity. }
  destruct VF as (PV & PeV & IsoV & DTV).
  assert (NZ : NoDup (map (zof d lam u) doas)).
  { pose proof (fine_inner d lam u doas lo hi Hd Hl FV IN) as X1. pose proof (fine_nodup d lam u doas lo hi Hd Hl FV IN ND) as X2. pose proof (fine_wide d lam u lo hi Hl FV) as X3.
    pose proof (shape_nodup (map (phase d lam u) doas) _ _ X3 X1 X2) as X. rewrite map_map in X. exact X. }
  destruct (Prop_rootc.coarray_lift_gen (finds_both m d lam u doas lo hi step tol) g l d w0 calls m lam doas u src A Rm p sigma method PL D0 NDl Pe Iso Hw FH Es HA HRm Hp Hs Hd Hl NZ Hk HM) as (eps & He & H2).
  { intros Av Pa Ra sa EA XA PA. destruct (H Av Pa Ra sa EA XA PA) as (_ & H3). apply H3. exact Ht. }
  exists eps. split; [exact He|]. intros Rm' HH N DS. destruct (H2 Rm' HH N DS) as (D & ED & _ & _ & FA). exists D. split; [exact ED|].
  intros fp asort angles sg c h0 e0 h1 eigh e h rs Dn ni FP AS Eq FG HN EC HR HD Hi. apply grid_axes_inv in Eq. subst sg. exact (proj2 FA (Rlt_le _ _ Ht) v fp asort angles c h0 e0 h1 eigh e h rs Dn ni PV PeV IsoV DTV HN FP AS FG EC HR HD Hi).
Qed.

(** ** Non-vacuity *)
(** the spectrum of C48_example, V x = (x - 1.3)^2: the estimate 1 has the neighbours 0 and 2, and three rounds of density 10 bring it to 1.3 within 1/1000 *)
Definition valley13 (x : R) : R := ((x - 1.3) * (x - 1.3))%R.
Example C107_converges_example : exists est h' q, let e0 := set_cache Prop_grid.ref_est (Some [[0]; [1]; [2]]%R) in
  estimate Prop_grid.ref_est [[[0]; [1]; [2]]]%R (fun A => Ok (map Prop_grid.bump A)) 1 (Opts false true 10 3) = (Ok (Outcome true (Some est) None), e0, h') /\ buf h' est = [[q]] /\
  dip valley13 0 2 1.3 0 /\ (Rabs (q - 1.3) <= 1 / 1000)%R.
Proof.
  assert (DP : dip valley13 0 2 1.3 0).
  { unfold dip, valley13. split; [lra|]. split; [|intros x _ H; assert (0 < (x - 1.3) * (x - 1.3))%R; [|lra]; apply Rsqr_pos_lt; intros E; apply (f_equal Rabs) in E; rewrite Rabs_R0 in E; lra].
    intros x y z _ L1 L2 _. unfold Rmax. destruct (Rle_dec _ _) as [Q|Q].
    - destruct (Rle_lt_dec 1.3 y) as [M|M]; [nra|]. assert ((y - 1.3) * (y - 1.3) < (x - 1.3) * (x - 1.3))%R by nra. lra.
    - destruct (Rle_lt_dec 1.3 y) as [M|M]; [|nra]. assert ((y - 1.3) * (y - 1.3) < (z - 1.3) * (z - 1.3))%R by nra. lra. }
  destruct (C107_refinement_converges _ Prop_grid.ref_est [[[0]; [1]; [2]]]%R (fun A => Ok (map Prop_grid.bump A)) valley13 1 10 3 false
    (Placement "FarField1DSourcePlacement" ["deg"%string] 1) None (set_cache Prop_grid.ref_est (Some [[0]; [1]; [2]]%R)) [[[0]; [1]; [2]]; [[1]]]%R "deg" [0; 1; 2]%R) as (est & h' & E & L & H).
  - destruct Prop_grid.k0_valid as (V & _). split; [exact V|]. split; [cbn; lia|]. split; [reflexivity | now left].
  - reflexivity.
  - repeat (constructor; [|try (constructor; [lra|])]); repeat constructor; lra.
  - intros x VX. eexists _, _. split; [reflexivity|]. split; [reflexivity|]. split; [rewrite !map_length, length_all_indices; cbn; lia|].
    assert (NX : forall i, i < List.length x -> nth i (map Prop_grid.bump (map (grid_point (SGrid G1D [vec1 x] (sg_unit (e_grid Prop_grid.ref_est)) DFloat)) (all_indices (sg_shape (SGrid G1D [vec1 x] (sg_unit (e_grid Prop_grid.ref_est)) DFloat))))) 0%R = (- valley13 (nth i x 0))%R).
    { intros i Hi. fold (g1 (sg_unit (e_grid Prop_grid.ref_est)) x). assert (Hs : i < sg_size (g1 (sg_unit (e_grid Prop_grid.ref_est)) x)) by (rewrite g1_size; exact Hi).
      rewrite (nth_indep _ 0%R (Prop_grid.bump [])) by (rewrite map_length, length_points; exact Hs). rewrite map_nth, nth_points by exact Hs. rewrite g1_point by exact Hi. unfold Prop_grid.bump, valley13. cbn [nth]. reflexivity. }
    intros i j Hi Hj. rewrite !NX by assumption. lra.
  - lia.
  - lia.
  - reflexivity.
  - cbn [buf p_addr nth List.length] in L, H. destruct (H 0 ltac:(lia)) as (q & Q1 & Q2). exists est, h', q. split; [exact E|]. split.
    { destruct (buf h' est) as [|a [|]]; try discriminate L. cbn in Q1. now injection Q1 as ->. }
    split; [exact DP|]. destruct (Q2 1 1.3%R 0%R eq_refl ltac:(lia) ltac:(cbn; lia) ltac:(lra) DP) as (_ & Q3). cbn [nth Nat.sub] in Q3. eapply Rle_trans; [exact Q3|]. cbn [pow]. lra.
Qed.
(** two sensors half a wavelength apart, one source at 30 degrees which is on no grid point, and a covariance matrix that is off by a positive amount: one millionth of a degree is reached by refinement *)
Example C107_example : exists g src (A Rm Rm' : cmat) x l e0 h1 est e' h' r ni,
  mk_ULA 2 (D0Scalar 1) None no_kwargs = Ok g /\ mk_FF1 (vec1 [30]%R) "deg" = Ok src /\
  steering_matrix (gd_array g) src 2 false "all" true = Ok (Flat A, []) /\ exact_cov Rm A (mid 1) 1 /\
  (0 < x)%R /\ hermitian Rm' /\ nr Rm' = 2 /\ distance Rm Rm' = x /\
  mk_grid1d None None (Z.of_nat (List.length l)) "deg" = Ok (SGrid G1D [vec1 l] "deg" DFloat) /\ ~ In 30%R l /\
  new_estimator (gd_array g) 2 (SGrid G1D [vec1 l] "deg" DFloat) (find_peaks_simple local_maxima_ref) Prop_subspace.argsort_R true [] = Ok (e0, h1) /\
  music_estimate P_oracles.eigh_ref 2 e0 h1 Rm' 1 (Opts false true 10 ni) = (Ok (Outcome true (Some est) None), e', h') /\ buf h' est = map (fun a => [a]) r /\ accurate (1 / 1000000) [30]%R r.
Proof.
  pose proof PI_RGT_0 as PP.
  destruct (Prop_designs.C10_constructible 2 0 0 1 None) as ((g & Eg) & _). destruct (ULA_facts _ _ _ _ Eg) as (PL & X2 & X3 & X4 & _). assert (K : known_unit "deg") by (right; left; reflexivity).
  assert (V : Forall (valid_angle "deg") [30%R]) by (apply Forall_cons; [|apply Forall_nil]; right; left; split; [reflexivity|lra]).
  destruct (steering_defined (gd_array g) (FF1 [30]%R "deg") 2 "all" [] true ltac:(lra) X3 X4) as (A & HA);
    [rewrite (pl_ndim _ _ _ PL); lia | rewrite (pl_size _ _ _ PL), ULA_indices_length; lia | unfold select_perturbations, perturbations; now rewrite X2 | intros ? []|].
  pose proof (ula_steering g 2 1 "deg" [30%R] 2 PL X2 X3 (conj K V) A HA) as EA. set (z := zof 1 2 "deg" 30) in *.
  assert (HX0 : exact_cov (Prop_esprit.cov_of (ula_matrix 2 [z])) (ula_matrix 2 [z]) (mid 1) 1) by apply Prop_esprit.cov_of_exact.
  assert (HX : exact_cov (Prop_esprit.cov_of (ula_matrix 2 [z])) A (mid 1) 1) by (apply (Prop_pipeline2.exact_cov_eq _ (ula_matrix 2 [z])); [now symmetry|exact HX0]). set (Rm := Prop_esprit.cov_of (ula_matrix 2 [z])) in *.
  assert (Es : mk_FF1 (vec1 [30]%R) "deg" = Ok (FF1 [30]%R "deg")).
  { apply mk_FF1_ok. cbn. split; [lia|]. split; [exact K|]. split; [exact V|reflexivity]. }
  assert (P1 : pd (mid 1)) by apply Prop_subspace.pd_mid.
  destruct (C107_default_grid 2 1 None g 2 [30]%R "deg" (FF1 [30]%R "deg") A Eg Es HA ltac:(lra) ltac:(lra)) as (size0 & H).
  - intros a [<-|[]]. cbn [to_rad String.eqb Ascii.eqb Bool.eqb]. unfold deg2rad. lra.
  - constructor; [intros []|constructor].
  - cbn; lia.
  - pose proof (exact_herm _ _ _ _ HX (proj1 P1)) as HH.
    destruct (H (S (3 * size0)) ltac:(lia)) as (l & El & Ll & G0). destruct (G0 (mid 1) Rm 1%R (1 / 1000000)%R HX P1 ltac:(lra)) as (n0 & eps & He & G).
    assert (DS : distance Rm (off_by (eps / 2) Rm) = (eps / 2)%R) by (apply off_by_distance; [lra|cbn; lia|cbn; lia]).
    
    destruct (Prop_grid.C43_uniform_1d None None (S (3 * size0)) "deg") as (Y & _). destruct (Y K) as (l' & El' & _ & Hl'). rewrite El in El'. injection El' as _ El'. subst l'. cbv zeta in Hl'. clear Y.
    cbn [of_rad String.eqb Ascii.eqb Bool.eqb] in Hl'. unfold rad2deg in Hl'. set (N := S (3 * size0)) in *.
    assert (NP : (0 < INR N)%R) by (apply lt_0_INR; lia).
    assert (Hl : forall i, i < N -> (nth i l 0 * INR N = - 90 * INR N + 180 * INR i)%R). { intros i Hi. rewrite Hl' by exact Hi. field. lra. }
    assert (VA : Forall (valid_angle "deg") l).
    { apply Forall_forall. intros a Ia. apply (In_nth _ _ 0%R) in Ia as (i & Hi & <-). rewrite Ll in Hi. specialize (Hl i Hi). assert (0 <= INR i)%R by apply pos_INR. assert (INR i <= INR N)%R by (apply le_INR; lia). right. left. split; [reflexivity|]. split; nra. }
    destruct (grid_estimator g 2 "deg" l K VA) as (e0 & h1 & HN).
    destruct (G (off_by (eps / 2) Rm) local_maxima_ref Prop_subspace.argsort_R true [] e0 h1 P_oracles.eigh_ref e0 h1 false 10%Z n0 ltac:(now apply off_by_herm) eq_refl ltac:(rewrite DS; lra) local_maxima_ref_ok Prop_subspace.argsort_R_ok HN (P_oracles.eigh_ref_contract _) ltac:(constructor) ltac:(lia) (le_n _)) as (sp & est & e' & h' & r & R1 & R2 & R3).
    exists g, (FF1 [30]%R "deg"), A, Rm, (off_by (eps / 2) Rm), (eps / 2)%R, l, e0, h1, est, e', h', r, n0.
    split; [exact Eg|]. split; [exact Es|]. split; [exact HA|]. split; [exact HX|]. split; [lra|]. split; [now apply off_by_herm|]. split; [reflexivity|]. split; [exact DS|]. split; [rewrite Ll; exact El|]. split.
    + intros I. apply (In_nth _ _ 0%R) in I as (i & Hi & E). rewrite Ll in Hi. specialize (Hl i Hi). rewrite E in Hl. assert (Q : (INR 2 * INR N = INR 3 * INR i)%R) by (cbn [INR]; lra). rewrite <- !mult_INR in Q. apply INR_eq in Q. unfold N in Q. lia.
    + split; [exact HN|]. split; [exact R1|]. split; [exact R2|exact R3].
Qed.
Print Assumptions C107_refinement_converges.
Print Assumptions C107_music_refined.
Print Assumptions C107_uniform_grid.
Print Assumptions C107_default_grid.
Print Assumptions C107_consistency.
Print Assumptions C107_coarray.
