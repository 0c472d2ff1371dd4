(** MUSIC on a uniform linear array with sources anywhere between the grid points (C106). *)
From Coq Require Import Lra Lia Sorted Permutation.
From Coquelicot Require Import Complex.
From Verif Require Import Base_Np Base_Trig Base_Lin S_model M_utils S_utils P_utils M_sources S_sources P_sources P_sources3 M_array S_array P_array P_array2 P_array3 M_designs S_designs P_designs M_coarray S_coarray P_coarray P_coarray2 P_model
  M_grid S_grid P_grid M_core P_core P_core2 M_sparse M_subspace S_subspace P_subspace P_subspace2 P_subspace5 M_pipeline S_pipeline Prop_subspace P_pipeline P_pipeline4 P_beam Prop_pipeline S_stable P_stable P_stable2 P_stable3 P_stable4 Prop_stable S_cont P_cont P_cont2 P_cont4 P_cont5 P_cont6 P_rootc3
  S_offgrid S_refine P_off1 P_off2 P_off3 P_off4 P_off5 P_off7 P_off6.
From Verif Require P_oracles P_signals Prop_esprit Prop_designs Prop_grid Prop_coarray Prop_coarray2 Prop_pipeline2 Prop_rootc.
Open Scope nat_scope.

(** One grid step for the geometry and the set of directions alone; then, for every source covariance matrix and noise level: with the exact covariance matrix every grid at least that fine gives, for each direction, one
    of the two grid points next to it; and for every tolerance all Hermitian matrices close enough to the covariance matrix give the same up to the tolerance, again on every grid at least that fine *)
Theorem C106_music_off_grid : forall n d name g lam doas u src (A : cmat) lo hi,
  mk_ULA (Z.of_nat n) (D0Scalar d) name no_kwargs = Ok g -> mk_FF1 (vec1 doas) u = Ok src ->
  steering_matrix (gd_array g) src lam false "all" true = Ok (Flat A, []) ->
  (0 < d)%R -> (0 < lam)%R -> field_of_view d lam u lo hi -> (forall a, In a doas -> (lo < a < hi)%R) -> NoDup doas -> 1 <= List.length doas < n ->
  exists step, (0 < step)%R /\ forall (P Rm : cmat) s, exact_cov Rm A P s -> pd P ->
    (forall find_peaks argsort angles dt sg caching h0 e0 h1 eigh e h o,
       scipy_local_maxima find_peaks -> (forall x, is_argsort x (argsort x)) -> mk_grid_axes G1D [angles] dt u = Ok sg -> fine_grid lo hi step angles ->
       new_estimator (gd_array g) lam sg (find_peaks_simple find_peaks) argsort caching h0 = Ok (e0, h1) -> eigh_contract n eigh -> music_reach eigh n e0 h1 e h -> o_refine o = false ->
       exists sp est e' h' idx, music_estimate eigh n e h Rm (Z.of_nat (List.length doas)) o = (Ok (Outcome true (Some est) (if o_spectrum o then Some sp else None)), e', h') /\
         buf h' est = map (fun a => [a]) (at_positions angles idx) /\ brackets 0 angles doas idx) /\
    forall tol, (0 < tol)%R -> exists eps, (0 < eps)%R /\ forall Rm' : cmat, hermitian Rm' -> nr Rm' = n -> (distance Rm Rm' < eps)%R ->
     forall find_peaks argsort angles dt sg caching h0 e0 h1 eigh e h o,
       scipy_local_maxima find_peaks -> (forall x, is_argsort x (argsort x)) -> mk_grid_axes G1D [angles] dt u = Ok sg -> fine_grid lo hi step angles ->
       new_estimator (gd_array g) lam sg (find_peaks_simple find_peaks) argsort caching h0 = Ok (e0, h1) -> eigh_contract n eigh -> music_reach eigh n e0 h1 e h -> o_refine o = false ->
       exists sp est e' h' idx, music_estimate eigh n e h Rm' (Z.of_nat (List.length doas)) o = (Ok (Outcome true (Some est) (if o_spectrum o then Some sp else None)), e', h') /\
         buf h' est = map (fun a => [a]) (at_positions angles idx) /\ brackets tol angles doas idx.
Proof.
  intros n d nm g lam doas u src A lo hi Eg Es HA Hd Hl FV IN ND Hk.
  apply mk_FF1_ok in Es as (_ & K & V & ->). cbn [vec1 nd_data] in *. destruct (ULA_facts _ _ _ _ Eg) as (PL & Pe & I & DT & _).
  pose proof (ula_steering g n d u doas lam PL Pe I (conj K V) A HA) as EA.
  destruct (off_grid n d lam u doas lo hi Hd Hl K FV IN ND Hk) as (step & S0 & H). exists step. split; [exact S0|]. intros P Rm s HX HP. destruct (H A P Rm s EA HX HP) as (H1 & H2). split.
  - intros fp asort angles dt sg c h0 e0 h1 eigh e h o FP AS Eq FG HN EC HR Hr. apply grid_axes_inv in Eq. subst sg. exact (proj1 H1 g fp asort angles dt c h0 e0 h1 eigh e h o PL Pe I DT HN FP AS FG EC HR Hr).
  - intros tol Ht. destruct (H2 tol Ht) as (eps & He & H3). exists eps. split; [exact He|]. intros Rm' HH N DS fp asort angles dt sg c h0 e0 h1 eigh e h o FP AS Eq FG HN EC HR Hr.
    apply grid_axes_inv in Eq. subst sg. exact (proj1 (H3 Rm' HH N DS) g fp asort angles dt c h0 e0 h1 eigh e h o PL Pe I DT HN FP AS FG EC HR Hr).
Qed.

(** *** from brackets to errors *)
Lemma brackets_accurate lo hi step angles tol truth idx t : fine_grid lo hi step angles -> (0 <= step)%R -> brackets tol angles truth idx -> (step + tol < t)%R -> accurate t truth (at_positions angles idx).
Proof.
  intros (_ & SS & _ & _ & _ & GP) S0 (SI & s & PS & As & F) Ht. split.
  - unfold ascending, at_positions.
    assert (IB : forall i, In i idx -> i < List.length angles). { clear - F. induction F as [|a i s l H F IH]; intros j Hj; [destruct Hj|]. destruct Hj as [<-|Hj]; [lia|]. now apply IH. }
    clear F. induction SI as [|i l Q IH FA]; cbn [map]; constructor; [apply IH; intros; apply IB; now right|]. apply Forall_forall. intros b Ib. apply in_map_iff in Ib as (j & <- & Ij). rewrite Forall_forall in FA.
    left. apply (ss_nth angles SS). split; [now apply FA|]. apply IB. now right.
  - exists s. split; [exact PS|]. split; [exact As|]. unfold at_positions. clear - F GP S0 Ht. induction F as [|a i s l (H1 & H2 & H3) F IH]; cbn [map]; constructor; [|exact IH].
    pose proof (GP (i - 1) ltac:(lia)) as G1. replace (S (i - 1)) with i in G1 by lia. pose proof (GP i H2) as G2. apply Rabs_def1; lra.
Qed.
(** the library's uniform grids are as fine as one wants *)
Lemma uniform_fine start stop size u step : known_unit u ->
  let lo := match start with Some a => a | None => of_rad u (- (PI / 2)) end in let hi := match stop with Some b => b | None => of_rad u (PI / 2) end in
  (lo < hi)%R -> 1 <= size -> (hi - lo <= step * INR size)%R ->
  exists l, mk_grid1d start stop (Z.of_nat size) u = Ok (SGrid G1D [vec1 l] u DFloat) /\ List.length l = size /\ fine_grid lo hi step l.
Proof.
  intros K lo hi W S1 HS. destruct (Prop_grid.C43_uniform_1d start stop size u) as (X & _). destruct (X K) as (l & E & L & H). exists l. split; [exact E|]. split; [exact L|]. clear X E. cbv zeta in H. fold lo hi in H.
  assert (P0 : (0 < INR size)%R) by (apply lt_0_INR; lia). set (q := ((hi - lo) / INR size)%R) in *. assert (Q0 : (0 < q)%R) by (apply Rdiv_lt_0_compat; lra).
  assert (QS : (q <= step)%R). { unfold q. apply (Rmult_le_reg_r (INR size)); [exact P0|]. unfold Rdiv. rewrite Rmult_assoc, Rinv_l by lra. lra. }
  assert (QW : (INR size * q = hi - lo)%R) by (unfold q; field; lra).
  split; [intros ->; cbn in L; lia|]. split.
  { assert (EL : l = map (fun i => lo + INR i * q)%R (seq 0 size)). { apply (nth_ext _ _ 0%R 0%R); [now rewrite map_length, seq_length|]. intros i Hi. rewrite L in Hi. rewrite H by exact Hi. now rewrite (nth_map_seq (fun i => (lo + INR i * q)%R)). }
    rewrite EL. assert (G : forall m k, StronglySorted Rlt (map (fun i => lo + INR i * q)%R (seq k m))).
    { induction m as [|m IH]; intros k; cbn [seq map]; constructor; [apply IH|]. apply Forall_forall. intros b Ib. apply in_map_iff in Ib as (j & <- & Ij). apply in_seq in Ij. apply Rplus_lt_compat_l, Rmult_lt_compat_r; [exact Q0|]. apply lt_INR. lia. }
    apply G. }
  split.
  { intros a Ia. apply (In_nth _ _ 0%R) in Ia as (i & Hi & <-). rewrite L in Hi. rewrite H by exact Hi. pose proof (pos_INR i). assert (INR i <= INR size)%R by (apply le_INR; lia). split; nra. }
  split; [rewrite H by lia; cbn [INR]; lra|]. split.
  { rewrite L, H by lia. rewrite minus_INR by lia. cbn [INR]. lra. }
  intros i Hi. rewrite L in Hi. rewrite !H by lia. rewrite S_INR. lra.
Qed.

(** The default grids: for every tolerance, every sufficiently fine uniform grid and every Hermitian matrix close enough to the covariance matrix give all the directions, up to the tolerance *)
Theorem C106_uniform_grid : forall n d name g lam doas u src (A P Rm : cmat) s start stop t,
  mk_ULA (Z.of_nat n) (D0Scalar d) name no_kwargs = Ok g -> mk_FF1 (vec1 doas) u = Ok src ->
  steering_matrix (gd_array g) src lam false "all" true = Ok (Flat A, []) -> exact_cov Rm A P s -> pd P ->
  let lo := match start with Some a => a | None => of_rad u (- (PI / 2)) end in let hi := match stop with Some b => b | None => of_rad u (PI / 2) end in
  (0 < d)%R -> (0 < lam)%R -> field_of_view d lam u lo hi -> (forall a, In a doas -> (lo < a < hi)%R) -> NoDup doas -> 1 <= List.length doas < n -> (0 < t)%R ->
  exists size0 eps, (0 < eps)%R /\ forall size (Rm' : cmat), size0 <= size -> hermitian Rm' -> nr Rm' = n -> (distance Rm Rm' < eps)%R ->
    exists l, mk_grid1d start stop (Z.of_nat size) u = Ok (SGrid G1D [vec1 l] u DFloat) /\ List.length l = size /\
     forall find_peaks argsort caching h0 e0 h1 eigh e h o,
       scipy_local_maxima find_peaks -> (forall x, is_argsort x (argsort x)) ->
       new_estimator (gd_array g) lam (SGrid G1D [vec1 l] u DFloat) (find_peaks_simple find_peaks) argsort caching h0 = Ok (e0, h1) ->
       eigh_contract n eigh -> music_reach eigh n e0 h1 e h -> o_refine o = false ->
       exists sp est e' h' r, music_estimate eigh n e h Rm' (Z.of_nat (List.length doas)) o = (Ok (Outcome true (Some est) (if o_spectrum o then Some sp else None)), e', h') /\
         buf h' est = map (fun a => [a]) r /\ accurate t doas r.
Proof.
  intros n d nm g lam doas u src A P Rm s start stop t Eg Es HA HX HP lo hi Hd Hl FV IN ND Hk Ht.
  destruct (C106_music_off_grid n d nm g lam doas u src A lo hi Eg Es HA Hd Hl FV IN ND Hk) as (step & S0 & H). destruct (H P Rm s HX HP) as (_ & H2). clear H. destruct (H2 (t / 4)%R ltac:(lra)) as (eps & He & H3). clear H2.
  apply mk_FF1_ok in Es as (_ & K & V & ->). set (st := Rmin step (t / 4)). assert (ST : (0 < st)%R) by (apply Rmin_glb_lt; lra). assert (ST1 : (st <= step)%R) by apply Rmin_l. assert (ST2 : (st <= t / 4)%R) by apply Rmin_r.
  pose proof FV as (W & _). assert (X : exists N, (((hi - lo) / st) < INR N)%R). { exists (Z.to_nat (up ((hi - lo) / st))). pose proof (archimed ((hi - lo) / st)) as (X & _). assert (Q : (0 < (hi - lo) / st)%R) by (apply Rdiv_lt_0_compat; lra). assert (0 <= up ((hi - lo) / st))%Z by (apply le_IZR; lra). rewrite INR_IZR_INZ, Z2Nat.id by assumption. exact X. } destruct X as (N & HN). exists (S N), eps. split; [exact He|]. intros size Rm' Hs HH N' DS.
  assert (HS : (hi - lo <= st * INR size)%R).
  { apply Rle_trans with (st * INR N)%R; [|apply Rmult_le_compat_l; [lra|]; apply le_INR; lia]. apply Rlt_le. replace (hi - lo)%R with (st * ((hi - lo) / st))%R by (field; lra). now apply Rmult_lt_compat_l. }
  destruct (uniform_fine start stop size u st K W ltac:(lia) HS) as (l & E & L & FG). fold lo hi in FG. exists l. split; [exact E|]. split; [exact L|]. intros fp asort c h0 e0 h1 eigh e h o FP AS HN' EC HR Hr.
  assert (FG' : fine_grid lo hi step l). { destruct FG as (a1 & a2 & a3 & a4 & a5 & a6). repeat split; try assumption; try (apply a3; assumption); try lra. intros i Hi. specialize (a6 i Hi). lra. }
  destruct (H3 Rm' HH N' DS fp asort l DFloat (SGrid G1D [vec1 l] u DFloat) c h0 e0 h1 eigh e h o FP AS eq_refl FG' HN' EC HR Hr) as (sp & est & e' & h' & idx & R1 & R2 & R3).
  exists sp, est, e', h', (at_positions l idx). split; [exact R1|]. split; [exact R2|]. apply (brackets_accurate lo hi st l (t / 4) doas idx t FG); [lra|exact R3|lra].
Qed.
(** at most half a wavelength between neighbouring sensors: everything strictly between the endfire directions is one field of view *)
Lemma whole_view d lam u : known_unit u -> (0 < d)%R -> (2 * d <= lam)%R -> field_of_view d lam u (of_rad u (- (PI / 2))) (of_rad u (PI / 2)).
Proof.
  intros K Hd Hl. pose proof PI_RGT_0 as PP. unfold field_of_view, valid_angle. destruct K as [-> | [-> | ->]]; cbn [of_rad to_rad String.eqb Ascii.eqb Bool.eqb]; unfold rad2deg.
  - split; [lra|]. split; [left; split; [reflexivity|lra]|]. split; [left; split; [reflexivity|lra]|]. rewrite sin_neg, sin_PI2. lra.
  - assert (E1 : (- (PI / 2) * (180 / PI) * (PI / 180) = - (PI / 2))%R) by (field; lra). assert (E2 : (PI / 2 * (180 / PI) * (PI / 180) = PI / 2)%R) by (field; lra).
    assert (E3 : (- (PI / 2) * (180 / PI) = -90)%R) by (field; lra). assert (E4 : (PI / 2 * (180 / PI) = 90)%R) by (field; lra).
    split; [lra|]. split; [right; left; split; [reflexivity|lra]|]. split; [right; left; split; [reflexivity|lra]|]. unfold deg2rad in *. rewrite ?E1, ?E2, sin_neg, sin_PI2. lra.
  - rewrite sin_neg, sin_PI2. split; [lra|]. split; [right; right; split; [reflexivity|lra]|]. split; [right; right; split; [reflexivity|lra]|]. rewrite asin_opp, asin_1, sin_neg, sin_PI2. lra.
Qed.
(** C106 on the library's default grid *)
Theorem C106_default_grid : forall n d name g lam doas u src (A P Rm : cmat) s t,
  mk_ULA (Z.of_nat n) (D0Scalar d) name no_kwargs = Ok g -> mk_FF1 (vec1 doas) u = Ok src ->
  steering_matrix (gd_array g) src lam false "all" true = Ok (Flat A, []) -> exact_cov Rm A P s -> pd P ->
  (0 < d)%R -> (2 * d <= lam)%R -> (forall a, In a doas -> (- (PI / 2) < to_rad u a < PI / 2)%R) -> NoDup doas -> 1 <= List.length doas < n -> (0 < t)%R ->
  exists size0 eps, (0 < eps)%R /\ forall size (Rm' : cmat), size0 <= size -> hermitian Rm' -> nr Rm' = n -> (distance Rm Rm' < eps)%R ->
    exists l, mk_grid1d None None (Z.of_nat size) u = Ok (SGrid G1D [vec1 l] u DFloat) /\ List.length l = size /\
     forall find_peaks argsort caching h0 e0 h1 eigh e h o,
       scipy_local_maxima find_peaks -> (forall x, is_argsort x (argsort x)) ->
       new_estimator (gd_array g) lam (SGrid G1D [vec1 l] u DFloat) (find_peaks_simple find_peaks) argsort caching h0 = Ok (e0, h1) ->
       eigh_contract n eigh -> music_reach eigh n e0 h1 e h -> o_refine o = false ->
       exists sp est e' h' r, music_estimate eigh n e h Rm' (Z.of_nat (List.length doas)) o = (Ok (Outcome true (Some est) (if o_spectrum o then Some sp else None)), e', h') /\
         buf h' est = map (fun a => [a]) r /\ accurate t doas r.
Proof.
  intros n d nm g lam doas u src A P Rm s t Eg Es HA HX HP Hd Hl IN ND Hk Ht. pose proof Es as Es0. apply mk_FF1_ok in Es0 as (_ & K & V & _). cbn [vec1 nd_data] in V. rewrite Forall_forall in V.
  apply (C106_uniform_grid n d nm g lam doas u src A P Rm s None None t); try assumption; try lra; [now apply whole_view|].
  intros a Ia. specialize (V a Ia). specialize (IN a Ia). rewrite <- (of_to_rad u a V). pose proof PI_RGT_0 as PP.
  assert (Q : (0 < 180 / PI)%R) by (apply Rdiv_lt_0_compat; lra). destruct K as [-> | [-> | ->]]; cbn [of_rad String.eqb Ascii.eqb Bool.eqb] in *; unfold rad2deg.
  - exact IN.
  - split; apply Rmult_lt_compat_r; lra.
  - set (x := to_rad "sin" a) in *. split; apply sin_increasing_1; lra.
Qed.

(** Consistency: as the covariance estimates converge, the estimates on sufficiently fine default grids get within every tolerance of the true directions *)
Theorem C106_consistency : forall n d name g lam doas u src (A P Rm : cmat) s (Rs : nat -> cmat) t,
  mk_ULA (Z.of_nat n) (D0Scalar d) name no_kwargs = Ok g -> mk_FF1 (vec1 doas) u = Ok src ->
  steering_matrix (gd_array g) src lam false "all" true = Ok (Flat A, []) -> exact_cov Rm A P s -> pd P ->
  (0 < d)%R -> (2 * d <= lam)%R -> (forall a, In a doas -> (- (PI / 2) < to_rad u a < PI / 2)%R) -> NoDup doas -> 1 <= List.length doas < n ->
  (forall i, hermitian (Rs i) /\ nr (Rs i) = n) -> converges Rs Rm -> (0 < t)%R ->
  exists size0 N, forall size i, size0 <= size -> N <= i ->
    exists l, mk_grid1d None None (Z.of_nat size) u = Ok (SGrid G1D [vec1 l] u DFloat) /\ List.length l = size /\
     forall find_peaks argsort caching h0 e0 h1 eigh e h o,
       scipy_local_maxima find_peaks -> (forall x, is_argsort x (argsort x)) ->
       new_estimator (gd_array g) lam (SGrid G1D [vec1 l] u DFloat) (find_peaks_simple find_peaks) argsort caching h0 = Ok (e0, h1) ->
       eigh_contract n eigh -> music_reach eigh n e0 h1 e h -> o_refine o = false ->
       exists sp est e' h' r, music_estimate eigh n e h (Rs i) (Z.of_nat (List.length doas)) o = (Ok (Outcome true (Some est) (if o_spectrum o then Some sp else None)), e', h') /\
         buf h' est = map (fun a => [a]) r /\ accurate t doas r.
Proof.
  intros n d nm g lam doas u src A P Rm s Rs t Eg Es HA HX HP Hd Hl IN ND Hk HR CV Ht.
  destruct (C106_default_grid n d nm g lam doas u src A P Rm s t Eg Es HA HX HP Hd Hl IN ND Hk Ht) as (size0 & eps & He & H). destruct (CV eps He) as (N & HN).
  exists size0, N. intros size i Hs Hi. destruct (HR i) as (X1 & X2). apply H; auto.
Qed.

(** Coarray MUSIC: the same for the augmented covariance of the virtual array, with possibly more sources than sensors *)
Theorem C106_coarray : forall g l d w0 calls name m v lam doas u src (A Rm : cmat) p sigma method lo hi,
  places_1d g l d -> gd_d0 g = [d] -> NoDup l -> ar_perts (gd_array g) = [] -> scalar_isotropic (gd_array g) ->
  mk_WeightFunction1D g = Ok w0 -> first_hole l (Z.of_nat m) -> get_virtual_ula (Acm g (after w0 calls)) name = Ok v -> mk_FF1 (vec1 doas) u = Ok src ->
  steering_matrix (gd_array g) src lam false "all" true = Ok (Flat A, []) ->
  Rm ==m model_cov A p sigma -> (forall k, k < List.length doas -> (0 < p k)%R) -> (0 <= sigma)%R ->
  (0 < d)%R -> (0 < lam)%R -> field_of_view d lam u lo hi -> (forall a, In a doas -> (lo < a < hi)%R) -> NoDup doas -> 1 <= List.length doas < m -> method = "da"%string \/ method = "ss"%string ->
  exists step, (0 < step)%R /\ forall tol, (0 < tol)%R -> exists eps, (0 < eps)%R /\ forall Rm' : cmat, hermitian Rm' -> nr Rm' = List.length l -> (distance Rm Rm' < eps)%R ->
    exists D, transform (Acm g (after w0 calls)) Rm' method = Ok D /\ forall find_peaks argsort angles dt sg caching h0 e0 h1 eigh e h o,
       scipy_local_maxima find_peaks -> (forall x, is_argsort x (argsort x)) -> mk_grid_axes G1D [angles] dt u = Ok sg -> fine_grid lo hi step angles ->
       new_estimator (gd_array v) lam sg (find_peaks_simple find_peaks) argsort caching h0 = Ok (e0, h1) -> eigh_contract m eigh -> music_reach eigh m e0 h1 e h -> o_refine o = false ->
       exists sp est e' h' idx, music_estimate eigh m e h D (Z.of_nat (List.length doas)) o = (Ok (Outcome true (Some est) (if o_spectrum o then Some sp else None)), e', h') /\
         buf h' est = map (fun a => [a]) (at_positions angles idx) /\ brackets tol angles doas idx.
Proof.
  intros g l d w0 calls nm m v lam doas u src A Rm p sigma method lo hi PL D0 NDl Pe Iso Hw FH Ev Es HA HRm Hp Hs Hd Hl FV IN ND Hk HM.
  pose proof Es as Es0. apply mk_FF1_ok in Es0 as (_ & K & _).
  destruct (off_grid m d lam u doas lo hi Hd Hl K FV IN ND Hk) as (step & S0 & H). exists step. split; [exact S0|]. intros tol Ht.
  pose proof (places_grid_1d g l d PL) as Hg. assert (Em : Z.of_nat m = Z.of_nat (mv0 g)) by exact (Prop_coarray.C37_first_hole_unique l _ _ FH (mv0_hole g l Hg)).
  assert (VF : places_1d v (ULA_indices (Z.of_nat m)) d /\ ar_perts (gd_array v) = [] /\ scalar_isotropic (gd_array v) /\ la_dt (ar_loc (gd_array v)) = DFloat).
  { unfold get_virtual_ula in Ev. cbn [acm_array] in Ev. rewrite D0 in Ev. assert (Eo : acm_output_size (Acm g (after w0 calls)) = Z.of_nat (mv0 g)) by exact (central_ula g l Hg w0 Hw calls true). rewrite Eo, <- Em in Ev.
    destruct (ULA_virtual (Z.of_nat m) d (Some (name_or nm ("Virtual ULA of " ++ ar_name (gd_array g))))) as (v2 & E2 & X1 & X2 & X3). rewrite Ev in E2. injection E2 as <-. repeat (split; [assumption|]).
    unfold mk_ULA, mk_Grid in Ev. cbn in Ev. injection Ev as <-. reflexivity. }
  destruct VF as (PV & PeV & IsoV & DTV).
  assert (NZ : NoDup (map (zof d lam u) doas)).
  { pose proof (fine_inner d lam u doas lo hi Hd Hl FV IN) as X1. pose proof (fine_nodup d lam u doas lo hi Hd Hl FV IN ND) as X2. pose proof (fine_wide d lam u lo hi Hl FV) as X3.
    pose proof (shape_nodup (map (phase d lam u) doas) _ _ X3 X1 X2) as X. rewrite map_map in X. exact X. }
  destruct (Prop_rootc.coarray_lift_gen (finds_both m d lam u doas lo hi step tol) g l d w0 calls m lam doas u src A Rm p sigma method PL D0 NDl Pe Iso Hw FH Es HA HRm Hp Hs Hd Hl NZ Hk HM) as (eps & He & H2).
  { intros Av Pa Ra sa EA XA PA. destruct (H Av Pa Ra sa EA XA PA) as (_ & H3). apply H3. exact Ht. }
  exists eps. split; [exact He|]. intros Rm' HH N DS. destruct (H2 Rm' HH N DS) as (D & ED & _ & _ & FA). exists D. split; [exact ED|].
  intros fp asort angles dt sg c h0 e0 h1 eigh e h o FP AS Eq FG HN EC HR Hr. apply grid_axes_inv in Eq. subst sg. exact (proj1 FA v fp asort angles dt c h0 e0 h1 eigh e h o PV PeV IsoV DTV HN FP AS FG EC HR Hr).
Qed.
(** ** Non-vacuity *)
(** a peak finder that meets the contract *)
Definition is_local_max (x : list R) (i : nat) : bool :=
  existsb (fun l => existsb (fun r => Nat.ltb 0 l && Nat.leb l r && Nat.ltb (S r) (List.length x) && Nat.eqb i ((l + r) / 2) &&
    forallb (fun j => negb (Nat.leb l j && Nat.leb j r) || if Req_EM_T (nth j x 0%R) (nth l x 0%R) then true else false) (seq 0 (List.length x)) &&
    Rltb (nth (l - 1) x 0%R) (nth l x 0%R) && Rltb (nth (S r) x 0%R) (nth l x 0%R)) (seq 0 (List.length x))) (seq 0 (List.length x)).
Lemma is_local_max_ok x i : is_local_max x i = true <-> local_max x i.
Proof.
  unfold is_local_max, local_max. rewrite existsb_exists. setoid_rewrite existsb_exists. split.
  - intros (l & Il & r & Ir & E). apply in_seq in Il, Ir. apply andb_true_iff in E as (E & e7). apply andb_true_iff in E as (E & e6). apply andb_true_iff in E as (E & e5).
    apply andb_true_iff in E as (E & e4). apply andb_true_iff in E as (E & e3). apply andb_true_iff in E as (e1 & e2).
    apply Nat.ltb_lt in e1, e3. apply Nat.leb_le in e2. apply Nat.eqb_eq in e4. unfold Rltb in e6, e7. destruct (Rlt_dec (nth (l - 1) x 0%R) _); [|discriminate]. destruct (Rlt_dec (nth (S r) x 0%R) _); [|discriminate].
    exists l, r. split; [lia|]. split; [exact e3|]. split; [exact e4|]. split; [|split; assumption]. intros j Hj. rewrite forallb_forall in e5. specialize (e5 j ltac:(apply in_seq; lia)).
    assert (Q : (Nat.leb l j && Nat.leb j r)%bool = true) by (apply andb_true_iff; split; apply Nat.leb_le; lia). rewrite Q in e5. cbn [negb orb] in e5. destruct (Req_EM_T _ _); [assumption|discriminate].
  - intros (l & r & H1 & H2 & H3 & H4 & H5 & H6). exists l. split; [apply in_seq; lia|]. exists r. split; [apply in_seq; lia|].
    repeat (apply andb_true_iff; split); try (apply Nat.ltb_lt; lia); try (apply Nat.leb_le; lia); try (now apply Nat.eqb_eq).
    + apply forallb_forall. intros j Ij. destruct (Nat.leb l j && Nat.leb j r)%bool eqn:Q; [|reflexivity]. apply andb_true_iff in Q as (Q1 & Q2). apply Nat.leb_le in Q1, Q2. cbn [negb orb]. destruct (Req_EM_T _ _) as [|N]; [reflexivity|]. exfalso. apply N, H4. lia.
    + unfold Rltb. destruct (Rlt_dec _ _); [reflexivity|contradiction].
    + unfold Rltb. destruct (Rlt_dec _ _); [reflexivity|contradiction].
Qed.
Definition local_maxima_ref (x : list R) : list nat := filter (is_local_max x) (seq 0 (List.length x)).
Lemma local_maxima_ref_ok : scipy_local_maxima local_maxima_ref.
Proof.
  intros x. split; [apply NoDup_filter, seq_NoDup|]. intros i. unfold local_maxima_ref. rewrite filter_In, in_seq, is_local_max_ok. split; [tauto|]. intros H. split; [|exact H].
  destruct H as (l & r & a1 & a2 & -> & _). assert (Nat.div (l + r) 2 <= r) by (apply Nat.div_le_upper_bound; lia). lia.
Qed.
Lemma grid_estimator g lam u l : known_unit u -> Forall (valid_angle u) l ->
  exists e0 h1, new_estimator (gd_array g) lam (SGrid G1D [vec1 l] u DFloat) (find_peaks_simple local_maxima_ref) Prop_subspace.argsort_R true [] = Ok (e0, h1).
Proof.
  intros K V. set (sg := SGrid G1D [vec1 l] u DFloat). assert (PG : plain_grid sg) by (split; [intros a [<-|[]]; reflexivity | reflexivity]).
  assert (VG : valid_grid sg). { split; [exact PG|]. split; [exact K|]. intros idx Hi. cbn in Hi. destruct idx as [|i [|]]; try tauto. destruct Hi as (Hi & _). rewrite Forall_forall in V. unfold sg. cbn [valid_pt sg_class sg_unit grid_point sg_ndim sg_axes List.length seq map nth]. apply V, nth_In. exact Hi. }
  destruct (proj1 (proj1 (placement_spec sg PG)) VG) as (s & Hs). unfold new_estimator. rewrite Hs. eexists _, _. reflexivity.
Qed.

(** two sensors half a wavelength apart, one source at 30 degrees which is on no grid point, and a covariance matrix that is off by a positive amount: one hundredth of a degree is reached *)
Example C106_example : exists g src (A Rm Rm' : cmat) x l e0 h1 est e' h' r,
  mk_ULA 2 (D0Scalar 1) None no_kwargs = Ok g /\ mk_FF1 (vec1 [30]%R) "deg" = Ok src /\
  steering_matrix (gd_array g) src 2 false "all" true = Ok (Flat A, []) /\ exact_cov Rm A (mid 1) 1 /\
  (0 < x)%R /\ hermitian Rm' /\ nr Rm' = 2 /\ distance Rm Rm' = x /\
  mk_grid1d None None (Z.of_nat (List.length l)) "deg" = Ok (SGrid G1D [vec1 l] "deg" DFloat) /\ ~ In 30%R l /\
  new_estimator (gd_array g) 2 (SGrid G1D [vec1 l] "deg" DFloat) (find_peaks_simple local_maxima_ref) Prop_subspace.argsort_R true [] = Ok (e0, h1) /\
  music_estimate P_oracles.eigh_ref 2 e0 h1 Rm' 1 (Opts false false 10 3) = (Ok (Outcome true (Some est) None), e', h') /\ buf h' est = map (fun a => [a]) r /\ accurate (1 / 100) [30]%R r.
Proof.
  pose proof PI_RGT_0 as PP.
  destruct (Prop_designs.C10_constructible 2 0 0 1 None) as ((g & Eg) & _). destruct (ULA_facts _ _ _ _ Eg) as (PL & X2 & X3 & X4 & _). assert (K : known_unit "deg") by (right; left; reflexivity).
  assert (V : Forall (valid_angle "deg") [30%R]) by (apply Forall_cons; [|apply Forall_nil]; right; left; split; [reflexivity|lra]).
  destruct (steering_defined (gd_array g) (FF1 [30]%R "deg") 2 "all" [] true ltac:(lra) X3 X4) as (A & HA);
    [rewrite (pl_ndim _ _ _ PL); lia | rewrite (pl_size _ _ _ PL), ULA_indices_length; lia | unfold select_perturbations, perturbations; now rewrite X2 | intros ? []|].
  pose proof (ula_steering g 2 1 "deg" [30%R] 2 PL X2 X3 (conj K V) A HA) as EA. set (z := zof 1 2 "deg" 30) in *.
  assert (HX0 : exact_cov (Prop_esprit.cov_of (ula_matrix 2 [z])) (ula_matrix 2 [z]) (mid 1) 1) by apply Prop_esprit.cov_of_exact.
  assert (HX : exact_cov (Prop_esprit.cov_of (ula_matrix 2 [z])) A (mid 1) 1) by (apply (Prop_pipeline2.exact_cov_eq _ (ula_matrix 2 [z])); [now symmetry|exact HX0]). set (Rm := Prop_esprit.cov_of (ula_matrix 2 [z])) in *.
  assert (Es : mk_FF1 (vec1 [30]%R) "deg" = Ok (FF1 [30]%R "deg")).
  { apply mk_FF1_ok. cbn. split; [lia|]. split; [exact K|]. split; [exact V|reflexivity]. }
  assert (P1 : pd (mid 1)) by apply Prop_subspace.pd_mid.
  destruct (C106_default_grid 2 1 None g 2 [30]%R "deg" (FF1 [30]%R "deg") A (mid 1) Rm 1 (1 / 100) Eg Es HA HX P1 ltac:(lra) ltac:(lra)) as (size0 & eps & He & H).
  - intros a [<-|[]]. cbn [to_rad String.eqb Ascii.eqb Bool.eqb]. unfold deg2rad. lra.
  - constructor; [intros []|constructor].
  - cbn; lia.
  - lra.
  - pose proof (exact_herm _ _ _ _ HX (proj1 P1)) as HH.
    assert (DS : distance Rm (off_by (eps / 2) Rm) = (eps / 2)%R) by (apply off_by_distance; [lra|cbn; lia|cbn; lia]).
    destruct (H (S (3 * size0)) (off_by (eps / 2) Rm) ltac:(lia) ltac:(now apply off_by_herm) eq_refl ltac:(rewrite DS; lra)) as (l & El & Ll & G).
    destruct (Prop_grid.C43_uniform_1d None None (S (3 * size0)) "deg") as (Y & _). destruct (Y K) as (l' & El' & _ & Hl'). rewrite El in El'. injection El' as _ El'. subst l'. cbv zeta in Hl'. clear Y.
    cbn [of_rad String.eqb Ascii.eqb Bool.eqb] in Hl'. unfold rad2deg in Hl'. set (N := S (3 * size0)) in *.
    assert (NP : (0 < INR N)%R) by (apply lt_0_INR; lia).
    assert (Hl : forall i, i < N -> (nth i l 0 * INR N = - 90 * INR N + 180 * INR i)%R). { intros i Hi. rewrite Hl' by exact Hi. field. lra. }
    assert (VA : Forall (valid_angle "deg") l).
    { apply Forall_forall. intros a Ia. apply (In_nth _ _ 0%R) in Ia as (i & Hi & <-). rewrite Ll in Hi. specialize (Hl i Hi). assert (0 <= INR i)%R by apply pos_INR. assert (INR i <= INR N)%R by (apply le_INR; lia). right. left. split; [reflexivity|]. split; nra. }
    destruct (grid_estimator g 2 "deg" l K VA) as (e0 & h1 & HN).
    destruct (G local_maxima_ref Prop_subspace.argsort_R true [] e0 h1 P_oracles.eigh_ref e0 h1 (Opts false false 10 3) local_maxima_ref_ok Prop_subspace.argsort_R_ok HN (P_oracles.eigh_ref_contract _) ltac:(constructor) eq_refl) as (sp & est & e' & h' & r & R1 & R2 & R3).
    exists g, (FF1 [30]%R "deg"), A, Rm, (off_by (eps / 2) Rm), (eps / 2)%R, l, e0, h1, est, e', h', r.
    split; [exact Eg|]. split; [exact Es|]. split; [exact HA|]. split; [exact HX|]. split; [lra|]. split; [now apply off_by_herm|]. split; [reflexivity|]. split; [exact DS|]. split; [rewrite Ll; exact El|]. split.
    + intros I. apply (In_nth _ _ 0%R) in I as (i & Hi & E). rewrite Ll in Hi. specialize (Hl i Hi). rewrite E in Hl. assert (Q : (INR 2 * INR N = INR 3 * INR i)%R) by (cbn [INR]; lra). rewrite <- !mult_INR in Q. apply INR_eq in Q. unfold N in Q. lia.
    + split; [exact HN|]. split; [exact R1|]. split; [exact R2|exact R3].
Qed.
Print Assumptions C106_music_off_grid.
Print Assumptions C106_uniform_grid.
Print Assumptions C106_default_grid.
Print Assumptions C106_consistency.
Print Assumptions C106_coarray.
