(** C110, continued: the same from simulated snapshots, with probability tending to 1. *)
From Coq Require Import Lra Sorted Permutation.
From Verif Require Import Base_Np Base_Trig Base_Lin S_model M_utils S_utils P_utils M_sources S_sources P_sources P_sources3 M_array S_array P_array P_array2 P_array3 M_designs S_designs P_designs M_coarray S_coarray P_coarray P_coarray2 P_model
  M_grid S_grid P_grid M_core P_core P_core2 M_sparse M_subspace S_subspace P_subspace P_subspace2 P_subspace3 P_subspace5 P_perf5 M_srcnum M_pipeline S_pipeline P_pipeline P_pipeline2 P_pipeline3 P_gauss P_fta P_fta2 Prop_pipeline Prop_pipeline2
  S_stable P_stable P_stable3 P_stable5 Prop_stable S_invar S_invar2 P_invar4 Prop_invar2 P_cont P_cont4 P_cont5 P_cont6 S_cont Prop_cont S_rootc P_rootc P_rootc2 P_rootc3 P_rootc4 P_rootc5 Prop_rootc S_detect P_detect Prop_detect.
From Verif Require P_oracles Prop_subspace Prop_esprit Prop_coarray Prop_coarray2 Prop_pipeline5 Prop_perf3 Prop_designs.
Import Prop_pipeline5.
From Verif Require Import M_signals S_signals S_stat P_stat Prop_detect2 S_offgrid S_refine S_scan P_smooth.
From Verif Require Prop_stat Prop_signals Prop_refine Prop_offgrid2.
From Verif Require Import Prop_smooth.
Import Prop_stat.
Open Scope nat_scope.

(** ** From simulated snapshots *)
Lemma carg_psd k c : carg_ok k c -> psd (carg_cov k c).
Proof.
  destruct c; cbn [carg_ok carg_cov]; intros H; try contradiction.
  - now apply (psd_mdiag k (fun _ => c)).
  - destruct H as (L & F). apply (psd_mdiag k (fun i => nth i l 0%R)). intros i Hi. rewrite Forall_forall in F. apply F, nth_In. lia.
  - exact (proj2 (proj2 H)).
Qed.
(** what holds in the long run for each of two statements holds for both *)
Lemma long_run_and arr s lam gs gn (G1 G2 : nat -> cmat -> Prop) : in_the_long_run arr s lam gs gn G1 -> in_the_long_run arr s lam gs gn G2 -> in_the_long_run arr s lam gs gn (fun n Rm => G1 n Rm /\ G2 n Rm).
Proof.
  intros H1 H2 kappa p Hp. destruct (H1 kappa (p / 2)%R ltac:(lra)) as (n1 & U1), (H2 kappa (p / 2)%R ltac:(lra)) as (n2 & U2). exists (Nat.max n1 n2). intros n N E st u Hn HW HN.
  destruct (U1 n N E st u ltac:(lia) HW HN) as (f1 & P1 & F1 & B1 & E1), (U2 n N E st u ltac:(lia) HW HN) as (f2 & P2 & F2 & B2 & E2).
  exists (fun x => f1 x + f2 x)%R. split; [now apply Poly_plus|]. split; [intros x; specialize (F1 x); specialize (F2 x); lra|]. split.
  - intros x Nx. specialize (F1 x). specialize (F2 x). destruct (Classical_Prop.not_and_or _ _ Nx) as [X|X]; [specialize (B1 x X) | specialize (B2 x X)]; lra.
  - pose proof (w4_white N kappa E HW) as W. rewrite (wh_ext N E W _ (fun x => 1 * f1 x + 1 * f2 x)%R) by (intros; ring). rewrite (wh_lin N E W). lra.
Qed.
(** coherent sources, simulated: in the long run MDL counts them on the smoothed sample covariance matrix, and ESPRIT finds their directions *)
Theorem C110_simulated_esprit : forall n l d name g lam doas u src (A : cmat) fb D formulation rw tol sqrtm c s gs gn,
  mk_ULA (Z.of_nat n) (D0Scalar d) name no_kwargs = Ok g -> mk_FF1 (vec1 doas) u = Ok src ->
  steering_matrix (gd_array g) src lam false "all" true = Ok (Flat A, []) ->
  generators sqrtm (List.length doas) n c s gs gn -> (forall k, k < List.length doas -> ent (carg_cov (List.length doas) c) k k <> RtoC 0) -> (0 < s)%R ->
  (0 < d)%R -> (0 < lam)%R -> NoDup doas -> in_view d D lam u doas ->
  1 <= D -> 1 <= List.length doas <= l -> l <= n -> List.length doas + D <= n - l + 1 ->
  formulation = "tls"%string \/ formulation = "ls"%string -> Prop_esprit.harmless_weights rw (n - l + 1) D -> (0 < tol)%R ->
  in_the_long_run (gd_array g) src lam gs gn (fun N Rm => exists B, spatial_smooth MComplex Rm (Z.of_nat l) fb = Ok B /\
    forall eigvalsh eigh solve eigvals, eigvalsh_contract (n - l + 1) eigvalsh -> eigh_contract (Nat.max (n - l + 1) (2 * List.length doas)) eigh ->
      solve_contract (List.length doas) solve -> eigvals_contract (List.length doas) eigvals ->
      exists k r, mdl eigvalsh (EMat B) (INR N) = Ok k /\ k = List.length doas /\
        esprit eigh solve eigvals lam B (Z.of_nat k) (Some d) (Z.of_nat D) formulation rw u = Ok (true, (map Some r, u)) /\ accurate tol doas r).
Proof.
  intros n l d nm g lam doas u src A fb D f rw tol sqrtm c s gs gn Eg Es HA G Hp Hs Hd Hl ND W HD Hk Hln Hkn HF HW Ht. destruct (ula_size _ _ _ _ _ _ _ _ _ Eg Es HA) as (NA & NK).
  apply (log_run sqrtm _ n c s gs gn (gd_array g) src lam A (fun Rm N => exists B, spatial_smooth MComplex Rm (Z.of_nat l) fb = Ok B /\
    forall eigvalsh eigh solve eigvals, eigvalsh_contract (n - l + 1) eigvalsh -> eigh_contract (Nat.max (n - l + 1) (2 * List.length doas)) eigh ->
      solve_contract (List.length doas) solve -> eigvals_contract (List.length doas) eigvals ->
      exists k r, mdl eigvalsh (EMat B) N = Ok k /\ k = List.length doas /\
        esprit eigh solve eigvals lam B (Z.of_nat k) (Some d) (Z.of_nat D) f rw u = Ok (true, (map Some r, u)) /\ accurate tol doas r) G HA NA NK).
  intros Rm HX. exact (C110_detect_then_esprit n l d nm g lam doas u src A _ Rm s fb D f rw tol Eg Es HA HX (carg_psd _ _ (proj1 (proj2 G))) Hp Hs Hd Hl ND W HD Hk Hln Hkn HF HW Ht).
Qed.
Theorem C110_simulated_root_music : forall n l d name g lam doas u src (A : cmat) fb tol sqrtm c s gs gn,
  mk_ULA (Z.of_nat n) (D0Scalar d) name no_kwargs = Ok g -> mk_FF1 (vec1 doas) u = Ok src ->
  steering_matrix (gd_array g) src lam false "all" true = Ok (Flat A, []) ->
  generators sqrtm (List.length doas) n c s gs gn -> (forall k, k < List.length doas -> ent (carg_cov (List.length doas) c) k k <> RtoC 0) -> (0 < s)%R ->
  (0 < d)%R -> (0 < lam)%R -> NoDup doas -> in_view d 1 lam u doas -> 1 <= List.length doas <= l -> l <= n -> List.length doas < n - l + 1 -> (0 < tol)%R ->
  in_the_long_run (gd_array g) src lam gs gn (fun N Rm => exists B, spatial_smooth MComplex Rm (Z.of_nat l) fb = Ok B /\
    forall eigvalsh eigh roots argsort, eigvalsh_contract (n - l + 1) eigvalsh -> eigh_contract (n - l + 1) eigh -> roots_contract roots -> (forall v, is_argsort v (argsort v)) ->
      no_exact_null eigh B (List.length doas) ->
      exists k r, mdl eigvalsh (EMat B) (INR N) = Ok k /\ k = List.length doas /\
        root_music eigh roots argsort lam B (Z.of_nat k) (Some d) u = Ok (true, Some (map Some r, u)) /\ accurate tol doas r).
Proof.
  intros n l d nm g lam doas u src A fb tol sqrtm c s gs gn Eg Es HA G Hp Hs Hd Hl ND W Hk Hln Hkn Ht. destruct (ula_size _ _ _ _ _ _ _ _ _ Eg Es HA) as (NA & NK).
  apply (log_run sqrtm _ n c s gs gn (gd_array g) src lam A (fun Rm N => exists B, spatial_smooth MComplex Rm (Z.of_nat l) fb = Ok B /\
    forall eigvalsh eigh roots argsort, eigvalsh_contract (n - l + 1) eigvalsh -> eigh_contract (n - l + 1) eigh -> roots_contract roots -> (forall v, is_argsort v (argsort v)) ->
      no_exact_null eigh B (List.length doas) ->
      exists k r, mdl eigvalsh (EMat B) N = Ok k /\ k = List.length doas /\
        root_music eigh roots argsort lam B (Z.of_nat k) (Some d) u = Ok (true, Some (map Some r, u)) /\ accurate tol doas r) G HA NA NK).
  intros Rm HX. exact (C110_detect_then_root_music n l d nm g lam doas u src A _ Rm s fb tol Eg Es HA HX (carg_psd _ _ (proj1 (proj2 G))) Hp Hs Hd Hl ND W Hk Hln Hkn Ht).
Qed.
(** refined MUSIC and Min-Norm likewise, on one sufficiently fine default grid *)
Theorem C110_simulated_music : forall n l d name name' g g' lam doas u src (A : cmat),
  mk_ULA (Z.of_nat n) (D0Scalar d) name no_kwargs = Ok g -> mk_ULA (Z.of_nat (n - l + 1)) (D0Scalar d) name' no_kwargs = Ok g' -> mk_FF1 (vec1 doas) u = Ok src ->
  steering_matrix (gd_array g) src lam false "all" true = Ok (Flat A, []) ->
  (0 < d)%R -> (2 * d <= lam)%R -> (forall a, In a doas -> (- (PI / 2) < to_rad u a < PI / 2)%R) -> NoDup doas ->
  1 <= List.length doas <= l -> l <= n -> List.length doas < n - l + 1 ->
  exists size0, forall size, size0 <= size -> exists q, mk_grid1d None None (Z.of_nat size) u = Ok (SGrid G1D [vec1 q] u DFloat) /\ List.length q = size /\
    forall sqrtm c s gs gn fb t, generators sqrtm (List.length doas) n c s gs gn -> (forall k, k < List.length doas -> ent (carg_cov (List.length doas) c) k k <> RtoC 0) -> (0 < t)%R ->
      exists n0, in_the_long_run (gd_array g) src lam gs gn (fun _ Rm => exists B, spatial_smooth MComplex Rm (Z.of_nat l) fb = Ok B /\
        forall eigh ret_sp density n_iters, eigh_contract (n - l + 1) eigh -> (2 <= density)%Z -> n0 <= n_iters ->
          located (music_estimate eigh (n - l + 1)) g' lam doas u q t (Opts ret_sp true density n_iters) B /\
          located (min_norm_estimate eigh (n - l + 1)) g' lam doas u q t (Opts ret_sp true density n_iters) B).
Proof.
  intros n l d nm nm' g g' lam doas u src A Eg Eg' Es HA Hd H2 IN ND Hk Hln Hkn. destruct (ula_size _ _ _ _ _ _ _ _ _ Eg Es HA) as (NA & NK).
  destruct (C110_music n l d nm nm' g g' lam doas u src A Eg Eg' Es HA Hd H2 IN ND Hk Hln Hkn) as (size0 & H). exists size0. intros size Hs. destruct (H size Hs) as (q & E & L & HL). exists q. split; [exact E|]. split; [exact L|].
  intros sqrtm c s gs gn fb t G Hp Ht. destruct (generated sqrtm _ n c s gs gn (gd_array g) src lam A (fun _ => 1%R) (fun _ _ => True) G HA NA NK (constant_radius 1 Rlt_0_1)) as (_ & _ & HX & _).
  destruct (HL _ _ s fb t HX (carg_psd _ _ (proj1 (proj2 G))) Hp Ht) as (n0 & eps & He & HE). exists n0.
  eapply (generated sqrtm _ n c s gs gn (gd_array g) src lam A (fun _ => eps) _ G HA NA NK (constant_radius eps He)). exists 0. intros _ Rm' _ HH NR DS. exact (HE Rm' HH NR DS).
Qed.
(** Without smoothing, fully coherent sources (one signal q times a common random factor) are counted as one in the long run *)
Theorem C110_simulated_counted_once : forall n d name g lam doas u src (A c : cmat) sqrtm s gs gn (q : nat -> C),
  mk_ULA (Z.of_nat n) (D0Scalar d) name no_kwargs = Ok g -> mk_FF1 (vec1 doas) u = Ok src ->
  steering_matrix (gd_array g) src lam false "all" true = Ok (Flat A, []) ->
  (0 < d)%R -> (0 < lam)%R -> NoDup doas -> in_view d 1 lam u doas -> List.length doas <= n -> 2 <= n ->
  generators sqrtm (List.length doas) n (CMat c) s gs gn -> (0 < s)%R ->
  (forall i j, i < List.length doas -> j < List.length doas -> ent c i j = (q i * Cconj (q j))%C) -> (exists i, i < List.length doas /\ q i <> RtoC 0) ->
  in_the_long_run (gd_array g) src lam gs gn (fun N Rm => forall eigvalsh, eigvalsh_contract n eigvalsh -> mdl eigvalsh (EMat Rm) (INR N) = Ok 1).
Proof.
  intros n d nm g lam doas u src A c sqrtm s gs gn q Eg Es HA Hd Hl ND W Hkn Hn G Hs Hq Nq. destruct (ula_size _ _ _ _ _ _ _ _ _ Eg Es HA) as (NA & NK).
  apply mk_FF1_ok in Es as (_ & K & V & ->). cbn [vec1 nd_data] in *. destruct (ULA_facts _ _ _ _ Eg) as (PL & Pe & I & _ & _).
  pose proof (ula_steering g n d u doas lam PL Pe I (conj K V) A HA) as EA.
  assert (IA : inj A) by (apply (Base_Lin.inj_eq (ula_matrix n (map (zof d lam u) doas))); [now symmetry|]; apply ula_inj; [now apply zof_nodup|rewrite map_length; lia]).
  apply (log_run sqrtm _ n (CMat c) s gs gn (gd_array g) (FF1 doas u) lam A (fun Rm N => forall eigvalsh, eigvalsh_contract n eigvalsh -> mdl eigvalsh (EMat Rm) N = Ok 1) G HA NA NK).
  intros Rm HX. destruct (C110_coherent_counted_once Rm A _ s q HX IA ltac:(lia) Hs) as (c0 & N0 & Hc & H); [rewrite NK; exact Hq | rewrite NK; exact Nq|].
  exists c0, N0. split; [exact Hc|]. intros Rm' N HH N' LN B ev VC. rewrite NA in H. now apply (H ev Rm' N).
Qed.
(** ** The hypotheses can be met *)
(** four sensors, two sources with the same signal, random signs as draws: for some draws MDL counts one source on the sample covariance matrix of the simulated snapshots, and on the smoothed one it counts
    both and ESPRIT finds their directions *)
Example C110_example : exists g src (A : cmat) gs gn n x,
  mk_ULA 4 (D0Scalar 1) None no_kwargs = Ok g /\ mk_FF1 (vec1 [-(1/2); 1/2]%R) "sin" = Ok src /\ steering_matrix (gd_array g) src 2 false "all" true = Ok (Flat A, []) /\
  generators P_oracles.sqrtm_ref 2 4 (CMat coherent2) 1 gs gn /\ 0 < n /\
  let Rm := simulated (gd_array g) src 2 gs gn n (Rng 0 0) (fun _ => 0%R) x in mdl eigvalsh_ref (EMat Rm) (INR n) = Ok 1 /\
  exists B k r, spatial_smooth MComplex Rm 2 true = Ok B /\ mdl eigvalsh_ref (EMat B) (INR n) = Ok k /\ k = 2 /\
    esprit P_oracles.eigh_ref solve0 eigvals_ref 2 B (Z.of_nat k) (Some 1%R) 1 "tls" (RWStr "none") "sin" = Ok (true, (map Some r, "sin"%string)) /\ accurate (1 / 100) [-(1/2); 1/2]%R r.
Proof.
  set (doas := [-(1/2); 1/2]%R). destruct (Prop_designs.C10_constructible 4 0 0 1 None) as ((g & Eg) & _). destruct (ULA_facts _ _ _ _ Eg) as (PL & X2 & X3 & X4 & _).
  assert (K : known_unit "sin") by (right; right; reflexivity). assert (B : forall a, In a doas -> (-1 < a < 1)%R) by (intros a Ia; cbn in Ia; decompose [or] Ia; subst; try lra; contradiction).
  assert (V : Forall (valid_angle "sin") doas) by (apply Forall_forall; intros a Ia; right; right; split; [reflexivity|]; specialize (B a Ia); lra).
  assert (Es : mk_FF1 (vec1 doas) "sin" = Ok (FF1 doas "sin")) by (apply mk_FF1_ok; split; [cbn; lia|]; split; [exact K|]; split; [exact V | reflexivity]).
  destruct (steering_defined (gd_array g) (FF1 doas "sin") 2 "all" [] true ltac:(lra) X3 X4) as (A & HA);
    [rewrite (pl_ndim _ _ _ PL); lia | rewrite (pl_size _ _ _ PL), ULA_indices_length; lia | unfold select_perturbations, perturbations; now rewrite X2 | intros ? []|].
  destruct (P_oracles.sqrtm_ref_ok coherent2 coherent2_psd) as (Q & EQ & _).
  assert (GN : generators P_oracles.sqrtm_ref 2 4 (CMat coherent2) 1 (StoMat 2 Q) (StoScalar 4 (sqrt 1))).
  { split; [apply P_oracles.sqrtm_ref_ok|]. split; [split; [reflexivity|]; split; [reflexivity | exact coherent2_psd]|]. split; [lra|]. split; [|reflexivity]. change (mk_stochastic P_oracles.sqrtm_ref 2 (CMat coherent2)) with (let! c2 := P_oracles.sqrtm_ref coherent2 in Ok (StoMat 2 c2)). rewrite EQ. reflexivity. }
  assert (ND : NoDup doas) by (unfold doas; repeat (constructor; [cbn; intros Z; decompose [or] Z; try lra; contradiction|]); constructor).
  assert (W : in_view 1 1 2 "sin" doas).
  { intros a Ia. specialize (B a Ia). cbn [to_rad String.eqb Ascii.eqb Bool.eqb]. change (INR 1) with 1%R. split; [|rewrite sin_asin; lra]. apply asin_bound_lt. exact B. }
  assert (NZ : forall k, k < 2 -> ent (carg_cov 2 (CMat coherent2)) k k <> RtoC 0) by (intros k _; cbn; intros E; apply (f_equal Re) in E; cbn in E; lra).
  assert (LR := long_run_and _ _ _ _ _ _ _
    (C110_simulated_counted_once 4 1 None g 2 doas "sin" (FF1 doas "sin") A coherent2 P_oracles.sqrtm_ref 1 (StoMat 2 Q) (StoScalar 4 (sqrt 1)) (fun _ => RtoC 1) Eg Es HA ltac:(lra) ltac:(lra) ND W ltac:(cbn; lia) ltac:(lia) GN ltac:(lra)
       ltac:(intros; cbn [coherent2 ent]; rewrite Cconj_RtoC; ring) ltac:(exists 0; split; [cbn; lia | intros E; apply (f_equal Re) in E; cbn in E; lra]))
    (C110_simulated_esprit 4 2 1 None g 2 doas "sin" (FF1 doas "sin") A true 1 "tls" (RWStr "none") (1 / 100) P_oracles.sqrtm_ref (CMat coherent2) 1 (StoMat 2 Q) (StoScalar 4 (sqrt 1)) Eg Es HA GN NZ ltac:(lra) ltac:(lra) ltac:(lra) ND W
       ltac:(lia) ltac:(cbn; lia) ltac:(lia) ltac:(cbn; lia) ltac:(now left) ltac:(left; reflexivity) ltac:(lra))).
  destruct (LR 1%R (1 / 2)%R ltac:(lra)) as (n1 & HU). set (n := S n1).
  destruct (sign_draws _ _ (1 / 2) ltac:(lra) (HU n _ (Prop_signals.sign_mean (0 + 2 * (2 * n) + 2 * (4 * n))) (Rng 0 0) (fun _ => 0%R) ltac:(lia) (white4_exists _) (le_n _))) as (x & NB). apply Classical_Prop.NNPP in NB.
  destruct NB as (M1 & Bm & EB & H). destruct (H eigvalsh_ref P_oracles.eigh_ref solve0 eigvals_ref (eigvalsh_ref_contract _) (P_oracles.eigh_ref_contract _) (solve0_contract _) (eigvals_ref_contract _)) as (k & r & M & Ek & E & AC).
  exists g, (FF1 doas "sin"), A, (StoMat 2 Q), (StoScalar 4 (sqrt 1)), n, x. split; [exact Eg|]. split; [exact Es|]. split; [exact HA|]. split; [exact GN|]. split; [unfold n; lia|]. split; [apply M1, eigvalsh_ref_contract|].
  exists Bm, k, r. split; [exact EB|]. split; [exact M|]. split; [exact Ek|]. split; [exact E | exact AC].
Qed.
Print Assumptions C110_simulated_esprit. Print Assumptions C110_simulated_root_music. Print Assumptions C110_simulated_music. Print Assumptions C110_simulated_counted_once.
