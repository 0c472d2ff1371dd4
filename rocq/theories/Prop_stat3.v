(** C109, continued: sparse arrays from simulated snapshots, with root-MUSIC, MUSIC and Min-Norm on the virtual array. *)
From Coq Require Import Lra Sorted Permutation.
From Verif Require Import Base_Np Base_Trig Base_Lin S_model M_utils S_utils P_utils M_sources S_sources P_sources P_sources3 M_array S_array P_array P_array2 P_array3 M_designs S_designs P_designs M_coarray S_coarray P_coarray P_coarray2 P_model
  M_grid S_grid P_grid M_core P_core P_core2 M_sparse M_subspace S_subspace P_subspace P_subspace2 P_subspace3 P_subspace5 P_perf5 M_srcnum M_pipeline S_pipeline P_pipeline P_pipeline2 P_pipeline3 P_gauss P_fta P_fta2 Prop_pipeline Prop_pipeline2
  S_stable P_stable P_stable3 P_stable5 Prop_stable S_invar S_invar2 P_invar4 Prop_invar2 P_cont P_cont4 P_cont5 P_cont6 S_cont Prop_cont S_rootc P_rootc P_rootc2 P_rootc3 P_rootc4 P_rootc5 Prop_rootc S_detect P_detect Prop_detect.
From Verif Require P_oracles Prop_subspace Prop_esprit Prop_coarray Prop_coarray2 Prop_pipeline5.
Import Prop_pipeline5.
From Verif Require Import M_signals S_signals S_stat P_stat Prop_detect2.
From Verif Require Prop_stat Prop_stat2 Prop_mlc Prop_signals Prop_detect3 Prop_refine Prop_offgrid Prop_offgrid2.
From Verif Require Import M_grid S_grid S_offgrid S_refine S_scan.
From Verif Require Import Base_Mem M_heap M_ml S_ml S_invar3 P_ml P_ml6 S_mlc.
Import Prop_stat.
Open Scope nat_scope.

(** the set of scenes: a sparse linear array, uncorrelated sources of the powers p *)
Lemma coarray_run (good : cmat -> R -> Prop) g l d lam doas u src (A : cmat) p sqrtm s gs gn :
  places_1d g l d -> ar_perts (gd_array g) = [] -> scalar_isotropic (gd_array g) -> mk_FF1 (vec1 doas) u = Ok src ->
  steering_matrix (gd_array g) src lam false "all" true = Ok (Flat A, []) -> Forall (fun x => (0 < x)%R) p ->
  generators sqrtm (List.length doas) (List.length l) (CVec p) s gs gn ->
  (forall Rm : cmat, Rm ==m model_cov A (fun k => nth k p 0%R) s -> (forall k, k < List.length doas -> (0 < nth k p 0)%R) -> exists c N0, (0 < c)%R /\
     forall (Rm' : cmat) N, hermitian Rm' -> nr Rm' = List.length l -> (N0 <= N)%R -> (N * (distance Rm Rm' * distance Rm Rm') <= c * ln N)%R -> good Rm' N) ->
  in_the_long_run (gd_array g) src lam gs gn (fun N Rm => good Rm (INR N)).
Proof.
  intros PL Pe Iso Es HA Hp G HG.
  assert (SZ : nr A = List.length l /\ nc A = List.length doas).
  { pose proof Es as Es0. apply mk_FF1_ok in Es0 as (_ & K & V & ->). cbn [vec1 nd_data] in *. destruct (response_1d g l d (FF1 doas u) lam A PL Pe Iso (conj K V) eq_refl HA) as (A1 & A2 & _). split; [exact A1 | exact A2]. }
  destruct SZ as (NA & NK). pose proof G as (_ & (Lp & _) & _).
  apply (log_run sqrtm _ (List.length l) (CVec p) s gs gn (gd_array g) src lam A good G HA NA NK).
  intros Rm (_ & _ & HX). destruct (HG Rm) as (c & N0 & Hc & H).
  - unfold model_cov. rewrite NK. exact HX.
  - intros k Hk'. rewrite Forall_forall in Hp. apply Hp, nth_In. lia.
  - exists c, N0. split; [exact Hc | exact H].
Qed.

(** any array with linearly independent steering vectors: the MDL criterion finds the number of sources *)
Theorem C109_mdl : forall arr src lam (A : cmat) sqrtm c s gs gn,
  steering_matrix arr src lam false "all" true = Ok (Flat A, []) -> inj A -> nc A < nr A ->
  generators sqrtm (nc A) (nr A) c s gs gn -> pd (carg_cov (nc A) c) -> (0 < s)%R ->
  in_the_long_run arr src lam gs gn (fun N Rm => forall eigvalsh, eigvalsh_contract (nr A) eigvalsh -> mdl eigvalsh (EMat Rm) (INR N) = Ok (nc A)).
Proof.
  intros arr src lam A sqrtm c s gs gn HA IA Hk G PD Hs.
  apply (log_run sqrtm _ _ c s gs gn arr src lam A (fun Rm N => forall eigvalsh, eigvalsh_contract (nr A) eigvalsh -> mdl eigvalsh (EMat Rm) N = Ok (nc A)) G HA eq_refl eq_refl).
  intros Rm HX. destruct (Prop_detect.C100_covariance Rm A _ s HX IA PD Hs Hk) as (c0 & N0 & Hc & H). exists c0, N0. split; [exact Hc|].
  intros Rm' N HH NR LN LB ev EC. exact (proj2 (H ev Rm' N EC HH NR LN) LB).
Qed.
(** AIC, which is not consistent, at least never reports fewer sources in the long run *)
Theorem C109_aic : forall arr src lam (A : cmat) sqrtm c s gs gn,
  steering_matrix arr src lam false "all" true = Ok (Flat A, []) -> inj A -> nc A < nr A ->
  generators sqrtm (nc A) (nr A) c s gs gn -> pd (carg_cov (nc A) c) -> (0 < s)%R ->
  in_the_long_run arr src lam gs gn (fun N Rm => forall eigvalsh, eigvalsh_contract (nr A) eigvalsh -> exists q, aic eigvalsh (EMat Rm) (INR N) = Ok q /\ nc A <= q < nr A).
Proof.
  intros arr src lam A sqrtm c s gs gn HA IA Hk G PD Hs.
  apply (log_run sqrtm _ _ c s gs gn arr src lam A (fun Rm N => forall eigvalsh, eigvalsh_contract (nr A) eigvalsh -> exists q, aic eigvalsh (EMat Rm) N = Ok q /\ nc A <= q < nr A) G HA eq_refl eq_refl).
  intros Rm HX. destruct (Prop_detect3.C100_never_fewer Rm A _ s HX IA PD Hs Hk) as (eps & N0 & He & H). destruct (P_detect.log_small 1 eps Rlt_0_1 He) as (N1 & HN1). exists 1%R, (Rmax N0 N1). split; [lra|].
  intros Rm' N HH NR LN LB ev EC. pose proof (Rmax_l N0 N1). pose proof (Rmax_r N0 N1). refine (proj1 (H ev Rm' N EC HH NR ltac:(lra) _)). apply Rlt_le. apply (HN1 N); [lra | apply sqrt_pos | exact LB].
Qed.
(** and SORTE too, if the smallest signal eigenvalue stands out from the noise by more than the threshold in its code *)
Theorem C109_sorte : forall arr src lam (A : cmat) sqrtm c s gs gn w E,
  steering_matrix arr src lam false "all" true = Ok (Flat A, []) -> inj A -> 1 <= nc A -> nc A + 3 <= nr A ->
  generators sqrtm (nc A) (nr A) c s gs gn -> pd (carg_cov (nc A) c) -> (0 < s)%R ->
  eigh_ok (A *m carg_cov (nc A) c *m mher A +m mscal (RtoC s) (mid (nr A))) w E ->
  (let d := INR (nr A - nc A) in let g := nth (nr A - nc A) w 0 - s in float_eps < g * g * (d - 1) / (d * d))%R ->
  in_the_long_run arr src lam gs gn (fun _ Rm => forall eigvalsh, eigvalsh_contract (nr A) eigvalsh -> sorte eigvalsh (EMat Rm) = Ok (nc A)).
Proof.
  intros arr src lam A sqrtm c s gs gn w E HA IA H1 H3 G PD Hs HE HG.
  destruct (generated sqrtm _ _ c s gs gn arr src lam A (fun _ => 1%R) (fun _ _ => True) G HA eq_refl eq_refl (constant_radius 1 Rlt_0_1)) as (_ & _ & HX & _).
  destruct (Prop_detect.C100_covariance_sorte _ A _ s w E HX IA PD Hs HE H1 H3 HG) as (eps & He & H).
  eapply (generated sqrtm _ _ c s gs gn arr src lam A (fun _ => eps) _ G HA eq_refl eq_refl (constant_radius eps He)). exists 0. intros _ Rm' _ HH NR DS ev EC. apply H; [exact EC | exact HH | exact NR | apply Rlt_le; exact DS].
Qed.

(** MDL and root-MUSIC on the augmented covariance matrix *)
Theorem C109_coarray_root_music : forall g l d w0 calls m lam doas u src (A : cmat) p method tol sqrtm s gs gn,
  places_1d g l d -> gd_d0 g = [d] -> NoDup l -> ar_perts (gd_array g) = [] -> scalar_isotropic (gd_array g) ->
  mk_WeightFunction1D g = Ok w0 -> first_hole l (Z.of_nat m) -> mk_FF1 (vec1 doas) u = Ok src ->
  steering_matrix (gd_array g) src lam false "all" true = Ok (Flat A, []) ->
  Forall (fun x => (0 < x)%R) p -> (0 < d)%R -> (0 < lam)%R -> NoDup doas -> in_view d 1 lam u doas -> 1 <= List.length doas < m ->
  method = "da"%string \/ method = "ss"%string -> (0 < tol)%R ->
  generators sqrtm (List.length doas) (List.length l) (CVec p) s gs gn -> (0 < s)%R ->
  in_the_long_run (gd_array g) src lam gs gn (fun N Rm => exists Ra, transform (Acm g (after w0 calls)) Rm method = Ok Ra /\
    forall eigvalsh eigh roots argsort, eigvalsh_contract m eigvalsh -> eigh_contract m eigh -> roots_contract roots -> (forall v, is_argsort v (argsort v)) -> no_exact_null eigh Ra (List.length doas) ->
      exists k r, mdl eigvalsh (EMat Ra) (INR N) = Ok k /\ k = List.length doas /\
        root_music eigh roots argsort lam Ra (Z.of_nat k) (Some d) u = Ok (true, Some (map Some r, u)) /\ accurate tol doas r).
Proof.
  intros g l d w0 calls m lam doas u src A p method tol sqrtm s gs gn PL D0 NDl Pe Iso Hw FH Es HA Hp Hd Hl ND W Hk HM Ht G Hs.
  apply (coarray_run (fun Rm N => exists Ra, transform (Acm g (after w0 calls)) Rm method = Ok Ra /\
    forall eigvalsh eigh roots argsort, eigvalsh_contract m eigvalsh -> eigh_contract m eigh -> roots_contract roots -> (forall v, is_argsort v (argsort v)) -> no_exact_null eigh Ra (List.length doas) ->
      exists k r, mdl eigvalsh (EMat Ra) N = Ok k /\ k = List.length doas /\
        root_music eigh roots argsort lam Ra (Z.of_nat k) (Some d) u = Ok (true, Some (map Some r, u)) /\ accurate tol doas r) g l d lam doas u src A p sqrtm s gs gn PL Pe Iso Es HA Hp G).
  intros Rm HR Hq. exact (C103_coarray_root_music g l d w0 calls m lam doas u src A Rm (fun k => nth k p 0%R) s method tol PL D0 NDl Pe Iso Hw FH Es HA HR Hq Hs Hd Hl ND W Hk HM Ht).
Qed.
(** refined MUSIC and Min-Norm for the virtual array on one default grid, whatever the noise level *)
Theorem C109_coarray_music : forall g l d w0 calls name m v lam doas u src (A : cmat) p method sqrtm s gs gn,
  places_1d g l d -> gd_d0 g = [d] -> NoDup l -> ar_perts (gd_array g) = [] -> scalar_isotropic (gd_array g) ->
  mk_WeightFunction1D g = Ok w0 -> first_hole l (Z.of_nat m) -> get_virtual_ula (Acm g (after w0 calls)) name = Ok v -> mk_FF1 (vec1 doas) u = Ok src ->
  steering_matrix (gd_array g) src lam false "all" true = Ok (Flat A, []) ->
  Forall (fun x => (0 < x)%R) p -> (0 < d)%R -> (2 * d <= lam)%R -> (forall a, In a doas -> (- (PI / 2) < to_rad u a < PI / 2)%R) -> NoDup doas -> 1 <= List.length doas < m ->
  method = "da"%string \/ method = "ss"%string -> generators sqrtm (List.length doas) (List.length l) (CVec p) s gs gn ->
  exists size0, forall size, size0 <= size -> exists q, mk_grid1d None None (Z.of_nat size) u = Ok (SGrid G1D [vec1 q] u DFloat) /\ List.length q = size /\
    forall t, (0 < t)%R -> exists n0, in_the_long_run (gd_array g) src lam gs gn (fun _ Rm => exists Ra, transform (Acm g (after w0 calls)) Rm method = Ok Ra /\
      forall eigh ret_sp density n_iters, eigh_contract m eigh -> (2 <= density)%Z -> n0 <= n_iters ->
        located (music_estimate eigh m) v lam doas u q t (Opts ret_sp true density n_iters) Ra /\
        located (min_norm_estimate eigh m) v lam doas u q t (Opts ret_sp true density n_iters) Ra).
Proof.
  intros g l d w0 calls nm m v lam doas u src A p method sqrtm s gs gn PL D0 NDl Pe Iso Hw FH Ev Es HA Hp Hd H2 IN ND Hk HM G. assert (Hl : (0 < lam)%R) by lra.
  pose proof Es as Es0. apply mk_FF1_ok in Es0 as (_ & K & V & _). cbn [vec1 nd_data] in V. pose proof (Prop_offgrid.whole_view d lam u K Hd H2) as FV. pose proof FV as (W & _).
  assert (SZ : nr A = List.length l /\ nc A = List.length doas).
  { pose proof Es as Es0. apply mk_FF1_ok in Es0 as (_ & _ & _ & ->). cbn [vec1 nd_data] in *. destruct (response_1d g l d (FF1 doas u) lam A PL Pe Iso (conj K V) eq_refl HA) as (A1 & A2 & _). split; [exact A1 | exact A2]. }
  destruct SZ as (NA & NK). pose proof G as (_ & (Lp & _) & S0 & _).
  destruct (generated sqrtm _ _ (CVec p) s gs gn (gd_array g) src lam A (fun _ => 1%R) (fun _ _ => True) G HA NA NK (constant_radius 1 Rlt_0_1)) as (_ & _ & (_ & _ & HX) & _).
  set (Rm := A *m carg_cov (List.length doas) (CVec p) *m mher A +m mscal (RtoC s) (mid (List.length l))) in *.
  assert (HR : Rm ==m model_cov A (fun k => nth k p 0%R) s) by (unfold model_cov; rewrite NK; exact HX).
  assert (Hq : forall k, k < List.length doas -> (0 < nth k p 0)%R) by (intros k Hk'; rewrite Forall_forall in Hp; apply Hp, nth_In; lia).
  destruct (Prop_refine.C107_coarray g l d w0 calls nm m v lam doas u src A Rm _ s method _ _ PL D0 NDl Pe Iso Hw FH Ev Es HA HR Hq S0 Hd Hl FV (Prop_offgrid2.inside_view u doas K V IN) ND Hk HM) as (st1 & P1 & H1).
  destruct (Prop_offgrid2.C108_coarray g l d w0 calls nm m v lam doas u src A Rm _ s method _ _ PL D0 NDl Pe Iso Hw FH Ev Es HA HR Hq S0 Hd Hl FV (Prop_offgrid2.inside_view u doas K V IN) ND Hk HM) as (st2 & P2 & H3).
  destruct (Prop_offgrid2.C108_uniform_grid u None None st1 K W P1) as (_ & z1 & U1). destruct (Prop_offgrid2.C108_uniform_grid u None None st2 K W P2) as (_ & z2 & U2).
  exists (Nat.max z1 z2). intros size Hz. destruct (U1 size ltac:(lia)) as (q & Eq & Lq & G1). destruct (U2 size ltac:(lia)) as (q2 & Eq2 & _ & G2). rewrite Eq in Eq2. injection Eq2 as _ <-. exists q. split; [exact Eq|]. split; [exact Lq|].
  intros t Ht. destruct (H1 (t / 2)%R ltac:(lra)) as (e1 & He1 & F1). destruct (H3 (t / 2)%R ltac:(lra)) as (e2 & He2 & F2). destruct (G1 (t / 2)%R t ltac:(lra)) as (n1 & N1). destruct (G2 (t / 2)%R t ltac:(lra)) as (n2 & N2).
  exists (Nat.max n1 n2). pose proof (Rmin_l e1 e2). pose proof (Rmin_r e1 e2).
  eapply (generated sqrtm _ _ (CVec p) s gs gn (gd_array g) src lam A (fun _ => Rmin e1 e2) _ G HA NA NK (constant_radius _ (Rmin_pos _ _ He1 He2))). exists 0. intros _ Rm' _ HH NR DS. fold Rm in DS.
  destruct (F1 Rm' HH NR ltac:(lra)) as (Ra & ER & M1). destruct (F2 Rm' HH NR ltac:(lra)) as (Ra2 & ER2 & M2). rewrite ER in ER2. injection ER2 as <-. exists Ra. split; [exact ER|].
  intros eigh rs D ni EC HD Hi. split.
  - apply N1; [|exact HD|lia]. intros fp asort angles sg ca h0 e0 h1 e h rs' D' ni' FP AS Eg' FG HN RE HD' Hi'.
    exact (M1 fp asort angles sg ca h0 e0 h1 eigh e h rs' D' ni' FP AS Eg' FG HN EC (reaches_music _ _ _ _ _ _ RE) HD' Hi').
  - apply N2; [|exact HD|lia]. exact (proj2 (M2 eigh EC)).
Qed.

(** ** The hypotheses can be met *)
(** four sensors, five sources, random signs as draws: for some draws refined MUSIC and Min-Norm on the virtual array of six sensors, with a default grid, find the five directions *)
Example C109_coarray_music_example : exists g w0 v src (A : cmat) gs gn q n n0 x,
  mk_Nested 2 2 (D0Scalar 1) None no_kwargs = Ok g /\ ar_size (gd_array g) = 4 /\ mk_WeightFunction1D g = Ok w0 /\ get_virtual_ula (Acm g w0) None = Ok v /\
  mk_FF1 (vec1 [-(4/5); -(2/5); 0; 2/5; 4/5]%R) "sin" = Ok src /\
  steering_matrix (gd_array g) src 2 false "all" true = Ok (Flat A, []) /\ generators P_oracles.sqrtm_ref 5 4 (CVec [1; 2; 1; 2; 1]%R) 1 gs gn /\ 0 < n /\
  mk_grid1d None None (Z.of_nat (List.length q)) "sin" = Ok (SGrid G1D [vec1 q] "sin" DFloat) /\
  exists Ra, transform (Acm g w0) (simulated (gd_array g) src 2 gs gn n (Rng 0 0) (fun _ => 0%R) x) "ss" = Ok Ra /\
    located (music_estimate P_oracles.eigh_ref 6) v 2 [-(4/5); -(2/5); 0; 2/5; 4/5]%R "sin" q (1 / 1000000) (Opts false true 10 n0) Ra /\
    located (min_norm_estimate P_oracles.eigh_ref 6) v 2 [-(4/5); -(2/5); 0; 2/5; 4/5]%R "sin" q (1 / 1000000) (Opts false true 10 n0) Ra.
Proof.
  set (doas := [-(4/5); -(2/5); 0; 2/5; 4/5]%R).
  destruct (Prop_designs.C10_constructible 0 2 2 1 None) as (_ & (g & Eg) & _).
  destruct (Prop_designs.C10_Nested 2 2 1 None no_kwargs g ltac:(lia) ltac:(lia) Eg) as (lp & PL & LL & SI & _).
  assert (ND : NoDup lp) by (apply (proj2 (NoDup_nth lp 0%Z)); intros i j Hi Hj E; destruct (Nat.lt_trichotomy i j) as [L|[L|L]]; [|exact L|]; [specialize (SI i j L Hj) | specialize (SI j i L Hi)]; lia).
  change (Z.to_nat (2 + 2)) with 4 in LL.
  destruct (proj2 (Prop_coarray.C36_constructor g) (pl_ndim _ _ _ PL)) as (w0 & Hw).
  assert (X : gd_d0 g = [1%R] /\ ar_perts (gd_array g) = [] /\ scalar_isotropic (gd_array g) /\ la_dt (ar_loc (gd_array g)) = DFloat).
  { unfold mk_Nested, mk_Grid in Eg. cbn in Eg. injection Eg as <-. repeat split. }
  destruct X as (X1 & X2 & X3 & X4). assert (K : known_unit "sin") by (right; right; reflexivity).
  assert (B : forall a, In a doas -> (-1 < a < 1)%R) by (intros a Ia; cbn in Ia; decompose [or] Ia; subst; try lra; contradiction).
  assert (V : Forall (valid_angle "sin") doas) by (apply Forall_forall; intros a Ia; right; right; split; [reflexivity|]; specialize (B a Ia); lra).
  assert (Es : mk_FF1 (vec1 doas) "sin" = Ok (FF1 doas "sin")) by (apply mk_FF1_ok; split; [cbn; lia|]; split; [exact K|]; split; [exact V | reflexivity]).
  assert (FH : first_hole lp (Z.of_nat 6)).
  { destruct (Prop_designs.C14_nested_hole_free 2 2 1 None no_kwargs g ltac:(lia) ltac:(lia) Eg) as (l' & PL' & HF). pose proof (places_unique _ _ _ _ _ PL PL') as <-. split; [lia|]. split; [intros Z; apply HF in Z; lia|]. intros z Hz. apply HF. lia. }
  destruct (steering_defined (gd_array g) (FF1 doas "sin") 2 "all" [] true ltac:(lra) X3 X4) as (A & HA);
    [rewrite (pl_ndim _ _ _ PL); lia | rewrite (pl_size _ _ _ PL); lia | unfold select_perturbations, perturbations; now rewrite X2 | intros ? []|].
  set (p := [1; 2; 1; 2; 1]%R). assert (Pp : Forall (fun x => (0 < x)%R) p) by (unfold p; repeat (apply Forall_cons || apply Forall_nil); lra).
  assert (CP : carg_ok 5 (CVec p)) by (split; [reflexivity|]; apply Forall_forall; intros q Q; rewrite Forall_forall in Pp; specialize (Pp q Q); lra).
  assert (GN : generators P_oracles.sqrtm_ref 5 (List.length lp) (CVec p) 1 (StoVec 5 (map sqrt p)) (StoScalar (List.length lp) (sqrt 1))) by (split; [apply P_oracles.sqrtm_ref_ok|]; split; [exact CP|]; split; [lra|]; split; reflexivity).
  assert (N4 : List.length lp = 4) by (etransitivity; [|exact LL]; reflexivity).
  assert (VS : valid_sources (FF1 doas "sin")) by exact (conj K V). assert (Nl : lp <> []) by (intros E; rewrite E in N4; discriminate).
  destruct (Prop_coarray2.C40_exact g lp 1 w0 [] _ 2 (fun k => nth k p 0%R) 1%R None A (model_cov A (fun k => nth k p 0%R) 1) PL X1 Hw Nl ND X2 X3 VS eq_refl HA ltac:(reflexivity)) as (v & _ & _ & Ev & _).
  destruct (C109_coarray_music g lp 1 w0 [] None 6 v 2 doas "sin" (FF1 doas "sin") A p "ss" P_oracles.sqrtm_ref 1 (StoVec 5 (map sqrt p)) (StoScalar (List.length lp) (sqrt 1)) PL X1 ND X2 X3 Hw FH Ev Es HA Pp ltac:(lra) ltac:(lra)) as (size0 & H0).
  { intros a Ia. specialize (B a Ia). cbn [to_rad String.eqb Ascii.eqb Bool.eqb]. apply asin_bound_lt. exact B. }
  { unfold doas. repeat (constructor; [cbn; intros Q; decompose [or] Q; try lra; contradiction|]). constructor. }
  { cbn; lia. } { now right. } { exact GN. }
  destruct (H0 size0 (le_n _)) as (q & Eq & Lq & HL). destruct (HL (1 / 1000000)%R ltac:(lra)) as (n0 & LR).
  destruct (LR 1%R (1 / 2)%R ltac:(lra)) as (n1 & HU). set (n := S n1).
  destruct (sign_draws _ _ (1 / 2) ltac:(lra) (HU n _ (Prop_signals.sign_mean (0 + 2 * (5 * n) + 2 * (List.length lp * n))) (Rng 0 0) (fun _ => 0%R) ltac:(lia) (white4_exists _) (le_n _))) as (x & NB). apply Classical_Prop.NNPP in NB.
  destruct NB as (Ra & ER & H). destruct (H P_oracles.eigh_ref false 10%Z n0 (P_oracles.eigh_ref_contract _) ltac:(lia) (le_n _)) as (M1 & M2).
  exists g, w0, v, (FF1 doas "sin"), A, (StoVec 5 (map sqrt p)), (StoScalar (List.length lp) (sqrt 1)), q, n, n0, x. split; [exact Eg|]. split; [rewrite (pl_size _ _ _ PL); exact LL|]. split; [exact Hw|]. split; [exact Ev|]. split; [exact Es|]. split; [exact HA|]. split; [rewrite N4 in GN |- *; exact GN|]. split; [unfold n; lia|]. split; [rewrite Lq; exact Eq|].
  exists Ra. split; [exact ER|]. split; [exact M1 | exact M2].
Qed.
Print Assumptions C109_mdl. Print Assumptions C109_aic. Print Assumptions C109_sorte. Print Assumptions C109_coarray_root_music. Print Assumptions C109_coarray_music.
