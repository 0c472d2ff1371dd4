(** C109, continued: detecting the number of sources and locating them without a grid, sparse arrays, and the maximum-likelihood estimators, from simulated snapshots. *)
From Coq Require Import Lra Sorted Permutation.
From Verif Require Import Base_Np Base_Trig Base_Lin S_model M_utils S_utils P_utils M_sources S_sources P_sources P_sources3 M_array S_array P_array P_array2 P_array3 M_designs S_designs P_designs M_coarray S_coarray P_coarray P_coarray2 P_model
  M_grid S_grid P_grid M_core P_core P_core2 M_sparse M_subspace S_subspace P_subspace P_subspace2 P_subspace3 P_subspace5 P_perf5 M_srcnum M_pipeline S_pipeline P_pipeline P_pipeline2 P_pipeline3 P_gauss P_fta P_fta2 Prop_pipeline Prop_pipeline2
  S_stable P_stable P_stable3 P_stable5 Prop_stable S_invar S_invar2 P_invar4 Prop_invar2 P_cont P_cont4 P_cont5 P_cont6 S_cont Prop_cont S_rootc P_rootc P_rootc2 P_rootc3 P_rootc4 P_rootc5 Prop_rootc S_detect P_detect Prop_detect.
From Verif Require P_oracles Prop_subspace Prop_esprit Prop_coarray Prop_coarray2 Prop_pipeline5.
Import Prop_pipeline5.
From Verif Require Import M_signals S_signals S_stat P_stat Prop_detect2.
From Verif Require Prop_stat Prop_mlc Prop_signals.
From Verif Require Import Base_Mem M_heap M_ml S_ml S_invar3 P_ml P_ml6 S_mlc.
Import Prop_stat.
Open Scope nat_scope.

(** the MDL criterion finds the number of sources and ESPRIT their directions *)
Theorem C109_detect_then_esprit : forall n d name g lam doas u src (A : cmat) D formulation rw tol sqrtm c s gs gn,
  mk_ULA (Z.of_nat n) (D0Scalar d) name no_kwargs = Ok g -> mk_FF1 (vec1 doas) u = Ok src ->
  steering_matrix (gd_array g) src lam false "all" true = Ok (Flat A, []) ->
  (0 < d)%R -> (0 < lam)%R -> NoDup doas -> in_view d D lam u doas ->
  1 <= D -> 1 <= List.length doas -> List.length doas + D <= n ->
  formulation = "tls"%string \/ formulation = "ls"%string -> Prop_esprit.harmless_weights rw n D -> (0 < tol)%R ->
  generators sqrtm (List.length doas) n c s gs gn -> pd (carg_cov (List.length doas) c) -> (0 < s)%R ->
  in_the_long_run (gd_array g) src lam gs gn (fun N Rm => forall eigvalsh eigh solve eigvals,
    eigvalsh_contract n eigvalsh -> eigh_contract (Nat.max n (2 * List.length doas)) eigh -> solve_contract (List.length doas) solve -> eigvals_contract (List.length doas) eigvals ->
    exists k l, mdl eigvalsh (EMat Rm) (INR N) = Ok k /\ k = List.length doas /\
      esprit eigh solve eigvals lam Rm (Z.of_nat k) (Some d) (Z.of_nat D) formulation rw u = Ok (true, (map Some l, u)) /\ accurate tol doas l).
Proof.
  intros n d nm g lam doas u src A D f rw tol sqrtm c s gs gn Eg Es HA Hd Hl ND W HD Hk Hkn HF HW Ht G PD Hs. destruct (ula_size _ _ _ _ _ _ _ _ _ Eg Es HA) as (NA & NK).
  apply (log_run sqrtm _ n c s gs gn (gd_array g) src lam A (fun Rm N => forall eigvalsh eigh solve eigvals,
    eigvalsh_contract n eigvalsh -> eigh_contract (Nat.max n (2 * List.length doas)) eigh -> solve_contract (List.length doas) solve -> eigvals_contract (List.length doas) eigvals ->
    exists k l, mdl eigvalsh (EMat Rm) N = Ok k /\ k = List.length doas /\
      esprit eigh solve eigvals lam Rm (Z.of_nat k) (Some d) (Z.of_nat D) f rw u = Ok (true, (map Some l, u)) /\ accurate tol doas l) G HA NA NK).
  intros Rm HX. exact (C103_detect_then_esprit n d nm g lam doas u src A _ Rm s D f rw tol Eg Es HA HX PD Hs Hd Hl ND W HD Hk Hkn HF HW Ht).
Qed.
(** or root-MUSIC *)
Theorem C109_detect_then_root_music : forall n d name g lam doas u src (A : cmat) tol sqrtm c s gs gn,
  mk_ULA (Z.of_nat n) (D0Scalar d) name no_kwargs = Ok g -> mk_FF1 (vec1 doas) u = Ok src ->
  steering_matrix (gd_array g) src lam false "all" true = Ok (Flat A, []) ->
  (0 < d)%R -> (0 < lam)%R -> NoDup doas -> in_view d 1 lam u doas -> 1 <= List.length doas < n -> (0 < tol)%R ->
  generators sqrtm (List.length doas) n c s gs gn -> pd (carg_cov (List.length doas) c) -> (0 < s)%R ->
  in_the_long_run (gd_array g) src lam gs gn (fun N Rm => forall eigvalsh eigh roots argsort,
    eigvalsh_contract n eigvalsh -> eigh_contract n eigh -> roots_contract roots -> (forall v, is_argsort v (argsort v)) -> no_exact_null eigh Rm (List.length doas) ->
    exists k l, mdl eigvalsh (EMat Rm) (INR N) = Ok k /\ k = List.length doas /\
      root_music eigh roots argsort lam Rm (Z.of_nat k) (Some d) u = Ok (true, Some (map Some l, u)) /\ accurate tol doas l).
Proof.
  intros n d nm g lam doas u src A tol sqrtm c s gs gn Eg Es HA Hd Hl ND W Hk Ht G PD Hs. destruct (ula_size _ _ _ _ _ _ _ _ _ Eg Es HA) as (NA & NK).
  apply (log_run sqrtm _ n c s gs gn (gd_array g) src lam A (fun Rm N => forall eigvalsh eigh roots argsort,
    eigvalsh_contract n eigvalsh -> eigh_contract n eigh -> roots_contract roots -> (forall v, is_argsort v (argsort v)) -> no_exact_null eigh Rm (List.length doas) ->
    exists k l, mdl eigvalsh (EMat Rm) N = Ok k /\ k = List.length doas /\
      root_music eigh roots argsort lam Rm (Z.of_nat k) (Some d) u = Ok (true, Some (map Some l, u)) /\ accurate tol doas l) G HA NA NK).
  intros Rm HX. exact (C103_detect_then_root_music n d nm g lam doas u src A _ Rm s tol Eg Es HA HX PD Hs Hd Hl ND W Hk Ht).
Qed.
(** sparse arrays, with uncorrelated sources of the powers p: more sources than sensors, as many as the virtual array has sensors minus one *)
Theorem C109_coarray : forall g l d w0 calls m lam doas u src (A : cmat) p D method formulation rw tol sqrtm s gs gn,
  places_1d g l d -> gd_d0 g = [d] -> NoDup l -> ar_perts (gd_array g) = [] -> scalar_isotropic (gd_array g) ->
  mk_WeightFunction1D g = Ok w0 -> first_hole l (Z.of_nat m) -> mk_FF1 (vec1 doas) u = Ok src ->
  steering_matrix (gd_array g) src lam false "all" true = Ok (Flat A, []) ->
  Forall (fun x => (0 < x)%R) p -> (0 < d)%R -> (0 < lam)%R -> NoDup doas -> in_view d D lam u doas ->
  1 <= D -> 1 <= List.length doas -> List.length doas + D <= m ->
  method = "da"%string \/ method = "ss"%string -> formulation = "tls"%string \/ formulation = "ls"%string -> Prop_esprit.harmless_weights rw m D -> (0 < tol)%R ->
  generators sqrtm (List.length doas) (List.length l) (CVec p) s gs gn -> (0 < s)%R ->
  in_the_long_run (gd_array g) src lam gs gn (fun N Rm => exists Ra, transform (Acm g (after w0 calls)) Rm method = Ok Ra /\
    (forall eigvalsh eigh solve eigvals, eigvalsh_contract m eigvalsh -> eigh_contract (Nat.max m (2 * List.length doas)) eigh -> solve_contract (List.length doas) solve -> eigvals_contract (List.length doas) eigvals ->
      exists k r, mdl eigvalsh (EMat Ra) (INR N) = Ok k /\ k = List.length doas /\
        esprit eigh solve eigvals lam Ra (Z.of_nat k) (Some d) (Z.of_nat D) formulation rw u = Ok (true, (map Some r, u)) /\ accurate tol doas r)).
Proof.
  intros g l d w0 calls m lam doas u src A p D method f rw tol sqrtm s gs gn PL D0 NDl Pe Iso Hw FH Es HA Hp Hd Hl ND W HD Hk Hkm HM HF HW Ht G Hs.
  assert (SZ : nr A = List.length l /\ nc A = List.length doas).
  { pose proof Es as Es0. apply mk_FF1_ok in Es0 as (_ & K & V & ->). cbn [vec1 nd_data] in *. destruct (response_1d g l d (FF1 doas u) lam A PL Pe Iso (conj K V) eq_refl HA) as (A1 & A2 & _). split; [exact A1 | exact A2]. }
  destruct SZ as (NA & NK). pose proof G as (_ & (Lp & _) & _).
  apply (log_run sqrtm _ (List.length l) (CVec p) s gs gn (gd_array g) src lam A (fun Rm N => exists Ra, transform (Acm g (after w0 calls)) Rm method = Ok Ra /\
    (forall eigvalsh eigh solve eigvals, eigvalsh_contract m eigvalsh -> eigh_contract (Nat.max m (2 * List.length doas)) eigh -> solve_contract (List.length doas) solve -> eigvals_contract (List.length doas) eigvals ->
      exists k r, mdl eigvalsh (EMat Ra) N = Ok k /\ k = List.length doas /\
        esprit eigh solve eigvals lam Ra (Z.of_nat k) (Some d) (Z.of_nat D) f rw u = Ok (true, (map Some r, u)) /\ accurate tol doas r)) G HA NA NK).
  intros Rm (_ & _ & HX). apply (C103_coarray_esprit g l d w0 calls m lam doas u src A Rm (fun k => nth k p 0%R) s D method f rw tol PL D0 NDl Pe Iso Hw FH Es HA); try assumption.
  - unfold model_cov. rewrite NK. exact HX.
  - intros k Hk'. rewrite Forall_forall in Hp. apply Hp, nth_In. lia.
Qed.
(** the maximum-likelihood estimators, whenever the minimiser comes within eps of the minimum *)
Theorem C109_ml : forall kind n d name ar lam doas u src (A : cmat) tol sqrtm c s gs gn,
  mk_ULA (Z.of_nat n) (D0Scalar d) name no_kwargs = Ok ar -> mk_FF1 (vec1 doas) u = Ok src ->
  steering_matrix (gd_array ar) src lam false "all" true = Ok (Flat A, []) -> identifiable kind n (List.length doas) s ->
  (0 < d)%R -> (0 < lam)%R -> (2 * d <= lam)%R -> NoDup doas -> in_view d 1 lam u doas -> 1 <= List.length doas < n -> (0 < tol)%R ->
  generators sqrtm (List.length doas) n c s gs gn -> pd (carg_cov (List.length doas) c) ->
  exists eps, (0 < eps)%R /\ in_the_long_run (gd_array ar) src lam gs gn (fun _ Rm => forall env mini st guess o h b r st' h',
    ml_kind env = kind -> ml_array env = gd_array ar -> ml_lam env = lam -> ml_routines env ->
    Forall (valid_angle u) guess -> List.length guess = List.length doas -> orel h o (value_of (FF1 guess u) DFloat) ->
    finds_minimum eps env mini st Rm (value_of (FF1 guess u) DFloat) ->
    ml_estimate env mini st Rm o h = (Ok (b, Some r), st', h') ->
    b = true /\ exists l, orel h' r (value_of (FF1 l u) DFloat) /\ close_to tol doas l).
Proof.
  intros kind n d nm ar lam doas u src A tol sqrtm c s gs gn Eg Es HA HI Hd Hl H2 ND W Hk Ht G PD. destruct (ula_size _ _ _ _ _ _ _ _ _ Eg Es HA) as (NA & NK).
  destruct (generated sqrtm _ n c s gs gn (gd_array ar) src lam A (fun _ => 1%R) (fun _ _ => True) G HA NA NK (constant_radius 1 Rlt_0_1)) as (_ & _ & HX & _).
  destruct (Prop_mlc.C105_estimate kind n d nm ar lam doas u src A _ _ s tol Eg Es HA HX PD HI Hd Hl H2 ND W Hk Ht) as (eps & He & H). exists eps. split; [exact He|].
  eapply (generated sqrtm _ n c s gs gn (gd_array ar) src lam A (fun _ => eps) _ G HA NA NK (constant_radius eps He)). exists 0. intros _ Rm' _ HH NR DS env mini st guess o h b r st' h' a1 a2 a3 a4 a5 a6 a7 a8 a9.
  exact (H env mini st guess Rm' o h b r st' h' a1 a2 a3 a4 HH NR DS a5 a6 a7 a8 a9).
Qed.

(** ** The hypotheses can be met *)
(** four sensors, five sources, random signs as draws: for some draws MDL finds 5 sources and ESPRIT their directions, from simulated snapshots alone *)
Example C109_coarray_example : exists g w0 src (A : cmat) gs gn n x,
  mk_Nested 2 2 (D0Scalar 1) None no_kwargs = Ok g /\ ar_size (gd_array g) = 4 /\ mk_WeightFunction1D g = Ok w0 /\ mk_FF1 (vec1 [-(4/5); -(2/5); 0; 2/5; 4/5]%R) "sin" = Ok src /\
  steering_matrix (gd_array g) src 2 false "all" true = Ok (Flat A, []) /\ generators P_oracles.sqrtm_ref 5 4 (CVec [1; 2; 1; 2; 1]%R) 1 gs gn /\ 0 < n /\
  exists Ra k r, transform (Acm g w0) (simulated (gd_array g) src 2 gs gn n (Rng 0 0) (fun _ => 0%R) x) "ss" = Ok Ra /\ mdl eigvalsh_ref (EMat Ra) (INR n) = Ok k /\ k = 5 /\
    esprit P_oracles.eigh_ref solve0 eigvals_ref 2 Ra (Z.of_nat k) (Some 1%R) 1 "ls" (RWStr "none") "sin" = Ok (true, (map Some r, "sin"%string)) /\ accurate (1 / 100) [-(4/5); -(2/5); 0; 2/5; 4/5]%R r.
Proof.
  set (doas := [-(4/5); -(2/5); 0; 2/5; 4/5]%R).
  destruct (Prop_designs.C10_constructible 0 2 2 1 None) as (_ & (g & Eg) & _).
  destruct (Prop_designs.C10_Nested 2 2 1 None no_kwargs g ltac:(lia) ltac:(lia) Eg) as (lp & PL & LL & SI & _).
  assert (ND : NoDup lp) by (apply (proj2 (NoDup_nth lp 0%Z)); intros i j Hi Hj E; destruct (Nat.lt_trichotomy i j) as [L|[L|L]]; [|exact L|]; [specialize (SI i j L Hj) | specialize (SI j i L Hi)]; lia).
  change (Z.to_nat (2 + 2)) with 4 in LL.
  destruct (proj2 (Prop_coarray.C36_constructor g) (pl_ndim _ _ _ PL)) as (w0 & Hw).
  assert (X : gd_d0 g = [1%R] /\ ar_perts (gd_array g) = [] /\ scalar_isotropic (gd_array g) /\ la_dt (ar_loc (gd_array g)) = DFloat).
  { unfold mk_Nested, mk_Grid in Eg. cbn in Eg. injection Eg as <-. repeat split. }
  destruct X as (X1 & X2 & X3 & X4). assert (K : known_unit "sin") by (right; right; reflexivity).
  assert (B : forall a, In a doas -> (-1 < a < 1)%R) by (intros a Ia; cbn in Ia; decompose [or] Ia; subst; try lra; contradiction).
  assert (V : Forall (valid_angle "sin") doas) by (apply Forall_forall; intros a Ia; right; right; split; [reflexivity|]; specialize (B a Ia); lra).
  assert (Es : mk_FF1 (vec1 doas) "sin" = Ok (FF1 doas "sin")) by (apply mk_FF1_ok; split; [cbn; lia|]; split; [exact K|]; split; [exact V | reflexivity]).
  assert (FH : first_hole lp (Z.of_nat 6)).
  { destruct (Prop_designs.C14_nested_hole_free 2 2 1 None no_kwargs g ltac:(lia) ltac:(lia) Eg) as (l' & PL' & HF). pose proof (places_unique _ _ _ _ _ PL PL') as <-. split; [lia|]. split; [intros Z; apply HF in Z; lia|]. intros z Hz. apply HF. lia. }
  destruct (steering_defined (gd_array g) (FF1 doas "sin") 2 "all" [] true ltac:(lra) X3 X4) as (A & HA);
    [rewrite (pl_ndim _ _ _ PL); lia | rewrite (pl_size _ _ _ PL); lia | unfold select_perturbations, perturbations; now rewrite X2 | intros ? []|].
  set (p := [1; 2; 1; 2; 1]%R). assert (Pp : Forall (fun x => (0 < x)%R) p) by (unfold p; repeat (apply Forall_cons || apply Forall_nil); lra).
  assert (CP : carg_ok 5 (CVec p)) by (split; [reflexivity|]; apply Forall_forall; intros q Q; rewrite Forall_forall in Pp; specialize (Pp q Q); lra).
  assert (GN : generators P_oracles.sqrtm_ref 5 (List.length lp) (CVec p) 1 (StoVec 5 (map sqrt p)) (StoScalar (List.length lp) (sqrt 1))) by (split; [apply P_oracles.sqrtm_ref_ok|]; split; [exact CP|]; split; [lra|]; split; reflexivity).
  assert (N4 : List.length lp = 4) by (etransitivity; [|exact LL]; reflexivity).
  assert (LR := C109_coarray g lp 1 w0 [] 6 2 doas "sin" (FF1 doas "sin") A p 1 "ss" "ls" (RWStr "none") (1 / 100) P_oracles.sqrtm_ref 1 (StoVec 5 (map sqrt p)) (StoScalar (List.length lp) (sqrt 1)) PL X1 ND X2 X3 Hw FH Es HA Pp).
  assert (LR' : in_the_long_run (gd_array g) (FF1 doas "sin") 2 (StoVec 5 (map sqrt p)) (StoScalar (List.length lp) (sqrt 1)) (fun N Rm => exists Ra, transform (Acm g w0) Rm "ss" = Ok Ra /\
    (forall eigvalsh eigh solve eigvals, eigvalsh_contract 6 eigvalsh -> eigh_contract (Nat.max 6 (2 * List.length doas)) eigh -> solve_contract (List.length doas) solve -> eigvals_contract (List.length doas) eigvals ->
      exists k r, mdl eigvalsh (EMat Ra) (INR N) = Ok k /\ k = List.length doas /\
        esprit eigh solve eigvals 2 Ra (Z.of_nat k) (Some 1%R) 1 "ls" (RWStr "none") "sin" = Ok (true, (map Some r, "sin"%string)) /\ accurate (1 / 100) doas r))).
  { apply LR; try lra; try lia; try (now right); [| |cbn; lia|cbn; lia|left; reflexivity|exact GN].
    - unfold doas. repeat (constructor; [cbn; intros Q; decompose [or] Q; try lra; contradiction|]). constructor.
    - intros a Ia. specialize (B a Ia). cbn [to_rad String.eqb Ascii.eqb Bool.eqb]. change (INR 1) with 1%R. split; [|rewrite sin_asin; lra]. apply asin_bound_lt. exact B. }
  destruct (LR' 1%R (1 / 2)%R ltac:(lra)) as (n1 & HU). set (n := S n1).
  destruct (sign_draws _ _ (1 / 2) ltac:(lra) (HU n _ (Prop_signals.sign_mean (0 + 2 * (5 * n) + 2 * (List.length lp * n))) (Rng 0 0) (fun _ => 0%R) ltac:(lia) (white4_exists _) (le_n _))) as (x & NB). apply Classical_Prop.NNPP in NB.
  destruct NB as (Ra & ER & H). destruct (H eigvalsh_ref P_oracles.eigh_ref solve0 eigvals_ref (eigvalsh_ref_contract _) (P_oracles.eigh_ref_contract _) (solve0_contract _) (eigvals_ref_contract _)) as (k & r & M & Ek & E & AC).
  exists g, w0, (FF1 doas "sin"), A, (StoVec 5 (map sqrt p)), (StoScalar (List.length lp) (sqrt 1)), n, x. split; [exact Eg|]. split; [rewrite (pl_size _ _ _ PL); exact LL|]. split; [exact Hw|]. split; [exact Es|]. split; [exact HA|]. split; [rewrite N4 in GN |- *; exact GN|]. split; [unfold n; lia|].
  exists Ra, k, r. repeat (split; [first [exact ER | exact M | exact Ek | exact E]|]). exact AC.
Qed.
Print Assumptions C109_detect_then_esprit. Print Assumptions C109_detect_then_root_music. Print Assumptions C109_coarray. Print Assumptions C109_ml.
