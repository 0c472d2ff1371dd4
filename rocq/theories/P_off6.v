(** MUSIC on a uniform linear array with sources between the grid points. *)
From Coq Require Import Lra Lia Sorted Permutation.
From Coquelicot Require Import Complex.
From Verif Require Import Base_Np Base_Trig Base_Lin S_model M_utils S_utils P_utils M_sources S_sources P_sources M_array S_array P_array P_array2 P_array3 M_designs S_designs P_designs M_coarray S_coarray P_coarray P_coarray2 P_model
  M_grid S_grid P_grid M_core P_core P_core2 M_sparse M_subspace S_subspace P_subspace P_subspace2 P_subspace5 M_pipeline S_pipeline Prop_subspace P_pipeline P_pipeline4 P_beam S_stable P_stable P_stable2 P_stable3 P_stable4 S_cont P_cont P_cont2 P_cont4 P_cont5 P_rootc3
  S_offgrid S_refine P_off1 P_off2 P_off3 P_off4 P_off5 P_off7 P_off8.
From Verif Require P_oracles P_signals Prop_esprit.
Open Scope nat_scope.

(** *** the noise projector depends on the sources only *)
Lemma null_kernel En U a : (forall x, proj_power En x = 0%R <-> in_span U x) -> forall En', nr En' = nr En -> (forall x, proj_power En' x = 0%R <-> in_span U x) ->
  (forall j, j < nc En' -> vdot (nr En) (col En' j) a = RtoC 0) -> forall j, j < nc En -> vdot (nr En) (col En j) a = RtoC 0.
Proof. intros H En' N H' Z. apply proj_power_0, H, H', proj_power_0. now rewrite N. Qed.
Lemma proj_absorb En En' U n : nr En = n -> nr En' = n -> orthonormal En' -> (forall x, proj_power En x = 0%R <-> in_span U x) -> (forall x, proj_power En' x = 0%R <-> in_span U x) ->
  mher En *m (En' *m mher En') ==m mher En.
Proof.
  intros N N' O' H H'. split; [reflexivity|]. split; [cbn [mmul mher nc]; congruence|]. intros i j Hi Hj. cbn [mmul mher nr nc] in Hi, Hj.
  set (Q := En' *m mher En') in *. set (a := fun r : nat => ((if Nat.eqb r j then RtoC 1 else RtoC 0) - ent Q r j)%C).
  assert (Qn : nr Q = n) by exact N'.
  assert (Z : forall l, l < nc En -> vdot (nr En) (col En l) a = RtoC 0).
  { apply (null_kernel En U a H En' ltac:(congruence) H'). intros l Hl. unfold vdot, a.
    rewrite (csum_ext _ _ (fun r => Cconj (col En' l r) * (if Nat.eqb r j then RtoC 1 else RtoC 0) - Cconj (col En' l r) * ent Q r j)%C) by (intros; ring). rewrite csum_minus.
    rewrite (csum_single _ _ j) by (try lia; intros k Hk NK; apply Nat.eqb_neq in NK; rewrite NK; ring). rewrite Nat.eqb_refl.
    assert (E : csum (nr En) (fun r => Cconj (col En' l r) * ent Q r j)%C = ent (mher En' *m Q) l j) by (cbn [mmul mher ent nc]; rewrite N, <- N'; reflexivity).
    rewrite E. assert (X : mher En' *m Q ==m mher En').
    { unfold Q. transitivity ((mher En' *m En') *m mher En'); [symmetry; apply mmul_assoc|]. transitivity (mid (nc En') *m mher En'); [apply mmul_eq_l, O'|]. apply mmul_id_l. reflexivity. }
    destruct X as (_ & _ & X). rewrite X by (cbn [mmul mher nr nc]; unfold Q; cbn [mmul mher nc]; lia). cbn [mher ent]. unfold col. ring. }
  specialize (Z i Hi). unfold vdot, a in Z.
  rewrite (csum_ext _ _ (fun r => Cconj (col En i r) * (if Nat.eqb r j then RtoC 1 else RtoC 0) - Cconj (col En i r) * ent Q r j)%C) in Z by (intros; ring). rewrite csum_minus in Z.
  rewrite (csum_single _ _ j) in Z by (try lia; intros k Hk NK; apply Nat.eqb_neq in NK; rewrite NK; ring). rewrite Nat.eqb_refl in Z.
  change (ent (mher En *m Q) i j) with (csum (nr En) (fun r => Cconj (col En i r) * ent Q r j)%C). change (ent (mher En) i j) with (Cconj (col En i j)).
  set (p := csum _ _) in *. replace p with (Cconj (col En i j) * RtoC 1 - (Cconj (col En i j) * RtoC 1 - p))%C by ring. rewrite Z. ring.
Qed.
Lemma proj_same En En' U n : nr En = n -> nr En' = n -> orthonormal En -> orthonormal En' -> (forall x, proj_power En x = 0%R <-> in_span U x) -> (forall x, proj_power En' x = 0%R <-> in_span U x) ->
  En *m mher En ==m En' *m mher En'.
Proof.
  intros N N' O O' H H'. set (Q := En *m mher En). set (Q' := En' *m mher En').
  assert (E1 : Q *m Q' ==m Q). { unfold Q. transitivity (En *m (mher En *m Q')); [apply mmul_assoc|]. apply mmul_eq_r; [reflexivity|]. apply (proj_absorb En En' U n); assumption. }
  assert (E2 : Q' *m Q ==m Q'). { unfold Q'. transitivity (En' *m (mher En' *m Q)); [apply mmul_assoc|]. apply mmul_eq_r; [reflexivity|]. apply (proj_absorb En' En U n); assumption. }
  assert (HQ : forall X : cmat, mher (X *m mher X) ==m X *m mher X).
  { intros X. split; [reflexivity|]. split; [reflexivity|]. intros i j Hi Hj. cbn [mmul mher ent nr nc]. rewrite csum_conj. apply csum_ext. intros l Hl. rewrite Cmult_conj, Cconj_conj. ring. }
  assert (E3 : mher (Q' *m Q) ==m Q *m Q').
  { transitivity (mher Q *m mher Q'); [apply mher_mmul; cbn [Q Q' mmul mher nr nc]; congruence|]. transitivity (Q *m mher Q'); [apply mmul_eq_l, HQ|]. apply mmul_eq_r; [cbn [Q Q' mmul mher nr nc]; congruence|apply HQ]. }
  transitivity (Q *m Q'); [now symmetry|]. transitivity (mher (Q' *m Q)); [now symmetry|]. transitivity (mher Q'); [now apply P_signals.mher_eq|apply HQ].
Qed.
(** some noise subspace for given sources *)
Lemma null_exists n zs : NoDup zs -> 1 <= List.length zs < n -> exists En, nr En = n /\ orthonormal En /\ forall a, proj_power En a = 0%R <-> in_span (ula_matrix n zs) a.
Proof.
  intros ND Hk. pose proof (Prop_esprit.cov_of_exact (ula_matrix n zs)) as HX. assert (P1 : pd (mid (nc (ula_matrix n zs)))) by apply pd_mid.
  set (Rm := Prop_esprit.cov_of (ula_matrix n zs)) in *. pose proof (exact_herm _ _ _ _ HX (proj1 P1)) as HH.
  destruct (P_oracles.eigh_ref_contract (nr Rm) Rm HH (le_n _)) as (w & E & EE & OE).
  destruct (exact_noise P_oracles.eigh_ref Rm (ula_matrix n zs) _ 1 w E HX (ula_inj n zs ND ltac:(lia)) P1 ltac:(cbn; lia) EE OE) as (En & _ & N1 & _ & O & H).
  exists En. split; [exact N1|]. split; [exact O|exact H].
Qed.

(** *** MUSIC *)
(** whatever the grid (fine enough), the history and the routines, MUSIC applied to Rm finds all directions, up to the tolerance *)
Definition finds_all (n : nat) (d lam : R) (u : string) (doas : list R) (lo hi step tol : R) (Rm : cmat) : Prop :=
  forall v fp asort angles dt c h0 e0 h1 eigh e h o,
  places_1d v (ULA_indices (Z.of_nat n)) d -> ar_perts (gd_array v) = [] -> scalar_isotropic (gd_array v) -> la_dt (ar_loc (gd_array v)) = DFloat ->
  new_estimator (gd_array v) lam (SGrid G1D [vec1 angles] u dt) (find_peaks_simple fp) asort c h0 = Ok (e0, h1) ->
  scipy_local_maxima fp -> (forall x, is_argsort x (asort x)) -> fine_grid lo hi step angles -> eigh_contract n eigh -> music_reach eigh n e0 h1 e h -> o_refine o = false ->
  exists sp est e' h' idx, music_estimate eigh n e h Rm (Z.of_nat (List.length doas)) o = (Ok (Outcome true (Some est) (if o_spectrum o then Some sp else None)), e', h') /\
    buf h' est = map (fun a => [a]) (at_positions angles idx) /\ brackets tol angles doas idx.
(** the same with refinement: density^n_iters times as accurate as the grid, for grids of floats *)
Definition refines_all (n : nat) (d lam : R) (u : string) (doas : list R) (lo hi step tol : R) (Rm : cmat) : Prop :=
  forall v fp asort angles c h0 e0 h1 eigh e h ret_sp density n_iters,
  places_1d v (ULA_indices (Z.of_nat n)) d -> ar_perts (gd_array v) = [] -> scalar_isotropic (gd_array v) -> la_dt (ar_loc (gd_array v)) = DFloat ->
  new_estimator (gd_array v) lam (SGrid G1D [vec1 angles] u DFloat) (find_peaks_simple fp) asort c h0 = Ok (e0, h1) ->
  scipy_local_maxima fp -> (forall x, is_argsort x (asort x)) -> fine_grid lo hi step angles -> eigh_contract n eigh -> music_reach eigh n e0 h1 e h -> (1 <= density)%Z -> 1 <= n_iters ->
  exists sp est e' h' r, music_estimate eigh n e h Rm (Z.of_nat (List.length doas)) (Opts ret_sp true density n_iters) = (Ok (Outcome true (Some est) (if ret_sp then Some sp else None)), e', h') /\
    buf h' est = map (fun a => [a]) r /\ forall t, (step / IZR density ^ n_iters + tol < t)%R -> accurate t doas r.
Definition finds_both n d lam u doas lo hi step tol Rm : Prop := finds_all n d lam u doas lo hi step tol Rm /\ (0 <= tol -> refines_all n d lam u doas lo hi step tol Rm)%R.


(** the spectrum ranks the directions by the null spectrum *)
Lemma music_ranked n d lam u (En : cmat) : nr En = n -> ranked n d lam u (fun A => let! l := f_music A En in Ok (embed_inf l)) (power En).
Proof.
  intros N1 angles B V HB. set (N := List.length angles) in *. set (vv := fun m => power En (phase d lam u (nth m angles 0%R))).
  pose proof HB as (b1 & b2 & b3). cbn [ula_matrix nr nc] in b1, b2, b3. rewrite map_length in b2. fold N in b2.
  assert (COL : forall j, j < N -> proj_power En (col B j) = vv j).
  { intros j Hj. unfold vv, power. apply proj_power_ext. intros i Hi. unfold col. rewrite b3 by lia. cbn [ula_matrix ent]. rewrite (nth_indep _ _ (zof d lam u 0%R)) by (now rewrite map_length). rewrite map_nth. reflexivity. }
  destruct (recip_order N vv) as (LX & OR). { intros j. apply proj_power_nonneg. }
  eexists. split; [|split; [exact LX|exact OR]]. rewrite f_music_value by congruence. cbn [bind]. do 2 f_equal. rewrite b2. apply map_ext_in. intros j Ij. apply in_seq in Ij. rewrite COL by lia. reflexivity.
Qed.
Lemma finds_both_intro n d lam u doas lo hi step tol (Rm : cmat) : (0 < lam)%R -> known_unit u -> valid_angle u lo -> valid_angle u hi -> 1 <= List.length doas < n -> hermitian Rm -> nr Rm = n ->
  (forall w E En, eigh_ok Rm w E -> nr En = n -> nc En = n - List.length doas -> (forall i j, ent En i j = ent E i j) -> one_valley_each d lam u doas lo hi step tol (power En)) ->
  finds_both n d lam u doas lo hi step tol Rm.
Proof.
  intros Hl K VL VH Hk HH HN OV.
  assert (B : forall eigh, eigh_contract n eigh -> both_run (music_estimate eigh n) n d lam u doas lo hi step tol Rm).
  { intros eigh EC. destruct (EC Rm HH ltac:(lia)) as (w & E & EE & OE). pose proof OE as (_ & z1 & z2 & _).
    destruct (noise_value eigh Rm (List.length doas) w E n EE ltac:(congruence) ltac:(congruence) ltac:(lia)) as (En & EN & N1 & N2 & N3).
    apply (scan_both (music_estimate eigh n) n d lam u doas lo hi step tol Rm (power En)); try assumption; try lia; [apply music_forwards| |exact (OV w E En OE N1 N2 N3)].
    exists (fun A0 => let! l := f_music A0 En in Ok (embed_inf l)). split; [|now apply music_ranked].
    intros e h o. destruct (C58_estimate_uses_spectrum eigh n e h Rm (List.length doas) o w E HN ltac:(lia) EE ltac:(congruence) ltac:(congruence)) as (En1 & W1 & W2). rewrite EN in W1. injection W1 as <-. exact W2. }
  split.
  - intros v fp asort angles dt c h0 e0 h1 eigh e h o PL Pe Iso DT NE FP AS FG EC HR Hr. apply (proj1 (B eigh EC) v fp asort angles dt c h0 e0 h1 e h o); try assumption. now apply music_reaches.
  - intros HT v fp asort angles c h0 e0 h1 eigh e h rs density ni PL Pe Iso DT NE FP AS FG EC HR Hd Hi.
    apply (proj2 (B eigh EC) HT v fp asort angles c h0 e0 h1 e h rs density ni); try assumption. now apply music_reaches.
Qed.

(** a grid step that works for all powers, noise levels and tolerances *)
Lemma off_grid n d lam u doas lo hi : (0 < d)%R -> (0 < lam)%R -> known_unit u -> field_of_view d lam u lo hi -> (forall a, In a doas -> (lo < a < hi)%R) -> NoDup doas -> 1 <= List.length doas < n ->
  exists step, (0 < step)%R /\ forall (A P Rm : cmat) s, A ==m ula_matrix n (map (zof d lam u) doas) -> exact_cov Rm A P s -> pd P ->
    finds_both n d lam u doas lo hi step 0 Rm /\
    forall tol, (0 < tol)%R -> exists eps, (0 < eps)%R /\ forall Rm' : cmat, hermitian Rm' -> nr Rm' = n -> (distance Rm Rm' < eps)%R -> finds_both n d lam u doas lo hi step tol Rm'.
Proof.
  intros Hd Hl K FV IN ND Hk. set (zs := map (zof d lam u) doas). assert (Lz : List.length zs = List.length doas) by apply map_length.
  assert (NZ : NoDup zs).
  { pose proof (fine_inner d lam u doas lo hi Hd Hl FV IN) as X1. pose proof (fine_nodup d lam u doas lo hi Hd Hl FV IN ND) as X2. pose proof (fine_wide d lam u lo hi Hl FV) as X3.
    pose proof (shape_nodup (map (phase d lam u) doas) _ _ X3 X1 X2) as X. rewrite map_map in X. exact X. }
  destruct (null_exists n zs NZ ltac:(lia)) as (En0 & N0 & O0 & NS0).
  destruct (fine_noise n d lam u doas lo hi En0 Hd Hl FV IN ND ltac:(lia) N0 O0 NS0) as (step & S0 & EXA & APP). exists step. split; [exact S0|].
  intros A P Rm s EA HX HP. destruct (ex_dims Rm A P s HX) as (D1 & D2). pose proof EA as (A1 & A2 & _). cbn [ula_matrix nr nc] in A1, A2. rewrite Lz in A2.
  assert (IA : inj A) by (apply (Base_Lin.inj_eq (ula_matrix n zs)); [now symmetry|]; apply ula_inj; [exact NZ | lia]).
  pose proof (exact_herm _ _ _ _ HX (proj1 HP)) as HH. destruct FV as (F1 & VL & VH & F2).
  assert (PRJ : forall w E En, eigh_ok Rm w E -> nr En = n -> nc En = n - List.length doas -> (forall i j, ent En i j = ent E i j) -> En0 *m mher En0 ==m En *m mher En).
  { intros w E En OE N1 N2 N3. destruct (exact_noise (fun _ => Ok (w, E)) Rm A P s w E HX IA HP ltac:(lia) eq_refl OE) as (En1 & EN & M1 & M2 & M3 & M4).
    destruct (noise_value (fun _ => Ok (w, E)) Rm (nc A) w E n eq_refl) as (En2 & EN2 & Q1 & Q2 & Q3); [destruct OE as (_ & z1 & z2 & _); congruence|destruct OE as (_ & z1 & z2 & _); congruence|lia|]. rewrite EN in EN2. injection EN2 as <-.
    assert (EQ : En1 ==m En). { split; [congruence|]. split; [congruence|]. intros i j _ _. now rewrite Q3, N3. }
    transitivity (En1 *m mher En1).
    - apply (proj_same En0 En1 (ula_matrix n zs) n); try assumption; try congruence. intros y. rewrite M4. apply in_span_meq. exact EA.
    - transitivity (En *m mher En1); [now apply mmul_eq_l|]. apply mmul_eq_r; [cbn; congruence|]. now apply P_signals.mher_eq. }
  assert (NEARQ : forall e X Y, near e X Y -> forall X', X ==m X' -> near e X' Y) by (intros e X Y NR X' EQ; apply (near_eq e X X' Y Y EQ); [reflexivity|exact NR]).
  split.
  - apply finds_both_intro; try assumption; [congruence|]. intros w E En OE N1 N2 N3. apply (one_valley_ext d lam u doas lo hi step 0 (power En0)); [|exact EXA].
    intros x. unfold power. rewrite (power_tq En0 n x N0), (power_tq En n x N1). destruct (PRJ w E En OE N1 N2 N3) as (_ & _ & Q). unfold tq. apply rsum_ext. intros i Hi. apply rsum_ext. intros j Hj.
    rewrite Q by (cbn [mmul mher nr nc]; lia). reflexivity.
  - intros tol Ht. destruct (APP tol Ht) as (tau & Htau & H).
    destruct (P_oracles.eigh_ref_contract (nr Rm) Rm HH (le_n _)) as (w & E & _ & OE). pose proof (exact_gap Rm A P s w E HX IA HP OE ltac:(lia)) as GP.
    destruct (noise_near Rm w E n (List.length doas) tau ltac:(congruence) HH OE Hk ltac:(rewrite <- A2, <- A1, <- D1; exact GP) Htau) as (eps & He & NN).
    exists eps. split; [exact He|]. intros Rm' HH' N' DS. apply finds_both_intro; try assumption. intros w' E' En OE' N1 N2 N3. apply H; [exact N1|].
    pose proof (NN Rm' w' E' HH' N' OE' DS) as X. set (W := win n 0 (n - List.length doas) E) in *. set (W' := win n 0 (n - List.length doas) E') in *.
    assert (EQ1 : En0 *m mher En0 ==m W *m mher W) by (apply (PRJ w E W OE); try reflexivity).
    assert (EQ2 : W' ==m En). { split; [cbn; congruence|]. split; [cbn; congruence|]. intros i j _ _. rewrite N3. reflexivity. }
    apply (near_eq tau (W *m mher W) _ (W' *m mher W') _); [now symmetry| |exact X].
    transitivity (En *m mher W'); [now apply mmul_eq_l|]. apply mmul_eq_r; [cbn; congruence|]. now apply P_signals.mher_eq.
Qed.
