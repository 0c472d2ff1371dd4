(** Properties of search grids and of the spectrum-based estimator core (C41-C51). *)
From Coq Require Import Sorting.Sorted Sorting.Permutation.
From Verif Require Import Base_Np Base_Trig S_utils M_utils P_utils M_sources M_array M_designs S_sources P_sources P_sources3 M_coarray M_heap M_grid M_core S_grid P_grid P_core P_core2.
Open Scope nat_scope.

(** C41: the size check accepts exactly the matrices with M rows and raises ValueError otherwise. *)
Theorem C41_size_check : forall (shape : list nat) (m : nat),
  (List.length shape = 2 /\ nth 0 shape 0 = m -> ensure_covariance_size shape m = Ok tt) /\
  (~ (List.length shape = 2 /\ nth 0 shape 0 = m) -> ensure_covariance_size shape m = Raise ValueError).
Proof.
  intros shape m. unfold ensure_covariance_size. destruct (Nat.eqb_spec (List.length shape) 2); destruct (Nat.eqb_spec (nth 0 shape 0) m); cbn [negb orb]; split; intros H; tauto || reflexivity.
Qed.
(** Finding: the number of columns is never looked at: any M x n matrix passes. *)
Theorem C41_nonsquare_accepted_defect : forall m n, ensure_covariance_size [m; n] m = Ok tt.
Proof. intros m n. apply C41_size_check. auto. Qed.
Example C41_example : ensure_covariance_size [3; 5] 3 = Ok tt /\ ensure_covariance_size [5; 3] 3 = Raise ValueError /\ ensure_covariance_size [3] 3 = Raise ValueError.
Proof. repeat split. Qed.

(** C42: refined axes. *)
Theorem C42_errors : forall g coord density span,
  ((density < 1)%Z \/ (span < 1)%Z \/ List.length coord <> sg_ndim g -> create_refined_axes_at g coord density span = Raise ValueError).
Proof.
  intros g coord density span H. unfold create_refined_axes_at. destruct (Z.ltb_spec density 1); [reflexivity|]. destruct (Z.ltb_spec span 1); [reflexivity|].
  destruct (Nat.eqb_spec (List.length coord) (sg_ndim g)); [|reflexivity]. lia.
Qed.
Theorem C42_refined_axes : forall g coord density span, (1 <= density)%Z -> (1 <= span)%Z -> List.length coord = sg_ndim g ->
  (forall j, j < sg_ndim g -> (0 <= nth j coord 0 < Z.of_nat (List.length (axis g j)))%Z) ->
  exists axes, create_refined_axes_at g coord density span = Ok axes /\ List.length axes = sg_ndim g /\
    forall j, j < sg_ndim g ->
      let parent := axis g j in let new := nth j axes [] in let c := nth j coord 0%Z in
      let lb := Z.to_nat (Z.max 0 (c - span)) in
      let ub := Z.to_nat (Z.min (Z.of_nat (List.length parent) - 1) (c + span)) in
      let N := (ub - lb) * Z.to_nat density in
      List.length new = N + 1 /\ nth 0 new 0%R = nth lb parent 0%R /\ nth N new 0%R = nth ub parent 0%R /\
      (forall i, i < N -> (nth (i + 1) new 0 - nth i new 0 = (nth ub parent 0 - nth lb parent 0) / INR N)%R) /\
      (forall i, i <= N -> (Rmin (nth lb parent 0) (nth ub parent 0) <= nth i new 0 <= Rmax (nth lb parent 0) (nth ub parent 0))%R) /\
      (evenly parent -> nth ((Z.to_nat c - lb) * Z.to_nat density) new 0%R = nth (Z.to_nat c) parent 0%R /\ (Z.to_nat c - lb) * Z.to_nat density <= N).
Proof.
  intros g coord density span Hd Hs HL HC. assert (OK : coords_ok g coord) by (split; assumption).
  exists (map (ref_ax density span) (combine (sg_axes g) coord)). split; [now apply refined_axes_eq|].
  split; [rewrite map_length, combine_length; unfold sg_ndim in *; lia|].
  intros j Hj. cbv zeta. pose proof (refined_axis_j g coord density span j OK Hj) as E. cbv zeta in E. unfold lbi, ubi in E. rewrite E.
  specialize (HC j Hj). set (l := axis g j) in *. set (c := nth j coord 0%Z) in *.
  destruct (refine_axis_eq l c density span Hd Hs HC) as (B1 & B2 & B3 & _). cbv zeta in B1, B2, B3. unfold lbi, ubi in B1, B2, B3.
  set (lb := Z.to_nat (Z.max 0 (c - span))) in *. set (ub := Z.to_nat (Z.min (Z.of_nat (List.length l) - 1) (c + span))) in *. set (D := Z.to_nat density).
  assert (HD : 1 <= D) by (unfold D; lia). set (N := (ub - lb) * D).
  split; [apply linspace_length|]. split.
  { rewrite linspace_nth by lia. cbn [INR]. lra. }
  split.
  { rewrite linspace_nth by lia. replace (N + 1 - 1) with N by lia. destruct (Nat.eq_dec N 0) as [Z0|N0].
    - assert (ub = lb) by (unfold N in Z0; nia). rewrite Z0. cbn [INR]. rewrite H. lra.
    - assert (0 < INR N)%R by (apply lt_0_INR; lia). field. lra. }
  split.
  { intros i Hi. rewrite !linspace_nth by lia. replace (N + 1 - 1) with N by lia. rewrite plus_INR. cbn [INR]. assert (0 < INR N)%R by (apply lt_0_INR; lia). field. lra. }
  split.
  { intros i Hi. apply linspace_between. lia. }
  intros Ev. split; [|unfold N; nia]. unfold N. now apply refined_contains.
Qed.
(** For an axis that is not evenly spaced the refined axis may miss the point itself. *)
Theorem C42_nonuniform_misses_point_defect : exists l l', refine_axis l 1 1 1 = Ok l' /\ List.length l = 3 /\ ~ In (nth 1 l 0%R) l'.
Proof.
  exists [0; 1; 4]%R. destruct (refine_axis_eq [0; 1; 4]%R 1 1 1 ltac:(lia) ltac:(lia) ltac:(cbn; lia)) as (_ & _ & _ & E). cbv zeta in E. eexists. split; [exact E|]. split; [reflexivity|].
  change (~ In 1%R (linspace 0 4 3)). unfold linspace. cbn. intros [H|[H|[H|[]]]]; lra.
Qed.
Example C42_example : exists axes, create_refined_axes_at (SGrid G1D [vec1 [0; 1; 2]%R] "deg" DFloat) [2%Z] 4 1 = Ok axes /\ List.length (nth 0 axes []) = 5.
Proof.
  destruct (C42_refined_axes (SGrid G1D [vec1 [0; 1; 2]%R] "deg" DFloat) [2%Z] 4 1) as (axes & E & _ & H); [lia | lia | reflexivity | intros [|j] Hj; [cbn; lia | cbn in Hj; lia] |].
  exists axes. split; [exact E|]. destruct (H 0 ltac:(cbn; lia)) as (H0 & _). rewrite H0. reflexivity.
Qed.

(** C43: grids built from start, stop and size. *)
Theorem C43_uniform_1d : forall (start stop : option R) (size : nat) (unit : string),
  (known_unit unit -> exists l, mk_grid1d start stop (Z.of_nat size) unit = Ok (SGrid G1D [vec1 l] unit DFloat) /\ List.length l = size /\
     let a := match start with Some a => a | None => of_rad unit (- (PI / 2)) end in
     let b := match stop with Some b => b | None => of_rad unit (PI / 2) end in
     forall i, i < size -> nth i l 0%R = (a + INR i * ((b - a) / INR size))%R) /\
  (~ known_unit unit -> start = None \/ stop = None -> mk_grid1d start stop (Z.of_nat size) unit = Raise KeyError).
Proof.
  intros start stop size unit. split.
  - intros K. set (a := match start with Some a => a | None => of_rad unit (- (PI / 2)) end). set (b := match stop with Some b => b | None => of_rad unit (PI / 2) end).
    exists (map (fun i => a + INR i * ((b - a) / INR size))%R (seq 0 size)). split.
    + unfold mk_grid1d, instantiate. cbn [forallb abstract_methods defined_methods existsb]. cbn [String.eqb Ascii.eqb Bool.eqb orb andb negb].
      assert (Ea : or_default start (let! r := dict_get default_ranges_1d unit in Ok (fst r)) = Ok a).
      { unfold a. destruct start; [reflexivity|]. cbn [or_default]. destruct K as [->|[->| ->]]; unfold dict_get; cbn; f_equal; unfold of_rad, rad2deg; cbn.
        - field.
        - field. apply PI_neq0.
        - rewrite sin_neg, sin_PI2. reflexivity. }
      assert (Eb : or_default stop (let! r := dict_get default_ranges_1d unit in Ok (snd r)) = Ok b).
      { unfold b. destruct stop; [reflexivity|]. cbn [or_default]. destruct K as [->|[->| ->]]; unfold dict_get; cbn; f_equal; unfold of_rad, rad2deg; cbn.
        - field. apply PI_neq0.
        - rewrite sin_PI2. reflexivity. }
      rewrite Ea. cbn [bind]. rewrite Eb. cbn [bind]. unfold linspace_open. destruct (Z.ltb_spec (Z.of_nat size) 0); [lia|]. cbn [bind]. rewrite Nat2Z.id. rewrite <- INR_IZR_INZ. reflexivity.
    + split; [now rewrite map_length, seq_length|]. cbv zeta. intros i Hi. now rewrite (nth_map_seq (fun i => (a + INR i * ((b - a) / INR size))%R)).
  - intros NK H. unfold mk_grid1d, instantiate. cbn [forallb abstract_methods defined_methods existsb]. cbn [String.eqb Ascii.eqb Bool.eqb orb andb negb].
    assert (E : dict_get default_ranges_1d unit = Raise KeyError).
    { unfold dict_get, default_ranges_1d, dget. destruct (String.eqb_spec unit "rad"); [unfold known_unit in NK; tauto|]. destruct (String.eqb_spec unit "deg"); [unfold known_unit in NK; tauto|].
      destruct (String.eqb_spec unit "sin"); [unfold known_unit in NK; tauto|]. reflexivity. }
    rewrite E. destruct start; destruct stop; destruct H; try discriminate; reflexivity.
Qed.
Theorem C43_uniform_2d : forall (start stop : option (R * R)) (n1 n2 : nat) (unit : string),
  (unit = "rad"%string \/ unit = "deg"%string -> exists az el, mk_grid2d start stop (Z.of_nat n1, Z.of_nat n2) unit = Ok (SGrid G2D [vec1 az; vec1 el] unit DFloat) /\
     List.length az = n1 /\ List.length el = n2 /\
     let a := match start with Some a => a | None => (of_rad unit (- PI), 0%R) end in
     let b := match stop with Some b => b | None => (of_rad unit PI, of_rad unit (PI / 2)) end in
     (forall i, i < n1 -> nth i az 0%R = (fst a + INR i * ((fst b - fst a) / INR n1))%R) /\
     (forall i, i < n2 -> nth i el 0%R = (snd a + INR i * ((snd b - snd a) / INR n2))%R)) /\
  (~ (unit = "rad"%string \/ unit = "deg"%string) -> start = None \/ stop = None -> mk_grid2d start stop (Z.of_nat n1, Z.of_nat n2) unit = Raise KeyError).
Proof.
  intros start stop n1 n2 unit. split.
  - intros K. set (a := match start with Some a => a | None => (of_rad unit (- PI), 0%R) end). set (b := match stop with Some b => b | None => (of_rad unit PI, of_rad unit (PI / 2)) end).
    exists (map (fun i => fst a + INR i * ((fst b - fst a) / INR n1))%R (seq 0 n1)), (map (fun i => snd a + INR i * ((snd b - snd a) / INR n2))%R (seq 0 n2)). split.
    + unfold mk_grid2d, instantiate. cbn [forallb abstract_methods defined_methods existsb]. cbn [String.eqb Ascii.eqb Bool.eqb orb andb negb].
      assert (Ea : or_default start (let! r := dict_get default_ranges_2d unit in Ok (fst r)) = Ok a).
      { unfold a. destruct start; [reflexivity|]. cbn [or_default]. destruct K as [->| ->]; unfold dict_get; cbn; unfold of_rad, rad2deg; cbn; [reflexivity|]. do 2 f_equal. field. apply PI_neq0. }
      assert (Eb : or_default stop (let! r := dict_get default_ranges_2d unit in Ok (snd r)) = Ok b).
      { unfold b. destruct stop; [reflexivity|]. cbn [or_default]. destruct K as [->| ->]; unfold dict_get; cbn; unfold of_rad, rad2deg; cbn; [reflexivity|]. do 2 f_equal; field; apply PI_neq0. }
      rewrite Ea. cbn [bind]. rewrite Eb. cbn [bind fst snd]. unfold linspace_open. destruct (Z.ltb_spec (Z.of_nat n1) 0); [lia|]. destruct (Z.ltb_spec (Z.of_nat n2) 0); [lia|]. cbn [bind]. rewrite !Nat2Z.id. rewrite <- !INR_IZR_INZ. reflexivity.
    + split; [now rewrite map_length, seq_length|]. split; [now rewrite map_length, seq_length|]. cbv zeta.
      split; intros i Hi; [now rewrite (nth_map_seq (fun i => (fst a + INR i * ((fst b - fst a) / INR n1))%R)) | now rewrite (nth_map_seq (fun i => (snd a + INR i * ((snd b - snd a) / INR n2))%R))].
  - intros NK H. unfold mk_grid2d, instantiate. cbn [forallb abstract_methods defined_methods existsb]. cbn [String.eqb Ascii.eqb Bool.eqb orb andb negb].
    assert (E : dict_get default_ranges_2d unit = Raise KeyError).
    { unfold dict_get, default_ranges_2d, dget. destruct (String.eqb_spec unit "rad"); [tauto|]. destruct (String.eqb_spec unit "deg"); [tauto|]. reflexivity. }
    rewrite E. destruct start; destruct stop; destruct H; try discriminate; reflexivity.
Qed.
(** Finding: a grid built from lists of segments can never be used, whatever the segments are: its axis is an n x 1
    array, which the placement class rejects; besides, later segments overwrite earlier ones. *)
Theorem C43_segments_defect : forall starts stops sizes unit g, mk_grid1d_segments starts stops sizes unit = Ok g ->
  create_source_placement g = Raise ValueError.
Proof.
  intros starts stops sizes unit g H. unfold mk_grid1d_segments, instantiate in H. cbn [forallb abstract_methods defined_methods existsb] in H. cbn [String.eqb Ascii.eqb Bool.eqb orb andb negb] in H.
  apply bind_Ok_inv in H as (l & _ & H). injection H as <-. reflexivity.
Qed.
Example C43_segments_example : exists g, mk_grid1d_segments [0; 10]%R [1; 11]%R [1; 1] "deg" = Ok g /\ axis g 0 = [10; 0]%R.
Proof.
  eexists. split; [unfold mk_grid1d_segments, instantiate; cbn [forallb abstract_methods defined_methods existsb]; cbn [String.eqb Ascii.eqb Bool.eqb orb andb negb];
  unfold seg_loop, linspace_open; cbn; reflexivity|]. unfold axis. cbn. change (Pos.to_nat 1) with 1. cbn. f_equal. lra.
Qed.
Example C43_example : exists l, mk_grid1d None None 4 "deg" = Ok (SGrid G1D [vec1 l] "deg" DFloat) /\ List.length l = 4 /\ nth 1 l 0%R = (-45)%R.
Proof.
  destruct (proj1 (C43_uniform_1d None None 4 "deg")) as (l & E & L & H); [unfold known_unit; tauto|]. exists l. split; [exact E|]. split; [exact L|]. rewrite H by lia.
  unfold of_rad, rad2deg. cbn. field. apply PI_neq0.
Qed.

(** C44: the placement of a grid lists the grid points in row-major order, which is the order of the flattened spectrum. *)
Theorem C44_grid_order : forall g, plain_grid g ->
  (valid_grid g -> exists s, create_source_placement g = Ok s) /\
  (forall s, create_source_placement g = Ok s -> valid_grid g /\ List.length (src_rows s) = prod_list (sg_shape g) /\
     (forall idx, in_shape (sg_shape g) idx ->
        ravel (sg_shape g) idx < prod_list (sg_shape g) /\ unravel (sg_shape g) (ravel (sg_shape g) idx) = idx /\
        nth_error (src_rows s) (ravel (sg_shape g) idx) = Some (map (fun j => nth (nth j idx 0) (axis g j) 0%R) (seq 0 (sg_ndim g)))) /\
     (forall r, r < prod_list (sg_shape g) -> in_shape (sg_shape g) (unravel (sg_shape g) r) /\ ravel (sg_shape g) (unravel (sg_shape g) r) = r)).
Proof.
  intros g P. destruct (placement_spec g P) as (H1 & H2). split; [apply H1|]. intros s E. pose proof (H2 s E) as Hr.
  split; [apply H1; eauto|]. split; [rewrite Hr; apply length_points|]. split.
  - intros idx Hi. pose proof (ravel_lt _ _ Hi) as L. split; [exact L|]. split; [now apply unravel_ravel|].
    rewrite Hr, (nth_error_nth' _ []) by (rewrite length_points; exact L). f_equal. rewrite nth_points by exact L. rewrite unravel_ravel by exact Hi. reflexivity.
  - intros r L. split; [now apply unravel_in_shape | now apply ravel_unravel].
Qed.
Example C44_example : exists s, create_source_placement (SGrid G2D [vec1 [0; 10]%R; vec1 [5; 6; 7]%R] "deg" DFloat) = Ok s /\ nth_error (src_rows s) 4 = Some [10; 6]%R.
Proof.
  set (g := SGrid G2D _ _ _). assert (P : plain_grid g) by (split; [intros a [<-|[<-|[]]]; reflexivity | reflexivity]).
  destruct (C44_grid_order g P) as (H1 & H2). destruct H1 as (s & E).
  - split; [exact P|]. split; [now right|]. intros idx Hi. cbn in Hi. destruct idx as [|i [|j [|]]]; try tauto.
    assert (Hij : i < 2 /\ j < 3) by tauto. cbn [valid_pt sg_class g]. unfold valid_ae. right. split; [reflexivity|]. cbn.
    destruct i as [|[|i]]; [| |lia]; (destruct j as [|[|[|j]]]; [| | |lia]); cbn; lra.
  - exists s. split; [exact E|]. destruct (H2 s E) as (_ & _ & H & _). destruct (H [1; 1]) as (_ & _ & R); [cbn; lia|]. exact R.
Qed.

(** C45: the two far-field grid classes define every abstract method, so construction from axes always succeeds. *)
Theorem C45_usable : forall c axes dt unit, c = G1D \/ c = G2D ->
  mk_grid_axes c axes dt unit = Ok (SGrid c (map vec1 axes) unit dt).
Proof. intros c axes dt unit [->| ->]; reflexivity. Qed.
(** Finding: NearField2DSearchGrid misspells create_refined_grid_at, so no instance can be created at all. *)
Theorem C45_near_field_defect : (forall start stop size, mk_gridnf start stop size = Raise TypeError) /\
  (forall axes dt unit, mk_grid_axes GNF axes dt unit = Raise TypeError).
Proof. split; intros; reflexivity. Qed.

(** C46: which peaks are returned. *)
Theorem C46_k_largest_peaks : forall (T : Type) (e : estimator T) (h : lheap) (f : T -> res (list R)) (A : T) (sp : list R) (k : nat) (o : options),
  let g := e_grid e in let shape := sg_shape g in let peaks := e_pf e shape sp in
  est_ok e h -> e_atom e g = Ok A -> f A = Ok sp -> List.length sp = sg_size g ->
  (forall p, In p peaks -> in_shape shape p) -> is_argsort (map (at_idx shape sp) peaks) (e_argsort e (map (at_idx shape sp) peaks)) ->
  1 <= k -> o_refine o = false ->
  let ret := if o_spectrum o then Some sp else None in
  exists e', (List.length peaks < k -> estimate e h f (Z.of_nat k) o = (Ok (Outcome false None ret), e', h)) /\
  (k <= List.length peaks -> exists est h' chosen rest,
     estimate e h f (Z.of_nat k) o = (Ok (Outcome true (Some est) ret), e', h') /\
     Permutation (chosen ++ rest) peaks /\ List.length chosen = k /\
     buf h' est = map (grid_point g) chosen /\ StronglySorted le (map (ravel shape) chosen) /\
     p_class est = p_class (e_pl e) /\ p_units est = p_units (e_pl e) /\
     forall a b, In a chosen -> In b rest -> (at_idx shape sp b <= at_idx shape sp a)%R).
Proof.
  intros T e h f A sp k o g shape peaks HE HA Hf HL HI HS Hk Ho ret.
  destruct (estimate_ok e h A f (Z.of_nat k) o HE HA) as (e' & He' & Eq). exists e'. rewrite Eq. clear Eq.
  unfold estimate_from. rewrite Hf. cbn [bind]. fold g. fold shape. rewrite HL. unfold sg_size. fold shape. rewrite Nat.eqb_refl. cbn [negb].
  fold peaks. fold ret. rewrite Ho. split.
  - intros Hlt. destruct (Z.ltb_spec (Z.of_nat (List.length peaks)) (Z.of_nat k)); [reflexivity | lia].
  - intros Hle. destruct (Z.ltb_spec (Z.of_nat (List.length peaks)) (Z.of_nat k)); [lia|].
    destruct (negb (forallb (idx_ok shape) peaks)) eqn:B.
    { apply negb_true_iff, forallb_false_exists in B as (p & Hp & B). apply HI, idx_ok_spec in Hp. congruence. }
    destruct (top_spec (e_argsort e) shape sp peaks k HS HI Hk Hle) as (chosen & rest & P1 & P2 & P3 & P4 & P5). unfold top_flat in P3. rewrite P3.
    assert (Hin : forall a, In a chosen -> in_shape shape a) by (intros a Ha; apply HI; apply (Permutation_in _ P1); apply in_or_app; now left).
    destruct (flat_rows e h (map (ravel shape) chosen) HE) as (est & h' & E1 & E2 & E3 & E4 & E5 & E6 & E7).
    { intros r Hr. apply in_map_iff in Hr as (a & <- & Ha). apply ravel_lt. apply Hin. exact Ha. }
    rewrite E1. cbn [bind]. exists est, h', chosen, rest. split; [reflexivity|]. split; [exact P1|]. split; [exact P2|]. split.
    { rewrite E6. rewrite map_map. apply map_ext_in. intros a Ha. fold g shape. rewrite unravel_ravel; [reflexivity | now apply Hin]. }
    auto.
Qed.
(** Finding: k = 0 returns every peak instead of none (argsort[-0:]). *)
Definition k0_est : estimator unit :=
  Est (SGrid G1D [vec1 [0; 1; 2]%R] "deg" DFloat) (Placement "FarField1DSourcePlacement" ["deg"%string] 0) (fun _ => Ok tt) (fun _ _ => [[1]]) (fun _ => [0]) false None.
Theorem C46_k0_returns_all_defect : exists est h',
  estimate k0_est [[[0]; [1]; [2]]]%R (fun _ => Ok [0; 1; 0]%R) 0 (Opts false false 10 3) = (Ok (Outcome true (Some est) None), k0_est, h') /\ buf h' est = [[1]]%R.
Proof. eexists _, _. split; reflexivity. Qed.
Lemma k0_valid : est_ok k0_est [[[0]; [1]; [2]]]%R.
Proof.
  split; [|split; [cbn; lia | split; [reflexivity | now left]]].
  assert (P : plain_grid (e_grid k0_est)) by (split; [intros a [<-|[]]; reflexivity | reflexivity]). split; [exact P|].
  split; [right; left; reflexivity|]. intros idx Hi. cbn in Hi. destruct idx as [|i [|]]; try tauto. assert (Hi' : i < 3) by tauto. cbn [valid_pt sg_class e_grid k0_est]. right. left. split; [reflexivity|].
  destruct i as [|[|[|i]]]; [| | |lia]; cbn; lra.
Qed.
Example C46_example : exists est h', estimate k0_est [[[0]; [1]; [2]]]%R (fun _ => Ok [0; 1; 0]%R) 1 (Opts true false 10 3) = (Ok (Outcome true (Some est) (Some [0; 1; 0]%R)), k0_est, h') /\ buf h' est = [[1]]%R /\ est_ok k0_est [[[0]; [1]; [2]]]%R
  /\ is_argsort (map (at_idx [3] [0; 1; 0]%R) [[1]]) [0].
Proof.
  eexists _, _. split; [reflexivity|]. split; [reflexivity|]. split; [exact k0_valid|]. split; [reflexivity | constructor; [constructor | constructor]].
Qed.

(** C47: the built-in peak finder on arrays of two or more dimensions. *)
Theorem C47_local_maxima : forall (find_peaks : list R -> list nat) (shape : list nat) (x : list R), 2 <= List.length shape ->
  let peaks := find_peaks_simple find_peaks shape x in
  (forall idx, In idx peaks <-> in_shape shape idx /\
     forall idx', in_shape shape idx' -> adjacent idx idx' -> (at_idx shape x idx' <= at_idx shape x idx)%R) /\
  StronglySorted lt (map (ravel shape) peaks) /\
  (0 < prod_list shape -> exists idx, In idx peaks /\ forall idx', in_shape shape idx' -> (at_idx shape x idx' <= at_idx shape x idx)%R).
Proof.
  intros fp shape x HL peaks. destruct (find_peaks_nd fp shape x ltac:(lia)) as (H1 & H2). split; [exact H1|]. split; [exact H2|]. intros Hp.
  destruct (exists_max (at_idx shape x) (all_indices shape)) as (m & Hm & Hx).
  { intros E. apply (f_equal (@List.length _)) in E. rewrite length_all_indices in E. cbn in E. lia. }
  exists m. apply in_all_indices in Hm. assert (Hx' : forall idx', in_shape shape idx' -> (at_idx shape x idx' <= at_idx shape x m)%R) by (intros i Hi; apply Hx; now apply in_all_indices).
  split; [|exact Hx']. apply H1. split; [exact Hm|]. intros i Hi _. now apply Hx'.
Qed.
(** 1-D spectra are handed to the external peak finder *)
Theorem C47_delegates_1d : forall find_peaks n x, find_peaks_simple find_peaks [n] x = map (fun i => [i]) (find_peaks x).
Proof. reflexivity. Qed.
Example C47_example : In [1; 0] (find_peaks_simple (fun _ => []) [2; 2] [0; 1; 5; 2]%R).
Proof.
  apply (C47_local_maxima (fun _ => []) [2; 2] [0; 1; 5; 2]%R); [cbn; lia|]. split; [cbn; lia|]. intros idx' H _.
  destruct idx' as [|i [|j [|]]]; cbn in H; try tauto. assert (Hij : i < 2 /\ j < 2) by tauto. destruct i as [|[|i]]; [| |lia]; (destruct j as [|[|j]]; [| |lia]); unfold at_idx; cbn; lra.
Qed.

(** C48: refinement. *)
Theorem C48_refinement : forall (T : Type) (e : estimator T) (h : lheap) (f : T -> res (list R)) (F : list R -> R) (k density : Z) (n_iters : nat) (ret_sp : bool)
    (est0 : placement) (sp : option (list R)) (e0 : estimator T) (h0 : lheap),
  let g := e_grid e in
  est_ok e h -> uniform_grid g -> sg_dt g = DFloat -> spectrum_of e f F -> (1 <= density)%Z ->
  estimate e h f k (Opts ret_sp false density n_iters) = (Ok (Outcome true (Some est0) sp), e0, h0) ->
  exists est h', estimate e h f k (Opts ret_sp true density n_iters) = (Ok (Outcome true (Some est) sp), e0, h') /\
    List.length (buf h' est) = List.length (buf h0 est0) /\
    forall i, i < List.length (buf h0 est0) -> exists idx q,
      nth_error (buf h0 est0) i = Some (grid_point g idx) /\ in_shape (sg_shape g) idx /\ nth_error (buf h' est) i = Some q /\
      (F (grid_point g idx) <= F q)%R /\ List.length q = sg_ndim g /\
      forall j, j < sg_ndim g ->
        let a := nth (nth j idx 0 - 1) (axis g j) 0%R in let b := nth (Nat.min (List.length (axis g j) - 1) (nth j idx 0 + 1)) (axis g j) 0%R in
        (Rmin a b <= nth j q 0 <= Rmax a b)%R.
Proof.
  intros T e h f F k density n ret_sp est0 sp e0 h0 g HE HU HD HF Hd H0.
  destruct (HF g (proj1 HE) eq_refl eq_refl) as (A & HA & HfA).
  destruct (estimate_ok e h A f k (Opts ret_sp false density n) HE HA) as (e1 & He1 & Eq1). rewrite H0 in Eq1.
  assert (Eq2 : estimate e h f k (Opts ret_sp true density n) = match estimate_from e A h f k (Opts ret_sp true density n) with Raise x => (Raise x, e0, h) | Ok (oc, h') => (Ok oc, e0, h') end).
  { clear -H0 HE HA. rewrite estimate_eq in H0 |- *. destruct (get_atom_matrix e None) as (r & e1) eqn:G. destruct (get_atom_spec e h A HE HA) as [G'|G'].
    - rewrite G in G'. injection G' as -> ->. destruct (estimate_from e A h f k (Opts ret_sp false density n)) as [(?, ?)|]; injection H0 as _ <-; reflexivity.
    - rewrite G in G'. injection G' as -> ->. rewrite estimate_from_cache in *. destruct (estimate_from e A h f k (Opts ret_sp false density n)) as [(?, ?)|]; injection H0 as _ <-; reflexivity. }
  rewrite Eq2. clear Eq2.
  destruct (estimate_from e A h f k (Opts ret_sp false density n)) as [(oc, h1)|x] eqn:EF; [|discriminate]. injection Eq1 as <- _ <-.
  revert EF. unfold estimate_from. rewrite HfA. cbn [bind]. fold g. destruct (negb (Nat.eqb _ _)); [discriminate|].
  set (spec := map F (map (grid_point g) (all_indices (sg_shape g)))) in *. set (peaks := e_pf e (sg_shape g) spec). cbn [o_refine o_spectrum o_density o_iters].
  destruct (Z.ltb _ _); [discriminate|]. destruct (negb (forallb (idx_ok (sg_shape g)) peaks)) eqn:B; [discriminate|].
  set (flat := sort_by _ _). intros EF. apply bind_Ok_inv in EF as ((it, h1) & E1 & EF).
  assert (Hpk : forall p, In p peaks -> in_shape (sg_shape g) p).
  { intros p Hp. apply idx_ok_spec. apply negb_false_iff in B. rewrite forallb_forall in B. now apply B. }
  assert (Hb : List.length (buf h (e_pl e)) = sg_size g) by (rewrite (proj1 (proj2 (proj2 HE))); apply length_points).
  assert (Hflat : forall r, In r flat -> r < sg_size g).
  { intros r Hr. unfold getitem in E1. apply bind_Ok_inv in E1 as (sel & Es & _). rewrite Hb in Es.
    destruct (Nat.lt_ge_cases r (sg_size g)); [assumption|]. exfalso.
    rewrite key_rows_list_err in Es; [discriminate|]. exists (Z.of_nat r). split; [now apply in_map | lia]. }
  destruct (flat_rows e h flat HE Hflat) as (est & h2 & G1 & _ & _ & G4 & G5 & G6 & G7). rewrite G1 in E1. injection E1 as <- <-. injection EF as <- <- <-.
  destruct (refine_inv e f F density HF Hd HD (proj1 HE) HU est h2 flat n Hflat G6) as (h' & R1 & R2 & R3 & R4 & R5).
  rewrite G1. cbn [bind]. rewrite R1. cbn [bind]. exists est, h'. split; [reflexivity|].
  split; [rewrite R3, G6, map_length; reflexivity|]. rewrite G6, map_length. intros i Hi.
  destruct (R5 i Hi) as (q & Q1 & (Q2 & Q2') & Q3). exists (unravel (sg_shape g) (nth i flat 0)), q. split.
  { rewrite (nth_error_nth' _ []) by (now rewrite map_length). f_equal. rewrite (nth_indep _ [] (grid_point g (unravel (sg_shape g) 0))) by (now rewrite map_length).
    exact (map_nth (fun r => grid_point g (unravel (sg_shape g) r)) flat 0 i). }
  split; [apply unravel_in_shape; apply Hflat; now apply nth_In|]. split; [exact Q1|]. split; [exact Q3|]. split; [exact Q2|]. exact Q2'.
Qed.

(** the hypotheses are met by an estimator on the grid 0, 1, 2 degrees with spectrum -(x - 1.3)^2 *)
Definition bump (p : list R) : R := (- ((nth 0 p 0 - 1.3) * (nth 0 p 0 - 1.3)))%R.
Definition ref_est : estimator (list (list R)) :=
  Est (SGrid G1D [vec1 [0; 1; 2]%R] "deg" DFloat) (Placement "FarField1DSourcePlacement" ["deg"%string] 0)
    (fun g => Ok (map (grid_point g) (all_indices (sg_shape g)))) (fun _ _ => [[1]]) (fun _ => [0]) true None.
Example C48_example : exists est h', let e0 := set_cache ref_est (Some [[0]; [1]; [2]]%R) in
  estimate ref_est [[[0]; [1]; [2]]]%R (fun A => Ok (map bump A)) 1 (Opts false true 10 3) = (Ok (Outcome true (Some est) None), e0, h') /\ exists x, buf h' est = [[x]] /\ (0 <= x <= 2)%R /\ ((x - 1.3) * (x - 1.3) <= 0.09)%R.
Proof.
  destruct (C48_refinement _ ref_est [[[0]; [1]; [2]]]%R (fun A => Ok (map bump A)) bump 1 10 3 false
    (Placement "FarField1DSourcePlacement" ["deg"%string] 1) None (set_cache ref_est (Some [[0]; [1]; [2]]%R)) [[[0]; [1]; [2]]; [[1]]]%R) as (est & h' & E & L & H).
  - destruct k0_valid as (V & _). split; [exact V|]. split; [cbn; lia|]. split; [reflexivity | now left].
  - intros [|j] Hj; [|cbn in Hj; lia]. exists 0%R, 1%R. intros i Hi. cbn in Hi. destruct i as [|[|[|i]]]; [| | |lia]; cbn; lra.
  - reflexivity.
  - intros g _ _ _. eexists. split; reflexivity.
  - lia.
  - reflexivity.
  - exists est, h'. split; [exact E|]. destruct (H 0 ltac:(cbn; lia)) as (idx & q & H1 & H2 & H3 & H4 & H5 & H6). cbn [buf p_addr nth nth_error] in H1.
    destruct idx as [|i [|]]; cbn in H2; try tauto. injection H1 as H1. assert (Hi : i = 1) by (destruct i as [|[|[|i]]]; cbn in H1; [lra | reflexivity | lra | lia]). subst i.
    cbn in H5. destruct q as [|x [|]]; try discriminate H5. exists x. split.
    + cbn [buf p_addr nth List.length] in L. destruct (buf h' est) as [|a [|]]; try discriminate L. cbn in H3. injection H3 as ->. reflexivity.
    + specialize (H6 0 ltac:(cbn; lia)). cbn in H6. unfold bump in H4. cbn in H4. unfold Rmin, Rmax in H6. destruct (Rle_dec 0 2); lra.
Qed.

(** C49: caching. *)
Theorem C49_caching_transparent : forall (T : Type) (g : sgrid) (pl : placement) (atom : sgrid -> res T) pf argsort (h : lheap) calls,
  let cached := Est g pl atom pf argsort true None in let plain := Est g pl atom pf argsort false None in
  exists rs h' e1 e2, estimate_all cached h calls = (rs, e1, h') /\ estimate_all plain h calls = (rs, e2, h') /\
    (e_cache e1 = None \/ exists A, e_cache e1 = Some A /\ atom g = Ok A).
Proof.
  intros T g pl atom pf argsort h calls cached plain.
  destruct (estimate_all_cfg calls cached plain h) as (rs & h' & e1 & e2 & E1 & E2 & S1 & S2 & K1 & K2); [repeat split | now left | now left |].
  exists rs, h', e1, e2. split; [exact E1|]. split; [exact E2|]. destruct S1 as (S1 & _ & S3 & _). destruct K1 as [K|(A & K & KA)]; [now left|]. right. exists A.
  split; [exact K|]. rewrite <- S1, <- S3 in KA. exact KA.
Qed.
(** the cache is really filled by the first successful call *)
Theorem C49_cache_filled : forall (T : Type) (g : sgrid) (pl : placement) (atom : sgrid -> res T) pf argsort (h : lheap) f k o A r e' h',
  atom g = Ok A -> estimate (Est g pl atom pf argsort true None) h f k o = (r, e', h') -> e_cache e' = Some A.
Proof.
  intros T g pl atom pf argsort h f k o A r e' h' HA. rewrite estimate_eq. unfold get_atom_matrix. cbn [e_cache e_atom e_grid e_caching]. rewrite HA.
  destruct (estimate_from _ _ _ _ _ _) as [(?, ?)|]; intros H; injection H as _ <- _; reflexivity.
Qed.

(** C50: over any history of calls no existing location buffer changes: neither the grid's nor those of earlier estimates. *)
Theorem C50_no_interference : forall (T : Type) (e : estimator T) (h : lheap) calls1 calls2,
  let '(rs1, e1, h1) := estimate_all e h calls1 in
  let '(rs2, e2, h2) := estimate_all e1 h1 calls2 in
  (p_addr (e_pl e) < List.length h -> buf h1 (e_pl e) = buf h (e_pl e) /\ buf h2 (e_pl e) = buf h (e_pl e)) /\
  (forall oc est, In (Ok oc) rs1 -> oc_estimates oc = Some est -> buf h2 est = buf h1 est) /\
  (forall oc1 oc2 est1 est2, In (Ok oc1) rs1 -> In (Ok oc2) rs2 -> oc_estimates oc1 = Some est1 -> oc_estimates oc2 = Some est2 -> p_addr est1 <> p_addr est2).
Proof.
  intros T e h calls1 calls2. destruct (estimate_all e h calls1) as ((rs1, e1), h1) eqn:E1. destruct (estimate_all e1 h1 calls2) as ((rs2, e2), h2) eqn:E2.
  apply estimate_all_heap in E1 as ((X1 & X2) & Y). apply estimate_all_heap in E2 as ((X3 & X4) & Y'). unfold buf. split; [|split].
  - intros H. split; [now apply X2|]. rewrite X4 by lia. now apply X2.
  - intros oc est Hi He. specialize (Y oc est Hi He). apply X4. lia.
  - intros oc1 oc2 est1 est2 H1 H2 He1 He2. specialize (Y _ _ H1 He1). specialize (Y' _ _ H2 He2). lia.
Qed.
(** Finding: for a grid given by integer axes the refined value is truncated when it is stored:
    the maximum over the refined points 0, 0.5, 1, 1.5, 2 is at 1.5 but the stored estimate is 1. *)
Definition int_est : estimator nat :=
  Est (SGrid G1D [vec1 [0; 1; 2]%R] "deg" DInt) (Placement "FarField1DSourcePlacement" ["deg"%string] 0) (fun g => Ok (sg_size g)) (fun _ _ => [[1]]) (fun _ => [0]) false None.
Definition int_spectrum (n : nat) : res (list R) := Ok (if Nat.eqb n 3 then [0; 1; 0] else [0; 0; 0; 1; 0])%R.
Lemma trunc_3_2 : trunc (0 + INR 3 * ((2 - 0) / INR 4)) = 1%R.
Proof.
  replace (0 + INR 3 * ((2 - 0) / INR 4))%R with (3 / 2)%R by (cbn; field). unfold trunc, Rleb. destruct (Rle_dec 0 (3 / 2)); [|lra].
  unfold Int_part. rewrite <- (tech_up (3 / 2) 2) by lra. reflexivity.
Qed.
Lemma argmax_ex : argmax [0; 0; 0; 1; 0]%R = Ok 3.
Proof. unfold argmax, argmax_aux, Rltb. repeat (destruct (Rlt_dec _ _); try lra). reflexivity. Qed.
Theorem C50_int_grid_truncates_defect : exists est h',
  estimate int_est [[[0]; [1]; [2]]]%R int_spectrum 1 (Opts false true 2 1) = (Ok (Outcome true (Some est) None), int_est, h') /\ buf h' est = [[1]]%R.
Proof.
  set (est := Placement "FarField1DSourcePlacement" ["deg"%string] 1). set (h1 := [[[0%R]; [1%R]; [2%R]]; [[1%R]]]). set (l := linspace 0 2 5).
  set (g2 := SGrid G1D [vec1 l] "deg" DFloat).
  assert (E1 : estimate int_est [[[0]; [1]; [2]]]%R int_spectrum 1 (Opts false true 2 1) =
    match (let! h2 := refine_estimates int_est int_spectrum h1 est [1] 2 1 in Ok (Outcome true (Some est) None, h2)) with
    | Raise x => (Raise x, int_est, [[[0]; [1]; [2]]]%R) | Ok (oc, h') => (Ok oc, int_est, h') end) by (rewrite estimate_eq; reflexivity).
  assert (E2 : refine_estimates int_est int_spectrum h1 est [1] 2 1 = let! st := refine_loop int_est int_spectrum 2 1 est (h1, [g2]) in Ok (fst st)) by reflexivity.
  assert (E3 : refine_loop int_est int_spectrum 2 1 est (h1, [g2]) = let! st := refine_one int_est int_spectrum 2 true est 0 (h1, [g2]) in Ok st).
  { unfold refine_loop. cbn [foldM seq snd List.length Nat.eqb Nat.sub]. destruct (refine_one _ _ _ _ _ _ _); reflexivity. }
  assert (ES : create_source_placement g2 = Ok (FF1 l "deg")).
  { cbn [create_source_placement sg_class sg_axes sg_unit g2]. apply mk_FF1_ok. split; [cbn; lia|]. split; [right; left; reflexivity|]. split; [|reflexivity].
    apply Forall_forall. intros x Hx. apply (In_nth _ _ 0%R) in Hx as (i & Hi & <-). cbn [vec1 nd_data] in *. unfold l in *. rewrite linspace_length in Hi.
    pose proof (linspace_between 0 2 5 i Hi) as B. right. left. split; [reflexivity|]. unfold Rmin, Rmax in B. destruct (Rle_dec 0 2); lra. }
  assert (E4 : refine_one int_est int_spectrum 2 true est 0 (h1, [g2]) =
    let! i_max := argmax [0; 0; 0; 1; 0]%R in let! s := create_source_placement g2 in
    match nth_error (src_rows s) i_max with None => Raise IndexError | Some row => Ok (set_location h1 est 0 (cast DInt row), [g2]) end) by reflexivity.
  rewrite E1, E2, E3, E4, argmax_ex. cbn [bind]. rewrite ES. cbn [bind].
  change (nth_error (src_rows (FF1 l "deg")) 3) with (Some [0 + INR 3 * ((2 - 0) / INR 4)]%R).
  cbn [cast map]. rewrite trunc_3_2. cbn [bind fst]. exists est, (set_location h1 est 0 [1%R]). split; reflexivity.
Qed.

(** C51 *)
Theorem C51_noise_subspace : forall (eigh : cmat -> res (list R * cmat)) (Rm : cmat) (M k : nat) (w : list R) (E : cmat),
  eigh Rm = Ok (w, E) -> nr E = M -> nc E = M -> 1 <= k -> k <= M ->
  exists En, get_noise_subspace eigh Rm (Z.of_nat k) = Ok En /\ nr En = M /\ nc En = M - k /\
    (forall i j, i < M -> j < M - k -> ent En i j = ent E i j) /\
    (List.length w = M -> StronglySorted Rle w -> forall p q, p < M - k -> M - k <= q < M -> (nth p w 0 <= nth q w 0)%R).
Proof.
  intros eigh Rm M k w E H Hr Hc Hk1 Hk2. unfold get_noise_subspace. rewrite H. cbn [bind]. eexists. split; [reflexivity|].
  unfold col_slice, slice_bounds. rewrite Hc, clip_neg by exact Hk1. cbn [nr nc ent]. split; [exact Hr|]. split; [lia|]. split; [reflexivity|].
  intros HL HS p q Hp Hq. rewrite <- (firstn_skipn (M - k) w) in HS. pose proof (sorted_app _ _ _ HS) as HA.
  apply HA.
  - replace (nth p w 0%R) with (nth p (firstn (M - k) w) 0%R) by (now apply nth_firstn_eq || (rewrite <- (firstn_skipn (M - k) w) at 2; rewrite app_nth1; [reflexivity | rewrite firstn_length; lia])).
    apply nth_In. rewrite firstn_length. lia.
  - replace (nth q w 0%R) with (nth (q - (M - k)) (skipn (M - k) w) 0%R).
    + apply nth_In. rewrite skipn_length. lia.
    + rewrite <- (firstn_skipn (M - k) w) at 2. rewrite app_nth2; rewrite firstn_length; [f_equal; lia | lia].
Qed.
Theorem C51_guard : forall M k : nat, ensure_n_resolvable_sources (Z.of_nat k) (Z.of_nat M - 1) = if Nat.ltb k M then Ok tt else Raise ValueError.
Proof. intros M k. unfold ensure_n_resolvable_sources. rewrite Z.gtb_ltb. destruct (Z.ltb_spec (Z.of_nat M - 1) (Z.of_nat k)); destruct (Nat.ltb_spec k M); reflexivity || lia. Qed.
(** Finding: for k = 0 the noise subspace is empty instead of the whole space. *)
Theorem C51_k0_empty_defect : forall eigh Rm w E, eigh Rm = Ok (w, E) -> exists En, get_noise_subspace eigh Rm 0 = Ok En /\ nc En = 0.
Proof. intros eigh Rm w E H. unfold get_noise_subspace. rewrite H. eexists. split; [reflexivity|]. cbn. lia. Qed.
Example C51_example : exists En, get_noise_subspace (fun _ => Ok ([1; 2; 3]%R, Mat 3 3 (fun i j => if Nat.eqb i j then RtoC 1 else RtoC 0))) (Mat 3 3 (fun _ _ => RtoC 0)) 1 = Ok En /\ nc En = 2.
Proof. eexists. split; reflexivity. Qed.

Print Assumptions C42_refined_axes.
Print Assumptions C44_grid_order.
Print Assumptions C46_k_largest_peaks.
Print Assumptions C47_local_maxima.
Print Assumptions C48_refinement.
Print Assumptions C49_caching_transparent.
Print Assumptions C50_no_interference.
Print Assumptions C51_noise_subspace.
