(** Proofs about search grids. *)
From Coq Require Import Sorting.Sorted Sorting.Permutation.
From Verif Require Import Base_Np Base_Trig S_utils M_utils P_utils M_sources M_array M_designs S_sources P_sources M_grid M_core S_grid.
Open Scope nat_scope.

Lemma list_eq_map_nth {A B} (f : A -> B) (l : list A) (l' : list B) da db :
  List.length l' = List.length l -> (forall i, i < List.length l -> nth i l' db = f (nth i l da)) -> l' = map f l.
Proof.
  revert l'. induction l as [|a l IH]; intros [|b l'] HL H; cbn [List.length] in *; try lia; [reflexivity|].
  cbn [map]. f_equal; [exact (H 0 ltac:(lia))|]. apply IH; [lia|]. intros i Hi. exact (H (S i) ltac:(lia)).
Qed.
Lemma plain_shape g : plain_grid g -> sg_shape g = map (@List.length R) (map nd_data (sg_axes g)).
Proof.
  intros (H & _). unfold sg_shape. rewrite map_map. apply map_ext_in. intros a Ha. unfold ax_len. rewrite (H a Ha). reflexivity.
Qed.
Lemma axis_nth g j : j < sg_ndim g -> nth j (map nd_data (sg_axes g)) [] = axis g j.
Proof.
  intros H. unfold axis. rewrite <- (map_nth nd_data). apply nth_indep. rewrite map_length. exact H.
Qed.
Lemma nth_grid_point g idx j : j < sg_ndim g -> nth j (grid_point g idx) 0%R = nth (nth j idx 0) (axis g j) 0%R.
Proof. intros H. unfold grid_point. rewrite (nth_map_seq (fun j => nth (nth j idx 0) (axis g j) 0%R)) by exact H. reflexivity. Qed.
Lemma length_grid_point g idx : List.length (grid_point g idx) = sg_ndim g.
Proof. unfold grid_point. now rewrite map_length, seq_length. Qed.
Lemma shape_axis g j : plain_grid g -> j < sg_ndim g -> nth j (sg_shape g) 0 = List.length (axis g j).
Proof.
  intros P H. rewrite (plain_shape g P). rewrite <- (axis_nth g j H). change 0 with (@List.length R []) at 1. apply map_nth.
Qed.

Lemma cartesian_points g rows : plain_grid g -> cartesian 0%R (map nd_data (sg_axes g)) = Ok rows ->
  rows = map (grid_point g) (all_indices (sg_shape g)).
Proof.
  intros P E. destruct (cartesian_spec _ _ _ E) as (HL & HR). rewrite <- (plain_shape g P) in HL, HR.
  rewrite map_length in HR. fold (sg_ndim g) in HR.
  apply (list_eq_map_nth (grid_point g) _ rows [] []); [now rewrite length_all_indices|].
  intros i Hi. rewrite length_all_indices in Hi. rewrite nth_all_indices by exact Hi. destruct (HR i Hi) as (H1 & H2).
  apply (nth_ext _ _ 0%R 0%R); [rewrite length_grid_point; exact H1|]. rewrite H1. intros a Ha.
  rewrite nth_grid_point by exact Ha. rewrite H2 by exact Ha. now rewrite axis_nth.
Qed.

Definition pair_of (r : list R) : R * R := (nth 0 r 0%R, nth 1 r 0%R).
Lemma concat_rows2 rows : (forall r, In r rows -> List.length r = 2) ->
  Nd [List.length rows; 2] (List.concat rows) = rows2 (map pair_of rows).
Proof.
  intros H. unfold rows2. rewrite map_length. f_equal. induction rows as [|r rows IH]; [reflexivity|].
  cbn [List.concat map flat_map]. rewrite IH by (intros; apply H; now right).
  pose proof (H r (or_introl eq_refl)) as L. destruct r as [|a [|b [|c r]]]; try discriminate L. reflexivity.
Qed.
Lemma pairs_rows rows : (forall r, In r rows -> List.length r = 2) ->
  map (fun p : R * R => [fst p; snd p]) (map pair_of rows) = rows.
Proof.
  intros H. induction rows as [|r rows IH]; [reflexivity|]. cbn [map]. rewrite IH by (intros; apply H; now right).
  pose proof (H r (or_introl eq_refl)) as L. destruct r as [|a [|b [|c r]]]; try discriminate L. reflexivity.
Qed.

Lemma rows2_back l : map (fun i => (nth (i * 2) (nd_data (rows2 l)) 0%R, nth (i * 2 + 1) (nd_data (rows2 l)) 0%R)) (seq 0 (nth 0 (nd_shape (rows2 l)) 0)) = l.
Proof.
  etransitivity; [|exact (nd_rows2 l)]. unfold nd_mat, rows2. cbn [nd_shape nd_data nr ent nth]. apply map_ext. intros i. rewrite Nat.add_0_r. reflexivity.
Qed.
Lemma placement_spec g : plain_grid g ->
  (valid_grid g <-> exists s, create_source_placement g = Ok s) /\
  (forall s, create_source_placement g = Ok s -> src_rows s = map (grid_point g) (all_indices (sg_shape g))).
Proof.
  intros P. pose proof P as (PA & PN). unfold create_source_placement, valid_grid.
  destruct (sg_class g) eqn:Ec.
  - unfold sg_ndim in PN. destruct (sg_axes g) as [|a [|b axs]] eqn:Ea; try discriminate PN.
    assert (Sa : nd_shape a = [List.length (nd_data a)]) by (apply PA; now left).
    assert (Hs : sg_shape g = [List.length (nd_data a)]) by (unfold sg_shape; rewrite Ea; cbn [map]; unfold ax_len; now rewrite Sa).
    assert (Hx : axis g 0 = nd_data a) by (unfold axis; now rewrite Ea).
    assert (Hp : forall i, grid_point g [i] = [nth i (nd_data a) 0%R]).
    { intros i. unfold grid_point, sg_ndim. rewrite Ea. cbn [List.length seq map]. rewrite Hx. reflexivity. }
    assert (Hr : map (grid_point g) (all_indices (sg_shape g)) = map (fun x => [x]) (nd_data a)).
    { rewrite Hs. cbn [all_indices]. symmetry. replace (flat_map (fun i => map (cons i) [[]]) (seq 0 (List.length (nd_data a)))) with (map (fun i => [i]) (seq 0 (List.length (nd_data a)))) by (induction (seq 0 (List.length (nd_data a))) as [|i l IH]; [reflexivity | cbn [map flat_map app]; now f_equal]).
      rewrite map_map. rewrite (map_ext _ _ Hp). rewrite <- (map_map (fun i => nth i (nd_data a) 0%R) (fun x => [x])). f_equal.
      symmetry. apply (nth_ext _ _ 0%R 0%R); [now rewrite map_length, seq_length|]. rewrite map_length, seq_length. intros n Hn. now rewrite nth_map_seq. }
    split.
    + cbn [unit_ok valid_pt]. split.
      * intros (_ & U & V). exists (FF1 (nd_data a) (sg_unit g)). apply mk_FF1_ok. split; [unfold nd_ndim; rewrite Sa; cbn; lia|]. split; [exact U|]. split; [|reflexivity].
        apply Forall_forall. intros x Hx'. apply (In_nth _ _ 0%R) in Hx' as (i & Hi & <-). specialize (V [i]). rewrite Hp in V. apply V. rewrite Hs. cbn. tauto.
      * intros (s & E). apply mk_FF1_ok in E as (_ & U & V & ->). split; [exact P|]. split; [exact U|].
        intros idx Hi. rewrite Hs in Hi. destruct idx as [|i [|]]; cbn in Hi; try tauto. rewrite Hp. cbn [nth]. rewrite Forall_forall in V. apply V. apply nth_In. tauto.
    + intros s E. apply mk_FF1_ok in E as (_ & _ & _ & ->). rewrite Hr. reflexivity.
  - destruct (proj2 (cartesian_total 0%R (map nd_data (sg_axes g)))) as (rows & E).
    { unfold sg_ndim in PN. destruct (sg_axes g); discriminate. }
    rewrite E. cbn [bind]. pose proof (cartesian_points g rows P E) as Er. rewrite PN.
    assert (Hl : forall r, In r rows -> List.length r = 2).
    { rewrite Er. intros r Hr. apply in_map_iff in Hr as (idx & <- & _). now rewrite length_grid_point. }
    rewrite (concat_rows2 rows Hl). cbn [unit_ok valid_pt]. split.
    + split.
      * intros (_ & U & V). eexists. apply mk_FF2_rows; [exact U|]. apply Forall_forall. intros p Hp. apply in_map_iff in Hp as (r & <- & Hr).
        rewrite Er in Hr. apply in_map_iff in Hr as (idx & <- & Hi). apply V. now apply in_all_indices.
      * intros (s & Es). assert (U : sg_unit g = "rad"%string \/ sg_unit g = "deg"%string) by (apply mk_FF2_ok in Es; exact (proj1 (proj2 (proj2 Es)))).
        split; [exact P|]. split; [exact U|].
        apply mk_FF2_ok in Es as (_ & _ & _ & l & El & Fl & _).
        assert (Hll : l = map pair_of rows).
        { rewrite El. apply rows2_back. }
        rewrite Hll in Fl. rewrite Forall_forall in Fl. intros idx Hi. apply (Fl (pair_of (grid_point g idx))). apply in_map. rewrite Er. apply in_map. now apply in_all_indices.
    + intros s Es. apply mk_FF2_ok in Es as (_ & _ & _ & l & El & Fl & ->).
      assert (Hll : l = map pair_of rows).
      { rewrite El. apply rows2_back. }
      cbn [src_rows]. rewrite Hll, pairs_rows by exact Hl. exact Er.
  - destruct (proj2 (cartesian_total 0%R (map nd_data (sg_axes g)))) as (rows & E).
    { unfold sg_ndim in PN. destruct (sg_axes g); discriminate. }
    rewrite E. cbn [bind]. pose proof (cartesian_points g rows P E) as Er. rewrite PN.
    assert (Hl : forall r, In r rows -> List.length r = 2).
    { rewrite Er. intros r Hr. apply in_map_iff in Hr as (idx & <- & _). now rewrite length_grid_point. }
    rewrite (concat_rows2 rows Hl), mk_NF2_rows. cbn [unit_ok valid_pt]. split.
    + split; [intros _; eexists; reflexivity | intros _; split; [exact P|]; split; [exact I | intros; exact I]].
    + intros s Es. injection Es as <-. cbn [src_rows]. rewrite pairs_rows by exact Hl. exact Er.
Qed.
Lemma length_points g : List.length (map (grid_point g) (all_indices (sg_shape g))) = sg_size g.
Proof. now rewrite map_length, length_all_indices. Qed.
Lemma nth_points g r : r < sg_size g -> nth r (map (grid_point g) (all_indices (sg_shape g))) [] = grid_point g (unravel (sg_shape g) r).
Proof.
  intros H. rewrite (nth_indep _ [] (grid_point g [])) by (now rewrite length_points). rewrite map_nth. f_equal. now apply nth_all_indices.
Qed.

(** *** refinement *)
Definition lbi (c span : Z) : nat := Z.to_nat (Z.max 0 (c - span)).
Definition ubi (n : nat) (c span : Z) : nat := Z.to_nat (Z.min (Z.of_nat n - 1) (c + span)).
Lemma linspace_length a b n : List.length (linspace a b n) = n.
Proof. unfold linspace. now rewrite map_length, seq_length. Qed.
Lemma linspace_nth a b n i : i < n -> nth i (linspace a b n) 0%R = (a + INR i * ((b - a) / INR (n - 1)))%R.
Proof. intros H. unfold linspace. now rewrite nth_map_seq. Qed.
Lemma py_get_nat l i : i < List.length l -> py_get l (Z.of_nat i) = Ok (nth i l 0%R).
Proof.
  intros H. unfold py_get, norm_index. destruct (Z.ltb_spec (Z.of_nat i) 0); [lia|]. destruct (Z.ltb_spec (Z.of_nat i) (Z.of_nat (List.length l))); [|lia].
  now rewrite Nat2Z.id.
Qed.
Lemma refine_axis_eq l c density span : (1 <= density)%Z -> (1 <= span)%Z -> (0 <= c < Z.of_nat (List.length l))%Z ->
  let lb := lbi c span in let ub := ubi (List.length l) c span in
  lb <= Z.to_nat c /\ Z.to_nat c <= ub /\ ub < List.length l /\
  refine_axis l c density span = Ok (linspace (nth lb l 0%R) (nth ub l 0%R) ((ub - lb) * Z.to_nat density + 1)).
Proof.
  intros Hd Hs Hc. unfold lbi, ubi. cbv zeta. split; [lia|]. split; [lia|]. split; [lia|].
  unfold refine_axis. cbv zeta.
  pose proof (py_get_nat l (Z.to_nat (Z.max 0 (c - span))) ltac:(lia)) as G1. rewrite Z2Nat.id in G1 by lia. rewrite G1. cbn [bind].
  pose proof (py_get_nat l (Z.to_nat (Z.min (Z.of_nat (List.length l) - 1) (c + span))) ltac:(lia)) as G2. rewrite Z2Nat.id in G2 by lia. rewrite G2. cbn [bind].
  unfold linspace_z.
  destruct (Z.ltb_spec ((Z.min (Z.of_nat (List.length l) - 1) (c + span) - Z.max 0 (c - span)) * density + 1) 0); [nia|].
  do 2 f_equal. nia.
Qed.
Lemma linspace_evenly a b n : evenly (linspace a b n).
Proof. exists a, ((b - a) / INR (n - 1))%R. intros i Hi. rewrite linspace_length in Hi. now apply linspace_nth. Qed.
Lemma linspace_between a b n i : i < n -> (Rmin a b <= nth i (linspace a b n) 0 <= Rmax a b)%R.
Proof.
  intros H. rewrite linspace_nth by exact H.
  destruct (Nat.eq_dec n 1) as [->|N].
  - replace i with 0 by lia. cbn [INR]. rewrite Rmult_0_l, Rplus_0_r. split; [apply Rmin_l | apply Rmax_l].
  - assert (Hn : (0 < INR (n - 1))%R) by (apply lt_0_INR; lia). set (t := (INR i / INR (n - 1))%R).
    assert (Ht : (0 <= t <= 1)%R).
    { unfold t. split; [apply Rmult_le_pos; [apply pos_INR | left; now apply Rinv_0_lt_compat]|].
      apply (Rmult_le_reg_r (INR (n - 1))); [exact Hn|]. unfold Rdiv. rewrite Rmult_assoc, Rinv_l, Rmult_1_r, Rmult_1_l by lra. apply le_INR. lia. }
    replace (a + INR i * ((b - a) / INR (n - 1)))%R with (a + t * (b - a))%R by (unfold t; field; lra).
    unfold Rmin, Rmax. destruct (Rle_dec a b); nra.
Qed.
Lemma refined_contains l c density lb ub : evenly l -> lb <= c -> c <= ub -> ub < List.length l -> 1 <= density ->
  nth ((c - lb) * density) (linspace (nth lb l 0%R) (nth ub l 0%R) ((ub - lb) * density + 1)) 0%R = nth c l 0%R.
Proof.
  intros (s & d & H) H1 H2 H3 H4. rewrite linspace_nth by nia. rewrite !H by lia.
  rewrite Nat.add_sub.
  destruct (Nat.eq_dec ub lb) as [->|N].
  - replace c with lb by lia. rewrite Nat.sub_diag. cbn [Nat.mul INR]. lra.
  - rewrite !mult_INR, !minus_INR by lia.
    assert (0 < INR density)%R by (apply lt_0_INR; lia). assert (INR lb < INR ub)%R by (apply lt_INR; lia). field. lra.
Qed.

(** refinement of a whole grid at a multi-index *)
Lemma mapM_ok {A B} (f : A -> res B) (g : A -> B) l : (forall a, In a l -> f a = Ok (g a)) -> mapM f l = Ok (map g l).
Proof. induction l as [|a l IH]; intros H; cbn [mapM map]; [reflexivity|]. rewrite H by (now left). cbn [bind]. rewrite IH by (intros; apply H; now right). reflexivity. Qed.
Definition ref_ax (density span : Z) (lc : ndarr R * Z) : list R :=
  let l := nd_data (fst lc) in let lb := lbi (snd lc) span in let ub := ubi (List.length l) (snd lc) span in
  linspace (nth lb l 0%R) (nth ub l 0%R) ((ub - lb) * Z.to_nat density + 1).
Definition coords_ok (g : sgrid) (coord : list Z) : Prop :=
  List.length coord = sg_ndim g /\ forall j, j < sg_ndim g -> (0 <= nth j coord 0%Z < Z.of_nat (List.length (axis g j)))%Z.
Lemma refined_axes_eq g coord density span : (1 <= density)%Z -> (1 <= span)%Z -> coords_ok g coord ->
  create_refined_axes_at g coord density span = Ok (map (ref_ax density span) (combine (sg_axes g) coord)).
Proof.
  intros Hd Hs (HL & HC). unfold create_refined_axes_at. destruct (Z.ltb_spec density 1); [lia|]. destruct (Z.ltb_spec span 1); [lia|].
  rewrite HL, Nat.eqb_refl. cbn [negb]. apply mapM_ok. intros (a, c) Hin. cbn [fst snd].
  apply (In_nth _ _ (vec1 [], 0%Z)) in Hin as (j & Hj & E). rewrite combine_length in Hj. unfold sg_ndim in *.
  rewrite combine_nth in E by lia. injection E as Ea Ec.
  assert (Hc := HC j ltac:(lia)). unfold axis in Hc. rewrite Ea, Ec in Hc.
  exact (proj2 (proj2 (proj2 (refine_axis_eq (nd_data a) c density span Hd Hs Hc)))).
Qed.
Lemma refined_axis_j g coord density span j : coords_ok g coord -> j < sg_ndim g ->
  nth j (map (ref_ax density span) (combine (sg_axes g) coord)) [] =
  let lb := lbi (nth j coord 0%Z) span in let ub := ubi (List.length (axis g j)) (nth j coord 0%Z) span in
  linspace (nth lb (axis g j) 0%R) (nth ub (axis g j) 0%R) ((ub - lb) * Z.to_nat density + 1).
Proof.
  intros (HL & HC) Hj. unfold sg_ndim in *. rewrite (nth_indep _ [] (ref_ax density span (vec1 [], 0%Z))) by (rewrite map_length, combine_length; lia).
  rewrite map_nth, combine_nth by lia. reflexivity.
Qed.

Lemma idx_coords g idx : plain_grid g -> in_shape (sg_shape g) idx -> coords_ok g (map Z.of_nat idx).
Proof.
  intros P H. pose proof (in_shape_length _ _ H) as HL. unfold sg_shape in HL. rewrite map_length in HL. fold (sg_ndim g) in HL.
  split; [now rewrite map_length|]. intros j Hj. change 0%Z with (Z.of_nat 0). rewrite map_nth.
  pose proof (in_shape_nth _ _ j H) as Hn. rewrite shape_axis in Hn by auto. unfold sg_shape in Hn. rewrite map_length in Hn. fold (sg_ndim g) in Hn. specialize (Hn Hj). lia.
Qed.
Lemma in_shape_intro s idx : List.length idx = List.length s -> (forall j, j < List.length s -> nth j idx 0 < nth j s 0) -> in_shape s idx.
Proof.
  revert idx; induction s as [|n s IH]; intros [|i idx] HL H; cbn [List.length] in *; try lia; [exact I|].
  split; [exact (H 0 ltac:(lia))|]. apply IH; [lia|]. intros j Hj. exact (H (S j) ltac:(lia)).
Qed.
Lemma plain_in_shape g idx : plain_grid g -> in_shape (sg_shape g) idx <-> List.length idx = sg_ndim g /\ forall j, j < sg_ndim g -> nth j idx 0 < List.length (axis g j).
Proof.
  intros P. assert (HS : List.length (sg_shape g) = sg_ndim g) by (unfold sg_shape; now rewrite map_length). split.
  - intros H. split; [rewrite <- HS; now apply in_shape_length|]. intros j Hj. rewrite <- shape_axis by auto. apply in_shape_nth; [exact H | lia].
  - intros (HL & H). apply in_shape_intro; [lia|]. intros j Hj. rewrite shape_axis by (auto; lia). apply H. lia.
Qed.

Lemma refined_grid g idx density : plain_grid g -> in_shape (sg_shape g) idx -> (1 <= density)%Z ->
  exists g', create_refined_grid_at g (map Z.of_nat idx) density 1 = Ok g' /\
    plain_grid g' /\ sg_class g' = sg_class g /\ sg_unit g' = sg_unit g /\ sg_ndim g' = sg_ndim g /\ uniform_grid g' /\
    (uniform_grid g -> exists idx', in_shape (sg_shape g') idx' /\ grid_point g' idx' = grid_point g idx) /\
    (forall j, j < sg_ndim g -> forall x, In x (axis g' j) ->
      let a := nth (nth j idx 0 - 1) (axis g j) 0%R in let b := nth (Nat.min (List.length (axis g j) - 1) (nth j idx 0 + 1)) (axis g j) 0%R in
      (Rmin a b <= x <= Rmax a b)%R).
Proof.
  intros P HI Hd. pose proof (idx_coords g idx P HI) as HC. unfold create_refined_grid_at.
  rewrite (refined_axes_eq g (map Z.of_nat idx) density 1 Hd ltac:(lia) HC). cbn [bind].
  pose proof (proj1 (plain_in_shape g idx P) HI) as (HL & HX).
  set (axs := map (ref_ax density 1) (combine (sg_axes g) (map Z.of_nat idx))).
  assert (LA : List.length axs = sg_ndim g) by (unfold axs; rewrite map_length, combine_length, map_length; unfold sg_ndim in *; lia).
  set (g' := SGrid (sg_class g) (map vec1 axs) (sg_unit g) DFloat). exists g'. split; [reflexivity|].
  assert (N' : sg_ndim g' = sg_ndim g) by (unfold sg_ndim at 1; cbn [sg_axes g']; now rewrite map_length).
  assert (P' : plain_grid g').
  { split; [|rewrite N'; exact (proj2 P)]. cbn [sg_axes g']. intros a Ha. apply in_map_iff in Ha as (l & <- & _). reflexivity. }
  assert (HA : forall j, j < sg_ndim g -> let lb := nth j idx 0 - 1 in let ub := Nat.min (List.length (axis g j) - 1) (nth j idx 0 + 1) in
     axis g' j = linspace (nth lb (axis g j) 0%R) (nth ub (axis g j) 0%R) ((ub - lb) * Z.to_nat density + 1)).
  { intros j Hj. cbv zeta. transitivity (nth j axs []).
    - unfold axis. cbn [sg_axes g']. rewrite (map_nth vec1 axs []). reflexivity.
    - unfold axs. rewrite refined_axis_j by auto. cbv zeta. rewrite (map_nth Z.of_nat idx 0 j : nth j (map Z.of_nat idx) 0%Z = _). unfold lbi, ubi.
      specialize (HX j Hj).
      replace (Z.to_nat (Z.max 0 (Z.of_nat (nth j idx 0) - 1))) with (nth j idx 0 - 1) by lia.
      replace (Z.to_nat (Z.min (Z.of_nat (List.length (axis g j)) - 1) (Z.of_nat (nth j idx 0) + 1))) with (Nat.min (List.length (axis g j) - 1) (nth j idx 0 + 1)) by lia. reflexivity. }
  split; [exact P'|]. split; [reflexivity|]. split; [reflexivity|]. split; [exact N'|]. split; [|split].
  - intros j Hj. rewrite N' in Hj. rewrite HA by exact Hj. apply linspace_evenly.
  - intros U. exists (map (fun j => (nth j idx 0 - (nth j idx 0 - 1)) * Z.to_nat density) (seq 0 (sg_ndim g))). split.
    + apply plain_in_shape; [exact P'|]. rewrite N'. split; [now rewrite map_length, seq_length|]. intros j Hj.
      rewrite (nth_map_seq (fun j => (nth j idx 0 - (nth j idx 0 - 1)) * Z.to_nat density)) by exact Hj.
      rewrite HA by exact Hj. rewrite linspace_length. specialize (HX j Hj). nia.
    + apply (nth_ext _ _ 0%R 0%R); [now rewrite !length_grid_point|]. rewrite length_grid_point, N'. intros j Hj.
      rewrite !nth_grid_point by lia. rewrite (nth_map_seq (fun j => (nth j idx 0 - (nth j idx 0 - 1)) * Z.to_nat density)) by exact Hj.
      rewrite HA by exact Hj. specialize (HX j Hj). apply refined_contains; [now apply U | lia | lia | lia | lia].
  - intros j Hj x Hx. cbv zeta. rewrite HA in Hx by exact Hj. apply (In_nth _ _ 0%R) in Hx as (i & Hi & <-). rewrite linspace_length in Hi. now apply linspace_between.
Qed.
(** the refined grid is valid because it stays between valid locations *)
Lemma between_valid1 u a b x : valid_angle u a -> valid_angle u b -> (Rmin a b <= x <= Rmax a b)%R -> valid_angle u x.
Proof. unfold valid_angle, Rmin, Rmax. destruct (Rle_dec a b); intros [[? ?]|[[? ?]|[? ?]]] [[? ?]|[[? ?]|[? ?]]] ?; subst; try discriminate; [left|right; left|right; right|left|right; left|right; right]; (split; [reflexivity | lra]). Qed.
Lemma between_valid2 u a b c d x y : valid_ae u (a, c) -> valid_ae u (b, d) -> (Rmin a b <= x <= Rmax a b)%R -> (Rmin c d <= y <= Rmax c d)%R -> valid_ae u (x, y).
Proof.
  unfold valid_ae, Rmin, Rmax; cbn [fst snd].
  destruct (Rle_dec a b); destruct (Rle_dec c d); intros [[? ?]|[? ?]] [[? ?]|[? ?]] ? ?; subst; try discriminate; ((left; split; [reflexivity | lra]) || (right; split; [reflexivity | lra])).
Qed.
Lemma between_valid g g' : valid_grid g -> plain_grid g' -> sg_class g' = sg_class g -> sg_unit g' = sg_unit g ->
  (forall j, j < sg_ndim g -> exists p q, p < List.length (axis g j) /\ q < List.length (axis g j) /\ forall x, In x (axis g' j) -> (Rmin (nth p (axis g j) 0) (nth q (axis g j) 0) <= x <= Rmax (nth p (axis g j) 0) (nth q (axis g j) 0))%R) ->
  valid_grid g'.
Proof.
  intros (P & U & V) P' Ec Eu B. split; [exact P'|]. rewrite Ec, Eu. split; [exact U|]. intros idx HI.
  apply (plain_in_shape g' idx P') in HI as (HL & HX).
  assert (N : sg_ndim g' = sg_ndim g) by (rewrite (proj2 P'), (proj2 P), Ec; reflexivity).
  pose proof (proj2 P) as PN. destruct (sg_class g) eqn:C; cbn [valid_pt] in *; [| |exact I].
  - destruct (B 0 ltac:(lia)) as (p & q & Hp & Hq & Hb). rewrite nth_grid_point by lia.
    pose proof (V [p]) as V1. pose proof (V [q]) as V2. rewrite nth_grid_point in V1, V2 by lia. cbn [nth] in V1, V2.
    apply (between_valid1 _ _ _ _ (V1 ltac:(apply plain_in_shape; [exact P|]; rewrite PN; split; [reflexivity | intros [|j] Hj; [exact Hp | lia]]))
                                  (V2 ltac:(apply plain_in_shape; [exact P|]; rewrite PN; split; [reflexivity | intros [|j] Hj; [exact Hq | lia]]))).
    apply Hb. apply nth_In. apply HX. lia.
  - destruct (B 0 ltac:(lia)) as (p & q & Hp & Hq & Hb). destruct (B 1 ltac:(lia)) as (p' & q' & Hp' & Hq' & Hb').
    rewrite !nth_grid_point by lia.
    pose proof (V [p; p']) as V1. pose proof (V [q; q']) as V2. rewrite !nth_grid_point in V1, V2 by lia. cbn [nth] in V1, V2.
    apply (between_valid2 _ _ _ _ _ _ _ (V1 ltac:(apply plain_in_shape; [exact P|]; rewrite PN; split; [reflexivity | intros [|[|j]] Hj; [exact Hp | exact Hp' | lia]]))
                                  (V2 ltac:(apply plain_in_shape; [exact P|]; rewrite PN; split; [reflexivity | intros [|[|j]] Hj; [exact Hq | exact Hq' | lia]]))).
    + apply Hb. apply nth_In. apply HX. lia.
    + apply Hb'. apply nth_In. apply HX. lia.
Qed.
Lemma refined_valid g idx density g' : valid_grid g -> in_shape (sg_shape g) idx -> (1 <= density)%Z ->
  create_refined_grid_at g (map Z.of_nat idx) density 1 = Ok g' -> valid_grid g'.
Proof.
  intros V HI Hd E. destruct (refined_grid g idx density (proj1 V) HI Hd) as (g2 & E2 & P' & C' & U' & N' & _ & _ & B).
  rewrite E in E2. injection E2 as <-. apply (between_valid g g' V P' C' U'). intros j Hj.
  pose proof (proj1 (plain_in_shape g idx (proj1 V)) HI) as (HL & HX). specialize (HX j Hj).
  exists (nth j idx 0 - 1), (Nat.min (List.length (axis g j) - 1) (nth j idx 0 + 1)). split; [lia|]. split; [lia|]. intros x Hx. exact (B j Hj x Hx).
Qed.
