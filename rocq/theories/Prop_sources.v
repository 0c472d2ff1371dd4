(** Properties C09 and C30-C35 (source placements). *)
From Coq Require Import Lra Sorting.Sorted Sorting.Permutation.
From Verif Require Import Base_Np Base_Trig M_utils S_utils P_utils M_sources S_sources P_sources P_sources2 P_sources3.
Open Scope R_scope.

(** C09 *)
Theorem C09_ae2broad : forall doas i p, nth_error doas i = Some p ->
  exists b, nth_error (ae2broad doas) i = Some b /\ - (PI / 2) <= b <= PI / 2 /\ sin b = cos (fst p) * cos (snd p).
Proof. exact ae2broad_spec. Qed.
Theorem C09_linear_phase : forall doas sensors lam, lam <> 0 -> nc sensors = 1%nat -> Forall (valid_ae "rad") doas ->
  exists b D2 D1, mk_FF1 (vec1 (ae2broad doas)) "rad" = Ok b /\
    phase_delay_matrix (FF2 doas "rad") sensors lam false = Ok (D2, []) /\
    phase_delay_matrix b sensors lam false = Ok (D1, []) /\
    nr D1 = nr D2 /\ nc D1 = nc D2 /\
    forall i k, (i < nr sensors)%nat -> (k < List.length doas)%nat -> ent D1 i k = ent D2 i k.
Proof.
  intros doas sensors lam NZ Hn V.
  assert (VB : Forall (valid_angle "rad") (ae2broad doas)).
  { unfold ae2broad. apply Forall_map, Forall_forall. intros p _. left. split; [reflexivity | apply asin_bound]. }
  assert (E1 : mk_FF1 (vec1 (ae2broad doas)) "rad" = Ok (FF1 (ae2broad doas) "rad")).
  { apply mk_FF1_ok. split; [cbn; lia|]. split; [left; reflexivity|]. split; [exact VB | reflexivity]. }
  destruct (phase_defined (FF2 doas "rad") sensors lam NZ ltac:(lia) eq_refl) as (D2 & H2).
  destruct (phase_defined (FF1 (ae2broad doas) "rad") sensors lam NZ ltac:(lia) eq_refl) as (D1 & H1).
  exists (FF1 (ae2broad doas) "rad"), D2, D1. split; [exact E1|]. split; [exact H2|]. split; [exact H1|].
  apply phase_ff in H1 as (A1 & A2 & A3); [|split; [left; reflexivity | exact VB] | reflexivity].
  apply phase_ff in H2 as (B1 & B2 & B3); [|split; [left; reflexivity | exact V] | reflexivity].
  assert (L : List.length (ae2broad doas) = List.length doas) by (unfold ae2broad; apply map_length).
  cbn [src_size] in *. split; [congruence|]. split; [congruence|]. intros i k Hi Hk. rewrite A3, B3 by (try exact Hi; try rewrite L; exact Hk).
  unfold plane_phase, direction, coord. rewrite Hn. cbn [Nat.ltb Nat.leb to_rad String.eqb Ascii.eqb Bool.eqb].
  destruct (nth_error doas k) as [p|] eqn:Ep; [|apply nth_error_None in Ep; lia].
  destruct (ae2broad_spec doas k p Ep) as (b & Eb & _ & Hb). rewrite (nth_error_nth _ _ 0 Eb), (nth_error_nth _ _ (0, 0) Ep), Hb. ring.
Qed.
Example C09_example : Forall (valid_ae "rad") [(0, 0); (PI / 3, PI / 6)].
Proof. pose proof PI_RGT_0. repeat (apply Forall_cons || apply Forall_nil); left; simpl; repeat split; lra. Qed.
Print Assumptions C09_linear_phase.

(** C30 *)
Theorem C30_farfield_1d : forall x u s, mk_FF1 x u = Ok s <->
  (nd_ndim x <= 1)%nat /\ known_unit u /\ Forall (valid_angle u) (nd_data x) /\ s = FF1 (nd_data x) u.
Proof. exact mk_FF1_ok. Qed.
Theorem C30_farfield_1d_errors : forall x u,
  ((1 < nd_ndim x)%nat -> mk_FF1 x u = Raise ValueError) /\
  ((nd_ndim x <= 1)%nat -> ~ known_unit u -> mk_FF1 x u = Raise ValueError) /\
  ((nd_ndim x <= 1)%nat -> known_unit u -> ~ Forall (valid_angle u) (nd_data x) -> mk_FF1 x u = Raise TypeError).
Proof. exact mk_FF1_errors. Qed.
(** an out-of-range angle does not raise the intended ValueError *)
Theorem C30_out_of_range_error_defect : exists x u,
  (nd_ndim x <= 1)%nat /\ known_unit u /\ ~ Forall (valid_angle u) (nd_data x) /\ mk_FF1 x u <> Raise ValueError.
Proof.
  exists (vec1 [2]), "sin"%string. assert (N : ~ Forall (valid_angle "sin") (nd_data (vec1 [2]))).
  { intros F. inversion F as [|? ? H _]; subst. destruct H as [(E & _)|[(E & _)|(_ & H)]]; try discriminate E. simpl in H. lra. }
  split; [cbn; lia|]. split; [right; right; reflexivity|]. split; [exact N|].
  rewrite (proj2 (proj2 (mk_FF1_errors _ _))); [discriminate|cbn; lia|right; right; reflexivity|exact N].
Qed.
Theorem C30_farfield_2d : forall x u s, mk_FF2 x u = Ok s <->
  List.length (nd_shape x) = 2%nat /\ nth 1 (nd_shape x) 0%nat = 2%nat /\ unit2 u /\
  exists l, l = map (fun i => (nth (i * 2) (nd_data x) 0, nth (i * 2 + 1) (nd_data x) 0)) (seq 0 (nth 0 (nd_shape x) 0%nat)) /\
    Forall (valid_ae u) l /\ s = FF2 l u.
Proof. exact mk_FF2_ok. Qed.
Theorem C30_farfield_2d_errors : forall x u e, mk_FF2 x u = Raise e -> e = ValueError.
Proof. exact mk_FF2_err. Qed.
(** near-field locations: exactly the n x 2 matrices, row by row; everything else is refused *)
Theorem C30_nearfield_2d : forall x,
  (forall s, mk_NF2 x = Ok s <-> exists n l, nd_shape x = [n; 2%nat] /\ s = NF2 l /\ l = map (fun i => (nth (i * 2) (nd_data x) 0, nth (i * 2 + 1) (nd_data x) 0)) (seq 0 n)) /\
  ((~ exists n, nd_shape x = [n; 2%nat]) -> mk_NF2 x = Raise ValueError).
Proof.
  intros x. unfold mk_NF2, nd_ndim, nd_mat. destruct (nd_shape x) as [|n [|k [|? ?]]] eqn:E; cbn [List.length Nat.eqb negb orb nth nr ent].
  1,2,4: (split; [intros s; split; [discriminate | intros (n' & l' & H & _); discriminate H] | reflexivity]).
  destruct (Nat.eqb_spec k 2) as [->|N]; cbn [negb].
  - split; [|intros H; exfalso; apply H; now exists n]. intros s. split.
    + intros H. injection H as <-. exists n. eexists. split; [reflexivity|]. split; [reflexivity|]. apply map_ext. intros i. rewrite Nat.add_0_r. reflexivity.
    + intros (n' & l & H & -> & ->). injection H as <-. do 2 f_equal. apply map_ext. intros i. rewrite Nat.add_0_r. reflexivity.
  - split; [|reflexivity]. intros s. split; [discriminate | intros (n' & l' & H & _); injection H as _ H; contradiction].
Qed.
(** the advertised ranges are exactly the accepted values *)
Theorem C30_valid_ranges : forall l u, known_unit u -> exists a b, valid_ranges (FF1 l u) = Ok [(Some a, Some b)] /\
  forall x, a <= x <= b <-> valid_angle u x.
Proof.
  intros l u K. unfold valid_ranges. destruct (dget String.eqb VALID_RANGES_1D u) as [(a, b)|] eqn:E.
  - exists a, b. split; [reflexivity|]. intros x. symmetry. exact (proj2 (range_1d_valid u a b E) x).
  - exfalso. exact (proj1 (range_1d_none u) E K).
Qed.
Example C30_example : mk_FF1 (vec1 [-90; 0; 90]) "deg" = Ok (FF1 [-90; 0; 90] "deg").
Proof.
  apply mk_FF1_ok. split; [cbn; lia|]. split; [right; left; reflexivity|]. split; [|reflexivity].
  repeat (apply Forall_cons || apply Forall_nil); right; left; (split; [reflexivity | lra]).
Qed.
Print Assumptions C30_farfield_2d.

(** C31 *)
Theorem C31_as_unit : forall s v, valid_sources s -> supported s v ->
  exists s', as_unit s v = Ok s' /\ valid_sources s' /\ src_size s' = src_size s /\
    (match s' with FF1 _ u => u = v | FF2 _ u => u = v | NF2 _ => v = "m"%string end) /\
    (* going back restores the placement *)
    (forall u, match s with FF1 _ u' | FF2 _ u' => u = u' | NF2 _ => u = "m"%string end -> as_unit s' u = Ok s) /\
    (* spherical coordinates are unchanged *)
    (forall refs, calc_spherical_coords s' refs = calc_spherical_coords s refs) /\
    (* phase delays are unchanged *)
    forall sensors lam D DD, phase_delay_matrix s sensors lam false = Ok (D, DD) ->
      exists D', phase_delay_matrix s' sensors lam false = Ok (D', []) /\ nr D' = nr D /\ nc D' = nc D /\
        forall i k, (i < nr sensors)%nat -> (k < src_size s)%nat -> ent D' i k = ent D i k.
Proof.
  intros s v V Hv. destruct (as_unit_ok s v V Hv) as (E & V' & Z). exists (convert_src s v).
  split; [exact E|]. split; [exact V'|]. split; [exact Z|].
  split; [destruct s; simpl in *; auto|].
  split; [intros u Hu; apply (convert_back s v u V Hv Hu)|].
  split; [intros refs; exact (as_unit_spherical s v refs V Hv)|].
  intros sensors lam D DD H. destruct (is_far_field s) eqn:F.
  - assert (F' : is_far_field (convert_src s v) = true) by (destruct s; simpl in *; auto; discriminate).
    assert (Hd : (1 <= nc sensors <= 3)%nat).
    { unfold phase_delay_matrix in H. destruct (Nat.ltb_spec (nc sensors) 1); [discriminate|]. destruct (Nat.ltb_spec 3 (nc sensors)); [discriminate|]. lia. }
    destruct (phase_defined (convert_src s v) sensors lam (phase_delay_nonzero _ _ _ _ _ H) Hd F') as (D' & H'). exists D'. split; [exact H'|].
    apply phase_ff in H as (A1 & A2 & A3); [|exact V|exact F]. apply phase_ff in H' as (B1 & B2 & B3); [|exact V'|exact F'].
    split; [congruence|]. split; [congruence|]. intros i k Hi Hk. rewrite A3, B3 by (try exact Hi; congruence). now rewrite direction_convert.
  - destruct s as [?|?|l]; try discriminate F. cbn [convert_src]. exists D. split; [|auto]. apply phase_nf in H as H'. destruct H' as (-> & _). exact H.
Qed.
Theorem C31_unsupported : forall s v, valid_sources s -> ~ supported s v ->
  match s with
  | FF1 _ _ => as_unit s v = Raise KeyError
  | FF2 _ _ => (v = "sin"%string /\ as_unit s v = Raise ValueError) \/ as_unit s v = Raise KeyError
  | NF2 _ => as_unit s v = Raise ValueError
  end.
Proof. exact as_unit_unsupported. Qed.
Example C31_example : valid_sources (FF1 [-30; 45] "deg") /\ supported (FF1 [-30; 45] "deg") "sin".
Proof. split; [split; [right; left; reflexivity | repeat (apply Forall_cons || apply Forall_nil); right; left; (split; [reflexivity | lra])] | right; right; reflexivity]. Qed.
Print Assumptions C31_as_unit.

(** C32.  [plane_phase] of the direction (sin t, cos t, 0) is the phase law of a 1D source on arrays of any dimension. *)
Theorem C32_phase_law : forall s sensors lam, lam <> 0 -> valid_sources s -> is_far_field s = true -> (1 <= nc sensors <= 3)%nat ->
  exists D, phase_delay_matrix s sensors lam false = Ok (D, []) /\ nr D = nr sensors /\ nc D = src_size s /\
  forall i k, (i < nr sensors)%nat -> (k < src_size s)%nat -> ent D i k = plane_phase lam sensors i (direction s k).
Proof.
  intros s sensors lam NZ V F Hd. destruct (phase_defined s sensors lam NZ Hd F) as (D & H). exists D. split; [exact H|].
  exact (phase_ff s sensors lam false D [] V F H).
Qed.
Theorem C32_1d_is_2d : forall ts sensors lam, lam <> 0 -> Forall (valid_angle "rad") ts -> (1 <= nc sensors <= 3)%nat ->
  exists D1 D2, phase_delay_matrix (FF1 ts "rad") sensors lam false = Ok (D1, []) /\
    phase_delay_matrix (FF2 (map (fun t => (PI / 2 - t, 0)) ts) "rad") sensors lam false = Ok (D2, []) /\
    nr D1 = nr D2 /\ nc D1 = nc D2 /\
    forall i k, (i < nr sensors)%nat -> (k < List.length ts)%nat -> ent D1 i k = ent D2 i k.
Proof.
  intros ts sensors lam NZ V Hd. pose proof PI_RGT_0 as HP.
  assert (V2 : valid_sources (FF2 (map (fun t => (PI / 2 - t, 0)) ts) "rad")).
  { split; [left; reflexivity|]. apply Forall_map. eapply Forall_impl; [|exact V]. intros t [(_ & H)|[(E & _)|(E & _)]]; try discriminate E.
    left. cbn [fst snd]. split; [reflexivity|]. split; lra. }
  destruct (C32_phase_law (FF1 ts "rad") sensors lam NZ (conj (or_introl eq_refl) V) eq_refl Hd) as (D1 & A0 & A1 & A2 & A3).
  destruct (C32_phase_law _ sensors lam NZ V2 eq_refl Hd) as (D2 & B0 & B1 & B2 & B3).
  exists D1, D2. split; [exact A0|]. split; [exact B0|]. split; [congruence|]. cbn [src_size] in *. rewrite map_length in *. split; [congruence|].
  intros i k Hi Hk. rewrite A3, B3 by assumption. unfold direction. rewrite (nth_indep _ (0, 0) (PI / 2 - 0, 0)) by (now rewrite map_length).
  rewrite (map_nth (fun t => (PI / 2 - t, 0))). unfold to_rad. cbn [fst snd String.eqb Ascii.eqb Bool.eqb]. rewrite cos_0, sin_0, cos_shift, sin_shift, !Rmult_1_l. reflexivity.
Qed.
Theorem C32_spherical : forall s refs, valid_sources s -> is_far_field s = true ->
  exists r az el, calc_spherical_coords s refs = Ok (r, az, el) /\
    (nr r = nr refs /\ nc r = src_size s) /\ (nr az = nr refs /\ nc az = src_size s) /\ (nr el = nr refs /\ nc el = src_size s) /\
    forall i k, (i < nr refs)%nat -> (k < src_size s)%nat -> ent r i k = None /\
      match s with
      | FF1 l u => ent az i k = PI / 2 - to_rad u (nth k l 0) /\ ent el i k = 0
      | FF2 l u => ent az i k = to_rad u (fst (nth k l (0, 0))) /\ ent el i k = to_rad u (snd (nth k l (0, 0)))
      | NF2 _ => True
      end.
Proof.
  intros s refs V F. destruct (spherical_ff_defined s refs V F) as (((r, az), el) & E). exists r, az, el. split; [exact E|]. exact (spherical_ff s refs r az el V F E).
Qed.
Example C32_example : Forall (valid_angle "rad") [PI / 6; - (PI / 4)].
Proof. pose proof PI_RGT_0. repeat (apply Forall_cons || apply Forall_nil); left; (split; [reflexivity | lra]). Qed.
Print Assumptions C32_1d_is_2d.

(** C33 *)
Theorem C33_near_field : forall l sensors lam, lam <> 0 -> (1 <= nc sensors <= 3)%nat -> (0 < nr sensors)%nat ->
  exists D, phase_delay_matrix (NF2 l) sensors lam false = Ok (D, []) /\ nr D = nr sensors /\ nc D = List.length l /\
    (forall i k, (i < nr sensors)%nat -> (k < List.length l)%nat ->
       ent D i k = - (2 * PI / lam) * (distance sensors i (nth k l (0, 0)) - distance sensors 0 (nth k l (0, 0)))) /\
    (forall k, (k < List.length l)%nat -> ent D 0 k = 0).
Proof.
  intros l sensors lam NZ Hd Hn. destruct (phase_nf_defined l sensors lam NZ Hd Hn) as (D & H). exists D. split; [exact H|].
  apply phase_nf in H as (_ & A1 & A2 & A3 & A4). repeat (split; [assumption|]). intros k Hk. rewrite A4 by (assumption || lia). ring.
Qed.
(** adding zero columns to the sensor locations changes nothing *)
Theorem C33_padding : forall l sensors padded lam D D', nr padded = nr sensors -> (0 < nr sensors)%nat ->
  (forall i c, (i < nr sensors)%nat -> coord padded i c = coord sensors i c) ->
  phase_delay_matrix (NF2 l) sensors lam false = Ok (D, []) -> phase_delay_matrix (NF2 l) padded lam false = Ok (D', []) ->
  nr D = nr D' /\ nc D = nc D' /\ forall i k, (i < nr sensors)%nat -> (k < List.length l)%nat -> ent D i k = ent D' i k.
Proof.
  intros l sensors padded lam D D' E Hn H H1 H2. apply phase_nf in H1 as (_ & A1 & A2 & _ & A3). apply phase_nf in H2 as (_ & B1 & B2 & _ & B3).
  split; [congruence|]. split; [congruence|]. intros i k Hi Hk. rewrite A3, B3 by congruence. unfold distance. now rewrite !H by assumption.
Qed.
(** no derivatives for near-field (and 2D far-field) sources *)
Theorem C33_no_derivatives : forall s sensors lam, (forall l u, s <> FF1 l u) -> phase_delay_matrix s sensors lam true = Raise ValueError.
Proof.
  intros s sensors lam H. unfold phase_delay_matrix. destruct (_ || _)%bool; [reflexivity|]. destruct s as [l u|l u|l]; [now destruct (H l u) | reflexivity | reflexivity].
Qed.
(** along a ray the near-field phase converges to the far-field phase relative to sensor 0 *)
Theorem C33_far_limit : forall sensors i a lam eps, 0 < lam -> 0 < eps ->
  exists rho0, forall rho, rho0 < rho ->
   Rabs (source_phase (NF2 [(rho * cos a, rho * sin a)]) lam sensors i 0
         - (source_phase (FF2 [(a, 0)] "rad") lam sensors i 0 - source_phase (FF2 [(a, 0)] "rad") lam sensors 0 0)) < eps.
Proof.
  intros sensors i a lam eps Hl He. destruct (near_to_far sensors i a lam eps Hl He) as (rho0 & H). exists rho0. intros rho Hr. specialize (H rho Hr).
  unfold source_phase, direction, to_rad. cbn [nth fst snd String.eqb Ascii.eqb Bool.eqb]. rewrite cos_0, sin_0, !Rmult_1_l. exact H.
Qed.
(** the same in terms of the phase delay matrices *)
Theorem C33_far_limit_delays : forall sensors a lam, 0 < lam -> - PI <= a <= PI -> (1 <= nc sensors <= 3)%nat -> (0 < nr sensors)%nat ->
  exists F, phase_delay_matrix (FF2 [(a, 0)] "rad") sensors lam false = Ok (F, []) /\
  forall i eps, (i < nr sensors)%nat -> 0 < eps -> exists rho0, forall rho, rho0 < rho ->
    exists D, phase_delay_matrix (NF2 [(rho * cos a, rho * sin a)]) sensors lam false = Ok (D, []) /\ Rabs (ent D i 0 - (ent F i 0 - ent F 0 0)) < eps.
Proof.
  intros sensors a lam Hl Ha Hc Hn. assert (V : valid_sources (FF2 [(a, 0)] "rad")) by (split; [now left|]; apply Forall_cons; [|apply Forall_nil]; left; cbn; pose proof PI_RGT_0; repeat split; lra).
  destruct (C32_phase_law (FF2 [(a, 0)] "rad") sensors lam (Rgt_not_eq _ _ Hl) V eq_refl Hc) as (F & EF & F1 & F2 & HF). exists F. split; [exact EF|]. intros i eps Hi He.
  destruct (C33_far_limit sensors i a lam eps Hl He) as (rho0 & H). exists rho0. intros rho Hr. specialize (H rho Hr).
  destruct (C33_near_field [(rho * cos a, rho * sin a)] sensors lam (Rgt_not_eq _ _ Hl) Hc Hn) as (D & ED & D1 & D2 & HD & _). exists D. split; [exact ED|].
  rewrite HD by (cbn; lia). rewrite !HF by (cbn; lia). exact H.
Qed.
Theorem C33_spherical : forall l refs r az el, (1 <= nc refs <= 3)%nat -> calc_spherical_coords (NF2 l) refs = Ok (r, az, el) ->
  (nr r = nr refs /\ nc r = List.length l) /\ (nr az = nr refs /\ nc az = List.length l) /\ (nr el = nr refs /\ nc el = List.length l) /\
  forall i k, (i < nr refs)%nat -> (k < List.length l)%nat -> exists rho, ent r i k = Some rho /\
    spherical_of (fst (nth k l (0, 0)) - coord refs i 0) (snd (nth k l (0, 0)) - coord refs i 1) (0 - coord refs i 2) rho (ent az i k) (ent el i k).
Proof. exact spherical_nf. Qed.
Example C33_example : exists D, phase_delay_matrix (NF2 [(3, 4)]) (Mat 2 1 (fun i _ => INR i * 3)) 1 false = Ok (D, []) /\ ent D 1 0 = 2 * PI.
Proof.
  destruct (C33_near_field [(3, 4)] (Mat 2 1 (fun i _ => INR i * 3)) 1) as (D & E & _ & _ & H & _); [lra|cbn; lia|cbn; lia|]. exists D. split; [exact E|].
  rewrite H by (cbn; lia). unfold distance, coord. cbn.
  replace ((1 * 3 - 3) * (1 * 3 - 3) + (0 - 4) * (0 - 4) + 0 * 0) with (4 * 4) by ring.
  replace ((0 * 3 - 3) * (0 * 3 - 3) + (0 - 4) * (0 - 4) + 0 * 0) with (5 * 5) by ring. rewrite !sqrt_square by lra. field.
Qed.
Print Assumptions C33_far_limit.

(** C34.  A placement refers to a location buffer of a heap; [buf h p] is its list of locations. *)
Theorem C34_scalar : forall A (h : list (list A)) p i, let n := List.length (buf h p) in
  ((- Z.of_nat n <= i < Z.of_nat n)%Z -> exists q r,
     Z.of_nat q = (if i <? 0 then i + Z.of_nat n else i)%Z /\ nth_error (buf h p) q = Some r /\
     getitem h p (KInt i) = Ok (if String.eqb (p_class p) "FarField1DSourcePlacement" then INumber r else IRowView (p_addr p) q, h)) /\
  (~ (- Z.of_nat n <= i < Z.of_nat n)%Z -> getitem h p (KInt i) = Raise IndexError).
Proof.
  intros A h p i n. unfold getitem. rewrite norm_index_spec. fold n.
  destruct (Z.leb_spec (- Z.of_nat n) i); destruct (Z.ltb_spec i (Z.of_nat n)); cbn [andb]; (split; [|try (intros; lia); reflexivity]); try (intros; lia).
  intros _. set (q := Z.to_nat (if i <? 0 then i + Z.of_nat n else i)%Z).
  assert (Hq : Z.of_nat q = (if i <? 0 then i + Z.of_nat n else i)%Z) by (unfold q; destruct (Z.ltb_spec i 0); lia).
  destruct (nth_error (buf h p) q) as [r|] eqn:E.
  - exists q, r. split; [exact Hq|]. split; [exact E | reflexivity].
  - apply nth_error_None in E. fold n in E. destruct (Z.ltb_spec i 0); lia.
Qed.
(** slices, index lists (or integer arrays) and masks give a fresh placement of the same class and units holding the
    selected locations; no assignment to either placement is seen by the other *)
Theorem C34_selection : forall A (d : A) (h : list (list A)) p k sel, (p_addr p < List.length h)%nat ->
  match k with
  | KSlice a b st =>
      let n := List.length (buf h p) in let step := match st with None => 1%Z | Some s => s end in
      slice_indices n a b st = Ok sel
  | KIndexList l => (forall i, In i l -> (- Z.of_nat (List.length (buf h p)) <= i < Z.of_nat (List.length (buf h p)))%Z) /\
      sel = map (fun i => Z.to_nat (if i <? 0 then i + Z.of_nat (List.length (buf h p)) else i)%Z) l
  | KMask m => List.length m = List.length (buf h p) /\ StronglySorted lt sel /\ forall i, In i sel <-> nth_error m i = Some true
  | _ => False
  end ->
  exists q h', getitem h p k = Ok (IPlacement q, h') /\ p_class q = p_class p /\ p_units q = p_units p /\
    buf h' q = map (fun i => nth i (buf h p) d) sel /\ buf h' p = buf h p /\
    forall ws, buf (writes h' q ws) p = buf h p /\ buf (writes h' p ws) q = buf h' q.
Proof.
  intros A d h p k sel Hp Hk.
  assert (G : (forall i, k <> KInt i) /\ key_rows (List.length (buf h p)) k = Ok sel /\ (forall i, In i sel -> (i < List.length (buf h p))%nat)).
  { destruct k as [i|a b st|l|m|n|]; try contradiction; (split; [discriminate|]).
    - split; [exact Hk|]. destruct (slice_spec _ _ _ _ _ Hk) as (_ & H & _). intros i Hi. apply (In_nth _ _ 0%nat) in Hi as (j & Hj & <-). exact (proj2 (H j Hj)).
    - destruct Hk as (H & ->). split; [now apply key_rows_list|]. intros i Hi. apply in_map_iff in Hi as (z & <- & Hz). specialize (H z Hz). destruct (Z.ltb_spec z 0); lia.
    - destruct Hk as (E & S & H). destruct (mask_rows _ m E) as (sel' & E' & S' & H').
      assert (sel = sel').
      { clear -S S' H H'. assert (P : forall i, In i sel <-> In i sel') by (intros i; now rewrite H, H'). clear H H'.
        revert sel' S' P. induction S as [|x q S IH F]; intros sel' S' P.
        - destruct sel' as [|y q']; [reflexivity|]. exfalso. apply (proj2 (P y)). now left.
        - destruct S' as [|y q' S' F']; [exfalso; apply (proj1 (P x)); now left|]. rewrite Forall_forall in F, F'.
          assert (x = y).
          { destruct (proj1 (P x) (or_introl eq_refl)) as [->|Hx]; [reflexivity|]. destruct (proj2 (P y) (or_introl eq_refl)) as [E|Hy]; [exact E|].
            specialize (F y Hy). specialize (F' x Hx). lia. }
          subst y. f_equal. apply IH; [exact S'|]. intros i. split; intros Hi.
          + destruct (proj1 (P i) (or_intror Hi)) as [<-|?]; [|assumption]. specialize (F x Hi). lia.
          + destruct (proj2 (P i) (or_intror Hi)) as [<-|?]; [|assumption]. specialize (F' x Hi). lia. }
      subst sel'. split; [exact E'|]. intros i Hi. apply H in Hi. rewrite <- E. apply nth_error_Some. congruence. }
  destruct G as (G1 & G2 & G3). destruct (getitem_rows h p k sel d G1 G2 G3 Hp) as (q & h' & E & E1 & E2 & E3 & E4 & E5 & E6 & E7).
  exists q, h'. repeat (split; [assumption|]). assert (EB : buf h' p = buf h p) by (apply E7; exact Hp). split; [exact EB|].
  intros ws. split; [rewrite writes_other; [exact EB | congruence] | apply writes_other; exact E3].
Qed.
(** the positions selected by a slice are start, start+step, ... up to stop, with Python's clipping *)
Theorem C34_slice_positions : forall n a b st sel, slice_indices n a b st = Ok sel ->
  let step := match st with None => 1%Z | Some s => s end in
  step <> 0%Z /\
  (forall k, (k < List.length sel)%nat -> Z.of_nat (nth k sel 0%nat) = (py_start n step a + Z.of_nat k * step)%Z /\ (nth k sel 0%nat < n)%nat) /\
  (forall k, (0 <= k)%Z -> (if 0 <? step then py_start n step a + k * step < py_stop n step b else py_stop n step b < py_start n step a + k * step)%Z ->
     (k < Z.of_nat (List.length sel))%Z) /\
  (forall k, (0 <= k < Z.of_nat (List.length sel))%Z -> (if 0 <? step then py_start n step a + k * step < py_stop n step b else py_stop n step b < py_start n step a + k * step)%Z).
Proof. exact slice_spec. Qed.
Theorem C34_errors : forall A (h : list (list A)) p,
  (forall l, (exists i, In i l /\ ~ (- Z.of_nat (List.length (buf h p)) <= i < Z.of_nat (List.length (buf h p)))%Z) ->
     getitem h p (KIndexList l) = Raise IndexError) /\
  (forall m, List.length m <> List.length (buf h p) -> getitem h p (KMask m) = Raise IndexError) /\
  (forall d, getitem h p (KNdArray d) = Raise ValueError) /\ getitem h p KOther = Raise KeyError /\
  (forall a b, getitem h p (KSlice a b (Some 0%Z)) = Raise ValueError).
Proof.
  intros A h p. split; [|split; [|split; [|split]]]; try reflexivity.
  - intros l H. unfold getitem. rewrite key_rows_list_err by exact H. reflexivity.
  - intros m H. cbn [getitem key_rows]. destruct (Nat.eqb_spec (List.length m) (List.length (buf h p))); [contradiction | reflexivity].
Qed.
(** the placement selected by s[I] is select_sources s I: validity is inherited, source k of it is source I[k] *)
Theorem C34_selected_sources : forall s idx, valid_sources s -> (forall i, In i idx -> (i < src_size s)%nat) ->
  valid_sources (select_sources s idx) /\ src_size (select_sources s idx) = List.length idx /\
  forall k, (k < List.length idx)%nat -> direction (select_sources s idx) k = direction s (nth k idx 0%nat).
Proof.
  intros s idx V H. split; [exact (select_valid s idx V H)|]. split; [apply select_size|]. intros k Hk. exact (select_direction s idx k Hk).
Qed.
(** a scalar key on a 2D placement returns a view: writing to the returned row changes the placement *)
Theorem C34_scalar_row_aliased_defect : exists (h : list (list (R * R))) p a q v, getitem h p (KInt 0) = Ok (IRowView a q, h) /\
  buf (set_row h a q v) p <> buf h p.
Proof.
  exists [[(0, 0)]], (Placement "FarField2DSourcePlacement" ["rad"%string; "rad"%string] 0), 0%nat, 0%nat, (1, 1). split; [reflexivity|].
  cbn. intros H. injection H as H _. lra.
Qed.
Example C34_example : exists q h', getitem [[10; 20; 30; 40]] (Placement "FarField1DSourcePlacement" ["deg"%string] 0) (KSlice (Some (-1)%Z) None (Some (-2)%Z)) = Ok (IPlacement q, h') /\
  buf h' q = [40; 20].
Proof. eexists _, _. split; reflexivity. Qed.
Print Assumptions C34_selection.

(** C35.  None stands for NaN. *)
Theorem C35_recovers : forall ts lam d0 u (rho : R -> R), known_unit u -> 0 < lam -> 0 < d0 -> (forall t, In t ts -> 0 < rho t) ->
  Forall (fun t => - (PI / 2) <= t <= PI / 2 /\ Rabs (sin t) < lam / (2 * d0)) ts ->
  exists l, from_z (map (fun t => (RtoC (rho t) * cis (2 * PI * d0 / lam * sin t))%C) ts) lam d0 u = Ok (map Some l, u) /\
    ascending l /\ Permutation l (map (of_rad u) ts).
Proof.
  intros ts lam d0 u rho K Hl Hd Hr H. apply from_z_recovers; try assumption. eapply Forall_impl; [|exact H]. intros t (B & S). split; [exact B|].
  pose proof PI_RGT_0 as HP. apply Rabs_def2 in S as (S1 & S2).
  assert (Q : lam / (2 * d0) * (2 * PI * d0 / lam) = PI) by (field; lra). assert (Hc : 0 < 2 * PI * d0 / lam) by (apply Rdiv_lt_0_compat; nra).
  set (c := 2 * PI * d0 / lam) in *. set (b := lam / (2 * d0)) in *. split; [|left]; nra.
Qed.
Theorem C35_valid_result : forall z lam d0 u, known_unit u -> 0 < lam -> lam <= 2 * d0 ->
  exists l, from_z z lam d0 u = Ok (map Some l, u) /\ List.length l = List.length z /\ ascending l /\ Forall (valid_angle u) l /\
    Permutation l (map (fun w : C => of_rad u (asin (atan2 (Im w) (Re w) / (2 * PI * d0 / lam)))) z).
Proof.
  intros z lam d0 u K Hl Hd. destruct (from_z_sines z lam d0 u K ltac:(lra) ltac:(lra)) as (l & E & S & V & P).
  - apply Forall_map, Forall_forall. intros w _. apply spacing_range; try assumption. pose proof (atan2_range (Im w) (Re w)). lra.
  - exists l. split; [exact E|]. split; [apply Permutation_length in P; now rewrite map_length in P|]. auto.
Qed.
(** with a smaller spacing a root can have no direction: the estimate is then NaN ... *)
Theorem C35_small_spacing_nan_defect : exists z lam d0, 0 < lam /\ 0 < d0 /\ from_z z lam d0 "rad" = Ok ([None], "rad"%string).
Proof.
  exists [(-1, 0)], 4, 1. split; [lra|]. split; [lra|]. unfold from_z. rewrite (Reqb_neq 4 0), (Reqb_neq 1 0) by lra. cbn [map sort_by fold_right ins_by].
  assert (E : np_arcsin (atan2 (Im (-1, 0)) (Re (-1, 0)) / (2 * PI * 1 / 4)) = None).
  { replace (atan2 (Im (-1, 0)) (Re (-1, 0))) with PI.
    - unfold np_arcsin. pose proof PI_RGT_0. replace (PI / (2 * PI * 1 / 4)) with 2 by (field; lra). rewrite Rabs_right by lra.
      unfold Rleb. destruct (Rle_dec 2 1); [lra | reflexivity].
    - pose proof (atan2_polar 1 PI ltac:(lra)) as H. rewrite sin_PI, cos_PI, Rmult_0_r, Rmult_1_l in H. cbn [Im Re fst snd]. symmetry. apply H. pose proof PI_RGT_0. lra. }
  rewrite E. cbn. pose proof PI_RGT_0. reflexivity.
Qed.
(** ... and an unknown unit is not rejected but read as degrees *)
(** every wavelength, spacing and list of roots: the roots whose sine is in range give the angles in ascending order, each of
    the others gives one NaN, and the NaNs come last; with unit sin a sine out of range is a TypeError *)
Theorem C35_every_root : forall z lam d0 u, u = "rad"%string \/ u = "deg"%string -> lam <> 0 -> d0 <> 0 ->
  let sines := map (fun w : C => atan2 (Im w) (Re w) / (2 * PI * d0 / lam)) z in
  exists l q, from_z z lam d0 u = Ok (map Some l ++ repeat None q, u) /\ ascending l /\ Forall (valid_angle u) l /\
    Permutation l (map (fun s => of_rad u (asin s)) (filter (fun s => if Rle_dec (Rabs s) 1 then true else false) sines)) /\
    q = List.length (filter (fun s => if Rle_dec (Rabs s) 1 then false else true) sines).
Proof.
  intros z lam d0 u U N1 N2 s. destruct (from_z_general z lam d0 u U N1 N2) as (l & q & H1 & H2 & H3 & H4 & H5). fold s in H4, H5. exists l, q. do 3 (split; [assumption|]). split.
  - exact H4.
  - rewrite H5. f_equal. apply filter_ext. intros a. unfold Rleb. destruct (Rle_dec (Rabs a) 1); reflexivity.
Qed.
Theorem C35_sine_out_of_range : forall z lam d0, lam <> 0 -> d0 <> 0 -> (exists w, In w z /\ 1 < Rabs (atan2 (Im w) (Re w) / (2 * PI * d0 / lam))) ->
  from_z z lam d0 "sin" = Raise TypeError.
Proof.
  intros z lam d0 N1 N2 (w & Hw & HB). unfold from_z. rewrite (Reqb_neq _ _ N1), (Reqb_neq _ _ N2). cbn [String.eqb Ascii.eqb Bool.eqb].
  set (s := map _ z). assert (HS : In (atan2 (Im w) (Re w) / (2 * PI * d0 / lam)) s) by (unfold s; apply in_map_iff; exists w; split; [reflexivity|exact Hw]).
  unfold mk_FF1_nan. cbn [dget VALID_RANGES_1D String.eqb Ascii.eqb Bool.eqb].
  match goal with |- context [existsb ?f ?L] => replace (existsb f L) with true; [reflexivity|] end. symmetry. apply existsb_exists.
  exists (Some (atan2 (Im w) (Re w) / (2 * PI * d0 / lam))). split; [apply in_map; eapply Permutation_in; [symmetry; apply sort_by_perm | exact HS]|].
  apply orb_true_iff. unfold Rltb. destruct (Rlt_dec _ (-1)) as [|G1]; [now left|]. destruct (Rlt_dec 1 _) as [|G2]; [now right|]. exfalso. apply Rlt_not_le in HB. apply HB. apply Rabs_le. lra.
Qed.
(** wavelength 2, spacing 1/4: the root 1 is in range, the root -1 is not *)
Example C35_example_mixed : from_z [RtoC (-1); RtoC 1] 2 (1 / 4) "rad" = Ok ([Some 0; None], "rad"%string) /\ from_z [RtoC (-1); RtoC 1] 2 (1 / 4) "sin" = Raise TypeError.
Proof.
  pose proof PI_RGT_0 as HP.
  assert (A1 : atan2 (Im (RtoC 1)) (Re (RtoC 1)) = 0). { cbn [Im Re RtoC fst snd]. pose proof (atan2_polar 1 0 ltac:(lra) ltac:(lra)) as H. rewrite sin_0, cos_0 in H. rewrite !Rmult_1_l in H. exact H. }
  assert (A2 : atan2 (Im (RtoC (-1))) (Re (RtoC (-1))) = PI). { cbn [Im Re RtoC fst snd]. pose proof (atan2_polar 1 PI ltac:(lra) ltac:(lra)) as H. rewrite sin_PI, cos_PI in H. replace (1 * 0) with 0 in H by ring. replace (1 * -1) with (-1) in H by ring. exact H. }
  assert (B : PI / (2 * PI * (1 / 4) / 2) = 4) by (field; lra).
  split.
  - unfold from_z. rewrite (Reqb_neq 2 0 ltac:(lra)), (Reqb_neq (1 / 4) 0 ltac:(lra)). cbn [map String.eqb Ascii.eqb Bool.eqb]. rewrite A1, A2, B.
    replace (0 / (2 * PI * (1 / 4) / 2)) with 0 by (field; lra). unfold np_arcsin. rewrite Rabs_R0, (Rabs_right 4) by lra.
    unfold Rleb. destruct (Rle_dec 4 1); [lra|]. destruct (Rle_dec 0 1); [|lra]. rewrite asin_0. cbn [sort_by fold_right ins_by oleb].
    change [Some 0; None] with (map Some [0] ++ repeat (@None R) 1). apply nan_ok_none; [left; reflexivity|]. constructor; [|constructor]. left. split; [reflexivity|lra].
  - apply C35_sine_out_of_range; [lra|lra|]. exists (RtoC (-1)). split; [now left|]. rewrite A2, B, Rabs_right; lra.
Qed.
Theorem C35_unknown_unit_defect : forall z lam d0 u, ~ known_unit u -> from_z z lam d0 u = from_z z lam d0 "deg".
Proof.
  intros z lam d0 u K. unfold from_z, known_unit in *. destruct (String.eqb_spec u "sin"); [exfalso; tauto|]. destruct (String.eqb_spec u "rad"); [exfalso; tauto|]. reflexivity.
Qed.
(** a result exists only for a nonzero wavelength, and only for a nonzero spacing has it a location that is a number *)
Theorem C35_degenerate : forall z lam d0 u r, from_z z lam d0 u = Ok r -> lam <> 0 /\ (d0 = 0 -> fst r = map (fun _ => None) z).
Proof.
  intros z lam d0 u r H. unfold from_z in H. destruct (Req_EM_T lam 0) as [->|N1]; [rewrite Reqb_refl in H; discriminate|]. split; [exact N1|]. intros ->.
  rewrite (Reqb_neq _ _ N1), Reqb_refl in H. unfold mk_FF1_nan in H.
  destruct (String.eqb u "sin"); [destruct (existsb _ z); [discriminate|] | destruct (String.eqb u "rad")]; cbn [dget VALID_RANGES_1D find fst snd option_map String.eqb Ascii.eqb Bool.eqb] in H; (destruct (existsb _ _); [discriminate|]); injection H as <-; reflexivity.
Qed.
Example C35_example : Forall (fun t => - (PI / 2) <= t <= PI / 2 /\ Rabs (sin t) < 2 / (2 * (1 / 2))) [PI / 6; - (PI / 3)].
Proof.
  pose proof PI_RGT_0. repeat (apply Forall_cons || apply Forall_nil); (split; [lra|]); apply Rabs_def1; match goal with |- context [sin ?t] => pose proof (SIN_bound t); lra end.
Qed.
Print Assumptions C35_recovers. Print Assumptions C35_every_root. Print Assumptions C35_sine_out_of_range.
