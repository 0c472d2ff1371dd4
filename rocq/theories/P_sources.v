From Coq Require Import Sorting.Sorted Sorting.Permutation Lra.
From Verif Require Import Base_Np Base_Trig M_utils S_utils P_utils M_sources S_sources.
Open Scope R_scope.

(** *** construction *)
Lemma existsb_false_iff {A} (f : A -> bool) l : existsb f l = false <-> forall x, In x l -> f x = false.
Proof.
  induction l as [|a l IH]; simpl; [split; [intros _ x []|reflexivity]|].
  rewrite orb_false_iff, IH. split.
  - intros (H1 & H2) x [<-|Hx]; auto.
  - intros H. split; [apply H; now left | intros; apply H; now right].
Qed.
Lemma Rltb_false x y : Rltb x y = false <-> y <= x.
Proof. unfold Rltb. destruct (Rlt_dec x y); split; intros; try discriminate; try lra; reflexivity. Qed.
Lemma Rltb_true x y : Rltb x y = true <-> x < y.
Proof. unfold Rltb. destruct (Rlt_dec x y); split; intros; try discriminate; try lra; reflexivity. Qed.
Lemma ranges_1d u : dget String.eqb VALID_RANGES_1D u =
  if String.eqb u "rad" then Some (- PI / 2, PI / 2) else if String.eqb u "deg" then Some (-90, 90)
  else if String.eqb u "sin" then Some (-1, 1) else None.
Proof. reflexivity. Qed.
Lemma ranges_2d u : dget String.eqb VALID_RANGES_2D u =
  if String.eqb u "rad" then Some ((- PI, PI), (- PI / 2, PI / 2)) else if String.eqb u "deg" then Some ((-180, 180), (-90, 90))
  else None.
Proof. reflexivity. Qed.
Lemma range_1d_valid u lb ub : dget String.eqb VALID_RANGES_1D u = Some (lb, ub) ->
  known_unit u /\ forall x, valid_angle u x <-> lb <= x <= ub.
Proof.
  rewrite ranges_1d. unfold known_unit, valid_angle.
  destruct (String.eqb_spec u "rad") as [->|]; [|destruct (String.eqb_spec u "deg") as [->|]; [|destruct (String.eqb_spec u "sin") as [->|]]];
    intros H; try discriminate; injection H as <- <-; (split; [auto|]).
  - intros x. split; [intros [[_ H]|[[H _]|[H _]]]; try discriminate; lra | intros H; left; split; [reflexivity | lra]].
  - intros x. split; [intros [[H _]|[[_ H]|[H _]]]; try discriminate; lra | intros H; right; left; split; [reflexivity | lra]].
  - intros x. split; [intros [[H _]|[[H _]|[_ H]]]; try discriminate; lra | intros H; right; right; split; [reflexivity | lra]].
Qed.
Lemma range_1d_none u : dget String.eqb VALID_RANGES_1D u = None <-> ~ known_unit u.
Proof.
  rewrite ranges_1d. unfold known_unit.
  destruct (String.eqb_spec u "rad"); [|destruct (String.eqb_spec u "deg"); [|destruct (String.eqb_spec u "sin")]];
    split; intros H; try discriminate; try tauto.
Qed.
Lemma mk_FF1_ok x u s : mk_FF1 x u = Ok s <->
  (nd_ndim x <= 1)%nat /\ known_unit u /\ Forall (valid_angle u) (nd_data x) /\ s = FF1 (nd_data x) u.
Proof.
  unfold mk_FF1. destruct (Nat.ltb_spec 1 (nd_ndim x)); [split; [discriminate | lia]|].
  destruct (dget String.eqb VALID_RANGES_1D u) as [(lb, ub)|] eqn:E.
  - apply range_1d_valid in E as (K & V). destruct (_ || _)%bool eqn:B.
    + split; [discriminate|]. intros (_ & _ & F & _). exfalso. rewrite Forall_forall in F.
      apply orb_true_iff in B as [B|B]; apply existsb_exists in B as (y & Hy & B); apply Rltb_true in B; apply F, V in Hy; lra.
    + apply orb_false_iff in B as (B1 & B2). rewrite existsb_false_iff in B1, B2. split.
      * intros H1. injection H1 as <-. repeat split; auto. apply Forall_forall. intros y Hy. apply V.
        specialize (B1 y Hy). specialize (B2 y Hy). rewrite Rltb_false in B1, B2. lra.
      * intros (_ & _ & _ & ->). reflexivity.
  - apply range_1d_none in E. split; [discriminate | tauto].
Qed.
Lemma mk_FF1_errors x u :
  ((1 < nd_ndim x)%nat -> mk_FF1 x u = Raise ValueError) /\
  ((nd_ndim x <= 1)%nat -> ~ known_unit u -> mk_FF1 x u = Raise ValueError) /\
  ((nd_ndim x <= 1)%nat -> known_unit u -> ~ Forall (valid_angle u) (nd_data x) -> mk_FF1 x u = Raise TypeError).
Proof.
  unfold mk_FF1. destruct (Nat.ltb_spec 1 (nd_ndim x)).
  - split; [reflexivity|]. split; intros; lia.
  - split; [lia|]. destruct (dget String.eqb VALID_RANGES_1D u) as [(lb, ub)|] eqn:E.
    + apply range_1d_valid in E as (K & V). split; [tauto|]. intros _ _ F. destruct (_ || _)%bool eqn:B; [reflexivity|].
      exfalso. apply F. apply orb_false_iff in B as (B1 & B2). rewrite existsb_false_iff in B1, B2.
      apply Forall_forall. intros y Hy. apply V.
      specialize (B1 y Hy). specialize (B2 y Hy). rewrite Rltb_false in B1, B2. lra.
    + apply range_1d_none in E. split; [reflexivity | tauto].
Qed.
Lemma nd_rows2 l : (List.map (fun i => (ent (nd_mat 0 (rows2 l)) i 0%nat, ent (nd_mat 0 (rows2 l)) i 1%nat)) (seq 0 (nr (nd_mat 0 (rows2 l)))) = l).
Proof.
  unfold nd_mat, rows2. cbn [nd_shape nd_data nr ent nth].
  induction l as [|(a, b) l IH]; [reflexivity|]. simpl List.length. rewrite <- cons_seq, <- seq_shift, map_cons, map_map. f_equal.
  etransitivity; [|exact IH]. apply map_ext. intros i. reflexivity.
Qed.
Lemma mk_FF2_ok x u s : mk_FF2 x u = Ok s <->
  List.length (nd_shape x) = 2%nat /\ nth 1 (nd_shape x) 0%nat = 2%nat /\ unit2 u /\
  exists l, l = map (fun i => (nth (i * 2) (nd_data x) 0, nth (i * 2 + 1) (nd_data x) 0)) (seq 0 (nth 0 (nd_shape x) 0%nat)) /\
    Forall (valid_ae u) l /\ s = FF2 l u.
Proof.
  unfold mk_FF2, nd_ndim.
  destruct (Nat.eqb_spec (List.length (nd_shape x)) 2) as [E1|E1]; simpl; [|split; [discriminate | tauto]].
  destruct (Nat.eqb_spec (nth 1 (nd_shape x) 0%nat) 2) as [E2|E2]; simpl; [|split; [discriminate | tauto]].
  set (l := map _ (seq 0 (nth 0 (nd_shape x) 0%nat))).
  assert (El : l = map (fun i => (nth (i * 2) (nd_data x) 0, nth (i * 2 + 1) (nd_data x) 0)) (seq 0 (nth 0 (nd_shape x) 0%nat))).
  { unfold l. apply map_ext. intros i. rewrite E2, Nat.add_0_r. reflexivity. }
  rewrite <- El. unfold unit2. 
  assert (Hgen : forall lba uba lbe ube, (forall p, valid_ae u p <-> lba <= fst p <= uba /\ lbe <= snd p <= ube) ->
    ((if existsb (fun p => Rltb (fst p) lba) l || existsb (fun p => Rltb uba (fst p)) l then Raise ValueError
      else if existsb (fun p => Rltb (snd p) lbe) l || existsb (fun p => Rltb ube (snd p)) l then Raise ValueError else Ok (FF2 l u)) = Ok s
     <-> Forall (valid_ae u) l /\ s = FF2 l u)).
  { intros lba uba lbe ube V. destruct (_ || _)%bool eqn:B.
    - split; [discriminate|]. intros (F & _). exfalso. rewrite Forall_forall in F.
      apply orb_true_iff in B as [B|B]; apply existsb_exists in B as (y & Hy & B); apply Rltb_true in B; apply F, V in Hy; lra.
    - destruct (existsb (fun p => Rltb (snd p) lbe) l || existsb (fun p => Rltb ube (snd p)) l)%bool eqn:B'.
      + split; [discriminate|]. intros (F & _). exfalso. rewrite Forall_forall in F.
        apply orb_true_iff in B' as [B'|B']; apply existsb_exists in B' as (y & Hy & B'); apply Rltb_true in B'; apply F, V in Hy; lra.
      + apply orb_false_iff in B as (B1 & B2). apply orb_false_iff in B' as (B3 & B4). rewrite existsb_false_iff in B1, B2, B3, B4. split.
        * intros H1. injection H1 as <-. split; [|reflexivity]. apply Forall_forall. intros y Hy. apply V.
          specialize (B1 y Hy). specialize (B2 y Hy). specialize (B3 y Hy). specialize (B4 y Hy). rewrite Rltb_false in B1, B2, B3, B4. lra.
        * intros (_ & ->). reflexivity. }
  destruct (String.eqb_spec u "rad") as [->|N1].
  - rewrite Hgen.
    + split; [intros (F & ->) | intros (_ & _ & _ & l' & -> & F & ->)]; eauto 10.
    + intros p. unfold valid_ae. split; [intros [(_ & H)|(H & _)]; [lra | discriminate] | intros H; left; split; [reflexivity | lra]].
  - destruct (String.eqb_spec u "deg") as [->|N2].
    + rewrite Hgen.
      * split; [intros (F & ->) | intros (_ & _ & _ & l' & -> & F & ->)]; eauto 10.
      * intros p. unfold valid_ae. split; [intros [(H & _)|(_ & H)]; [discriminate | lra] | intros H; right; split; [reflexivity | lra]].
    + split; [discriminate | tauto].
Qed.
Lemma mk_FF2_err x u e : mk_FF2 x u = Raise e -> e = ValueError.
Proof.
  unfold mk_FF2. destruct (_ || _)%bool; [congruence|].
  destruct (dget _ _ _) as [((?, ?), (?, ?))|]; [|congruence].
  destruct (_ || _)%bool; [congruence|]. destruct (_ || _)%bool; congruence.
Qed.
Lemma mk_FF2_rows l u : unit2 u -> Forall (valid_ae u) l -> mk_FF2 (rows2 l) u = Ok (FF2 l u).
Proof.
  intros H F. apply mk_FF2_ok. split; [reflexivity|]. split; [reflexivity|]. split; [exact H|]. exists l. split; [|auto].
  rewrite <- (nd_rows2 l) at 1. unfold nd_mat, rows2. cbn [nd_shape nd_data nr ent nth]. apply map_ext. intros i. rewrite Nat.add_0_r. reflexivity.
Qed.
Lemma mk_NF2_rows l : mk_NF2 (rows2 l) = Ok (NF2 l).
Proof. unfold mk_NF2. cbn -[nd_mat]. rewrite nd_rows2. reflexivity. Qed.

(** *** phase delays *)
Lemma Reqb_neq a b : a <> b -> Reqb a b = false.
Proof. intros H. unfold Reqb. destruct (Req_EM_T a b); [contradiction | reflexivity]. Qed.
Lemma Reqb_refl a : Reqb a a = true.
Proof. unfold Reqb. destruct (Req_EM_T a a); [reflexivity | contradiction]. Qed.
Lemma nth_map_R (f : R -> R) l k : (k < List.length l)%nat -> nth k (map f l) 0 = f (nth k l 0).
Proof. intros H. rewrite (nth_indep _ 0 (f 0)) by (now rewrite map_length). apply map_nth. Qed.
Lemma nth_map_P {B} (f : R * R -> B) l k d : (k < List.length l)%nat -> nth k (map f l) d = f (nth k l (0, 0)).
Proof. intros H. rewrite (nth_indep _ d (f (0, 0))) by (now rewrite map_length). apply map_nth. Qed.
Lemma cos_asin' x : -1 <= x <= 1 -> cos (asin x) = sqrt (1 - x * x).
Proof. intros H. rewrite cos_asin by exact H. unfold Rsqr. reflexivity. Qed.
Lemma deg_unit u : (if String.eqb u "deg" then 1 else 0) = 1 -> u = "deg"%string.
Proof. destruct (String.eqb_spec u "deg"); auto. lra. Qed.
Lemma phase_ff s sensors lam der D DD : valid_sources s -> is_far_field s = true ->
  phase_delay_matrix s sensors lam der = Ok (D, DD) ->
  nr D = nr sensors /\ nc D = src_size s /\
  forall i k, (i < nr sensors)%nat -> (k < src_size s)%nat -> ent D i k = plane_phase lam sensors i (direction s k).
Proof.
  intros V F H. unfold phase_delay_matrix in H. destruct (_ || _)%bool eqn:B; [discriminate|].
  apply orb_false_iff in B as (B1 & B2). apply Nat.ltb_ge in B1, B2.
  destruct s as [l u|l u|l]; [| |discriminate].
  - destruct (Reqb lam 0); [discriminate|]. destruct V as (K & V). unfold phase_delay_sin, phase_delay_rad in H.
    destruct (String.eqb_spec u "sin") as [->|N].
    + destruct (Nat.eqb_spec (nc sensors) 1) as [E|E]; injection H as <- _; (split; [reflexivity|]);
        cbn [nc rscal mmap outer_col radd src_size ent]; (split; [reflexivity|]); intros i k Hi Hk;
        unfold plane_phase, direction, coord; cbn [to_rad String.eqb Ascii.eqb Bool.eqb];
        rewrite ?(nth_map_R (fun x => sqrt (1 - x * x))) by exact Hk;
        assert (Hv : -1 <= nth k l 0 <= 1) by (rewrite Forall_forall in V; specialize (V _ (nth_In l 0 Hk)); unfold valid_angle in V; destruct V as [(?&_)|[(?&_)|(_&?)]]; try discriminate; assumption);
        rewrite sin_asin, cos_asin' by exact Hv.
      * rewrite E. cbn [Nat.ltb Nat.leb]. ring.
      * assert (E2 : nc sensors = 2%nat \/ nc sensors = 3%nat) by lia. destruct E2 as [E2|E2]; rewrite E2; cbn [Nat.ltb Nat.leb]; ring.
    + assert (LL : List.length (if String.eqb u "deg" then map deg2rad l else l) = List.length l) by (destruct (String.eqb u "deg"); rewrite ?map_length; reflexivity).
      assert (L0 : forall k, (k < List.length l)%nat -> nth k (if String.eqb u "deg" then map deg2rad l else l) 0 = to_rad u (nth k l 0)).
      { intros k Hk. unfold known_unit in K. destruct K as [->|[->| ->]]; [reflexivity| |congruence]. simpl. now rewrite nth_map_R. }
      destruct (Nat.eqb_spec (nc sensors) 1) as [E|E]; injection H as <- _; (split; [reflexivity|]);
        cbn [nc rscal mmap outer_col radd src_size ent]; rewrite ?map_length, ?LL; (split; [reflexivity|]); intros i k Hi Hk;
        unfold plane_phase, direction, coord; rewrite ?(nth_map_R sin), ?(nth_map_R cos) by (now rewrite LL); rewrite L0 by exact Hk.
      * rewrite E. cbn [Nat.ltb Nat.leb]. ring.
      * assert (E2 : nc sensors = 2%nat \/ nc sensors = 3%nat) by lia. destruct E2 as [E2|E2]; rewrite E2; cbn [Nat.ltb Nat.leb]; ring.
  - destruct der; [discriminate|]. destruct (Reqb lam 0); [discriminate|]. injection H as <- _. destruct V as (K & V).
    assert (L0 : forall k, (k < List.length l)%nat ->
       nth k (if String.eqb u "deg" then map (fun p => (deg2rad (fst p), deg2rad (snd p))) l else l) (0, 0) = (to_rad u (fst (nth k l (0, 0))), to_rad u (snd (nth k l (0, 0))))).
    { intros k Hk. destruct K as [->| ->]; simpl; [now destruct (nth k l (0, 0))|]. now rewrite nth_map_P. }
    assert (LL : List.length (if String.eqb u "deg" then map (fun p => (deg2rad (fst p), deg2rad (snd p))) l else l) = List.length l) by (destruct (String.eqb u "deg"); rewrite ?map_length; reflexivity).
    unfold phase_delay_2d.
    assert (E : nc sensors = 1%nat \/ nc sensors = 2%nat \/ nc sensors = 3%nat) by lia.
    destruct E as [E|[E|E]]; rewrite E; cbn [Nat.eqb nr nc rscal mmap outer_col radd src_size ent]; rewrite ?map_length, ?LL; (split; [reflexivity|]);
      (split; [reflexivity|]); intros i k Hi Hk; unfold plane_phase, direction, coord; rewrite E;
      rewrite !nth_map_P by (now rewrite LL); rewrite L0 by exact Hk; cbn [fst snd Nat.ltb Nat.leb]; ring.
Qed.
Lemma phase_delay_nonzero s sensors lam der r : phase_delay_matrix s sensors lam der = Ok r -> lam <> 0.
Proof.
  unfold phase_delay_matrix. intros H E. subst lam. rewrite Reqb_refl in H. destruct (_ || _)%bool; [discriminate|].
  destruct s; [discriminate | destruct der; discriminate | destruct der; discriminate].
Qed.
Lemma phase_defined s sensors lam : lam <> 0 -> (1 <= nc sensors <= 3)%nat -> is_far_field s = true ->
  exists D, phase_delay_matrix s sensors lam false = Ok (D, []).
Proof.
  intros NZ H F. unfold phase_delay_matrix. destruct (Nat.ltb_spec (nc sensors) 1); [lia|]. destruct (Nat.ltb_spec 3 (nc sensors)); [lia|]. simpl. rewrite (Reqb_neq lam 0 NZ).
  destruct s as [l u|l u|l]; [|eexists; reflexivity|discriminate].
  destruct (if String.eqb u "sin" then _ else _) as (D, DD). eexists; reflexivity.
Qed.

(** *** near field *)
Lemma phase_nf l sensors lam D DD : phase_delay_matrix (NF2 l) sensors lam false = Ok (D, DD) ->
  DD = [] /\ nr D = nr sensors /\ nc D = List.length l /\ (0 < nr sensors)%nat /\
  forall i k, (i < nr sensors)%nat -> (k < List.length l)%nat ->
    ent D i k = - (2 * PI / lam) * (distance sensors i (nth k l (0, 0)) - distance sensors 0 (nth k l (0, 0))).
Proof.
  unfold phase_delay_matrix, phase_delay_nf. destruct (_ || _)%bool eqn:B; [discriminate|]. destruct (Reqb lam 0); [discriminate|].
  apply orb_false_iff in B as (B1 & B2). apply Nat.ltb_ge in B1, B2.
  assert (G : forall src sens, (if Nat.eqb (nr (cdist sens src)) 0 then Raise IndexError else Ok (rscal (-2 * PI / lam) (Mat (nr (cdist sens src)) (nc (cdist sens src)) (fun i k => ent (cdist sens src) i k - ent (cdist sens src) 0%nat k)), @nil rmat)) = Ok (D, DD) ->
     nr sens = nr sensors -> nr src = List.length l -> (forall i k, (i < nr sensors)%nat -> (k < List.length l)%nat ->
        sqrt (rsum (nc sens) (fun j => (ent sens i j - ent src k j) * (ent sens i j - ent src k j))) = distance sensors i (nth k l (0, 0))) ->
     DD = [] /\ nr D = nr sensors /\ nc D = List.length l /\ (0 < nr sensors)%nat /\
      forall i k, (i < nr sensors)%nat -> (k < List.length l)%nat ->
    ent D i k = - (2 * PI / lam) * (distance sensors i (nth k l (0, 0)) - distance sensors 0 (nth k l (0, 0)))).
  { intros src sens H H1 H2 H3. unfold cdist in H. cbn [nr nc ent] in H. rewrite H1, H2 in H.
    destruct (Nat.eqb_spec (nr sensors) 0) as [Z|Z]; [discriminate|]. injection H as <- <-. split; [reflexivity|].
    split; [reflexivity|]. split; [reflexivity|]. split; [lia|]. intros i k Hi Hk. cbn [rscal mmap ent]. rewrite !H3 by (assumption || lia).
    unfold Rdiv. ring. }
  unfold align_location_dims. destruct (Nat.ltb_spec (nc sensors) 2) as [C1|C1]; [|destruct (Nat.ltb_spec 2 (nc sensors)) as [C2|C2]].
  - intros H. destruct (Nat.eqb (nr (cdist (pad_col sensors) (pairs_mat l))) 0) eqn:Z; [discriminate|]. cbn [bind] in H.
    apply (G (pairs_mat l) (pad_col sensors)); [now rewrite Z|reflexivity|reflexivity|]. intros i k Hi Hk.
    assert (E : nc sensors = 1%nat) by lia. unfold pad_col, pairs_mat, distance, coord. cbn [nr nc ent]. rewrite E. cbn [Nat.add]. simpl rsum. f_equal. simpl. ring.
  - intros H. destruct (Nat.eqb (nr (cdist sensors (pad_col (pairs_mat l)))) 0) eqn:Z; [discriminate|]. cbn [bind] in H.
    apply (G (pad_col (pairs_mat l)) sensors); [now rewrite Z|reflexivity|reflexivity|]. intros i k Hi Hk.
    assert (E : nc sensors = 3%nat) by lia. unfold pad_col, pairs_mat, distance, coord. cbn [nr nc ent]. rewrite E. simpl. f_equal. ring.
  - intros H. destruct (Nat.eqb (nr (cdist sensors (pairs_mat l))) 0) eqn:Z; [discriminate|]. cbn [bind] in H.
    apply (G (pairs_mat l) sensors); [now rewrite Z|reflexivity|reflexivity|]. intros i k Hi Hk.
    assert (E : nc sensors = 2%nat) by lia. unfold pairs_mat, distance, coord. cbn [nr nc ent]. rewrite E. simpl. f_equal. ring.
Qed.
Lemma phase_nf_defined l sensors lam : lam <> 0 -> (1 <= nc sensors <= 3)%nat -> (0 < nr sensors)%nat ->
  exists D, phase_delay_matrix (NF2 l) sensors lam false = Ok (D, []).
Proof.
  intros NZ H H0. unfold phase_delay_matrix, phase_delay_nf. destruct (Nat.ltb_spec (nc sensors) 1); [lia|]. destruct (Nat.ltb_spec 3 (nc sensors)); [lia|]. simpl orb. cbv iota. rewrite (Reqb_neq lam 0 NZ).
  unfold align_location_dims. destruct (Nat.ltb_spec (nc sensors) 2); [|destruct (Nat.ltb_spec 2 (nc sensors))];
   unfold cdist; cbn [nr pad_col]; (destruct (Nat.eqb_spec (nr sensors) 0); [lia|]); eexists; reflexivity.
Qed.
(** distance along a ray *)
Lemma ray_distance x y z a rho : 0 < rho - (x * cos a + y * sin a) ->
  0 <= sqrt ((x - rho * cos a) * (x - rho * cos a) + (y - rho * sin a) * (y - rho * sin a) + z * z) - (rho - (x * cos a + y * sin a))
    <= (x * x + y * y + z * z) / (rho - (x * cos a + y * sin a)).
Proof.
  intros HY. set (Y := rho - (x * cos a + y * sin a)) in *.
  set (X := (x - rho * cos a) * (x - rho * cos a) + (y - rho * sin a) * (y - rho * sin a) + z * z).
  pose proof (sin2_cos2 a) as SC. unfold Rsqr in SC.
  assert (EX : X - Y * Y = (x * sin a - y * cos a) * (x * sin a - y * cos a) + z * z).
  { unfold X, Y. set (c := cos a) in *. set (t := sin a) in *.
    transitivity ((x * t - y * c) * (x * t - y * c) + z * z + (t * t + c * c - 1) * (rho * rho) + (1 - (t * t + c * c)) * (x * x + y * y)); [ring|].
    rewrite SC. ring. }
  assert (P1 : 0 <= (x * sin a - y * cos a) * (x * sin a - y * cos a)) by apply Rle_0_sqr.
  assert (P2 : 0 <= z * z) by apply Rle_0_sqr.
  assert (P3 : 0 <= (x * cos a + y * sin a) * (x * cos a + y * sin a)) by apply Rle_0_sqr.
  assert (HX : Y * Y <= X) by lra.
  assert (EX2 : X - Y * Y <= x * x + y * y + z * z).
  { rewrite EX. assert (E2 : (x * sin a - y * cos a) * (x * sin a - y * cos a) + (x * cos a + y * sin a) * (x * cos a + y * sin a) = (sin a * sin a + cos a * cos a) * (x * x + y * y)) by ring.
    rewrite SC in E2. lra. }
  assert (S1 : Y <= sqrt X). { rewrite <- (sqrt_square Y) by lra. apply sqrt_le_1_alt. exact HX. }
  split; [lra|]. assert (P4 : 0 <= X) by (pose proof (Rle_0_sqr Y) as Q; unfold Rsqr in Q; lra). pose proof (sqrt_sqrt X P4) as SS. clearbody X Y. clear EX P1 P3 SC.
  apply Rmult_le_reg_r with Y; [exact HY|]. unfold Rdiv. rewrite Rmult_assoc, Rinv_l, Rmult_1_r by lra. nra.
Qed.
Lemma near_to_far sensors i a lam eps : 0 < lam -> 0 < eps ->
  exists rho0, forall rho, rho0 < rho ->
   Rabs (- (2 * PI / lam) * (distance sensors i (rho * cos a, rho * sin a) - distance sensors 0 (rho * cos a, rho * sin a))
         - (plane_phase lam sensors i (cos a, sin a, 0) - plane_phase lam sensors 0 (cos a, sin a, 0))) < eps.
Proof.
  intros Hl He. pose proof PI_RGT_0 as HP.
  set (u i := coord sensors i 0 * cos a + coord sensors i 1 * sin a).
  set (q i := coord sensors i 0 * coord sensors i 0 + coord sensors i 1 * coord sensors i 1 + coord sensors i 2 * coord sensors i 2).
  assert (Hq : forall i, 0 <= q i) by (intros; unfold q; nra).
  set (K := 2 * PI / lam). assert (HK : 0 < K) by (apply Rdiv_lt_0_compat; lra).
  exists (Rabs (u i) + Rabs (u 0%nat) + K * (q i + q 0%nat) / eps). intros rho Hr.
  assert (HQ : 0 <= K * (q i + q 0%nat) / eps). { apply Rmult_le_pos; [|left; now apply Rinv_0_lt_compat]. pose proof (Hq i). pose proof (Hq 0%nat). nra. }
  assert (H1 : forall j, j = i \/ j = 0%nat -> K * (q i + q 0%nat) / eps < rho - u j).
  { intros j [->| ->]; [pose proof (Rle_abs (u i)); pose proof (Rabs_pos (u 0%nat)) | pose proof (Rle_abs (u 0%nat)); pose proof (Rabs_pos (u i))]; lra. }
  assert (H2 : forall j, j = i \/ j = 0%nat -> 0 < rho - u j) by (intros j Hj; specialize (H1 j Hj); lra).
  assert (R : forall j, j = i \/ j = 0%nat -> 0 <= distance sensors j (rho * cos a, rho * sin a) - (rho - u j) /\
     (rho - u j) * (distance sensors j (rho * cos a, rho * sin a) - (rho - u j)) <= q j).
  { intros j Hj. specialize (H2 j Hj). pose proof (ray_distance (coord sensors j 0) (coord sensors j 1) (coord sensors j 2) a rho H2) as (R1 & R2).
    fold (q j) in R2. split; [exact R1|]. apply Rmult_le_compat_l with (r := rho - u j) in R2; [|lra].
    replace ((rho - u j) * (q j / (rho - (coord sensors j 0 * cos a + coord sensors j 1 * sin a)))) with (q j) in R2 by (unfold u; field; unfold u in H2; lra).
    exact R2. }
  set (e j := distance sensors j (rho * cos a, rho * sin a) - (rho - u j)) in *.
  assert (E : - K * (distance sensors i (rho * cos a, rho * sin a) - distance sensors 0 (rho * cos a, rho * sin a))
         - (plane_phase lam sensors i (cos a, sin a, 0) - plane_phase lam sensors 0 (cos a, sin a, 0)) = - K * (e i - e 0%nat)).
  { unfold plane_phase, e, u, K. ring. }
  fold K. rewrite E. 
  assert (B : forall j, j = i \/ j = 0%nat -> 0 <= K * e j < eps).
  { intros j Hj. destruct (R j Hj) as (R1 & R2). specialize (H1 j Hj). fold (e j) in R1, R2. split; [apply Rmult_le_pos; [lra | exact R1]|].
    assert (W : K * (q i + q 0%nat) < eps * (rho - u j)).
    { apply Rmult_lt_compat_l with (r := eps) in H1; [|exact He]. replace (eps * (K * (q i + q 0%nat) / eps)) with (K * (q i + q 0%nat)) in H1 by (field; lra). exact H1. }
    assert (q j <= q i + q 0%nat) by (pose proof (Hq i); pose proof (Hq 0%nat); destruct Hj as [->| ->]; lra).
    specialize (H2 j Hj). apply Rmult_lt_reg_r with (rho - u j); [exact H2|]. apply Rmult_le_compat_l with (r := K) in R2; [|lra]. nra. }
  pose proof (B i (or_introl eq_refl)). pose proof (B 0%nat (or_intror eq_refl)).
  apply Rabs_def1; lra.
Qed.

