From Coq Require Import Sorting.Sorted Sorting.Permutation Lra.
From Verif Require Import Base_Np Base_Trig M_utils S_utils P_utils M_sources S_sources P_sources.
Open Scope R_scope.

(** *** unit conversion *)
Lemma valid_unit2_known u : unit2 u -> known_unit u.
Proof. intros [->| ->]; unfold known_unit; auto. Qed.
Lemma to_of_rad2 u x : unit2 u -> to_rad u (of_rad u x) = x.
Proof. intros [->| ->]; unfold to_rad, of_rad; simpl; [reflexivity | apply deg2rad_rad2deg]. Qed.
Lemma of_to_rad2 u x : unit2 u -> of_rad u (to_rad u x) = x.
Proof. intros [->| ->]; unfold to_rad, of_rad; simpl; [reflexivity | apply rad2deg_deg2rad]. Qed.
Lemma convert2 xs u v : unit2 u -> unit2 v -> convert_angles xs u v = Ok (map (fun x => of_rad v (to_rad u x)) xs).
Proof.
  intros [->| ->] [->| ->]; unfold convert_angles, to_rad, of_rad; simpl; f_equal.
  - symmetry. apply map_id.
  - rewrite <- (map_id xs) at 1. apply map_ext. intros x. symmetry. apply rad2deg_deg2rad.
Qed.
Lemma valid_ae_convert u v p : unit2 u -> unit2 v -> valid_ae u p -> valid_ae v (of_rad v (to_rad u (fst p)), of_rad v (to_rad u (snd p))).
Proof.
  pose proof PI_RGT_0 as HP. intros [->| ->] [->| ->] [(E & H)|(E & H)]; try discriminate E; unfold valid_ae, to_rad, of_rad; simpl.
  - left. auto.
  - right. split; [reflexivity|]. split; (split; apply Rmult_le_reg_r with PI; try lra; unfold Rdiv; rewrite Rmult_assoc, (Rmult_assoc 180), Rinv_l by lra; lra).
  - left. split; [reflexivity|]. split; split; nra.
  - right. split; [reflexivity|]. assert (W : forall x, x * (PI / 180) * (180 / PI) = x) by (intros; field; lra). rewrite !W. exact H.
Qed.
Definition convert_src (s : sources) (v : string) : sources :=
  match s with
  | FF1 l u => FF1 (map (fun x => of_rad v (to_rad u x)) l) v
  | FF2 l u => FF2 (map (fun p => (of_rad v (to_rad u (fst p)), of_rad v (to_rad u (snd p)))) l) v
  | NF2 l => NF2 l
  end.
Lemma flat_pairs (f : R -> R) l : map f (flat_map (fun p : R * R => [fst p; snd p]) l) = flat_map (fun p => [fst p; snd p]) (map (fun p => (f (fst p), f (snd p))) l).
Proof. induction l as [|p l IH]; [reflexivity|]. simpl. now rewrite IH. Qed.
Lemma as_unit_ok s v : valid_sources s -> supported s v -> as_unit s v = Ok (convert_src s v) /\ valid_sources (convert_src s v) /\
  src_size (convert_src s v) = src_size s.
Proof.
  destruct s as [l u|l u|l]; simpl; intros V Hv.
  - destruct V as (K & V). rewrite convert_angles_via_rad by assumption. cbn [bind].
    assert (F : Forall (valid_angle v) (map (fun x => of_rad v (to_rad u x)) l)).
    { apply Forall_forall. intros y Hy. apply in_map_iff in Hy as (x & <- & Hx). rewrite Forall_forall in V. apply of_rad_valid; [exact Hv|]. apply to_rad_range; auto. }
    split; [|rewrite map_length; auto]. apply mk_FF1_ok. unfold vec1. cbn [nd_ndim nd_shape nd_data List.length]. auto.
  - destruct V as (K & V). rewrite convert2 by assumption. cbn [bind].
    assert (F : Forall (valid_ae v) (map (fun p => (of_rad v (to_rad u (fst p)), of_rad v (to_rad u (snd p)))) l)).
    { apply Forall_forall. intros y Hy. apply in_map_iff in Hy as (p & <- & Hp). rewrite Forall_forall in V. apply valid_ae_convert; auto. }
    split; [|rewrite map_length; auto]. rewrite (flat_pairs (fun x => of_rad v (to_rad u x))).
    rewrite <- (mk_FF2_rows _ v Hv F). unfold rows2. rewrite map_length. reflexivity.
  - subst v. cbn [String.eqb Ascii.eqb Bool.eqb negb]. rewrite mk_NF2_rows. auto.
Qed.
Lemma as_unit_unsupported s v : valid_sources s -> ~ supported s v ->
  match s with
  | FF1 _ _ => as_unit s v = Raise KeyError
  | FF2 _ _ => (v = "sin"%string /\ as_unit s v = Raise ValueError) \/ as_unit s v = Raise KeyError
  | NF2 _ => as_unit s v = Raise ValueError
  end.
Proof.
  destruct s as [l u|l u|l]; simpl; intros V Hv.
  - rewrite convert_angles_keyerror; [reflexivity| |tauto]. intros ->. tauto.
  - destruct (string_dec v "sin") as [->|N].
    + left. split; [reflexivity|]. destruct V as (K & V).
      destruct K as [->| ->]; unfold convert_angles; cbn -[mk_FF2]; unfold mk_FF2; cbn; rewrite ?orb_false_r; reflexivity.
    + right. rewrite convert_angles_keyerror; [reflexivity| |].
      * intros ->. apply Hv. apply V.
      * intros (_ & [->|[->| ->]]); [apply Hv; now left | apply Hv; now right | congruence].
  - destruct (String.eqb_spec v "m"); [tauto | reflexivity].
Qed.
Lemma direction_convert s v k : valid_sources s -> supported s v -> (k < src_size s)%nat -> direction (convert_src s v) k = direction s k.
Proof.
  destruct s as [l u|l u|l]; simpl; intros V Hv Hk; [| |reflexivity].
  - rewrite (nth_map_R (fun x => of_rad v (to_rad u x))) by exact Hk. destruct V as (K & V). rewrite Forall_forall in V.
    rewrite to_of_rad; [reflexivity | exact Hv | apply to_rad_range, V, nth_In, Hk].
  - rewrite nth_map_P by exact Hk. cbn [fst snd]. now rewrite !to_of_rad2.
Qed.
Lemma as_unit_spherical s v refs : valid_sources s -> supported s v ->
  calc_spherical_coords (convert_src s v) refs = calc_spherical_coords s refs.
Proof.
  destruct s as [l u|l u|l]; simpl; intros V Hv; [| |reflexivity].
  - destruct V as (K & V). rewrite (convert_angles_compose l u v "rad" (map (fun x => of_rad v (to_rad u x)) l) K Hv);
      [|unfold known_unit; auto|exact V|now apply convert_angles_via_rad]. rewrite map_length. reflexivity.
  - destruct V as (K & V). rewrite !map_map, map_length. cbn [fst snd].
    assert (HR : unit2 "rad") by (left; reflexivity). rewrite !convert2 by assumption. rewrite !map_map. cbn [bind].
    rewrite (map_ext (fun x : R * R => of_rad "rad" (to_rad v (of_rad v (to_rad u (fst x))))) (fun x => of_rad "rad" (to_rad u (fst x)))) by (intros; now rewrite to_of_rad2).
    rewrite (map_ext (fun x : R * R => of_rad "rad" (to_rad v (of_rad v (to_rad u (snd x))))) (fun x => of_rad "rad" (to_rad u (snd x)))) by (intros; now rewrite to_of_rad2).
    reflexivity.
Qed.
Lemma convert_back s v u' : valid_sources s -> supported s v ->
  match s with FF1 _ u | FF2 _ u => u' = u | NF2 _ => u' = "m"%string end ->
  as_unit (convert_src s v) u' = Ok s.
Proof.
  intros V Hv Hu. destruct (as_unit_ok s v V Hv) as (_ & V' & _).
  assert (S' : supported (convert_src s v) u'). { destruct s; simpl in *; subst; unfold unit2, known_unit in *; tauto. }
  destruct (as_unit_ok _ u' V' S') as (E & _ & _). rewrite E. f_equal.
  destruct s as [l u|l u|l]; simpl in *; subst u'; [| |reflexivity]; f_equal; rewrite map_map; rewrite <- (map_id l) at 2; apply map_ext_in.
  - intros x Hx. destruct V as (K & V). rewrite Forall_forall in V. specialize (V x Hx). rewrite to_of_rad; [now apply of_to_rad | exact Hv | now apply to_rad_range].
  - intros (x, y) _. cbn [fst snd]. destruct V as (K & _). rewrite !to_of_rad2, !of_to_rad2 by assumption. reflexivity.
Qed.

(** *** spherical coordinates *)
Lemma spherical_ff s refs r az el : valid_sources s -> is_far_field s = true -> calc_spherical_coords s refs = Ok (r, az, el) ->
  (nr r = nr refs /\ nc r = src_size s) /\ (nr az = nr refs /\ nc az = src_size s) /\ (nr el = nr refs /\ nc el = src_size s) /\
  forall i k, (i < nr refs)%nat -> (k < src_size s)%nat -> ent r i k = None /\
    match s with
    | FF1 l u => ent az i k = PI / 2 - to_rad u (nth k l 0) /\ ent el i k = 0
    | FF2 l u => ent az i k = to_rad u (fst (nth k l (0, 0))) /\ ent el i k = to_rad u (snd (nth k l (0, 0)))
    | NF2 _ => True
    end.
Proof.
  destruct s as [l u|l u|l]; simpl; intros V F H; [| |discriminate].
  - destruct V as (K & V). rewrite convert_angles_via_rad in H; [|exact K|unfold known_unit; auto|exact V]. cbn [bind] in H. injection H as <- <- <-.
    repeat split. cbn [ent]. rewrite (nth_map_R (fun x => of_rad "rad" (to_rad u x))) by assumption. reflexivity.
  - destruct V as (K & V). assert (HR : unit2 "rad") by (left; reflexivity). rewrite !convert2 in H by assumption. cbn [bind] in H. injection H as <- <- <-.
    repeat split; cbn [ent]; rewrite map_map, nth_map_P by assumption; reflexivity.
Qed.
Lemma spherical_ff_defined s refs : valid_sources s -> is_far_field s = true -> exists x, calc_spherical_coords s refs = Ok x.
Proof.
  destruct s as [l u|l u|l]; simpl; intros V F; [| |discriminate].
  - destruct V as (K & V). rewrite convert_angles_via_rad; [|exact K|unfold known_unit; auto|exact V]. eexists; reflexivity.
  - destruct V as (K & V). assert (HR : unit2 "rad") by (left; reflexivity). rewrite !convert2 by assumption. eexists; reflexivity.
Qed.

(** near field: spherical coordinates of source - reference point *)
Lemma spherical_nf l refs r az el : (1 <= nc refs <= 3)%nat -> calc_spherical_coords (NF2 l) refs = Ok (r, az, el) ->
  (nr r = nr refs /\ nc r = List.length l) /\ (nr az = nr refs /\ nc az = List.length l) /\ (nr el = nr refs /\ nc el = List.length l) /\
  forall i k, (i < nr refs)%nat -> (k < List.length l)%nat -> exists rho, ent r i k = Some rho /\
    spherical_of (fst (nth k l (0, 0)) - coord refs i 0) (snd (nth k l (0, 0)) - coord refs i 1) (0 - coord refs i 2) rho (ent az i k) (ent el i k).
Proof.
  intros Hd. unfold calc_spherical_coords.
  assert (G : forall src ref', nr src = List.length l -> nc src = nc ref' -> (2 <= nc src <= 3)%nat ->
     (forall i k, (i < nr refs)%nat -> (k < List.length l)%nat ->
        ent src k 0%nat - ent ref' i 0%nat = fst (nth k l (0, 0)) - coord refs i 0 /\
        ent src k 1%nat - ent ref' i 1%nat = snd (nth k l (0, 0)) - coord refs i 1 /\
        (if Nat.ltb 2 (nc src) then ent src k 2%nat - ent ref' i 2%nat else 0) = 0 - coord refs i 2) ->
     (let k := nr src in let d := nc src in
      raise_if (negb (Nat.eqb (nc ref') d)) as ValueError ;;
      let diffs := Mat (nr refs * k) d (fun i j => ent src (Nat.modulo i k) j - ent ref' (Nat.div i k) j) in
      let! sph := cart2spherical diffs in
      Ok (Mat (nr refs) k (fun i j => Some (ent sph (i * k + j) 0%nat)),
          Mat (nr refs) k (fun i j => ent sph (i * k + j) 1%nat),
          Mat (nr refs) k (fun i j => ent sph (i * k + j) 2%nat))) = Ok (r, az, el) ->
     (nr r = nr refs /\ nc r = List.length l) /\ (nr az = nr refs /\ nc az = List.length l) /\ (nr el = nr refs /\ nc el = List.length l) /\
     forall i k, (i < nr refs)%nat -> (k < List.length l)%nat -> exists rho, ent r i k = Some rho /\
       spherical_of (fst (nth k l (0, 0)) - coord refs i 0) (snd (nth k l (0, 0)) - coord refs i 1) (0 - coord refs i 2) rho (ent az i k) (ent el i k)).
  { intros src ref' H1 H2 H3 H4. cbv zeta. rewrite H2, Nat.eqb_refl. cbn [negb].
    set (df := Mat _ _ _). assert (Hn : nc df = nc src) by (unfold df; cbn [nc]; congruence).
    intros H. apply bind_Ok_inv in H as (sph & Es & H). injection H as <- <- <-. cbn [nr nc ent].
    split; [auto|]. split; [auto|]. split; [auto|]. intros i k Hi Hk. eexists. split; [reflexivity|].
    destruct (H4 i k Hi Hk) as (X & Y & Z). rewrite <- X, <- Y, <- Z.
    assert (Hr : (i * nr src + k < nr df)%nat). { unfold df; cbn [nr]. rewrite H1. nia. }
    assert (M1 : ((i * nr src + k) mod nr src)%nat = k). { rewrite Nat.add_comm, Nat.mod_add by lia. apply Nat.mod_small. lia. }
    assert (M2 : ((i * nr src + k) / nr src)%nat = i). { rewrite Nat.add_comm, Nat.div_add by lia. rewrite Nat.div_small by lia. reflexivity. }
    assert (Hc : (nc df = 2 \/ nc df = 3)%nat) by (rewrite Hn; lia).
    destruct Hc as [Hc|Hc].
    - destruct (cart2spherical_2d df Hc) as (s & Es' & _ & _ & P). rewrite Es in Es'. injection Es' as <-. specialize (P _ Hr).
      unfold df in P; cbn [ent] in P. rewrite M1, M2 in P. replace (nc src) with 2%nat by lia. exact P.
    - destruct (cart2spherical_3d df Hc) as (s & Es' & _ & _ & P). rewrite Es in Es'. injection Es' as <-. specialize (P _ Hr).
      unfold df in P; cbn [ent] in P. rewrite M1, M2 in P. replace (nc src) with 3%nat by lia. exact P. }
  unfold align_location_dims. destruct (Nat.ltb_spec (nc refs) 2) as [C1|C1]; [|destruct (Nat.ltb_spec 2 (nc refs)) as [C2|C2]].
  - apply (G (pairs_mat l) (pad_col refs)); cbn [nr nc pairs_mat pad_col ent]; [reflexivity|lia|lia|].
    intros i k Hi Hk. unfold coord. assert (E : nc refs = 1%nat) by lia. rewrite E. cbn. repeat split; ring.
  - apply (G (pad_col (pairs_mat l)) refs); cbn [nr nc pairs_mat pad_col ent]; [reflexivity|lia|lia|].
    intros i k Hi Hk. unfold coord. assert (E : nc refs = 3%nat) by lia. rewrite E. cbn. repeat split; ring.
  - apply (G (pairs_mat l) refs); cbn [nr nc pairs_mat pad_col ent]; [reflexivity|lia|lia|].
    intros i k Hi Hk. unfold coord. assert (E : nc refs = 2%nat) by lia. rewrite E. cbn. repeat split; ring.
Qed.

(** *** selecting sources *)
Lemma select_size s idx : src_size (select_sources s idx) = List.length idx.
Proof. destruct s; simpl; apply map_length. Qed.
Lemma select_valid s idx : valid_sources s -> (forall i, In i idx -> (i < src_size s)%nat) -> valid_sources (select_sources s idx).
Proof.
  destruct s as [l u|l u|l]; simpl; intros V H; [| |exact I]; destruct V as (K & V); (split; [exact K|]); apply Forall_forall; intros y Hy;
    apply in_map_iff in Hy as (i & <- & Hi); rewrite Forall_forall in V; apply V, nth_In, H, Hi.
Qed.
Lemma select_direction s idx k : (k < List.length idx)%nat -> direction (select_sources s idx) k = direction s (nth k idx 0%nat).
Proof.
  destruct s as [l u|l u|l]; simpl; intros H; [| |reflexivity].
  - rewrite (nth_indep _ 0 (nth 0 l 0)) by (now rewrite map_length). now rewrite (map_nth (fun i => nth i l 0)).
  - rewrite (nth_indep _ (0, 0) (nth 0 l (0, 0))) by (now rewrite map_length). now rewrite (map_nth (fun i => nth i l (0, 0))).
Qed.

(** *** slices *)
Lemma slice_spec n a b st sel : slice_indices n a b st = Ok sel ->
  let step := match st with None => 1%Z | Some s => s end in
  step <> 0%Z /\
  (forall k, (k < List.length sel)%nat -> Z.of_nat (nth k sel 0%nat) = (py_start n step a + Z.of_nat k * step)%Z /\ (nth k sel 0%nat < n)%nat) /\
  (forall k, (0 <= k)%Z -> (if 0 <? step then py_start n step a + k * step < py_stop n step b else py_stop n step b < py_start n step a + k * step)%Z ->
     (k < Z.of_nat (List.length sel))%Z) /\
  (forall k, (0 <= k < Z.of_nat (List.length sel))%Z -> (if 0 <? step then py_start n step a + k * step < py_stop n step b else py_stop n step b < py_start n step a + k * step)%Z).
Proof.
  unfold slice_indices. set (step := match st with None => 1%Z | Some s => s end). cbv zeta.
  destruct (Z.eqb_spec step 0) as [E|E]; [discriminate|]. intros H. injection H as <-. split; [exact E|]. rewrite map_length, seq_length.
  assert (B : forall dflt o, (match o with None => dflt | Some i => if (i <? 0)%Z then Z.max (i + Z.of_nat n) (if (step <? 0)%Z then -1 else 0) else Z.min i (if (step <? 0)%Z then Z.of_nat n - 1 else Z.of_nat n) end)%Z
    = match o with None => dflt | Some _ => py_bound n step dflt o end).
  { intros dflt o. destruct o as [i|]; [|reflexivity]. unfold py_bound. destruct (Z.ltb_spec step 0); destruct (Z.ltb_spec 0 step); try lia;
      destruct (Z.ltb_spec i 0); lia. }
  assert (BA : (match a with None => if (step <? 0)%Z then (if (step <? 0)%Z then Z.of_nat n - 1 else Z.of_nat n) else (if (step <? 0)%Z then -1 else 0)
     | Some i => if (i <? 0)%Z then Z.max (i + Z.of_nat n) (if (step <? 0)%Z then -1 else 0) else Z.min i (if (step <? 0)%Z then Z.of_nat n - 1 else Z.of_nat n) end)%Z = py_start n step a).
  { rewrite B. unfold py_start, py_bound. destruct a; [reflexivity|]. destruct (Z.ltb_spec step 0); destruct (Z.ltb_spec 0 step); try lia. }
  assert (BB : (match b with None => if (step <? 0)%Z then (if (step <? 0)%Z then -1 else 0) else (if (step <? 0)%Z then Z.of_nat n - 1 else Z.of_nat n)
     | Some i => if (i <? 0)%Z then Z.max (i + Z.of_nat n) (if (step <? 0)%Z then -1 else 0) else Z.min i (if (step <? 0)%Z then Z.of_nat n - 1 else Z.of_nat n) end)%Z = py_stop n step b).
  { rewrite B. unfold py_stop, py_bound. destruct b; [reflexivity|]. destruct (Z.ltb_spec step 0); destruct (Z.ltb_spec 0 step); try lia. }
  rewrite BA, BB. clear B BA BB.
  assert (RA : (if 0 <? step then 0 <= py_start n step a else py_start n step a <= Z.of_nat n - 1)%Z).
  { unfold py_start, py_bound. destruct (Z.ltb_spec 0 step); destruct a; lia. }
  assert (RB : (if 0 <? step then py_stop n step b <= Z.of_nat n else -1 <= py_stop n step b)%Z).
  { unfold py_stop, py_bound. destruct (Z.ltb_spec 0 step); destruct b; lia. }
  set (A := py_start n step a) in *. set (Bz := py_stop n step b) in *. clearbody A Bz. 
  set (cnt := if (step <? 0)%Z then (if (Bz <? A)%Z then ((A - Bz - 1) / (- step) + 1)%Z else 0%Z)
             else (if (A <? Bz)%Z then ((Bz - A - 1) / step + 1)%Z else 0%Z)).
  assert (C : forall k, (0 <= k)%Z -> ((k < cnt)%Z <-> (if 0 <? step then A + k * step < Bz else Bz < A + k * step)%Z)).
  { intros k Hk. unfold cnt. destruct (Z.ltb_spec 0 step); destruct (Z.ltb_spec step 0); try lia.
    - destruct (Z.ltb_spec A Bz).
      + rewrite Z.lt_succ_r with (m := ((Bz - A - 1) / step)%Z) in * || idtac. pose proof (Z.mul_div_le (Bz - A - 1) step ltac:(lia)). pose proof (Z.mul_succ_div_gt (Bz - A - 1) step ltac:(lia)).
        split; intros; nia.
      + split; intros; nia.
    - destruct (Z.ltb_spec Bz A).
      + pose proof (Z.mul_div_le (A - Bz - 1) (- step) ltac:(lia)). pose proof (Z.mul_succ_div_gt (A - Bz - 1) (- step) ltac:(lia)).
        split; intros; nia.
      + split; intros; nia. }
  assert (C0 : (0 <= cnt)%Z).
  { unfold cnt. destruct (Z.ltb_spec step 0); [destruct (Z.ltb_spec Bz A) | destruct (Z.ltb_spec A Bz)]; try lia.
    - pose proof (Z.div_pos (A - Bz - 1) (- step)). lia.
    - pose proof (Z.div_pos (Bz - A - 1) step). lia. }
  split; [|split].
  - intros k Hk. rewrite (nth_map_seq (fun k => Z.to_nat (A + Z.of_nat k * step))) by exact Hk.
    assert (Hk' : (Z.of_nat k < cnt)%Z) by lia. apply (C (Z.of_nat k) ltac:(lia)) in Hk'.
    destruct (Z.ltb_spec 0 step); split; try rewrite Z2Nat.id; nia.
  - intros k Hk H. apply C in H; lia.
  - intros k Hk. apply C; lia.
Qed.
