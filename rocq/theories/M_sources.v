(** Model of doatools/model/sources.py *)
From Verif Require Import Base_Np Base_Trig M_utils.
Open Scope R_scope.

(** The three placement classes.  The locations of a 1D placement are a vector, those of the 2D
    placements K x 2 matrices, given as lists of rows.  0-dimensional location arrays and NaN
    entries are not modelled (they pass the checks in sources.py:190-202). *)
Inductive sources :=
  | FF1 (locs : list R) (unit : string)            (* FarField1DSourcePlacement *)
  | FF2 (locs : list (R * R)) (unit : string)      (* FarField2DSourcePlacement: (azimuth, elevation) *)
  | NF2 (locs : list (R * R)).                     (* NearField2DSourcePlacement: (x, y) *)

(** sources.py:23-25, 63-66 __len__ / size *)
Definition src_size (s : sources) : nat :=
  match s with FF1 l _ => List.length l | FF2 l _ => List.length l | NF2 l => List.length l end.
(** sources.py:234-236, 368-370, 444-446 is_far_field *)
Definition is_far_field (s : sources) : bool := match s with NF2 _ => false | _ => true end.
(** sources.py:88-91 units *)
Definition src_units (s : sources) : list string :=
  match s with FF1 _ u => [u] | FF2 _ u => [u; u] | NF2 _ => ["m"%string; "m"%string] end.

(** sources.py:181-185 VALID_RANGES *)
Definition VALID_RANGES_1D : list (string * (R * R)) :=
  [ ("rad"%string, (- PI / 2, PI / 2)); ("deg"%string, (- 90, 90)); ("sin"%string, (- 1, 1)) ].
(** sources.py:340-343 *)
Definition VALID_RANGES_2D : list (string * ((R * R) * (R * R))) :=
  [ ("rad"%string, ((- PI, PI), (- PI / 2, PI / 2)));
    ("deg"%string, ((- 180, 180), (- 90, 90))) ].

(** sources.py:187-203.  The message of the range check is built with str.format_map called with three
    arguments, which raises TypeError before ValueError can be raised. *)
Definition mk_FF1 (locations : ndarr R) (unit : string) : res sources :=
  raise_if (Nat.ltb 1 (nd_ndim locations)) as ValueError ;;
  match dget String.eqb VALID_RANGES_1D unit with
  | None => Raise ValueError
  | Some (lb, ub) =>
      raise_if (existsb (fun x => Rltb x lb) (nd_data locations)
                || existsb (fun x => Rltb ub x) (nd_data locations)) as TypeError ;;
      Ok (FF1 (nd_data locations) unit)
  end.
(** a 1-D vector as an ndarray *)
Definition vec1 (l : list R) : ndarr R := Nd [List.length l] l.

(** sources.py:222-232 from_z.  np.angle is arctan2(imag, real); np.arcsin outside [-1,1] gives NaN,
    written None, and sorts last; a NaN passes the range check of the constructor.  The result is
    the location list and the unit of the created placement.  wavelength and d0 are Python numbers: a zero wavelength
    raises ZeroDivisionError; for d0 = 0 the array of angles is divided by 0.0, which gives NaN for an angle 0 and an
    infinity otherwise (out of range, or NaN after arcsin). *)
Definition np_arcsin (x : R) : option R := if Rleb (Rabs x) 1 then Some (asin x) else None.
Definition oleb (a b : option R) : bool :=
  match a, b with
  | Some x, Some y => Rleb x y
  | Some _, None => true
  | None, Some _ => false
  | None, None => true
  end.
Definition mk_FF1_nan (locs : list (option R)) (unit : string) : res (list (option R) * string) :=
  match dget String.eqb VALID_RANGES_1D unit with
  | None => Raise ValueError
  | Some (lb, ub) =>
      raise_if (existsb (fun o => match o with Some x => Rltb x lb || Rltb ub x | None => false end) locs)
        as TypeError ;;
      Ok (locs, unit)
  end.
Definition from_z (z : list C) (wavelength d0 : R) (unit : string) : res (list (option R) * string) :=
  raise_if (Reqb wavelength 0) as ZeroDivisionError ;;
  let c := 2 * PI * d0 / wavelength in
  if Reqb d0 0 then
    if String.eqb unit "sin" then
      raise_if (existsb (fun w : C => negb (Reqb (atan2 (Im w) (Re w)) 0)) z) as TypeError ;;
      mk_FF1_nan (map (fun _ => None) z) "sin"
    else mk_FF1_nan (map (fun _ => None) z) (if String.eqb unit "rad" then "rad" else "deg")
  else
  let sin_vals := map (fun w : C => atan2 (Im w) (Re w) / c) z in
  if String.eqb unit "sin" then mk_FF1_nan (map Some (sort_by Rleb sin_vals)) "sin"
  else
    let locations := sort_by oleb (map np_arcsin sin_vals) in
    if String.eqb unit "rad" then mk_FF1_nan locations "rad"
    else mk_FF1_nan (map (option_map rad2deg) locations) "deg".

(** sources.py:345-366 *)
Definition mk_FF2 (locations : ndarr R) (unit : string) : res sources :=
  raise_if (negb (Nat.eqb (nd_ndim locations) 2) || negb (Nat.eqb (nth 1 (nd_shape locations) 0%nat) 2)) as ValueError ;;
  let m := nd_mat 0 locations in
  let rows := map (fun i => (ent m i 0%nat, ent m i 1%nat)) (seq 0 (nr m)) in
  match dget String.eqb VALID_RANGES_2D unit with
  | None => Raise ValueError
  | Some ((min_az, max_az), (min_el, max_el)) =>
      raise_if (existsb (fun p => Rltb (fst p) min_az) rows || existsb (fun p => Rltb max_az (fst p)) rows) as ValueError ;;
      raise_if (existsb (fun p => Rltb (snd p) min_el) rows || existsb (fun p => Rltb max_el (snd p)) rows) as ValueError ;;
      Ok (FF2 rows unit)
  end.
(** a list of pairs as a K x 2 ndarray *)
Definition rows2 (l : list (R * R)) : ndarr R :=
  Nd [List.length l; 2%nat] (flat_map (fun p => [fst p; snd p]) l).

(** sources.py:437-442 *)
Definition mk_NF2 (locations : ndarr R) : res sources :=
  raise_if (negb (Nat.eqb (nd_ndim locations) 2) || negb (Nat.eqb (nth 1 (nd_shape locations) 0%nat) 2)) as ValueError ;;
  let m := nd_mat 0 locations in
  Ok (NF2 (map (fun i => (ent m i 0%nat, ent m i 1%nat)) (seq 0 (nr m)))).

(** sources.py:238-240, 372-374, 448-450 valid_ranges; None is an infinite bound *)
Definition valid_ranges (s : sources) : res (list (option R * option R)) :=
  match s with
  | FF1 _ u => match dget String.eqb VALID_RANGES_1D u with
               | None => Raise KeyError | Some (a, b) => Ok [(Some a, Some b)] end
  | FF2 _ u => match dget String.eqb VALID_RANGES_2D u with
               | None => Raise KeyError | Some ((a, b), (c, d)) => Ok [(Some a, Some b); (Some c, Some d)] end
  | NF2 _ => Ok [(None, None); (None, None)]
  end.

(** sources.py:242-246, 376-380, 452-455 as_unit.  convert_angles works entry by entry on the K x 2 matrix. *)
Definition as_unit (s : sources) (new_unit : string) : res sources :=
  match s with
  | FF1 l u => let! l' := convert_angles l u new_unit in mk_FF1 (vec1 l') new_unit
  | FF2 l u =>
      let! flat := convert_angles (flat_map (fun p => [fst p; snd p]) l) u new_unit in
      mk_FF2 (Nd [List.length l; 2%nat] flat) new_unit
  | NF2 l => raise_if (negb (String.eqb new_unit "m")) as ValueError ;; mk_NF2 (rows2 l)
  end.

(** the K x 2 matrix of a list of pairs *)
Definition pairs_mat (l : list (R * R)) : rmat :=
  Mat (List.length l) 2 (fun i j => match j with 0%nat => fst (nth i l (0, 0)) | _ => snd (nth i l (0, 0)) end).

(** sources.py:457-472 _align_location_dims: zero padding to a common number of columns *)
Definition pad_col (m : rmat) : rmat :=
  Mat (nr m) (nc m + 1) (fun i j => if Nat.ltb j (nc m) then ent m i j else 0).
Definition align_location_dims (l : list (R * R)) (sensors : rmat) : rmat * rmat :=
  if Nat.ltb (nc sensors) 2 then (pairs_mat l, pad_col sensors)
  else if Nat.ltb 2 (nc sensors) then (pad_col (pairs_mat l), sensors)
  else (pairs_mat l, sensors).

(** sources.py:248-256, 382-392, 474-482 calc_spherical_coords: range (None = infinity), azimuth and
    elevation matrices.  Near field: pairwise differences reshaped to (m*k) x d, cart2spherical, and
    reshaped back; aligned dimensions are equal unless the sensors have no or more than three columns. *)
Definition calc_spherical_coords (s : sources) (refs : rmat) : res (mat (option R) * rmat * rmat) :=
  let m := nr refs in
  match s with
  | FF1 l u =>
      let! az := convert_angles l u "rad" in
      Ok (Mat m (List.length l) (fun _ _ => None),
          Mat m (List.length l) (fun _ k => PI / 2 - nth k az 0),
          Mat m (List.length l) (fun _ _ => 0))
  | FF2 l u =>
      let! az := convert_angles (map fst l) u "rad" in
      let! el := convert_angles (map snd l) u "rad" in
      Ok (Mat m (List.length l) (fun _ _ => None),
          Mat m (List.length l) (fun _ k => nth k az 0),
          Mat m (List.length l) (fun _ k => nth k el 0))
  | NF2 l =>
      let '(src, ref') := align_location_dims l refs in
      let k := nr src in let d := nc src in
      raise_if (negb (Nat.eqb (nc ref') d)) as ValueError ;;
      let diffs := Mat (m * k) d (fun i j => ent src (Nat.modulo i k) j - ent ref' (Nat.div i k) j) in
      let! sph := cart2spherical diffs in
      Ok (Mat m k (fun i j => Some (ent sph (i * k + j) 0%nat)),
          Mat m k (fun i j => ent sph (i * k + j) 1%nat),
          Mat m k (fun i j => ent sph (i * k + j) 2%nat))
  end.

(** np.outer of the column [c] of the sensor locations with a vector *)
Definition outer_col (sensors : rmat) (c : nat) (v : list R) : rmat :=
  Mat (nr sensors) (List.length v) (fun i k => ent sensors i c * nth k v 0).
Definition rscal (a : R) (m : rmat) : rmat := mmap (Rmult a) m.
Definition radd (a b : rmat) : rmat := Mat (nr a) (nc a) (fun i j => ent a i j + ent b i j).
Definition rsub (a b : rmat) : rmat := Mat (nr a) (nc a) (fun i j => ent a i j - ent b i j).

(** sources.py:267-294 _phase_delay_matrix_rad: D and DD *)
Definition phase_delay_rad (l : list R) (u : string) (sensors : rmat) (wavelength : R) : rmat * rmat :=
  let locations := if String.eqb u "deg" then map deg2rad l else l in
  let s := 2 * PI / wavelength in
  let '(D, DD) :=
    if Nat.eqb (nc sensors) 1
    then (rscal s (outer_col sensors 0 (map sin locations)), rscal s (outer_col sensors 0 (map cos locations)))
    else (rscal s (radd (outer_col sensors 0 (map sin locations)) (outer_col sensors 1 (map cos locations))),
          rscal s (rsub (outer_col sensors 0 (map cos locations)) (outer_col sensors 1 (map sin locations)))) in
  (D, if String.eqb u "deg" then rscal (PI / 180) DD else DD).

(** sources.py:296-322 _phase_delay_matrix_sin.  For a planar array cos_vals = 0 divides by zero
    (inf/NaN in numpy); the theorems exclude it. *)
Definition phase_delay_sin (l : list R) (sensors : rmat) (wavelength : R) : rmat * rmat :=
  let s := 2 * PI / wavelength in
  if Nat.eqb (nc sensors) 1
  then (rscal s (outer_col sensors 0 l), Mat (nr sensors) (List.length l) (fun i _ => s * ent sensors i 0%nat))
  else
    let cos_vals := map (fun x => sqrt (1 - x * x)) l in
    (rscal s (radd (outer_col sensors 0 l) (outer_col sensors 1 cos_vals)),
     rscal s (rsub (Mat (nr sensors) (List.length l) (fun i _ => ent sensors i 0%nat))
                   (outer_col sensors 1 (map (fun x => x / sqrt (1 - x * x)) l)))).

(** sources.py:394-425 *)
Definition phase_delay_2d (l : list (R * R)) (u : string) (sensors : rmat) (wavelength : R) : rmat :=
  let locations := if String.eqb u "deg" then map (fun p => (deg2rad (fst p), deg2rad (snd p))) l else l in
  let s := 2 * PI / wavelength in
  let cc := map (fun p => cos (snd p) * cos (fst p)) locations in
  let cs := map (fun p => cos (snd p) * sin (fst p)) locations in
  let se := map (fun p => sin (snd p)) locations in
  if Nat.eqb (nc sensors) 1 then rscal s (outer_col sensors 0 cc)
  else if Nat.eqb (nc sensors) 2 then rscal s (radd (outer_col sensors 0 cc) (outer_col sensors 1 cs))
  else rscal s (radd (radd (outer_col sensors 0 cc) (outer_col sensors 1 cs)) (outer_col sensors 2 se)).

(** scipy cdist(..., 'euclidean') *)
Definition cdist (a b : rmat) : rmat :=
  Mat (nr a) (nr b) (fun i k => sqrt (rsum (nc a) (fun j => (ent a i j - ent b k j) * (ent a i j - ent b k j)))).
(** sources.py:484-498; M[0,:] of an empty sensor array raises IndexError *)
Definition phase_delay_nf (l : list (R * R)) (sensors : rmat) (wavelength : R) : res rmat :=
  let '(src, sens) := align_location_dims l sensors in
  let s := - 2 * PI / wavelength in
  let M := cdist sens src in
  raise_if (Nat.eqb (nr M) 0) as IndexError ;;
  Ok (rscal s (Mat (nr M) (nc M) (fun i k => ent M i k - ent M 0%nat k))).

(** sources.py:9-11, 258-265, 394-425, 484-498 phase_delay_matrix: the delay matrix and the list of
    derivative matrices (empty unless derivatives were requested).  The wavelength is a Python number: 2 * np.pi / 0
    raises ZeroDivisionError (lines 276, 298, 406, 494), after the checks of the dimension and of [derivatives]. *)
Definition phase_delay_matrix (s : sources) (sensors : rmat) (wavelength : R) (derivatives : bool)
    : res (rmat * list rmat) :=
  raise_if (Nat.ltb (nc sensors) 1 || Nat.ltb 3 (nc sensors)) as ValueError ;;
  match s with
  | FF1 l u =>
      raise_if (Reqb wavelength 0) as ZeroDivisionError ;;
      let '(D, DD) := if String.eqb u "sin" then phase_delay_sin l sensors wavelength
                      else phase_delay_rad l u sensors wavelength in
      Ok (D, if derivatives then [DD] else [])
  | FF2 l u =>
      raise_if derivatives as ValueError ;;
      raise_if (Reqb wavelength 0) as ZeroDivisionError ;;
      Ok (phase_delay_2d l u sensors wavelength, [])
  | NF2 l =>
      raise_if derivatives as ValueError ;;
      raise_if (Reqb wavelength 0) as ZeroDivisionError ;;
      let! D := phase_delay_nf l sensors wavelength in Ok (D, [])
  end.

(** *** __getitem__ (sources.py:27-61) with numpy's view/copy behaviour.
    Location data live in buffers of a heap; a buffer is a list of rows. *)
Inductive key :=
  | KInt (i : Z)                                  (* np.isscalar(key) *)
  | KSlice (start stop step : option Z)
  | KIndexList (l : list Z)                       (* list, or 1-D integer ndarray *)
  | KMask (l : list bool)                         (* list of bools, or 1-D boolean ndarray *)
  | KNdArray (ndim : nat)                         (* ndarray with ndim <> 1 *)
  | KOther.                                       (* tuple, None, ... *)

(** CPython slice.indices followed by range *)
Definition slice_indices (n : nat) (start stop step : option Z) : res (list nat) :=
  let st := match step with None => 1%Z | Some s => s end in
  raise_if (Z.eqb st 0) as ValueError ;;
  let N := Z.of_nat n in
  let neg := (st <? 0)%Z in
  let lower := if neg then (-1)%Z else 0%Z in
  let upper := if neg then (N - 1)%Z else N in
  let clamp := fun i : Z => if (i <? 0)%Z then Z.max (i + N) lower else Z.min i upper in
  let a := match start with None => if neg then upper else lower | Some i => clamp i end in
  let b := match stop with None => if neg then lower else upper | Some i => clamp i end in
  let cnt := if neg then (if (b <? a)%Z then ((a - b - 1) / (- st) + 1)%Z else 0%Z)
             else (if (a <? b)%Z then ((b - a - 1) / st + 1)%Z else 0%Z) in
  Ok (map (fun k => Z.to_nat (a + Z.of_nat k * st)) (seq 0 (Z.to_nat cnt))).

(** selected row numbers of a non-scalar key *)
Definition key_rows (n : nat) (k : key) : res (list nat) :=
  match k with
  | KSlice a b s => slice_indices n a b s
  | KIndexList l => mapM (fun i => match norm_index n i with Some p => Ok p | None => Raise IndexError end) l
  | KMask l => raise_if (negb (Nat.eqb (List.length l) n)) as IndexError ;;
               Ok (map fst (filter snd (combine (seq 0 n) l)))
  | KNdArray _ => Raise ValueError
  | _ => Raise KeyError
  end.

Record placement := Placement { p_class : string; p_units : list string; p_addr : nat }.
(** a scalar key gives a number (1D placements), or a numpy view of one row (2D placements, whose
    locations are K x 2 arrays): buffer address and row number *)
Inductive item (A : Type) := INumber (a : A) | IRowView (addr q : nat) | IPlacement (p : placement).
Arguments INumber {A}. Arguments IRowView {A}. Arguments IPlacement {A}.
Definition buf {A} (h : list (list A)) (p : placement) : list A := nth (p_addr p) h [].
(** sources.py:27-61 __getitem__: slices are copied explicitly and fancy indexing copies; anything else than
    a scalar builds a new placement of the same class with the same units *)
Definition getitem {A} (h : list (list A)) (p : placement) (k : key) : res (item A * list (list A)) :=
  let rows := buf h p in
  match k with
  | KInt i => match norm_index (List.length rows) i with
              | Some q => match nth_error rows q with
                          | Some r => Ok (if String.eqb (p_class p) "FarField1DSourcePlacement" then INumber r
                                          else IRowView (p_addr p) q, h)
                          | None => Raise IndexError
                          end
              | None => Raise IndexError
              end
  | _ =>
      let! sel := key_rows (List.length rows) k in
      let new := flat_map (fun q => match nth_error rows q with Some r => [r] | None => [] end) sel in
      Ok (IPlacement (Placement (p_class p) (p_units p) (List.length h)), h ++ [new])
  end.
(** assignment to row [q] of the buffer at [addr] *)
Definition set_row {A} (h : list (list A)) (addr q : nat) (v : A) : list (list A) :=
  map (fun ab => if Nat.eqb (fst ab) addr
                 then map (fun rb => if Nat.eqb (fst rb) q then v else snd rb)
                          (combine (seq 0 (List.length (snd ab))) (snd ab))
                 else snd ab)
      (combine (seq 0 (List.length h)) h).
(** writing a location through the [locations] property (sources.py:68-76), which returns the stored array *)
Definition set_location {A} (h : list (list A)) (p : placement) (q : nat) (v : A) : list (list A) :=
  set_row h (p_addr p) q v.
