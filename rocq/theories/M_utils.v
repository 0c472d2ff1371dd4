(** Model of doatools/utils/math.py and doatools/utils/conversion.py *)
From Verif Require Import Base_Np Base_Trig.
Open Scope nat_scope.

(** utils/math.py:5-17 [vec]: x.reshape((-1, 1), order='F') of a 2-D array.
    [d] fills positions outside the shape and is never observable. *)
Definition vec {T} (d : T) (x : mat T) : mat T := as_column d (flatF x).

(** utils/math.py:19-25 [abs_squared] *)
Definition abs_squared (x : C) : R := (Re x * Re x + Im x * Im x)%R.

(** utils/math.py:27-37 [khatri_rao].  The loop over the columns assigns c[:,i].
    dtype promotion (np.result_type) is not modelled: both operands are complex. *)
Definition khatri_rao (a b : cmat) : res cmat :=
  let n1 := nr a in let k1 := nc a in
  let n2 := nr b in let k2 := nc b in
  raise_if (negb (Nat.eqb k1 k2)) as ValueError ;;
  let c0 := Mat (n1 * n2) k1 (fun _ _ => RtoC 0) in
  Ok (fold_left (fun c i =>
        set_col (RtoC 0) c i
          (flatC (outer Cmult n1 n2 (fun r => ent a r i) (fun r => ent b r i))))
      (seq 0 k1) c0).

(** utils/math.py:39-56 [projm].  np.linalg.solve and np.linalg.pinv are oracles;
    [iscomplex] is np.iscomplexobj(A).  For a real array A.T is the plain transpose. *)
Definition projm (solve : cmat -> cmat -> res cmat) (pinv : cmat -> res cmat)
    (use_pinv iscomplex : bool) (A : cmat) : res cmat :=
  if use_pinv then let! X := pinv A in matmul A X
  else
    let A_H := if iscomplex then mtr (mconj A) else mtr A in
    let! G := matmul A_H A in
    let! X := solve G A_H in
    matmul A X.

(** utils/math.py:58-72 [cartesian].  np.meshgrid(indexing='ij') yields for every
    axis an array of the common shape whose entry at a multi-index is the axis
    value at that component; flatten() enumerates in C order; np.vstack of the
    flattened arrays (ValueError for an empty list) and the final transpose give
    one row per multi-index.  Rows are returned as lists. *)
Definition meshgrid_flat {T} (d : T) (xi : list (list T)) : list (list T) :=
  let shape := map (@List.length T) xi in
  map (fun a => map (fun idx => nth (nth a idx 0) (nth a xi []) d) (all_indices shape))
      (seq 0 (List.length xi)).
Definition transpose_rows {T} (d : T) (rows : list (list T)) : list (list T) :=
  match rows with
  | [] => []
  | r0 :: _ => map (fun j => map (fun r => nth j r d) rows) (seq 0 (List.length r0))
  end.
Definition cartesian {T} (d : T) (xi : list (list T)) : res (list (list T)) :=
  match xi with
  | [] => Raise ValueError
  | _ => Ok (transpose_rows d (meshgrid_flat d xi))
  end.

(** *** utils/math.py:89-162 [unique_rows] *)
Definition Rleb (a b : R) : bool := if Rle_dec a b then true else false.
Definition Rltb (a b : R) : bool := if Rlt_dec a b then true else false.
Definition Reqb (a b : R) : bool := if Req_EM_T a b then true else false.
(** utils/math.py:130-131: nanmin, nanmax and the scaled tolerance (NaN entries are not modelled) *)
Definition nanmin (l : list R) (d : R) : R := match l with [] => d | a :: l' => fold_left Rmin l' a end.
Definition nanmax (l : list R) (d : R) : R := match l with [] => d | a :: l' => fold_left Rmax l' a end.
Definition ur_tol (x : rmat) (atol rtol : R) : R :=
  let e := flatC x in
  (atol + rtol * Rmax (Rabs (nanmin e 0)) (Rabs (nanmax e 0)))%R.
(** utils/math.py:144: np.all(np.abs(cur_row - x[kk,:]) <= tol) *)
Definition row_close (x : rmat) (tol : R) (i k : nat) : bool :=
  forallb (fun l => Rleb (Rabs (ent x i l - ent x k l)) tol) (seq 0 (nc x)).
(** utils/math.py:141-150: the inner for loop over kk; [next] is next_ii, None standing for -1 *)
Fixpoint ur_inner (close : nat -> bool) (kks : list nat) (processed : nat -> bool) (next : option nat)
    : (nat -> bool) * option nat :=
  match kks with
  | [] => (processed, next)
  | kk :: r =>
      if processed kk then ur_inner close r processed next
      else if close kk then ur_inner close r (fun k => if Nat.eqb k kk then true else processed k) next
      else ur_inner close r processed (match next with None => Some kk | Some _ => next end)
  end.
(** utils/math.py:136-151: the while loop; one unit of fuel per iteration, None = out of fuel *)
Fixpoint ur_while (close : nat -> nat -> bool) (n fuel ii : nat) (processed : nat -> bool) (acc : list nat)
    : option (list nat) :=
  match fuel with
  | O => None
  | S f =>
      let acc' := acc ++ [ii] in
      let '(processed', next) := ur_inner (close ii) (seq (ii + 1) (n - (ii + 1))) processed None in
      match next with
      | None => Some acc'
      | Some ii' => ur_while close n f ii' processed' acc'
      end
  end.
(** utils/math.py:155: np.lexsort(np.flipud(y.T)): stable, column 0 is the primary key *)
Fixpoint lex_le (a b : list R) : bool :=
  match a, b with
  | [], _ => true
  | _, [] => true
  | u :: a', v :: b' => if Rltb u v then true else if Rltb v u then false else lex_le a' b'
  end.
Fixpoint ins_by {A} (le : A -> A -> bool) (a : A) (l : list A) : list A :=
  match l with
  | [] => [a]
  | b :: l' => if le a b then a :: l else b :: ins_by le a l'
  end.
Definition sort_by {A} (le : A -> A -> bool) (l : list A) : list A := fold_right (ins_by le) [] l.
Definition row_list (x : rmat) (i : nat) : list R := map (ent x i) (seq 0 (nc x)).
Definition lexsort_rows (y : rmat) : list nat :=
  sort_by (fun i j => lex_le (row_list y i) (row_list y j)) (seq 0 (nr y)).
(** x[indices, :] *)
Definition take_rows {T} (x : mat T) (idx : list nat) : mat T :=
  Mat (List.length idx) (nc x) (fun i j => ent x (nth i idx 0) j).
(** an index array: its shape, its values (C order) and whether its dtype is integer *)
Record idxarr := IdxArr { ia_shape : list nat; ia_data : list nat; ia_int : bool }.
Definition idx_vector (l : list nat) : idxarr := IdxArr [List.length l] l true.
(** utils/math.py:89-162.  Result: y and, when return_index, the index array.
    np.nanmin of an array without entries (n > 0, m = 0) raises ValueError.
    The out-of-fuel case is mapped to RuntimeError and proved unreachable. *)
Definition unique_rows (x : rmat) (atol rtol : R) (return_index sort : bool)
    : res (rmat * option idxarr) :=
  let n := nr x in let m := nc x in
  if Nat.eqb n 0
  then Ok (x, if return_index then Some (IdxArr [0; m] [] false) else None)
  else raise_if (Nat.eqb m 0) as ValueError ;;
  let tol := ur_tol x atol rtol in
  match ur_while (row_close x tol) n n 0 (fun _ => false) [] with
  | None => Raise RuntimeError
  | Some unique_indices =>
      let y := take_rows x unique_indices in
      if sort
      then
        let indices := lexsort_rows y in
        Ok (take_rows y indices,
            if return_index
            then Some (idx_vector (map (fun i => nth i unique_indices 0) indices)) else None)
      else Ok (y, if return_index then Some (idx_vector unique_indices) else None)
  end.

(** *** utils/conversion.py *)
Open Scope R_scope.
(** utils/conversion.py:3-27 [ae2broad]; the argument is the list of (azimuth, elevation) rows *)
Definition ae2broad (doas : list (R * R)) : list R :=
  map (fun p => asin (cos (fst p) * cos (snd p))) doas.

(** np.rad2deg, np.deg2rad *)
Definition rad2deg (x : R) : R := x * (180 / PI).
Definition deg2rad (x : R) : R := x * (PI / 180).
(** utils/conversion.py:29-42 ANGULAR_COV_MAT: a dictionary of dictionaries *)
Definition ANGULAR_COV_MAT : list (string * list (string * (R -> R))) :=
  [ ("rad"%string, [ ("deg"%string, rad2deg); ("sin"%string, sin) ]);
    ("deg"%string, [ ("rad"%string, deg2rad); ("sin"%string, fun x => sin (deg2rad x)) ]);
    ("sin"%string, [ ("rad"%string, asin); ("deg"%string, fun x => rad2deg (asin x)) ]) ].
(** utils/conversion.py:44-60 [convert_angles] on a flat array.
    np.arcsin outside [-1,1] gives NaN; theorems assume the valid range. *)
Definition convert_angles (x : list R) (from_unit to_unit : string) : res (list R) :=
  if String.eqb from_unit to_unit then Ok x
  else match dget String.eqb ANGULAR_COV_MAT from_unit with
       | None => Raise KeyError
       | Some row => match dget String.eqb row to_unit with
                     | None => Raise KeyError
                     | Some f => Ok (map f x)
                     end
       end.

(** utils/conversion.py:62-90 [cart2spherical].  Reading a missing column raises IndexError. *)
Definition cart2spherical (coords : rmat) : res rmat :=
  let s0 : nat -> nat -> R := fun _ _ => 0 in
  if Nat.eqb (nc coords) 1 then
    Ok (Mat (nr coords) 3 (fun i j =>
          match j with
          | 0%nat => Rabs (ent coords i 0)
          | 1%nat => atan2 0 (ent coords i 0)
          | _ => 0
          end))
  else if Nat.leb (nc coords) 3 then
    raise_if (Nat.ltb (nc coords) 2) as IndexError ;;
    let xy2 := fun i => ent coords i 0 * ent coords i 0 + ent coords i 1 * ent coords i 1 in
    if Nat.eqb (nc coords) 2 then
      Ok (Mat (nr coords) 3 (fun i j =>
            match j with
            | 0%nat => sqrt (xy2 i)
            | 1%nat => atan2 (ent coords i 1) (ent coords i 0)
            | _ => 0
            end))
    else
      Ok (Mat (nr coords) 3 (fun i j =>
            match j with
            | 0%nat => sqrt (xy2 i + ent coords i 2 * ent coords i 2)
            | 1%nat => atan2 (ent coords i 1) (ent coords i 0)
            | _ => atan2 (ent coords i 2) (sqrt (xy2 i))
            end))
  else Ok (Mat (nr coords) 3 s0).
