(** Models of doatools/estimation/source_number.py and doatools/estimation/preprocessing.py *)
From Verif Require Import Base_Np Base_Mem Base_Trig M_utils M_coarray M_core.
Open Scope nat_scope.

Definition lsum (l : list R) : R := fold_right Rplus 0%R l.
Definition lprod (l : list R) : R := fold_right Rmult 1%R l.
(** source_number.py:4-21 ld_stat for a vector of positive eigenvalues.  [n_snapshots] is a number.
    1./diff raises ZeroDivisionError for diff = 0.  math.log of a non-positive argument raises ValueError; zero
    eigenvalues (numpy inf) and negative products (NaN) are not modelled. *)
Definition ld_stat (shape : list nat) (l : list R) (n_sources : Z) (n_snapshots : R) : res R :=
  raise_if (negb (Nat.eqb (List.length shape) 1)) as ValueError ;;
  let n_sensors := Z.of_nat (List.length l) in
  let diff := (n_sensors - n_sources)%Z in
  let l := pslice l None (Some diff) in
  raise_if (Z.eqb diff 0) as ZeroDivisionError ;;
  let arg := (lsum l / IZR diff / Rpower (lprod l) (1 / IZR diff))%R in
  raise_if (Rleb arg 0) as ValueError ;;
  Ok (n_snapshots * IZR diff * ln arg)%R.

(** an eigenvalue vector or a covariance matrix *)
Inductive eigarg := EVec (l : list R) | EMat (R : cmat).
(** source_number.py:39-40, 61-62, 81-82 *)
Definition eigenvalues (eigvalsh : cmat -> res (list R)) (x : eigarg) : res (list R) :=
  match x with EVec l => Ok l | EMat R => eigvalsh R end.

(** np.argmin of real values or +inf (None): the first minimiser; an empty array raises ValueError *)
Definition oltb (a b : option R) : bool :=
  match a, b with Some x, Some y => Rltb x y | Some _, None => true | None, _ => false end.
Fixpoint argmin_aux (l : list (option R)) (i best : nat) (b : option R) : nat :=
  match l with [] => best | a :: l' => if oltb a b then argmin_aux l' (S i) i a else argmin_aux l' (S i) best b end.
Definition argmin (l : list (option R)) : res nat := match l with [] => Raise ValueError | a :: l' => Ok (argmin_aux l' 1 0 a) end.

(** source_number.py:41-45, 63-67: criterion values and their minimiser *)
Definition criterion (penalty : nat -> nat -> R) (x : list R) (n_snapshots : R) : res nat :=
  let n := List.length x in
  let! ld := mapM (fun i => let! s := ld_stat [n] x (Z.of_nat i) n_snapshots in Ok (Some (s + penalty n i)%R)) (seq 0 n) in
  argmin ld.
(** source_number.py:44 *)
Definition aic_penalty (n i : nat) : R := (INR i * (2 * INR n - INR i))%R.
(** source_number.py:66 *)
Definition mdl_penalty (n_snapshots : R) (n i : nat) : R := (0.5 * (INR i * (2 * INR n - INR i) + 1) * ln n_snapshots)%R.
(** source_number.py:23-45 aic *)
Definition aic eigvalsh (x : eigarg) (n_snapshots : R) : res nat :=
  let! l := eigenvalues eigvalsh x in criterion aic_penalty l n_snapshots.
(** source_number.py:47-67 mdl.  math.log(n_snapshots) raises ValueError unless the number is positive; the only other exception
    of the loop and of argmin is ValueError as well. *)
Definition mdl eigvalsh (x : eigarg) (n_snapshots : R) : res nat :=
  let! l := eigenvalues eigvalsh x in
  raise_if (Rleb n_snapshots 0) as ValueError ;;
  criterion (mdl_penalty n_snapshots) l n_snapshots.

(** np.var: mean of the squared deviations *)
Definition mean (l : list R) : R := (lsum l / INR (List.length l))%R.
Definition var (l : list R) : R := mean (map (fun x => (x - mean l) * (x - mean l))%R l).
(** np.finfo(np.float_).eps *)
Definition float_eps : R := (/ 2 ^ 52)%R.
(** source_number.py:69-96 sorte *)
Definition sorte_of (x0 : list R) : res nat :=
  let x := rev x0 in
  let n := List.length x in
  raise_if (Nat.ltb n 4) as ValueError ;;
  let diffs := map (fun p => fst p - snd p)%R (combine (pslice x None (Some (-1)%Z)) (pslice x (Some 1%Z) None)) in
  let sigmas := map (fun k => var (pslice diffs (Some (Z.of_nat k)) None)) (seq 0 (n - 1)) in
  let s := map (fun k => if Rltb (Rabs (nth k sigmas 0%R)) float_eps then None
                         else Some (nth (k + 1) sigmas 0 / nth k sigmas 0)%R) (seq 0 (n - 2)) in
  let! i := argmin (pslice s None (Some (-1)%Z)) in Ok (i + 1).
Definition sorte eigvalsh (x : eigarg) : res nat := let! l := eigenvalues eigvalsh x in sorte_of l.

(** *** preprocessing.py *)
Inductive mtype := MInt | MReal | MComplex.
(** x[i:i+p, i:i+p] for a block inside the matrix *)
Definition block (R : cmat) (i p : nat) : cmat := Mat p p (fun a b => ent R (i + a) (i + b)).
(** np.flip over both axes *)
Definition flip (A : cmat) : cmat := Mat (nr A) (nc A) (fun i j => ent A (nr A - 1 - i) (nc A - 1 - j)).
(** preprocessing.py:27-43 spatial_smooth for square R (of real or complex dtype, or integers, for which the
    in-place true division raises TypeError).  Matrices are values: Rf is a copy (preprocessing.py:32). *)
Definition spatial_smooth (ty : mtype) (R : cmat) (l : Z) (fb : bool) : res cmat :=
  let m := nr R in
  raise_if (l <? 1)%Z || (l >? Z.of_nat m)%Z as ValueError ;;
  let l := Z.to_nat l in
  let p := m - l + 1 in
  let Rf := fold_left (fun acc i => madd acc (block R i p)) (seq 1 (l - 1)) (block R 0 p) in
  match ty with
  | MInt => Raise TypeError
  | _ =>
      let Rf := mscal (RtoC (/ INR l)) Rf in
      if negb fb then Ok Rf
      else Ok (mscal (RtoC (1 / 2)) (madd Rf (match ty with MComplex => mconj (flip Rf) | _ => flip Rf end)))
  end.
(** preprocessing.py:99-100 l1_svd; the SVD oracle returns U, s and Vh.  U[:,:k] * s[:k] scales the columns. *)
Definition l1_svd (svd : cmat -> res (cmat * list R * cmat)) (y : cmat) (k : Z) : res cmat :=
  let! ((U, s), Vh) := svd y in
  let Uk := col_slice U None (Some k) in
  let sk := pslice s None (Some k) in
  raise_if negb (Nat.eqb (nc Uk) (List.length sk)) as ValueError ;;
  Ok (Mat (nr Uk) (nc Uk) (fun i j => ent Uk i j * RtoC (nth j sk 0%R))%C).

(** preprocessing.py:27-43 spatial_smooth on numpy memory: [R] is an existing array; returns the new memory and
    the array handed to the caller. *)

Definition iadd (m : mem) (v w : view) : mem := m_store m v (madd (v_read m v) (v_read m w)).
Definition spatial_smooth_mem (ty : mtype) (m : mem) (R : view) (l : Z) (fb : bool) : res (mem * view) :=
  let n := v_nr R in
  raise_if (l <? 1)%Z || (l >? Z.of_nat n)%Z as ValueError ;;
  let l := Z.to_nat l in
  let p := n - l + 1 in
  let (m, Rf) := m_alloc m (v_read m (v_window R 0 p 0 p)) in                          (* .copy() *)
  let m := fold_left (fun m i => iadd m Rf (v_window R i p i p)) (seq 1 (l - 1)) m in   (* Rf += R[i:i+p, i:i+p] *)
  match ty with
  | MInt => Raise TypeError
  | _ =>
      let m := m_store m Rf (mscal (RtoC (/ INR l)) (v_read m Rf)) in                   (* Rf /= l *)
      if negb fb then Ok (m, Rf)
      else Ok (m_alloc m (mscal (RtoC (1 / 2)) (madd (v_read m Rf)
                            (match ty with MComplex => mconj (flip (v_read m Rf)) | _ => flip (v_read m Rf) end))))
  end.
