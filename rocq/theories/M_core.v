(** Model of doatools/estimation/core.py *)
From Verif Require Import Base_Np Base_Trig M_utils M_sources M_array M_designs M_coarray M_grid M_heap.
Open Scope nat_scope.

(** core.py:20-26 ensure_n_resolvable_sources *)
Definition ensure_n_resolvable_sources (k max_k : Z) : res unit :=
  raise_if (k >? max_k)%Z as ValueError ;; Ok tt.

(** x[:, lo:hi] *)
Definition col_slice (E : cmat) (lo hi : option Z) : cmat :=
  let '(a, b) := slice_bounds (nc E) lo hi in Mat (nr E) (b - a) (fun i j => ent E i (a + j)).
(** core.py:37-47 get_noise_subspace; [eigh] returns eigenvalues (ascending) and eigenvectors *)
Definition get_noise_subspace (eigh : cmat -> res (list R * cmat)) (R : cmat) (k : Z) : res cmat :=
  let! (_, E) := eigh R in Ok (col_slice E None (Some (- k)%Z)).

(** scipy.ndimage.maximum_filter(x, 3), mode 'reflect': one step beyond a border reflects to the border *)
Fixpoint window (shape idx : list nat) : list (list nat) :=
  match shape, idx with
  | n :: s, i :: idx' => flat_map (fun a => map (cons a) (window s idx')) [i - 1; i; Nat.min (i + 1) (n - 1)]
  | _, _ => [[]]
  end.
Definition at_idx (shape : list nat) (x : list R) (idx : list nat) : R := nth (ravel shape idx) x 0%R.
Definition maximum_filter3 (shape : list nat) (x : list R) (idx : list nat) : R :=
  fold_left Rmax (map (at_idx shape x) (window shape idx)) (at_idx shape x idx).
(** core.py:28-35 find_peaks_simple: list of peak coordinates.  [find_peaks] is scipy's 1-D peak finder.
    np.where lists coordinates in row-major order. *)
Definition find_peaks_simple (find_peaks : list R -> list nat) (shape : list nat) (x : list R) : list (list nat) :=
  if Nat.eqb (List.length shape) 1
  then map (fun i => [i]) (find_peaks x)
  else filter (fun idx => Reqb (at_idx shape x idx) (maximum_filter3 shape x idx)) (all_indices shape).

(** SpectrumBasedEstimatorBase, core.py:51-75.  [T] is the type of atom matrices; [e_atom] is _compute_atom_matrix.
    [e_pl] is the source placement of the search grid (a buffer of the heap of location arrays, see M_sources).
    [e_argsort] is np.argsort (unstable). *)
Record estimator (T : Type) := Est {
  e_grid : sgrid;
  e_pl : placement;
  e_atom : sgrid -> res T;
  e_pf : list nat -> list R -> list (list nat);
  e_argsort : list R -> list nat;
  e_caching : bool;
  e_cache : option T
}.
Arguments Est {T}. Arguments e_grid {T}. Arguments e_pl {T}. Arguments e_atom {T}. Arguments e_pf {T}.
Arguments e_argsort {T}. Arguments e_caching {T}. Arguments e_cache {T}.
Definition set_cache {T} (e : estimator T) (c : option T) : estimator T :=
  Est (e_grid e) (e_pl e) (e_atom e) (e_pf e) (e_argsort e) (e_caching e) c.
(** core.py:99-118 _get_atom_matrix *)
Definition get_atom_matrix {T} (e : estimator T) (alt : option sgrid) : res T * estimator T :=
  match alt with
  | Some g => (e_atom e g, e)
  | None =>
      match e_cache e with
      | Some A => (Ok A, e)
      | None =>
          match e_atom e (e_grid e) with
          | Raise x => (Raise x, e)
          | Ok A => (Ok A, if e_caching e then set_cache e (Some A) else e)
          end
      end
  end.

(** np.argmax: the first position of the maximum; an empty array raises ValueError *)
Fixpoint argmax_aux (l : list R) (i best : nat) (b : R) : nat :=
  match l with [] => best | a :: l' => if Rltb b a then argmax_aux l' (S i) i a else argmax_aux l' (S i) best b end.
Definition argmax (l : list R) : res nat := match l with [] => Raise ValueError | a :: l' => Ok (argmax_aux l' 1 0 a) end.

(** the rows of the locations of a placement *)
Definition src_rows (s : sources) : list (list R) :=
  match s with FF1 l _ => map (fun x => [x]) l | FF2 l _ => map (fun p => [fst p; snd p]) l | NF2 l => map (fun p => [fst p; snd p]) l end.
(** assigning a float into an array: integer arrays truncate towards zero *)
Definition trunc (x : R) : R := if Rleb 0 x then IZR (Int_part x) else (- IZR (Int_part (- x)))%R.
Definition cast (dt : dtype) (row : list R) : list R := match dt with DFloat => row | DInt => map trunc row end.

Definition lheap := list (list (list R)).
(** Every access to the atom matrix goes through _get_atom_matrix and may change the estimator (its cache), also when
    an exception is raised later: the functions below return the estimator beside their result or exception. *)
Fixpoint efoldM {T S} (f : nat -> S -> estimator T -> res S * estimator T) (l : list nat) (s : S) (e : estimator T) : res S * estimator T :=
  match l with
  | [] => (Ok s, e)
  | i :: l' => match f i s e with (Ok s', e') => efoldM f l' s' e' | (Raise x, e') => (Raise x, e') end
  end.
(** core.py:224-235: the body of the loop for estimate i; [last] is r == n_iters - 1.
    [est] is the placement being refined in place. *)
Definition do_refine_one {T} (f_sp : T -> res (list R)) (density : Z) (last : bool) (est : placement)
    (i : nat) (st : lheap * list sgrid) (e : estimator T) : res (lheap * list sgrid) * estimator T :=
  let '(h, subgrids) := st in
  match nth_error subgrids i with
  | None => (Raise IndexError, e)
  | Some g =>
      let '(A, e) := get_atom_matrix e (Some g) in
      (let! A := A in
       let! sp := f_sp A in
       let! i_max := argmax sp in
       let! s := create_source_placement g in
       match nth_error (src_rows s) i_max with
       | None => Raise IndexError
       | Some row =>
           let h' := set_location h est i (cast (sg_dt (e_grid e)) row) in
           if last then Ok (h', subgrids)
           else let! g' := create_refined_grid_at g (map Z.of_nat (unravel (sg_shape g) i_max)) density 1 in
                Ok (h', set_nth subgrids i g')
       end, e)
  end.
(** core.py:222-235: for r in range(n_iters): for i in range(len(subgrids)) *)
Definition do_refine_loop {T} f_sp (density : Z) (n_iters : nat) (est : placement) (st : lheap * list sgrid) (e : estimator T) :=
  efoldM (fun r st => efoldM (do_refine_one f_sp density (Nat.eqb r (n_iters - 1)) est) (seq 0 (List.length (snd st))) st)
    (seq 0 n_iters) st e.
(** core.py:200-235 _refine_estimates; the coordinates are those of the sorted flattened indices (core.py:186-192) *)
Definition do_refine_estimates {T} (e : estimator T) f_sp (h : lheap) (est : placement) (flat : list nat) (density : Z) (n_iters : nat)
    : res lheap * estimator T :=
  let coords := map (fun p => map Z.of_nat (unravel (sg_shape (e_grid e)) p)) flat in
  match create_refined_grids_at (e_grid e) coords density with
  | Raise x => (Raise x, e)
  | Ok subgrids => let '(st, e) := do_refine_loop f_sp density n_iters est (h, subgrids) e in (let! st := st in Ok (fst st), e)
  end.

Record options := Opts { o_spectrum : bool; o_refine : bool; o_density : Z; o_iters : nat }.
Record outcome := Outcome { oc_resolved : bool; oc_estimates : option placement; oc_spectrum : option (list R) }.
Definition idx_ok (shape idx : list nat) : bool :=
  Nat.eqb (List.length idx) (List.length shape) && forallb (fun p => Nat.ltb (snd p) (fst p)) (combine shape idx).
(** core.py:159-198: from the atom matrix to the estimates *)
Definition do_estimate_from {T} (e : estimator T) (A : T) (h : lheap) (f_sp : T -> res (list R)) (k : Z) (o : options)
    : res (outcome * lheap) * estimator T :=
  let shape := sg_shape (e_grid e) in
  match f_sp A with
  | Raise x => (Raise x, e)
  | Ok sp =>
      if negb (Nat.eqb (List.length sp) (prod_list shape)) then (Raise ValueError, e)
      else
        let peaks := e_pf e shape sp in
        let ret_sp := if o_spectrum o then Some sp else None in
        if (Z.of_nat (List.length peaks) <? k)%Z then (Ok (Outcome false None ret_sp, h), e)
        else if negb (forallb (idx_ok shape) peaks) then (Raise IndexError, e)
        else
          let peak_values := map (at_idx shape sp) peaks in
          let top := pslice (e_argsort e peak_values) (Some (- k)%Z) None in
          let flat := sort_by Nat.leb (map (fun t => ravel shape (nth t peaks [])) top) in
          match getitem h (e_pl e) (KIndexList (map Z.of_nat flat)) with
          | Raise x => (Raise x, e)
          | Ok (IPlacement est, h1) =>
              if o_refine o
              then let '(h2, e) := do_refine_estimates e f_sp h1 est flat (o_density o) (o_iters o) in
                   (let! h2 := h2 in Ok (Outcome true (Some est) ret_sp, h2), e)
              else (Ok (Outcome true (Some est) ret_sp, h1), e)
          | Ok _ => (Raise TypeError, e)
          end
  end.
(** core.py:120-198 _estimate *)
Definition estimate {T} (e : estimator T) (h : lheap) (f_sp : T -> res (list R)) (k : Z) (o : options)
    : res outcome * estimator T * lheap :=
  match get_atom_matrix e None with
  | (Raise x, e') => (Raise x, e', h)
  | (Ok A, e') =>
      match do_estimate_from e' A h f_sp k o with
      | (Raise x, e'') => (Raise x, e'', h)
      | (Ok (oc, h'), e'') => (Ok oc, e'', h')
      end
  end.
(** a history of calls *)
Fixpoint estimate_all {T} (e : estimator T) (h : lheap) (calls : list ((T -> res (list R)) * Z * options))
    : list (res outcome) * estimator T * lheap :=
  match calls with
  | [] => ([], e, h)
  | (f, k, o) :: calls' =>
      let '(r, e1, h1) := estimate e h f k o in
      let '(rs, e2, h2) := estimate_all e1 h1 calls' in (r :: rs, e2, h2)
  end.
