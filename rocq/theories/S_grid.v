(** Vocabulary of the properties about search grids and spectrum-based estimators. *)
From Coq Require Import Sorting.Sorted Sorting.Permutation.
From Verif Require Import Base_Np Base_Trig S_utils M_utils M_sources M_array S_sources M_grid M_core.
Open Scope nat_scope.

(** a grid whose axes are vectors, one (1D) or two (2D) of them; every constructor except the multi-segment one
    yields such grids *)
Definition plain_grid (g : sgrid) : Prop :=
  (forall a, In a (sg_axes g) -> nd_shape a = [List.length (nd_data a)]) /\
  sg_ndim g = match sg_class g with G1D => 1 | _ => 2 end.
(** the location at a multi-index: (axis1[i1], ..., axisd[id]) *)
Definition grid_point (g : sgrid) (idx : list nat) : list R :=
  map (fun j => nth (nth j idx 0) (axis g j) 0%R) (seq 0 (sg_ndim g)).
(** locations accepted by the placement class belonging to the grid class *)
Definition unit_ok (c : gclass) (u : string) : Prop :=
  match c with G1D => known_unit u | G2D => u = "rad"%string \/ u = "deg"%string | GNF => True end.
Definition valid_pt (c : gclass) (u : string) (p : list R) : Prop :=
  match c with
  | G1D => valid_angle u (nth 0 p 0%R)
  | G2D => valid_ae u (nth 0 p 0%R, nth 1 p 0%R)
  | GNF => True
  end.
Definition valid_grid (g : sgrid) : Prop :=
  plain_grid g /\ unit_ok (sg_class g) (sg_unit g) /\
  forall idx, in_shape (sg_shape g) idx -> valid_pt (sg_class g) (sg_unit g) (grid_point g idx).
(** evenly spaced values *)
Definition evenly (l : list R) : Prop := exists s d : R, forall i, i < List.length l -> nth i l 0%R = (s + INR i * d)%R.
Definition uniform_grid (g : sgrid) : Prop := forall j, j < sg_ndim g -> evenly (axis g j).

(** the contract of np.argsort *)
Definition is_argsort (v : list R) (p : list nat) : Prop :=
  Permutation p (seq 0 (List.length v)) /\ StronglySorted (fun a b => (nth a v 0 <= nth b v 0)%R) p.
(** adjacent multi-indices (also diagonally) *)
Definition adjacent (idx idx' : list nat) : Prop :=
  forall j, nth j idx 0 <= nth j idx' 0 + 1 /\ nth j idx' 0 <= nth j idx 0 + 1.

(** the search grid of the estimator is valid and its placement is stored in the heap *)
Definition est_ok {T} (e : estimator T) (h : lheap) : Prop :=
  valid_grid (e_grid e) /\ p_addr (e_pl e) < List.length h /\
  buf h (e_pl e) = map (grid_point (e_grid e)) (all_indices (sg_shape (e_grid e))) /\
  (e_cache e = None \/ exists A, e_cache e = Some A /\ e_atom e (e_grid e) = Ok A).
(** the spectrum is the function F of the location, on every grid of the class and unit of the search grid *)
Definition spectrum_of {T} (e : estimator T) (f : T -> res (list R)) (F : list R -> R) : Prop :=
  forall g, valid_grid g -> sg_class g = sg_class (e_grid e) -> sg_unit g = sg_unit (e_grid e) ->
    exists A, e_atom e g = Ok A /\ f A = Ok (map F (map (grid_point g) (all_indices (sg_shape g)))).
