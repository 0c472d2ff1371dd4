(** Creating the spectrum-based estimators of doatools/estimation (core.py:51-97, music.py:50-51 and the constructors
    min_norm.py:30-31, beamforming.py:55-56, 118-119, which forward to it), so that complete programs (design an array, create a grid,
    create an estimator, estimate) can be expressed. *)
From Verif Require Import Base_Np Base_Mem M_utils M_sources M_array M_designs M_coarray M_grid M_core M_sparse M_subspace.
Open Scope nat_scope.

(** the placement class created by each grid class: grid.py:273-274, 353-354, 414-415 *)
Definition placement_class (c : gclass) : string :=
  match c with
  | G1D => "FarField1DSourcePlacement" | G2D => "FarField2DSourcePlacement" | GNF => "NearField2DSourcePlacement"
  end%string.
(** core.py:51-75 SpectrumBasedEstimatorBase.__init__ with the atom matrix of core.py:77-97.  Simplification: the source
    placement of the grid (grid.py:51-78: created lazily, on first access, and kept) is created here, so that a grid whose
    placement cannot be created is reported at construction and not at the first call. *)
Definition new_estimator (arr : array) (lam : R) (g : sgrid) (peak_finder : list nat -> list R -> list (list nat))
    (argsort : list R -> list nat) (enable_caching : bool) (h : lheap) : res (estimator cmat * lheap) :=
  let! s := create_source_placement g in
  Ok (Est g (Placement (placement_class (sg_class g)) (repeat (sg_unit g) (sg_ndim g)) (List.length h))
          (default_atom arr lam) peak_finder argsort enable_caching None, h ++ [src_rows s]).
