(** Vocabulary of the properties of refinement: how fast the refined estimates approach the true directions. *)
From Coq Require Import Sorting.Sorted Sorting.Permutation.
From Verif Require Import Base_Np S_utils M_utils M_sources S_sources M_array M_designs M_coarray M_heap M_grid M_core S_grid.
Open Scope R_scope.

(** the function V has one dip between b0 and b1, at a up to tol: a is between b0 and b1 up to tol; V has no local maximum inside the range
    spanned by b0, b1 and a; and every point of b0..b1 farther from a than tol is higher than a *)
Definition dip (V : R -> R) (b0 b1 a tol : R) : Prop :=
  b0 - tol <= a <= b1 + tol /\
  (forall x y z, Rmin b0 a <= x -> x < y -> y < z -> z <= Rmax b1 a -> V y < Rmax (V x) (V z)) /\
  (forall x, b0 <= x <= b1 -> tol < Rabs (x - a) -> V a < V x).
(** on every one-dimensional grid with the unit of the estimator's grid the spectrum ranks the points by decreasing V *)
Definition ranks_by {T} (e : estimator T) (f : T -> res (list R)) (V : R -> R) : Prop :=
  forall x, Forall (valid_angle (sg_unit (e_grid e))) x ->
    exists A sp, e_atom e (SGrid G1D [vec1 x] (sg_unit (e_grid e)) DFloat) = Ok A /\ f A = Ok sp /\ List.length sp = List.length x /\
      forall i j, (i < List.length x)%nat -> (j < List.length x)%nat -> (nth i sp 0 < nth j sp 0 <-> V (nth j x 0) < V (nth i x 0)).
