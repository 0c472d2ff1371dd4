(** Vocabulary of the continuity property of the search-free estimators. *)
From Coq Require Import Sorting.Sorted Sorting.Permutation.
From Verif Require Import Base_Np S_utils S_sources.
Open Scope R_scope.

(** the returned directions l are the true ones up to an error below tol: with the true directions in ascending order, the i-th
    returned direction is less than tol away from the i-th true one (and there are as many) *)
Definition accurate (tol : R) (truth l : list R) : Prop :=
  ascending l /\ exists s, Permutation s truth /\ ascending s /\ Forall2 (fun a b => Rabs (a - b) < tol) s l.
(** no source is at an endfire direction, and the phase over the displacement D (in sensor spacings d) stays strictly within half a cycle *)
Definition in_view (d : R) (D : nat) (lam : R) (u : string) (doas : list R) : Prop :=
  forall a, In a doas -> - (PI / 2) < to_rad u a < PI / 2 /\ - (lam / 2) < d * INR D * sin (to_rad u a) < lam / 2.
