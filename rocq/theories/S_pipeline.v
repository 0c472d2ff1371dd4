(** Vocabulary of the end-to-end properties. *)
From Coq Require Import Sorted Permutation.
From Verif Require Import Base_Np Base_Trig S_utils M_utils M_sources S_sources M_array M_grid M_core M_subspace.
Open Scope nat_scope.

(** the contract of scipy.signal.find_peaks on a 1-D array: distinct positions, among them every interior strict local maximum *)
Definition scipy_find_peaks (fp : list R -> list nat) : Prop := forall x,
  NoDup (fp x) /\ (forall i, In i (fp x) -> i < List.length x) /\
  (forall i, 0 < i -> S i < List.length x -> (nth (i - 1) x 0 < nth i x 0)%R -> (nth (S i) x 0 < nth i x 0)%R -> In i (fp x)).
(** increasing positions of a grid of n points, none of them at the border and no two of them neighbours *)
Definition separated (n : nat) (truth : list nat) : Prop :=
  StronglySorted (fun i j => i + 1 < j) truth /\ Forall (fun i => 0 < i /\ S i < n) truth.
(** no two of the angles are aliases of each other on a linear array with element spacing d *)
Definition unambiguous (d lam : R) (u : string) (angles : list R) : Prop :=
  NoDup angles /\ forall a b, In a angles -> In b angles -> (d * (sin (to_rad u a) - sin (to_rad u b)) < lam)%R.
(** the angles at the positions [truth] of a grid axis *)
Definition at_positions (angles : list R) (truth : list nat) : list R := map (fun i => nth i angles 0%R) truth.
(** a MUSIC estimator object and the heap after any earlier calls of [estimate] *)
Inductive music_reach eigh (m : nat) (e0 : estimator cmat) (h0 : lheap) : estimator cmat -> lheap -> Prop :=
| mr_new : music_reach eigh m e0 h0 e0 h0
| mr_call : forall e h Rm k o r e' h', music_reach eigh m e0 h0 e h -> music_estimate eigh m e h Rm k o = (r, e', h') -> music_reach eigh m e0 h0 e' h'.
(** an estimator object and the heap after any earlier calls of an [estimate] method *)
Inductive reach (method : estimator cmat -> lheap -> cmat -> Z -> options -> est_result) (e0 : estimator cmat) (h0 : lheap) : estimator cmat -> lheap -> Prop :=
| r_new : reach method e0 h0 e0 h0
| r_call : forall e h Rm k o r e' h', reach method e0 h0 e h -> method e h Rm k o = (r, e', h') -> reach method e0 h0 e' h'.
