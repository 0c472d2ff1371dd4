(** Vocabulary of the properties of grid-based MUSIC with sources between the grid points. *)
From Coq Require Import Sorting.Sorted Sorting.Permutation.
From Verif Require Import Base_Np S_utils S_sources.
Open Scope R_scope.

(** a local maximum of x in the sense of scipy.signal.find_peaks: i is the midpoint (rounded down) of a maximal interval l..r of equal
    samples, strictly higher than the samples on both sides of the interval *)
Definition local_max (x : list R) (i : nat) : Prop := exists l r, (0 < l <= r)%nat /\ (S r < List.length x)%nat /\ i = ((l + r) / 2)%nat /\
  (forall j, (l <= j <= r)%nat -> nth j x 0 = nth l x 0) /\ nth (l - 1) x 0 < nth l x 0 /\ nth (S r) x 0 < nth l x 0.
(** the contract of scipy.signal.find_peaks (called without conditions) on a 1-D array: the positions of all local maxima *)
Definition scipy_local_maxima (fp : list R -> list nat) : Prop := forall x, NoDup (fp x) /\ forall i, In i (fp x) <-> local_max x i.
(** a range of directions lo..hi in whose interior no two directions are aliases of each other on a linear array with element spacing d *)
Definition field_of_view (d lam : R) (u : string) (lo hi : R) : Prop :=
  lo < hi /\ valid_angle u lo /\ valid_angle u hi /\ d * (sin (to_rad u hi) - sin (to_rad u lo)) <= lam.
(** an ascending search grid inside lo..hi that leaves no gap longer than step *)
Definition fine_grid (lo hi step : R) (angles : list R) : Prop :=
  angles <> [] /\ StronglySorted Rlt angles /\ (forall a, In a angles -> lo <= a <= hi) /\ nth 0 angles 0 - lo <= step /\ hi - nth (List.length angles - 1) angles 0 <= step /\
  forall i, (S i < List.length angles)%nat -> nth (S i) angles 0 - nth i angles 0 <= step.
(** the grid points at the ascending positions idx, one for each true direction: each direction lies between the two grid points next to
    the chosen one, up to tol *)
Definition brackets (tol : R) (angles truth : list R) (idx : list nat) : Prop :=
  StronglySorted lt idx /\ exists s, Permutation s truth /\ ascending s /\
    Forall2 (fun a i => (0 < i)%nat /\ (S i < List.length angles)%nat /\ nth (i - 1) angles 0 - tol <= a <= nth (S i) angles 0 + tol) s idx.
