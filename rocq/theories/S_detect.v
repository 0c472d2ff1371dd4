(** Vocabulary of C100: eigenvalue lists that are close to each other, and snapshot counts and covariance estimates along a growing record. *)
From Verif Require Import Base_Np Base_Lin S_stable.
Open Scope R_scope.

(** two lists of eigenvalues of the same length, no value differing by more than eps *)
Definition values_within (eps : R) (x y : list R) : Prop := List.length y = List.length x /\ forall j, (j < List.length x)%nat -> Rabs (nth j x 0 - nth j y 0) <= eps.
(** the snapshot counts grow without bound *)
Definition unbounded (Ns : nat -> R) : Prop := forall B, exists i0, forall i, (i0 <= i)%nat -> B <= Ns i.
(** the squared errors fall faster than ln N / N (for independent Gaussian snapshots they are of the order log log N / N) *)
Definition faster_than_log (Ns : nat -> R) (Rs : nat -> cmat) (Rm : cmat) : Prop :=
  forall c, 0 < c -> exists i0, forall i, (i0 <= i)%nat -> Ns i * (distance Rm (Rs i) * distance Rm (Rs i)) <= c * ln (Ns i).
(** the squared errors are of the order 1 / N, the order of the standard deviation of a sample covariance *)
Definition root_n_error (Ns : nat -> R) (Rs : nat -> cmat) (Rm : cmat) (b : R) : Prop :=
  forall i, Ns i * (distance Rm (Rs i) * distance Rm (Rs i)) <= b.
