(** Vocabulary of the stability properties: how far a covariance estimate is from the true covariance, how clearly the sources stand
    out, and how far a direction is from the sources. *)
From Verif Require Import Base_Np Base_Lin S_subspace.
Open Scope C_scope.

(** length of a complex vector and (Frobenius) distance of two matrices of the same size *)
Definition vlen (n : nat) (x : nat -> C) : R := sqrt (vnorm2 n x).
Definition distance (A B : cmat) : R := sqrt (rsum (nr A) (fun i => rsum (nc A) (fun j => Cnorm2 (ent A i j - ent B i j)%C))).
(** the weakest combination of the sources is received with power at least delta (relative to its length) *)
Definition signal_floor (A P : cmat) (delta : R) : Prop :=
  forall y, (delta * vnorm2 (nr A) (mvec A y) <= Re (qform (A *m P *m mher A) (mvec A y)))%R.
(** the vector a is at distance at least eta from every combination of the columns of A *)
Definition away (A : cmat) (a : nat -> C) (eta : R) : Prop := forall x, (eta <= vlen (nr A) (fun i => a i - mvec A x i)%C)%R.
(** relative error of the subspaces when the covariance is off by eps and the sources stand out by delta *)
Definition tilt (eps delta : R) : R := (eps / (delta - eps))%R.
(** the spectrum l (infinite values are None) is higher at position i than at position j *)
Definition above (l : list (option R)) (i j : nat) : Prop :=
  match nth i l None, nth j l None with Some u, Some v => (v < u)%R | None, Some _ => True | _, None => False end.
(** the covariance estimates Rs 0, Rs 1, ... (say, from more and more snapshots) converge to Rm *)
Definition converges (Rs : nat -> cmat) (Rm : cmat) : Prop := forall eps, (0 < eps)%R -> exists N, forall n, (N <= n)%nat -> (distance Rm (Rs n) < eps)%R.
