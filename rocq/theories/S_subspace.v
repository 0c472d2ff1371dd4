(** Vocabulary of the properties about the subspace estimators and beamformers. *)
From Coq Require Import Sorting.Sorted Sorting.Permutation.
From Verif Require Import Base_Np Base_Lin Base_Trig.
Open Scope C_scope.

(** covariance A P A^H + s I of k sources with steering matrix A (m x k) in white noise *)
Definition exact_cov (Rm A P : cmat) (s : R) : Prop :=
  nr P = nc A /\ nc P = nc A /\ Rm ==m A *m P *m mher A +m mscal (RtoC s) (mid (nr A)).
(** a is a combination of the columns of A *)
Definition in_span (A : cmat) (a : nat -> C) : Prop := exists x, forall i, (i < nr A)%nat -> a i = mvec A x i.
(** a^H En En^H a: squared norm of the projection of a onto the (orthonormal) columns of En *)
Definition proj_power (En : cmat) (a : nat -> C) : R := rsum (nc En) (fun j => Cnorm2 (vdot (nr En) (col En j) a)).
Definition orthonormal (En : cmat) : Prop := mher En *m En ==m mid (nc En).

(** contracts of the numpy.linalg routines on matrices of order at most [n] *)
Definition eigh_contract (n : nat) (eigh : cmat -> res (list R * cmat)) : Prop :=
  forall A, hermitian A -> (nr A <= n)%nat -> exists w E, eigh A = Ok (w, E) /\ eigh_ok A w E.
Definition solve_contract (n : nat) (solve : cmat -> cmat -> res cmat) : Prop :=
  forall G B, nr G = nc G -> (nr G <= n)%nat -> inj G -> nr B = nr G ->
    exists X, solve G B = Ok X /\ nr X = nr G /\ nc X = nc B /\ G *m X ==m B.
Definition eigenvalue (A : cmat) (z : C) : Prop :=
  exists v, (exists i, (i < nr A)%nat /\ v i <> RtoC 0) /\ forall i, (i < nr A)%nat -> mvec A v i = z * v i.
Definition eigvals_contract (n : nat) (eigvals : cmat -> res (list C)) : Prop :=
  forall A, nr A = nc A -> (nr A <= n)%nat -> exists l, eigvals A = Ok l /\ List.length l = nr A /\ forall z, In z l <-> eigenvalue A z.

Fixpoint cpow (z : C) (n : nat) : C := match n with O => RtoC 1 | S n' => z * cpow z n' end.
(** steering matrix of a uniform linear array of m sensors: entry (i, c) is z_c^i *)
Definition ula_matrix (m : nat) (zs : list C) : cmat := Mat m (List.length zs) (fun i c => cpow (nth c zs (RtoC 0)) i).

(** polynomial with the coefficients c (highest degree first) at z *)
Fixpoint poly (c : list C) (z : C) : C := match c with [] => RtoC 0 | a :: c' => a * cpow z (List.length c') + poly c' z end.
(** a^H C a for the steering vector a(z) = (1, z, ..., z^(m-1)) *)
Definition form_at (Cm : cmat) (z : C) : C := qform Cm (fun i => cpow z i).
