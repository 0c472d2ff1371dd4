(** Vocabulary of the property that sparse estimates depend on the physical scene only. *)
From Verif Require Import Base_Np Base_Mem M_utils M_sources M_array S_array M_grid M_core M_sparse S_sparse S_invar.
Open Scope nat_scope.

(** squared Frobenius distance between the covariance A diag(p) A^H + s I and D *)
Definition misfit (A D : cmat) (p : nat -> R) (s : R) : R :=
  rsum (nr A) (fun i => rsum (nr A) (fun j => Cnorm2 (ent (grid_cov A p s) i j - ent D i j)%C)).
(** sum of the powers on the grid, and of the noise power if it is unknown; all of them are magnitudes *)
Definition total_power (K : nat) (nk : bool) (p : nat -> R) (s : R) : R := (rsum K (fun j => Rabs (p j)) + (if nk then 0 else Rabs s))%R.
(** covariance matching: non-negative powers p on the grid (and noise power s if it is unknown) reproducing D with few sources *)
Definition fit_feasible (f : string) (A D : cmat) (nk : bool) (l : R) (p : nat -> R) (s : R) : Prop :=
  (forall j, j < nc A -> (0 <= p j)%R) /\ (if nk then s = 0%R else (0 <= s)%R) /\
  (f = "constrainedl1"%string -> (total_power (nc A) nk p s <= l)%R) /\
  (f = "constrainedl2"%string -> (sqrt (misfit A D p s) <= l)%R).
Definition fit_objective (f : string) (A D : cmat) (nk : bool) (l : R) (p : nat -> R) (s : R) : R :=
  if String.eqb f "penalizedl1" then (1 / 2 * misfit A D p s + l * total_power (nc A) nk p s)%R
  else if String.eqb f "constrainedl1" then misfit A D p s
  else total_power (nc A) nk p s.
Definition best_fit (f : string) (A D : cmat) (nk : bool) (l : R) (p : nat -> R) (s : R) : Prop :=
  fit_feasible f A D nk l p s /\ forall q t, fit_feasible f A D nk l q t -> (fit_objective f A D nk l p s <= fit_objective f A D nk l q t)%R.
(** there is a best fit, and all best fits have the same powers on the grid *)
Definition one_fit (f : string) (A D : cmat) (nk : bool) (l : R) : Prop :=
  exists p s, best_fit f A D nk l p s /\ forall q t, best_fit f A D nk l q t -> forall j, j < nc A -> q j = p j.
(** lengths of the rows: the group-sparse spectrum *)
Definition row_length (X : cmat) (i : nat) : R := sqrt (rsum (nc X) (fun j => Cnorm2 (ent X i j))).
Definition one_group_fit (A Y : cmat) (l : R) : Prop :=
  exists X, doc_solution21 true A Y l X /\ forall Z, doc_solution21 true A Y l Z -> forall i, i < nc A -> row_length Z i = row_length X i.
(** the arrays that list a best fit: the powers on the grid, followed by the noise power if it is unknown *)
Definition fit_array (f : string) (A D : cmat) (nk : bool) (l : R) (x : rmat) : Prop :=
  nr x = (if nk then nc A else nc A + 1) /\ nc x = 1 /\ best_fit f A D nk l (fun j => ent x j 0) (if nk then 0%R else ent x (nc A) 0).
(** a solver that works on the problem whose solutions are [Sol]: it reports one of them *)
Definition works_on {T} (sv : solver (mat T)) (m n : nat) (Sol : mat T -> Prop) : Prop :=
  forall pr w o, (forall x, minimises m n pr x <-> Sol x) -> exists x, sv pr w o = Ok ("optimal"%string, x) /\ Sol x.
(** the second spectrum is c times the first *)
Definition times (c : R) (x y : list R) : Prop := y = map (Rmult c) x.
