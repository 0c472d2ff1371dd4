(** Vocabulary of the property that maximum-likelihood objectives and estimates depend on the physical scene only. *)
From Verif Require Import Base_Np Base_Lin M_utils M_sources M_array M_coarray M_heap M_grid M_core M_ml S_utils S_sources S_subspace S_ml P_utils Prop_ml4 S_invar.
Open Scope nat_scope.

(** the candidate steering vectors A' span what those of A span, in the coordinates given by U (recorded_atoms is a special case, and so
    is any other order of the candidate sources) *)
Definition same_subspace (m : nat) (U A A' : cmat) : Prop :=
  nr A = m /\ nr A' = m /\ (forall j, j < nc A -> in_span A' (col (U *m A) j)) /\ (forall j, j < nc A' -> in_span (U *m A) (col A' j)).
(** a value of the objective (None is infinity) in another amplitude scale: the conditional and the subspace fitting objectives are powers,
    the asymptotic one is a log-determinant of order m *)
Definition value_changed (kind : mlkind) (m : nat) (c : R) (v v' : option R) : Prop :=
  match v, v' with
  | None, None => True
  | Some x, Some y => y = match kind with AML => (x + INR m * ln c)%R | _ => (c * x)%R end
  | _, _ => False
  end.
(** the order of two objective values *)
Definition no_larger (v w : option R) : Prop :=
  match v, w with _, None => True | None, Some _ => False | Some x, Some y => (x <= y)%R end.
(** np.linalg.pinv returns the Moore-Penrose inverse of every matrix with m rows *)
Definition pinv_total (m : nat) (pinv : cmat -> res cmat) : Prop := pinv_ok pinv /\ forall A, nr A = m -> exists X, pinv A = Ok X.
(** the numpy routines of a maximum-likelihood estimator do what their documentation says *)
Definition ml_routines (env : mlenv) : Prop :=
  let m := ar_size (ml_array env) in
  pinv_total m (ml_pinv env) /\ eigh_contract m (ml_eigh env) /\ slogdet_regular m (ml_slogdet env) /\ slogdet_singular m (ml_slogdet env).
(** an optimiser that only evaluates the objective inside the bounds it was given *)
Inductive stays_within (bounds : list bound) : optim -> Prop :=
  | SWDone b x : stays_within bounds (ODone b x)
  | SWRaise e : stays_within bounds (ORaise e)
  | SWEval x next : List.length x = List.length bounds -> (forall q, q < List.length x -> within (nth q bounds (None, None)) (nth q x 0%R)) ->
      (forall v, stays_within bounds (next v)) -> stays_within bounds (OEval x next).
(** sources of the same class, unit and number *)
Definition same_type (s0 s : sources) : Prop :=
  pv_class (value_of s DFloat) = pv_class (value_of s0 DFloat) /\ pv_units (value_of s DFloat) = pv_units (value_of s0 DFloat) /\ src_size s = src_size s0.
(** two arrays, of the same number of sensors, that see every placement of the sources alike (up to the change U of coordinates) *)
Definition see_alike (m : nat) (U : cmat) (a a' : array) (lam lam' : R) (s0 : sources) : Prop :=
  ar_size a = m /\ ar_size a' = m /\ forall s, valid_sources s -> same_type s0 s -> exists A A' d d',
    steering_matrix a s lam false "known" true = Ok (Flat A, d) /\ steering_matrix a' s lam' false "known" true = Ok (Flat A', d') /\ same_subspace m U A A'.
(** the result of an ML estimate call: the returned flag and placement (or the same error), the stored estimates and all location arrays *)
Definition same_ml_results (x y : res (bool * option lobj) * mlst * lheap) : Prop :=
  fst (fst x) = fst (fst y) /\ ms_est (snd (fst x)) = ms_est (snd (fst y)) /\ snd x = snd y.
