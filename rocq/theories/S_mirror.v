(** Vocabulary of the property about reflected arrays and conjugated measurements. *)
From Coq Require Import Sorting.Permutation.
From Verif Require Import Base_Np Base_Lin M_utils M_sources S_sources M_array S_array M_grid M_core M_subspace S_invar.
Open Scope nat_scope.

(** the steering vectors of A' are the complex conjugates of those of A *)
Definition conj_atoms (A A' : cmat) : Prop := nr A' = nr A /\ nc A' = nc A /\ forall i j, i < nr A -> j < nc A -> ent A' i j = Cconj (ent A i j).
(** two estimators with the same search grid and routines; the second one uses the conjugates of the steering vectors of the first *)
Definition conj_estimators (e e' : estimator cmat) : Prop :=
  same_search e e' /\ forall g, sg_class g = sg_class (e_grid e) ->
    match e_atom e g, e_atom e' g with
    | Ok A, Ok A' => conj_atoms A A'
    | Raise x, Raise y => x = y
    | _, _ => False
    end.
(** the sensors of a' are those of a reflected in a point (each coordinate changes its sign, up to the origin v), listed in the order [idx], in another unit of
    length (alpha > 0, wavelength included); no known gain, phase or coupling errors (known location errors are allowed) *)
Record reflected_sensors (a : array) (lam : R) (a' : array) (lam' : R) (idx : list nat) (v : nat -> R) : Prop := {
  rs_usable : usable a lam /\ usable a' lam';
  rs_order : Permutation idx (seq 0 (ar_size a)) /\ ar_size a' = ar_size a;
  rs_geometry : exists ps ps' L L' alpha,
    select_perturbations a "known" = Ok ps /\ select_perturbations a' "known" = Ok ps' /\
    perturb_locations ps (ar_loc a) = Ok L /\ perturb_locations ps' (ar_loc a') = Ok L' /\
    (0 < alpha)%R /\ lam' = (alpha * lam)%R /\
    (forall i c, i < ar_size a -> c < 3 -> coord (la_m L') i c = (v c - alpha * coord (la_m L) (nth i idx 0%nat) c)%R) /\
    known_responses ps = [] /\ known_responses ps' = []
}.
(** the complex conjugate of the covariance matrix, for the sensors in the new order, in another amplitude scale and with another noise floor *)
Definition conj_measurements (m : nat) (idx : list nat) (c delta : R) (Rm Rm' : cmat) : Prop :=
  nr Rm' = m /\ nc Rm' = m /\ forall i j, i < m -> j < m ->
    ent Rm' i j = (RtoC c * Cconj (ent Rm (nth i idx 0%nat) (nth j idx 0%nat)) + (if Nat.eqb i j then RtoC delta else RtoC 0))%C.
(** the backward covariance matrix J conj(R) J (sensors in reverse order, conjugated) *)
Definition backward (Rm : cmat) : cmat := Mat (nr Rm) (nc Rm) (fun i j => Cconj (ent Rm (nr Rm - 1 - i) (nc Rm - 1 - j))).
(** two results of estimators that need no grid: the same error, or estimates at the mirrored directions (listed in any order, same unit) *)
Definition mirrored (r r' : res (list (option R) * string)) : Prop :=
  match r, r' with
  | Ok (l, u), Ok (l', u') => u' = u /\ Permutation l' (map (option_map Ropp) l)
  | Raise x, Raise y => x = y
  | _, _ => False
  end.
