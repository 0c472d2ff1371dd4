(** Vocabulary of the property that spectrum-based estimates depend on the physical scene only. *)
From Coq Require Import Sorting.Permutation.
From Verif Require Import Base_Np Base_Lin M_utils M_sources S_sources M_array S_array M_grid M_core M_subspace.
Open Scope nat_scope.

(** [U] is a unitary m x m matrix: listing the sensors in another order, or multiplying each sensor by a known phase,
    are unitary changes of coordinates of the array output *)
Definition unitary (m : nat) (U : cmat) : Prop := nr U = m /\ nc U = m /\ mher U *m U ==m mid m.
(** the covariance matrix in the new coordinates, in another amplitude scale (c) and with diagonal loading or another noise floor (delta) *)
Definition recorded_cov (m : nat) (U : cmat) (c delta : R) (Rm Rm' : cmat) : Prop :=
  Rm' ==m mscal (RtoC c) (U *m Rm *m mher U) +m mscal (RtoC delta) (mid m).
(** the steering vectors in the new coordinates; each may in addition be multiplied by a factor of modulus one *)
Definition recorded_atoms (m : nat) (U A A' : cmat) : Prop :=
  nr A = m /\ nr A' = m /\ nc A' = nc A /\ exists t : nat -> C, (forall j, Cmod (t j) = 1%R) /\
    forall i j, i < m -> j < nc A -> ent A' i j = (t j * ent (U *m A) i j)%C.
(** two lists of numbers ordered in the same way *)
Definition same_order (x y : list R) : Prop :=
  List.length x = List.length y /\ forall i j, i < List.length x -> j < List.length x ->
    ((nth i x 0 < nth j x 0)%R <-> (nth i y 0 < nth j y 0)%R).
(** a routine (sorting, finding 1-D peaks) which only compares values *)
Definition compares_only {B} (f : list R -> B) : Prop := forall x y, same_order x y -> f x = f y.
(** the same for a peak finder on arrays of any shape *)
Definition compares_peaks {B} (pf : list nat -> list R -> B) : Prop :=
  forall shape x y, List.length x = prod_list shape -> same_order x y -> pf shape x = pf shape y.
(** the permutation matrix of the ordering [idx] of the sensors *)
Definition perm_matrix (m : nat) (idx : list nat) : cmat := Mat m m (fun i j => if Nat.eqb j (nth i idx 0) then RtoC 1 else RtoC 0).
(** the results of two calls: the same error, or the same flag and the same estimates, and spectra related by Q if they are returned *)
Definition same_outcome (Q : list R -> list R -> Prop) (r r' : res outcome) : Prop :=
  match r, r' with
  | Ok a, Ok b => oc_resolved a = oc_resolved b /\ oc_estimates a = oc_estimates b /\
      match oc_spectrum a, oc_spectrum b with None, None => True | Some x, Some y => Q x y | _, _ => False end
  | Raise x, Raise y => x = y
  | _, _ => False
  end.
(** the results and all stored location arrays, the estimated ones included *)
Definition same_results {T} (Q : list R -> list R -> Prop) (x y : res outcome * estimator T * lheap) : Prop :=
  same_outcome Q (fst (fst x)) (fst (fst y)) /\ snd x = snd y.
(** the known errors that do not move sensors, in registration order *)
Definition known_responses (ps : list pert) : list pert := filter (fun p => match p with LocErr _ _ => false | _ => true end) ps.
(** everything the steering matrix needs exists *)
Definition usable (a : array) (lam : R) : Prop :=
  lam <> 0%R /\ wf_array a /\ scalar_isotropic a /\ la_dt (ar_loc a) = DFloat /\ 1 <= ar_ndim a <= 3 /\ 0 < ar_size a /\
  exists ps, select_perturbations a "known" = Ok ps /\ forall p, In p ps -> proper_pert (ar_size a) p.
(** the sensors of a' are those of a, listed in the order [idx], in another unit of length (alpha, wavelength included) and with respect to
    another origin (v); known gain, phase and coupling errors are the same (and then the sensors are listed in the same order) *)
Record same_sensors (a : array) (lam : R) (a' : array) (lam' : R) (idx : list nat) (v : nat -> R) : Prop := {
  ss_usable : usable a lam /\ usable a' lam';
  ss_order : Permutation idx (seq 0 (ar_size a)) /\ ar_size a' = ar_size a;
  ss_geometry : exists ps ps' L L' alpha,
    select_perturbations a "known" = Ok ps /\ select_perturbations a' "known" = Ok ps' /\
    perturb_locations ps (ar_loc a) = Ok L /\ perturb_locations ps' (ar_loc a') = Ok L' /\
    alpha <> 0%R /\ lam' = (alpha * lam)%R /\
    (forall i c, i < ar_size a -> c < 3 -> coord (la_m L') i c = (alpha * coord (la_m L) (nth i idx 0%nat) c + v c)%R) /\
    known_responses ps' = known_responses ps /\ (known_responses ps = [] \/ idx = seq 0 (ar_size a))
}.
(** the covariance matrix of the same sensors in the new order, in another amplitude scale and with another noise floor *)
Definition same_measurements (m : nat) (idx : list nat) (c delta : R) (Rm Rm' : cmat) : Prop :=
  nr Rm' = m /\ nc Rm' = m /\ forall i j, i < m -> j < m ->
    ent Rm' i j = (RtoC c * ent Rm (nth i idx 0%nat) (nth j idx 0%nat) + (if Nat.eqb i j then RtoC delta else RtoC 0))%C.
(** the cached atom matrix, if any, is the one of the search grid (so it is after construction and after every call, see C49) *)
Definition cache_valid {T} (e : estimator T) : Prop := e_cache e = None \/ exists A, e_cache e = Some A /\ e_atom e (e_grid e) = Ok A.
(** two estimators on the same grid with the same routines; the second one uses the steering vectors of the first in new coordinates *)
Definition same_search {T} (e e' : estimator T) : Prop :=
  e_grid e' = e_grid e /\ e_pl e' = e_pl e /\ e_pf e' = e_pf e /\ e_argsort e' = e_argsort e /\ cache_valid e /\ cache_valid e'.
Definition recorded_estimators (m : nat) (U : cmat) (e e' : estimator cmat) : Prop :=
  same_search e e' /\ forall g, sg_class g = sg_class (e_grid e) ->
    match e_atom e g, e_atom e' g with
    | Ok A, Ok A' => recorded_atoms m U A A'
    | Raise x, Raise y => x = y
    | _, _ => False
    end.
(** an eigenvalue routine that works on this matrix, and an eigenvalue gap below the k largest eigenvalues *)
Definition gap (k : nat) (w : list R) : Prop := (nth (List.length w - k - 1) w 0 < nth (List.length w - k) w 0)%R.
(** all steering vectors have the same length *)
Definition equal_norms (e : estimator cmat) : Prop :=
  forall g A, e_atom e g = Ok A -> forall i j, i < nc A -> j < nc A -> vnorm2 (nr A) (col A i) = vnorm2 (nr A) (col A j).
