(** Vocabulary of the consistency property of the maximum-likelihood estimators. *)
From Coq Require Import Sorting.Permutation.
From Verif Require Import Base_Np Base_Lin M_utils M_sources M_array M_coarray M_heap M_grid M_core M_ml S_utils S_ml.
Open Scope R_scope.

(** the directions l are the true ones, in some order, up to an error below tol *)
Definition close_to (tol : R) (truth l : list R) : Prop := exists s, Permutation s truth /\ Forall2 (fun a b => Rabs (a - b) < tol) s l.
(** an objective value v (None is infinity) that exceeds w by at most eps *)
Definition as_good (eps : R) (v w : option R) : Prop := match v, w with _, None => True | None, Some _ => False | Some x, Some y => x <= y + eps end.
(** a point inside the bounds given to the optimiser *)
Definition in_box (bounds : list bound) (x : list R) : Prop :=
  List.length x = List.length bounds /\ forall q, (q < List.length x)%nat -> within (nth q bounds (None, None)) (nth q x 0).
(** the point x has, up to eps, the smallest objective of all points inside the bounds *)
Definition minimum (eps : R) (obj : list (list R) -> res (option R)) (g : pval) (bounds : list bound) (x : list R) : Prop :=
  in_box bounds x /\ forall y rx ry vx vy, in_box bounds y -> place_at g x = Ok rx -> place_at g y = Ok ry -> obj rx = Ok vx -> obj ry = Ok vy -> as_good eps vx vy.
(** on this problem (covariance Rm, initial guess g) the optimiser, when it reports success, has found a minimum up to eps *)
Definition finds_minimum (eps : R) (env : mlenv) (mini : minimizer) (st : mlst) (Rm : cmat) (g : pval) : Prop :=
  forall M bounds x last, prepare_M env st Rm (List.length (pv_rows g)) = Ok M -> opt_bounds (pv_pl g) (pv_rows g) = Ok bounds ->
    optimise (objective_at env M Rm g) g (mini (List.concat (pv_rows g)) bounds) (pv_rows g) = (Ok (true, x), last) -> minimum eps (objective_at env M Rm g) g bounds x.
(** what each estimator needs to tell the true directions from others: k sources, n sensors, noise level s *)
Definition identifiable (kind : mlkind) (n k : nat) (s : R) : Prop := match kind with AML => 0 < s /\ (2 * k < n)%nat | _ => 0 <= s end.
(** how far a direction a is from all the directions l, as seen by an array with spacing d: the product of the squared chords between the phases of neighbouring sensors *)
Definition separation (d lam : R) (u : string) (a : R) (l : list R) : R :=
  fold_right (fun b x => 4 * sin (PI * d / lam * (sin (to_rad u a) - sin (to_rad u b))) ^ 2 * x) 1 l.
