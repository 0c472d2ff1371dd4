(** Vocabulary of the properties about the sparse estimators: the documented optimisation problems. *)
From Verif Require Import Base_Np Base_Mem M_utils M_sources M_array S_array M_grid S_grid M_core M_sparse.
Open Scope nat_scope.

(** residual A x - b *)
Definition residual (A b : rmat) (x : nat -> R) (i : nat) : R := (rsum (nc A) (fun j => ent A i j * x j) - ent b i 0)%R.
Definition ssq (n : nat) (f : nat -> R) : R := rsum n (fun i => f i ^ 2)%R.
Definition l1norm (n : nat) (x : nat -> R) : R := rsum n (fun i => Rabs (x i)).
(** the three formulations, l1lsq.py:21-54: objective and constraints for x in R^k *)
Definition known_formulation (f : string) : Prop := f = "penalizedl1"%string \/ f = "constrainedl1"%string \/ f = "constrainedl2"%string.
Definition doc_objective (f : string) (A b : rmat) (l : R) (x : nat -> R) : R :=
  if String.eqb f "penalizedl1" then (1 / 2 * ssq (nr A) (residual A b x) + l * l1norm (nc A) x)%R
  else if String.eqb f "constrainedl1" then ssq (nr A) (residual A b x)
  else l1norm (nc A) x.
Definition doc_feasible (f : string) (nonnegative : bool) (A b : rmat) (l : R) (x : nat -> R) : Prop :=
  (f = "constrainedl1"%string -> (l1norm (nc A) x <= l)%R) /\
  (f = "constrainedl2"%string -> (sqrt (ssq (nr A) (residual A b x)) <= l)%R) /\
  (nonnegative = true -> forall j, j < nc A -> (0 <= x j)%R).
(** the k x 1 arrays x that solve the documented problem *)
Definition doc_solution (f : string) (nonnegative : bool) (A b : rmat) (l : R) (x : rmat) : Prop :=
  nr x = nc A /\ nc x = 1 /\ doc_feasible f nonnegative A b l (fun j => ent x j 0) /\
  forall y, doc_feasible f nonnegative A b l y -> (doc_objective f A b l (fun j => ent x j 0) <= doc_objective f A b l y)%R.
(** the l2,1 problem, l1lsq.py:131-137 *)
Definition doc_objective21 (A B : cmat) (l : R) (X : cmat) : R :=
  (1 / 2 * rsum (nr B) (fun i => rsum (nc B) (fun j => Cnorm2 (csum (nc A) (fun k => ent A i k * ent X k j) - ent B i j)%C)) +
   l * rsum (nr X) (fun i => sqrt (rsum (nc X) (fun j => Cnorm2 (ent X i j)))))%R.
Definition doc_solution21 (cplx : bool) (A B : cmat) (l : R) (X : cmat) : Prop :=
  let dom X := nr X = nc A /\ nc X = nc B /\ (cplx = false -> forall i j, i < nr X -> j < nc X -> Im (ent X i j) = 0%R) in
  dom X /\ forall Y, dom Y -> (doc_objective21 A B l X <= doc_objective21 A B l Y)%R.
(** what a correct solver reports as 'optimal': a minimiser of the problem among the values of the variable's shape *)
Definition minimises {T} (m n : nat) (pr : cproblem (mat T)) (x : mat T) : Prop :=
  let dom y := nr y = m /\ nc y = n /\ Forall (fun c => c y) (c_cons pr) in
  dom x /\ forall y, dom y -> (c_obj pr x <= c_obj pr y)%R.
(** earlier solve calls on a problem object *)
Fixpoint after_solves (sv : solver rmat) (p : l1prob) (calls : list (rmat * rmat * R * string)) : l1prob :=
  match calls with [] => p | (A, b, l, o) :: calls => after_solves sv (snd (l1_solve sv p A b l o)) calls end.
Fixpoint after_solves21 (sv : solver cmat) (p : l21prob) (calls : list (cmat * cmat * R * string)) : l21prob :=
  match calls with [] => p | (A, b, l, o) :: calls => after_solves21 sv (snd (l21_solve sv p A b l o)) calls end.
(** the value solve returns for an answer of the solver *)
Definition l1_answer (k : nat) (a : res (string * rmat)) : res l1value :=
  match a with Raise e => Raise e | Ok (st, x) => Ok (if String.eqb st "optimal" then LCol x else LZeros k) end.
Definition l21_answer (k n : nat) (a : res (string * cmat)) : res cmat :=
  match a with Raise e => Raise e | Ok (st, X) => Ok (if String.eqb st "optimal" then X else Mat k n (fun _ _ => RtoC 0)) end.
(** covariance of uncorrelated sources with powers p (one per column of A) and noise variance s *)
Definition grid_cov (A : cmat) (p : nat -> R) (s : R) : cmat :=
  Mat (nr A) (nr A) (fun i j => (csum (nc A) (fun c => RtoC (p c) * (ent A i c * Cconj (ent A j c))) + (if Nat.eqb i j then RtoC s else RtoC 0))%C).
(** column stacking the real and then the imaginary parts, column by column *)
Definition stacks (r : rmat) (Rm : cmat) : Prop :=
  nr r = 2 * (nr Rm * nc Rm) /\ nc r = 1 /\
  forall i j, i < nr Rm -> j < nc Rm -> ent r (i + j * nr Rm) 0 = Re (ent Rm i j) /\ ent r (nr Rm * nc Rm + (i + j * nr Rm)) 0 = Im (ent Rm i j).
(** Phi [p; s] (Phi p if the noise is known) is the stacked covariance A diag(p) A^H + s I, for all p and s *)
Definition truth (K : nat) (p : nat -> R) (s : R) (c : nat) : R := if Nat.ltb c K then p c else s.
Definition is_dictionary (A : cmat) (noise_known : bool) (Phi : rmat) : Prop :=
  nr Phi = 2 * (nr A * nr A) /\ nc Phi = (if noise_known then nc A else nc A + 1) /\
  forall p s r, stacks r (grid_cov A p (if noise_known then 0%R else s)) ->
    forall row, row < nr Phi -> rsum (nc Phi) (fun c => ent Phi row c * truth (nc A) p s c)%R = ent r row 0.
(** A is the steering matrix of the search grid (known perturbations applied) *)
Definition grid_steering (arr : array) (lam : R) (g : sgrid) (A : cmat) : Prop :=
  wf_array arr /\ scalar_isotropic arr /\ plain_grid g /\
  exists s DA, create_source_placement g = Ok s /\ steering_matrix arr s lam false "known" true = Ok (Flat A, DA).
(** estimator objects after any calls of estimate *)
Inductive scm_reach (sv : solver rmat) (c0 : scm) : scm -> Prop :=
| scm_new : scm_reach sv c0 c0
| scm_call : forall c h m Rv k l sigma o kw, scm_reach sv c0 c -> scm_reach sv c0 (snd (fst (fst (scm_estimate sv c h m Rv k l sigma o kw)))).
Inductive gs_reach (sv : solver cmat) (c0 : gsparse) : gsparse -> Prop :=
| gs_new : gs_reach sv c0 c0
| gs_call : forall c h Y k l o kw, gs_reach sv c0 c -> gs_reach sv c0 (snd (fst (gs_estimate sv c h Y k l o kw))).
(** what the base class makes of a spectrum (see C46, C47): no refinement *)
Definition from_spectrum (g : sgrid) (pl : placement) pf argsort (h : lheap) (sp : list R) (k : Z) (ret_sp : bool) : res outcome * lheap :=
  let '(r, _, h) := estimate (Est g pl (fun _ => Ok tt) pf argsort false None) h (fun _ => Ok sp) k (Opts ret_sp false 10 3) in (r, h).
(** R - s I if the noise is known *)
Definition denoised (nk : bool) (s : R) (Rm : cmat) : cmat := Mat (nr Rm) (nc Rm) (fun i j => (ent Rm i j - (if nk then if Nat.eqb i j then RtoC s else RtoC 0 else RtoC 0))%C).
(** a column repeated n times *)
Definition repeat_column (n : nat) (c : cmat) : cmat := Mat (nr c) n (fun i _ => ent c i 0).
