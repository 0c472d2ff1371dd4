(** Models of doatools/optim/l1lsq.py and doatools/estimation/sparse.py *)
From Verif Require Import Base_Np Base_Mem M_utils M_sources M_array M_grid M_coarray M_core.
Open Scope nat_scope.

(** *** cvxpy.  The numeric value of the atoms used (documented semantics of cvx.matmul, -, sum_squares, norm1, norm(., 2) of a
    column, norm(., 'fro'), norm(., 2, axis=0), sum).  Compilation to a cone program and the numerical solvers are not modelled:
    a problem is its objective function and its list of constraints, and the solver is an oracle. *)
Definition cvx_matmul (A x : rmat) : rmat := Mat (nr A) (nc x) (fun i j => rsum (nc A) (fun k => ent A i k * ent x k j)%R).
Definition cvx_sub (a b : rmat) : rmat := Mat (nr a) (nc a) (fun i j => ent a i j - ent b i j)%R.
Definition cvx_sum_squares (a : rmat) : R := rsum (nr a) (fun i => rsum (nc a) (fun j => ent a i j * ent a i j)%R).
Definition cvx_norm1 (a : rmat) : R := rsum (nr a) (fun i => rsum (nc a) (fun j => Rabs (ent a i j))).
Definition cvx_norm (a : rmat) : R := sqrt (cvx_sum_squares a).
Definition cvx_norm_fro (a : cmat) : R := sqrt (rsum (nr a) (fun i => rsum (nc a) (fun j => Cnorm2 (ent a i j)))).
Definition cvx_norm_axis0 (a : cmat) : list R := map (fun j => sqrt (rsum (nr a) (fun i => Cnorm2 (ent a i j)))) (seq 0 (nc a)).
Definition cvx_sum (l : list R) : R := fold_right Rplus 0%R l.
(** assigning parameter.value: cvxpy checks the shape, that a real parameter gets real values and that a nonneg parameter gets
    a non-negative value (up to 1e-10, which is not modelled), and raises ValueError otherwise *)
Definition check_shape {T} (m n : nat) (v : mat T) : res (mat T) :=
  if Nat.eqb (nr v) m && Nat.eqb (nc v) n then Ok v else Raise ValueError.
Definition check_nonneg (l : R) : res R := if Rle_dec 0 l then Ok l else Raise ValueError.
Definition all_real (v : cmat) : bool :=
  forallb (fun i => forallb (fun j => Reqb (Im (ent v i j)) 0) (seq 0 (nc v))) (seq 0 (nr v)).
Definition check_param (cplx : bool) (m n : nat) (v : cmat) : res cmat :=
  let! v := check_shape m n v in if cplx || all_real v then Ok v else Raise ValueError.
(** a problem with its parameters filled in, and problem.solve(opts): it may use the previous value of the variable as a warm
    start; it raises, or reports a status and leaves a value in the variable *)
Record cproblem (X : Type) := CProblem { c_obj : X -> R; c_cons : list (X -> Prop) }.
Arguments CProblem {X}. Arguments c_obj {X}. Arguments c_cons {X}.
Definition solver (X : Type) := cproblem X -> option X -> string -> res (string * X).

(** *** l1lsq.py:70-100 L1RegularizedLeastSquaresProblem.__init__.  The objective and the constraints depend on the
    parameters A, b and l. *)
Record l1prob := L1Prob {
  l1_m : nat; l1_k : nat;
  l1_obj : rmat -> rmat -> R -> rmat -> R;
  l1_cons : list (rmat -> rmat -> R -> rmat -> Prop);
  l1_A : option rmat; l1_b : option rmat; l1_l : option R; l1_x : option rmat
}.
Definition nonneg_constraint : rmat -> rmat -> R -> rmat -> Prop :=
  fun _ _ _ x => forall i j, i < nr x -> j < nc x -> (0 <= ent x i j)%R.
Definition mk_l1 (cvx_available : bool) (m k : nat) (formulation : string) (nonnegative : bool) : res l1prob :=
  raise_if negb cvx_available as RuntimeError ;;
  let! (obj, cs) :=
    (if String.eqb formulation "penalizedl1"
     then Ok ((fun A b l x => 1 / 2 * cvx_sum_squares (cvx_sub (cvx_matmul A x) b) + l * cvx_norm1 x)%R, [])
     else if String.eqb formulation "constrainedl1"
     then Ok ((fun A b l x => cvx_sum_squares (cvx_sub (cvx_matmul A x) b)), [fun A b l x => (cvx_norm1 x <= l)%R])
     else if String.eqb formulation "constrainedl2"
     then Ok ((fun A b l x => cvx_norm1 x), [fun A b l x => (cvx_norm (cvx_sub (cvx_matmul A x) b) <= l)%R])
     else Raise ValueError) in
  let cs := if nonnegative then cs ++ [nonneg_constraint] else cs in
  Ok (L1Prob m k obj cs None None None None).
(** the problem cvxpy solves for the current parameter values *)
Definition l1_instance (p : l1prob) (A b : rmat) (l : R) : cproblem rmat := CProblem (l1_obj p A b l) (map (fun c => c A b l) (l1_cons p)).
(** l1lsq.py:102-118 solve.  The result is the value of x (k x 1), or a 1-D array of zeros. *)
Inductive l1value := LCol (x : rmat) | LZeros (n : nat).
Definition l1_solve (sv : solver rmat) (p : l1prob) (A b : rmat) (l : R) (opts : string) : res l1value * l1prob :=
  match check_shape (l1_m p) (l1_k p) A with
  | Raise e => (Raise e, p)
  | Ok A =>
      let p := L1Prob (l1_m p) (l1_k p) (l1_obj p) (l1_cons p) (Some A) (l1_b p) (l1_l p) (l1_x p) in
      match check_shape (l1_m p) 1 b with
      | Raise e => (Raise e, p)
      | Ok b =>
          let p := L1Prob (l1_m p) (l1_k p) (l1_obj p) (l1_cons p) (l1_A p) (Some b) (l1_l p) (l1_x p) in
          match check_nonneg l with
          | Raise e => (Raise e, p)
          | Ok l =>
              let p := L1Prob (l1_m p) (l1_k p) (l1_obj p) (l1_cons p) (l1_A p) (l1_b p) (Some l) (l1_x p) in
              match sv (l1_instance p A b l) (l1_x p) opts with
              | Raise e => (Raise e, p)
              | Ok (status, x) =>
                  let p := L1Prob (l1_m p) (l1_k p) (l1_obj p) (l1_cons p) (l1_A p) (l1_b p) (l1_l p) (Some x) in
                  (Ok (if String.eqb status "optimal" then LCol x else LZeros (l1_k p)), p)
              end
          end
      end
  end.

(** *** l1lsq.py:156-175 L21RegularizedLeastSquaresProblem.__init__ *)
Record l21prob := L21Prob { l2_m : nat; l2_k : nat; l2_n : nat; l2_complex : bool; l2_x : option cmat }.
Definition mk_l21 (cvx_available : bool) (m k n : nat) (complex : bool) : res l21prob :=
  raise_if negb cvx_available as RuntimeError ;; Ok (L21Prob m k n complex None).
(** l1lsq.py:160-171; a real variable has no imaginary part *)
Definition l21_instance (cplx : bool) (A B : cmat) (l : R) : cproblem cmat :=
  CProblem (fun X => 1 / 2 * cvx_norm_fro (A *m X -m B) ^ 2 + l * cvx_sum (cvx_norm_axis0 (mtr X)))%R
           (if cplx then [] else [fun X => forall i j, i < nr X -> j < nc X -> Im (ent X i j) = 0%R]).
(** l1lsq.py:177-193 solve *)
Definition l21_solve (sv : solver cmat) (p : l21prob) (A B : cmat) (l : R) (opts : string) : res cmat * l21prob :=
  match (let! A := check_param (l2_complex p) (l2_m p) (l2_k p) A in
         let! B := check_param (l2_complex p) (l2_m p) (l2_n p) B in
         let! l := check_nonneg l in sv (l21_instance (l2_complex p) A B l) (l2_x p) opts) with
  | Raise e => (Raise e, p)
  | Ok (status, X) =>
      let p := L21Prob (l2_m p) (l2_k p) (l2_n p) (l2_complex p) (Some X) in
      (Ok (if String.eqb status "optimal" then X else Mat (l2_k p) (l2_n p) (fun _ _ => RtoC 0)), p)
  end.

(** *** sparse.py.  np.hstack, np.vstack of two 2-D arrays; a - b with broadcasting *)
Definition np_hstack {T} (a b : mat T) : res (mat T) :=
  if Nat.eqb (nr a) (nr b) then Ok (Mat (nr a) (nc a + nc b) (fun i j => if Nat.ltb j (nc a) then ent a i j else ent b i (j - nc a))) else Raise ValueError.
Definition np_vstack {T} (a b : mat T) : res (mat T) :=
  if Nat.eqb (nc a) (nc b) then Ok (Mat (nr a + nr b) (nc a) (fun i j => if Nat.ltb i (nr a) then ent a i j else ent b (i - nr a) j)) else Raise ValueError.
Definition bdim (a b : nat) : option nat := if Nat.eqb a b then Some a else if Nat.eqb a 1 then Some b else if Nat.eqb b 1 then Some a else None.
Definition bidx (n i : nat) : nat := if Nat.eqb n 1 then 0 else i.
Definition np_sub (a b : cmat) : res cmat :=
  match bdim (nr a) (nr b), bdim (nc a) (nc b) with
  | Some m, Some n => Ok (Mat m n (fun i j => (ent a (bidx (nr a) i) (bidx (nc a) j) - ent b (bidx (nr b) i) (bidx (nc b) j))%C))
  | _, _ => Raise ValueError
  end.
(** core.py:77-97: the default atom matrix, the steering matrix of the grid *)
Definition default_atom (arr : array) (lam : R) (g : sgrid) : res cmat :=
  let! s := create_source_placement g in
  let! (A, _) := steering_matrix arr s lam false "known" true in
  match A with Flat A => Ok A | _ => Raise TypeError end.
(** sparse.py:80-89 SparseCovarianceMatching._compute_atom_matrix *)
Definition scm_atom (arr : array) (lam : R) (noise_known : bool) (g : sgrid) : res rmat :=
  let! s := create_source_placement g in
  let! (A, _) := steering_matrix arr s lam false "known" true in
  match A with
  | Flat A =>
      let! Phi := khatri_rao (mconj A) A in
      let! Phi := (if noise_known then Ok Phi else np_hstack Phi (vec (RtoC 0) (mid (ar_size arr)))) in
      np_vstack (mmap Re Phi) (mmap Im Phi)
  | _ => Raise TypeError
  end.
(** sparse.py:92-93: r *)
Definition scm_vector (Rm : cmat) : res rmat := let r := vec (RtoC 0) Rm in np_vstack (mmap Re r) (mmap Im r).
(** sparse.py:91-99 _get_sparse_spectrum *)
Definition scm_spectrum (sv : solver rmat) (p : l1prob) (noise_known : bool) (Phi : rmat) (Rm : cmat) (l : R) (opts : string) : res (list R) * l1prob :=
  match scm_vector Rm with
  | Raise e => (Raise e, p)
  | Ok r =>
      let '(v, p) := l1_solve sv p Phi r l opts in
      ((let! v := v in
        let sol := match v with LCol x => flatC x | LZeros n => repeat 0%R n end in
        Ok (if noise_known then sol else firstn (List.length sol - 1) sol)), p)
  end.
(** sparse.py:66-78 __init__; the arguments of the base class are already in the estimator [e] *)
Record scm := Scm { sc_array : array; sc_known : bool; sc_est : estimator rmat; sc_prob : l1prob }.
Definition mk_scm (cvx_available : bool) (arr : array) (lam : R) (g : sgrid) (pl : placement) pf argsort (caching noise_known : bool) (formulation : string) : res scm :=
  let m := 2 * (ar_size arr * ar_size arr) in
  let k := if noise_known then sg_size g else sg_size g + 1 in
  let! p := mk_l1 cvx_available m k formulation true in
  Ok (Scm arr noise_known (Est g pl (scm_atom arr lam noise_known) pf argsort caching None) p).
(** keyword arguments of estimate: refine_estimates if present, return_spectrum *)
Record skw := Skw { kw_refine : option bool; kw_spectrum : bool }.
(** sparse.py:101-164 estimate.  R is an array in memory.  f_sp is called once, on the atom matrix of the search grid, since there is no
    refinement; it changes the problem object. *)
Definition scm_estimate (sv : solver rmat) (c : scm) (h : lheap) (m : mem) (Rv : view) (k : Z) (l : R) (sigma : option R) (opts : string) (kw : skw)
    : res outcome * scm * lheap * mem :=
  match kw_refine kw with
  | Some _ => (Raise ValueError, c, h, m)
  | None =>
      match (let! _ := ensure_covariance_size [v_nr Rv; v_nc Rv] (ar_size (sc_array c)) in
             if sc_known c
             then match sigma with
                  | None => Raise ValueError
                  | Some s => let! D := np_sub (v_read m Rv) (mscal (RtoC s) (mid (ar_size (sc_array c)))) in Ok (m_alloc m D)
                  end
             else Ok (m, Rv)) with
      | Raise e => (Raise e, c, h, m)
      | Ok (m, Rv) =>
          match get_atom_matrix (sc_est c) None with
          | (Raise e, est) => (Raise e, Scm (sc_array c) (sc_known c) est (sc_prob c), h, m)
          | (Ok Phi, est) =>
              let '(sp, p) := scm_spectrum sv (sc_prob c) (sc_known c) Phi (v_read m Rv) l opts in
              let '(r, est) := do_estimate_from est Phi h (fun _ => sp) k (Opts (kw_spectrum kw) false 10 3) in
              let c := Scm (sc_array c) (sc_known c) est p in
              match r with
              | Raise e => (Raise e, c, h, m)
              | Ok (oc, h) => (Ok oc, c, h, m)
              end
          end
      end
  end.

(** sparse.py:220-225 GroupSparseEstimator.__init__ *)
Record gsparse := GSparse { gs_array : array; gs_n : nat; gs_est : estimator cmat; gs_prob : l21prob }.
Definition mk_gsparse (cvx_available : bool) (arr : array) (lam : R) (g : sgrid) (pl : placement) pf argsort (caching : bool) (n_snapshots : nat) : res gsparse :=
  let! p := mk_l21 cvx_available (ar_size arr) (sg_size g) n_snapshots true in
  Ok (GSparse arr n_snapshots (Est g pl (default_atom arr lam) pf argsort caching None) p).
(** sparse.py:227-229 _get_sparse_spectrum *)
Definition gs_spectrum (sv : solver cmat) (p : l21prob) (A Y : cmat) (l : R) (opts : string) : res (list R) * l21prob :=
  let '(X, p) := l21_solve sv p A Y l opts in
  ((let! X := X in Ok (map (fun i => sqrt (rsum (nc X) (fun j => Cnorm2 (ent X i j)))) (seq 0 (nr X)))), p).
(** sparse.py:231-274 estimate; Y is a 2-D array *)
Definition gs_estimate (sv : solver cmat) (c : gsparse) (h : lheap) (Y : cmat) (k : Z) (l : R) (opts : string) (kw : skw) : res outcome * gsparse * lheap :=
  match kw_refine kw with
  | Some _ => (Raise ValueError, c, h)
  | None =>
      if negb (Nat.eqb (nr Y) (ar_size (gs_array c))) then (Raise ValueError, c, h)
      else if negb (Nat.eqb (nc Y) (gs_n c)) then (Raise ValueError, c, h)
      else
        match get_atom_matrix (gs_est c) None with
        | (Raise e, est) => (Raise e, GSparse (gs_array c) (gs_n c) est (gs_prob c), h)
        | (Ok A, est) =>
            let '(sp, p) := gs_spectrum sv (gs_prob c) A Y l opts in
            let '(r, est) := do_estimate_from est A h (fun _ => sp) k (Opts (kw_spectrum kw) false 10 3) in
            let c := GSparse (gs_array c) (gs_n c) est p in
            match r with
            | Raise e => (Raise e, c, h)
            | Ok (oc, h) => (Ok oc, c, h)
            end
        end
  end.
