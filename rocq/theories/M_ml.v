(** Model of doatools/estimation/ml.py *)
From Verif Require Import Base_Np Base_Trig M_utils M_sources M_array M_coarray M_heap M_grid M_core.
Open Scope nat_scope.

(** The three concrete estimators (ml.py:205-258, 260-305, 307-362). *)
Inductive mlkind := AML | CML | WSF.
(** What an estimator is built with (ml.py:26-29) and the numpy.linalg routines it uses.  [ml_slogdet] returns the sign
    (a complex number of modulus 0 or 1) and the logarithm of the absolute value of a determinant (None for -inf). *)
Record mlenv := MlEnv {
  ml_kind : mlkind; ml_array : array; ml_lam : R;
  ml_pinv : cmat -> res cmat; ml_eigh : cmat -> res (list R * cmat); ml_slogdet : cmat -> res (C * option R)
}.

(** scipy.optimize.minimize(f, x0, method='L-BFGS-B', bounds=bounds): a process that evaluates the objective at points of
    its choice, sees the values (None is +inf), and ends with a success flag and a point, or with an exception.  Nothing
    else is assumed about it; it is an argument of the model, applied to the start vector and the list of bounds. *)
Inductive optim := ODone (success : bool) (x : list R) | OEval (x : list R) (next : option R -> optim) | ORaise (e : exn).
Definition bound := (option R * option R)%type.
Definition minimizer := list R -> list bound -> optim.

(** A source placement object: class, units and location buffer (M_sources), and the dtype of its location array. *)
Record lobj := LObj { lo_pl : placement; lo_dt : dtype }.
(** The mutable fields _estimates and _M of an estimator. *)
Record mlst := MlSt { ms_est : option lobj; ms_M : option cmat }.
(** ml.py:26-29 *)
Definition ml_init : mlst := MlSt None None.

(** the source placement value stored in a placement object *)
Definition pl_sources (p : placement) (rows : list (list R)) : res sources :=
  if String.eqb (p_class p) "FarField1DSourcePlacement" then Ok (FF1 (map (fun r => nth 0 r 0%R) rows) (nth 0 (p_units p) EmptyString))
  else if String.eqb (p_class p) "FarField2DSourcePlacement" then Ok (FF2 (map (fun r => (nth 0 r 0%R, nth 1 r 0%R)) rows) (nth 0 (p_units p) EmptyString))
  else if String.eqb (p_class p) "NearField2DSourcePlacement" then Ok (NF2 (map (fun r => (nth 0 r 0%R, nth 1 r 0%R)) rows))
  else Raise TypeError.
(** number of columns of the location array (1 for the 1-D array of 1D sources) *)
Definition pl_dim (p : placement) : nat := if String.eqb (p_class p) "FarField1DSourcePlacement" then 1 else 2.

(** x.reshape((k, d)) as a list of rows *)
Fixpoint reshape_rows (k d : nat) (x : list R) : list (list R) :=
  match k with O => [] | S k' => firstn d x :: reshape_rows k' d (skipn d x) end.

(** ml.py:31-36 get_last_estimates *)
Definition get_last_estimates (st : mlst) (h : lheap) : res lobj * lheap :=
  match ms_est st with
  | None => (Raise RuntimeError, h)
  | Some o => match getitem h (lo_pl o) (KSlice None None None) with
              | Raise e => (Raise e, h)
              | Ok (IPlacement p, h') => (Ok (LObj p (lo_dt o)), h')
              | Ok (_, h') => (Raise TypeError, h')
              end
  end.

(** ml.py:121-133 _update_estimates_from_x: writes into the location array of self._estimates.  np.copyto refuses to cast
    floats to integers ('same_kind'). *)
Definition update_from_x (o : lobj) (x : list R) (h : lheap) : res unit * lheap :=
  let k := List.length (buf h (lo_pl o)) in
  let d := pl_dim (lo_pl o) in
  let n := k * d in
  if Nat.ltb (List.length x) n then (Raise ValueError, h)
  else match lo_dt o with
       | DInt => (Raise TypeError, h)
       | DFloat => (Ok tt, set_nth h (p_addr (lo_pl o)) (reshape_rows k d (firstn n x)))
       end.

(** np.eye(m) - P.  Broadcasting of a 1 x 1 operand against a larger one is not modelled (ValueError stands for it). *)
Definition eye_minus (m : nat) (P : cmat) : res cmat :=
  raise_if negb (Nat.eqb (nr P) m && Nat.eqb (nc P) m) as ValueError ;; Ok (mid m -m P).
(** np.trace of a 2-D array *)
Definition np_trace (X : cmat) : C := csum (Nat.min (nr X) (nc X)) (fun i => ent X i i).
(** numpy's (lexicographic) order of complex numbers: z <= 0 *)
Definition cle0 (z : C) : bool := Rltb (Re z) 0 || (Reqb (Re z) 0 && Rleb (Im z) 0).

(** ml.py:240-258 AMLEstimator._eval_nll after the steering matrix: the matrix H ... *)
Definition aml_matrix pinv (m k : nat) (A Rm : cmat) : res cmat :=
  let! PA := projm (fun _ _ => Raise LinAlgError) pinv true true A in
  let! PPA := eye_minus m PA in
  let! X := matmul PA Rm in
  let! Y := matmul X PA in
  let! Z := matmul PPA Rm in
  let c := (np_trace Z / RtoC (INR (m - k)))%C in
  let H := Y +m mscal c PPA in
  let H := H +m mher H in
  Ok (mscal (RtoC (1 / 2)) H).
(** ... and the value *)
Definition aml_value slogdet (H : cmat) : res (option R) :=
  let! (sgn, nll_val) := slogdet H in
  if cle0 sgn then Ok None else Ok nll_val.
(** ml.py:299-305 CMLEstimator._eval_nll and ml.py:356-362 WSFEstimator._eval_nll (with M in the place of R) *)
Definition cml_value pinv (m : nat) (A Rm : cmat) : res (option R) :=
  let! PA := projm (fun _ _ => Raise LinAlgError) pinv true true A in
  let! PPA := eye_minus m PA in
  let! X := matmul PPA Rm in
  Ok (Some (Re (np_trace X))).
(** ml.py:336-350 WSFEstimator._prepare_m; a zero among the k largest eigenvalues (inf/NaN in numpy) is not modelled *)
Definition wsf_matrix eigh (m : nat) (Rm : cmat) (k : nat) : res cmat :=
  let! (v, E) := eigh Rm in
  let kz := Z.of_nat k in
  let Es := col_slice E (Some (- kz)%Z) None in
  let vs := pslice v (Some (- kz)%Z) None in
  let sigma_est := (fold_right Rplus 0 (pslice v None (Some (- kz)%Z)) / IZR (Z.of_nat m - kz))%R in
  let w := map (fun x => (x - sigma_est) * (x - sigma_est) / x)%R vs in
  raise_if negb (Nat.eqb (nc Es) (List.length w)) as ValueError ;;
  matmul (Mat (nr Es) (nc Es) (fun i j => (ent Es i j * RtoC (nth j w 0%R))%C)) (mher Es).

(** ml.py:135-146 _eval_steering_matrix_from_x *)
Definition steering_from_x (env : mlenv) (o : lobj) (x : list R) (h : lheap) : res cmat * lheap :=
  match update_from_x o x h with
  | (Raise e, h') => (Raise e, h')
  | (Ok _, h') =>
      (let! s := pl_sources (lo_pl o) (buf h' (lo_pl o)) in
       let! (A, _) := steering_matrix (ml_array env) s (ml_lam env) false "known" true in
       match A with Flat A => Ok A | _ => Raise ValueError end, h')
  end.
(** _eval_nll(x, R, k), as a function of the steering matrix; [M] is self._M *)
Definition nll (env : mlenv) (M : option cmat) (A Rm : cmat) (k : nat) : res (option R) :=
  let m := ar_size (ml_array env) in
  match ml_kind env with
  | AML => let! H := aml_matrix (ml_pinv env) m k A Rm in aml_value (ml_slogdet env) H
  | CML => cml_value (ml_pinv env) m A Rm
  | WSF => match M with Some M => cml_value (ml_pinv env) m A M | None => Raise AttributeError end
  end.
Definition eval_nll (env : mlenv) (st : mlst) (o : lobj) (Rm : cmat) (k : nat) (x : list R) (h : lheap) : res (option R) * lheap :=
  match steering_from_x env o x h with
  | (Raise e, h') => (Raise e, h')
  | (Ok A, h') => (nll env (ms_M st) A Rm k, h')
  end.
Fixpoint run_opt (f : list R -> lheap -> res (option R) * lheap) (t : optim) (h : lheap) : res (bool * list R) * lheap :=
  match t with
  | ODone b x => (Ok (b, x), h)
  | ORaise e => (Raise e, h)
  | OEval x next => match f x h with
                    | (Raise e, h') => (Raise e, h')
                    | (Ok v, h') => run_opt f (next v) h'
                    end
  end.

(** ml.py:108-119 _prepare_opt_prob: start vector and bounds; list(valid_ranges) * k *)
Definition opt_x0 (rows : list (list R)) : list R := List.concat rows.
Definition opt_bounds (p : placement) (rows : list (list R)) : res (list bound) :=
  let! s := pl_sources p rows in
  let! r := valid_ranges s in Ok (List.concat (repeat r (List.length rows))).
(** ml.py:352-354 (WSF only) *)
Definition prepare_M (env : mlenv) (st : mlst) (Rm : cmat) (k : nat) : res (option cmat) :=
  match ml_kind env with
  | WSF => let! M := wsf_matrix (ml_eigh env) (ar_size (ml_array env)) Rm k in Ok (Some M)
  | _ => Ok (ms_M st)
  end.
(** ml.py:148-203 estimate; [R] is a 2-D array *)
Definition ml_estimate (env : mlenv) (minimize : minimizer) (st : mlst) (Rm : cmat) (sources0 : lobj) (h : lheap)
    : res (bool * option lobj) * mlst * lheap :=
  let k := List.length (buf h (lo_pl sources0)) in
  match (let! _ := ensure_n_resolvable_sources (Z.of_nat k) (Z.of_nat (ar_size (ml_array env)) - 1) in
         ensure_covariance_size [nr Rm; nc Rm] (ar_size (ml_array env))) with
  | Raise e => (Raise e, st, h)
  | Ok _ =>
      match getitem h (lo_pl sources0) (KSlice None None None) with
      | Raise e => (Raise e, st, h)
      | Ok (IPlacement p, h1) =>
          let est := LObj p (lo_dt sources0) in
          let st1 := MlSt (Some est) (ms_M st) in
          match prepare_M env st1 Rm k with
          | Raise e => (Raise e, st1, h1)
          | Ok M =>
              let st2 := MlSt (Some est) M in
              let rows0 := buf h1 (lo_pl sources0) in
              match opt_bounds (lo_pl sources0) rows0 with
              | Raise e => (Raise e, st2, h1)
              | Ok bounds =>
                  match run_opt (eval_nll env st2 est Rm k) (minimize (opt_x0 rows0) bounds) h1 with
                  | (Raise e, h2) => (Raise e, st2, h2)
                  | (Ok (false, _), h2) => (Ok (false, None), st2, h2)
                  | (Ok (true, x), h2) =>
                      match update_from_x est x h2 with
                      | (Raise e, h3) => (Raise e, st2, h3)
                      | (Ok _, h3) =>
                          match get_last_estimates st2 h3 with
                          | (Raise e, h4) => (Raise e, st2, h4)
                          | (Ok r, h4) => (Ok (true, Some r), st2, h4)
                          end
                      end
                  end
              end
          end
      | Ok (_, h1) => (Raise TypeError, st, h1)
      end
  end.

(** *** Histories.  A client holds placement objects (numbered in the order it received them), creates new ones, writes
    rows of their location arrays through the [locations] property, and calls the two public methods of one estimator. *)
Inductive mlact :=
  | ANew (cls : string) (units : list string) (dt : dtype) (rows : list (list R))
  | AWrite (i q : nat) (row : list R)               (* placements[i].locations[q] = row *)
  | ARead (i : nat)                                  (* placements[i].locations *)
  | AEstimate (minimize : minimizer) (Rm : cmat) (i : nat)
  | ALast.
(** what the client sees *)
Inductive mlobs :=
  | VDone | VNoSuch | VErr (e : exn)
  | VNew                                            (* a placement object was received *)
  | VRows (cls : string) (units : list string) (dt : dtype) (rows : list (list R))
  | VResult (resolved : bool).                      (* (True, placement) or (False, None) *)
Record mlworld := MlW { mw_h : lheap; mw_objs : list lobj; mw_st : mlst }.
Definition ml_step (env : mlenv) (w : mlworld) (a : mlact) : mlobs * mlworld :=
  match a with
  | ANew c u dt rows => (VNew, MlW (mw_h w ++ [rows]) (mw_objs w ++ [LObj (Placement c u (List.length (mw_h w))) dt]) (mw_st w))
  | AWrite i q row => match nth_error (mw_objs w) i with
                      | None => (VNoSuch, w)
                      | Some o => if Nat.leb (List.length (buf (mw_h w) (lo_pl o))) q then (VErr IndexError, w) else
                          (VDone, MlW (set_location (mw_h w) (lo_pl o) q (cast (lo_dt o) row)) (mw_objs w) (mw_st w))
                      end
  | ARead i => match nth_error (mw_objs w) i with
               | None => (VNoSuch, w)
               | Some o => (VRows (p_class (lo_pl o)) (p_units (lo_pl o)) (lo_dt o) (buf (mw_h w) (lo_pl o)), w)
               end
  | AEstimate mini Rm i => match nth_error (mw_objs w) i with
                           | None => (VNoSuch, w)
                           | Some o => match ml_estimate env mini (mw_st w) Rm o (mw_h w) with
                                       | (Raise e, st, h) => (VErr e, MlW h (mw_objs w) st)
                                       | (Ok (b, None), st, h) => (VResult b, MlW h (mw_objs w) st)
                                       | (Ok (b, Some r), st, h) => (VResult b, MlW h (mw_objs w ++ [r]) st)
                                       end
                           end
  | ALast => match get_last_estimates (mw_st w) (mw_h w) with
             | (Raise e, h) => (VErr e, MlW h (mw_objs w) (mw_st w))
             | (Ok r, h) => (VNew, MlW h (mw_objs w ++ [r]) (mw_st w))
             end
  end.
Fixpoint ml_run (env : mlenv) (w : mlworld) (acts : list mlact) : list mlobs * mlworld :=
  match acts with
  | [] => ([], w)
  | a :: acts' => let '(v, w1) := ml_step env w a in let '(vs, w2) := ml_run env w1 acts' in (v :: vs, w2)
  end.

(** ml.py:8-16 f_nll_stouc.  [p] is a scalar or a 1-D array; None stands for np.Inf.  Complex numbers are ordered
    lexicographically (real part first).  (A * p) with an array of another length than the number of sources (or 1) fails,
    at the latest in the following matrix product. *)
Inductive powers := PwScalar (x : R) | PwVec (l : list R).
Definition times_powers (A : cmat) (p : powers) : res cmat :=
  match p with
  | PwScalar x => Ok (Mat (nr A) (nc A) (fun i j => (ent A i j * RtoC x)%C))
  | PwVec [x] => Ok (Mat (nr A) (nc A) (fun i j => (ent A i j * RtoC x)%C))
  | PwVec l => raise_if negb (Nat.eqb (List.length l) (nc A)) as ValueError ;;
               Ok (Mat (nr A) (nc A) (fun i j => (ent A i j * RtoC (nth j l 0%R))%C))
  end.
Definition clt0 (z : C) : bool := Rltb (Re z) 0 || (Reqb (Re z) 0 && Rltb (Im z) 0).
Definition f_nll_stouc (slogdet : cmat -> res (C * option R)) (solve : cmat -> cmat -> res cmat)
    (Rm : cmat) (arr : array) (s : sources) (lam : R) (p : powers) (sigma : R) : res (option C) :=
  let! (A, _) := steering_matrix arr s lam false "all" true in
  match A with
  | Flat A =>
      let! Ap := times_powers A p in
      let! X := matmul Ap (mher A) in
      raise_if negb (Nat.eqb (nr X) (ar_size arr)) as ValueError ;;
      let S := X +m mscal (RtoC sigma) (mid (ar_size arr)) in
      let! (sgn, logdet) := slogdet S in
      match logdet with
      | None => Ok None                                    (* -inf < 0 *)
      | Some ld =>
          if clt0 sgn || Rltb ld 0 then Ok None
          else let! Y := solve S Rm in Ok (Some (RtoC ld + np_trace Y)%C)
      end
  | _ => Raise ValueError
  end.
