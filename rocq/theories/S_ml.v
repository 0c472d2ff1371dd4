(** Vocabulary of the properties about the maximum-likelihood estimators. *)
From Verif Require Import Base_Np Base_Lin M_utils M_sources M_array M_coarray M_heap M_grid M_core M_ml.
Open Scope nat_scope.

(** A source placement as a plain value: no sharing between different placements. *)
Record pval := PVal { pv_class : string; pv_units : list string; pv_dt : dtype; pv_rows : list (list R) }.
Definition with_rows (v : pval) (rows : list (list R)) : pval := PVal (pv_class v) (pv_units v) (pv_dt v) rows.
Definition pv_pl (v : pval) : placement := Placement (pv_class v) (pv_units v) 0.
Definition dim_of (v : pval) : nat := if String.eqb (pv_class v) "FarField1DSourcePlacement" then 1 else 2.
(** the location matrix of a point: coordinate j of source i is entry i*d+j of x *)
Definition point_rows (k d : nat) (x : list R) : list (list R) :=
  map (fun i => map (fun j => nth (i * d + j) x 0%R) (seq 0 d)) (seq 0 k).
(** placing the sources of g at the point x *)
Definition place_at (g : pval) (x : list R) : res (list (list R)) :=
  let k := List.length (pv_rows g) in
  if Nat.ltb (List.length x) (k * dim_of g) then Raise ValueError
  else match pv_dt g with DInt => Raise TypeError | DFloat => Ok (point_rows k (dim_of g) x) end.
(** the objective for the sources of g placed at rows *)
Definition objective_at (env : mlenv) (M : option cmat) (Rm : cmat) (g : pval) (rows : list (list R)) : res (option R) :=
  let! s := pl_sources (pv_pl g) rows in
  let! (A, _) := steering_matrix (ml_array env) s (ml_lam env) false "known" true in
  match A with Flat A => nll env M A Rm (List.length (pv_rows g)) | _ => Raise ValueError end.
(** an optimisation run: outcome, and the last placement at which the objective was requested *)
Fixpoint optimise (obj : list (list R) -> res (option R)) (g : pval) (t : optim) (last : list (list R)) : res (bool * list R) * list (list R) :=
  match t with
  | ODone b x => (Ok (b, x), last)
  | ORaise e => (Raise e, last)
  | OEval x next =>
      match place_at g x with
      | Raise e => (Raise e, last)
      | Ok rows => match obj rows with Raise e => (Raise e, rows) | Ok v => optimise obj g (next v) rows end
      end
  end.

(** the estimator with values instead of objects: its last estimate and the WSF matrix *)
Record vst := VSt { vs_last : option pval; vs_M : option cmat }.
Definition v_estimate (env : mlenv) (minimize : minimizer) (st : vst) (Rm : cmat) (g : pval) : res (bool * option pval) * vst :=
  let k := List.length (pv_rows g) in
  let m := ar_size (ml_array env) in
  if Nat.leb m k || negb (Nat.eqb (nr Rm) m) then (Raise ValueError, st)
  else
    match prepare_M env (MlSt None (vs_M st)) Rm k with
    | Raise e => (Raise e, VSt (Some g) (vs_M st))
    | Ok M =>
        match opt_bounds (pv_pl g) (pv_rows g) with
        | Raise e => (Raise e, VSt (Some g) M)
        | Ok bounds =>
            match optimise (objective_at env M Rm g) g (minimize (List.concat (pv_rows g)) bounds) (pv_rows g) with
            | (Raise e, last) => (Raise e, VSt (Some (with_rows g last)) M)
            | (Ok (false, _), last) => (Ok (false, None), VSt (Some (with_rows g last)) M)
            | (Ok (true, x), last) =>
                match place_at g x with
                | Raise e => (Raise e, VSt (Some (with_rows g last)) M)
                | Ok rows => (Ok (true, Some (with_rows g rows)), VSt (Some (with_rows g rows)) M)
                end
            end
        end
    end.
Record vworld := VW { vw_objs : list pval; vw_st : vst }.
Definition v_step (env : mlenv) (w : vworld) (a : mlact) : mlobs * vworld :=
  match a with
  | ANew c u dt rows => (VNew, VW (vw_objs w ++ [PVal c u dt rows]) (vw_st w))
  | AWrite i q row =>
      match nth_error (vw_objs w) i with
      | None => (VNoSuch, w)
      | Some v => if Nat.leb (List.length (pv_rows v)) q then (VErr IndexError, w)
                  else (VDone, VW (set_nth (vw_objs w) i (with_rows v (set_nth (pv_rows v) q (cast (pv_dt v) row)))) (vw_st w))
      end
  | ARead i =>
      match nth_error (vw_objs w) i with
      | None => (VNoSuch, w)
      | Some v => (VRows (pv_class v) (pv_units v) (pv_dt v) (pv_rows v), w)
      end
  | AEstimate mini Rm i =>
      match nth_error (vw_objs w) i with
      | None => (VNoSuch, w)
      | Some v => match v_estimate env mini (vw_st w) Rm v with
                  | (Raise e, st) => (VErr e, VW (vw_objs w) st)
                  | (Ok (b, None), st) => (VResult b, VW (vw_objs w) st)
                  | (Ok (b, Some r), st) => (VResult b, VW (vw_objs w ++ [r]) st)
                  end
      end
  | ALast =>
      match vs_last (vw_st w) with
      | None => (VErr RuntimeError, w)
      | Some v => (VNew, VW (vw_objs w ++ [v]) (vw_st w))
      end
  end.
Fixpoint v_run (env : mlenv) (w : vworld) (acts : list mlact) : list mlobs * vworld :=
  match acts with
  | [] => ([], w)
  | a :: acts' => let '(v, w1) := v_step env w a in let '(vs, w2) := v_run env w1 acts' in (v :: vs, w2)
  end.

(** a source placement as a value *)
Definition value_of (s : sources) (dt : dtype) : pval :=
  match s with
  | FF1 l u => PVal "FarField1DSourcePlacement" [u] dt (map (fun x => [x]) l)
  | FF2 l u => PVal "FarField2DSourcePlacement" [u; u] dt (map (fun p => [fst p; snd p]) l)
  | NF2 l => PVal "NearField2DSourcePlacement" ["m"%string; "m"%string] dt (map (fun p => [fst p; snd p]) l)
  end.
Definition within (b : bound) (x : R) : Prop :=
  match fst b with Some lo => (lo <= x)%R | None => True end /\ match snd b with Some hi => (x <= hi)%R | None => True end.

(** average of the m-k smallest eigenvalues, and the WSF weight of an eigenvalue x *)
Definition noise_mean (w : list R) (m k : nat) : R := (rsum (m - k) (fun i => nth i w 0%R) / INR (m - k))%R.
Definition wsf_weight (sigma x : R) : R := ((x - sigma) * (x - sigma) / x)%R.
(** sum over the k largest eigenvalues of weight * projector on the eigenvector *)
Definition wsf_sum (w : list R) (E : cmat) (m k : nat) : cmat :=
  Mat m m (fun i j => csum k (fun c => RtoC (wsf_weight (noise_mean w m k) (nth (m - k + c) w 0%R)) * (ent E i (m - k + c) * Cconj (ent E j (m - k + c))))%C).
(** the covariance A P A^H + s I estimated from R for a given projector P_A: P_A R P_A + tr((I - P_A) R) / (m-k) (I - P_A) *)
Definition concentrated (P Rm : cmat) (m k : nat) : cmat :=
  (P *m Rm *m P +m mscal (mtrace ((mid m -m P) *m Rm) / RtoC (INR (m - k)))%C (mid m -m P)).
(** log det of a positive definite matrix with eigenvalues w *)
Definition logdet (w : list R) (m : nat) : R := rsum m (fun i => ln (nth i w 0%R)).
(** contract of np.linalg.slogdet for positive definite matrices of order n: sign 1, log of the product of the eigenvalues *)
Definition slogdet_ok (n : nat) (slogdet : cmat -> res (C * option R)) : Prop :=
  forall H w E, nr H = n -> hermitian H -> eigh_ok H w E -> (forall i, i < nr H -> (0 < nth i w 0)%R) -> slogdet H = Ok (RtoC 1, Some (logdet w (nr H))).

(** a matrix of order n that maps a nonzero vector to zero, and what np.linalg.slogdet reports for a Hermitian one: sign 0 *)
Definition singular (n : nat) (H : cmat) : Prop :=
  exists x : nat -> C, (exists j, j < n /\ x j <> RtoC 0) /\ forall i, i < n -> mvec H x i = RtoC 0.
Definition slogdet_zero (n : nat) (slogdet : cmat -> res (C * option R)) : Prop :=
  forall H, nr H = n -> hermitian H -> singular n H -> exists y, slogdet H = Ok (RtoC 0, y).

(** the power of source j *)
Definition power_of (p : powers) (j : nat) : R := match p with PwScalar x => x | PwVec [x] => x | PwVec l => nth j l 0%R end.
Definition powers_fit (p : powers) (k : nat) : Prop := match p with PwScalar _ => True | PwVec l => List.length l = k \/ List.length l = 1 end.
