(** Models of doatools/performance/utils.py, crb.py and mse.py *)
From Verif Require Import Base_Np Base_Trig M_utils M_sources M_array M_designs M_coarray M_core.
Open Scope nat_scope.

(** The source power argument: a Python/numpy scalar, a (possibly nested, rectangular) Python list, or an ndarray.
    List and array elements may be real or complex (both are elements of C); a scalar power is real (a complex scalar cannot be
    written into the real np.zeros matrix: not modelled). *)
Inductive parg := PScalar (x : R) | PList (a : ndarr C) | PArr (a : ndarr C).

(** np.diag of an array: 1-D gives a diagonal matrix, 2-D its diagonal, anything else ValueError *)
Definition np_diag (a : ndarr C) : res (ndarr C) :=
  match nd_shape a with
  | [n] => Ok (Nd [n; n] (flatC (mdiag n (fun i => nth i (nd_data a) (RtoC 0)))))
  | [r; c] => Ok (Nd [Nat.min r c] (map (fun i => nth (i * c + i) (nd_data a) (RtoC 0)) (seq 0 (Nat.min r c))))
  | _ => Raise ValueError
  end.
(** performance/utils.py:3-23 unify_p_to_matrix *)
Definition unify_p_to_matrix (p : parg) (k : nat) : res (ndarr C) :=
  match p with
  | PScalar x => Ok (Nd [k; k] (flatC (mdiag k (fun _ => RtoC x))))
  | PList a => raise_if negb (Nat.eqb (nth 0 (nd_shape a) 0) k) as ValueError ;; np_diag a
  | PArr a => match nd_shape a with
              | [n] => raise_if negb (Nat.eqb n k) as ValueError ;; np_diag a
              | [r; c] => raise_if negb (Nat.eqb r k) || negb (Nat.eqb c k) as ValueError ;; Ok a
              | _ => Raise ValueError
              end
  end.
(** performance/utils.py:25-43 unify_p_to_vector *)
Definition unify_p_to_vector (p : parg) (k : nat) : res (ndarr C) :=
  match p with
  | PScalar x => Ok (Nd [k] (repeat (RtoC x) k))
  | PList a => raise_if negb (Nat.eqb (nth 0 (nd_shape a) 0) k) as ValueError ;; Ok a
  | PArr a => match nd_shape a with
              | [n] => raise_if negb (Nat.eqb n k) as ValueError ;; Ok a
              | [r; c] => raise_if negb (Nat.eqb r k) || negb (Nat.eqb c k) as ValueError ;; np_diag a
              | _ => Raise ValueError
              end
  end.

(** performance/utils.py:45-59 reduce_output_matrix; np.diag of a 2-D array; the mean of no numbers is NaN (None) *)
Inductive output := OFull (x : rmat) | ODiag (d : list R) | OMean (x : option R).
Definition rdiag (x : rmat) : list R := map (fun i => ent x i i) (seq 0 (Nat.min (nr x) (nc x))).
Definition reduce_output_matrix (x : rmat) (mode : string) : res output :=
  if String.eqb mode "full" then Ok (OFull x)
  else if String.eqb mode "diag" then Ok (ODiag (rdiag x))
  else if String.eqb mode "mean_diag" then
    Ok (OMean (match rdiag x with [] => None | d => Some (fold_right Rplus 0%R d / INR (List.length d))%R end))
  else Raise ValueError.

(** A, D = array.steering_matrix(sources, wavelength, True, sel): one derivative for 1D sources *)
Definition steering_AD (a : array) (s : sources) (lam : R) (sel : string) : res (cmat * cmat) :=
  let! (A, DA) := steering_matrix a s lam true sel false in
  match A, DA with Flat A, [D] => Ok (A, D) | _, _ => Raise ValueError end.
(** the power matrix as a 2-D array; a 1-D result (of a nested list) is not followed further (ValueError stands for
    the shape mismatch in A @ P @ A_H) *)
Definition as_matrix (a : ndarr C) : res cmat :=
  match nd_shape a with [_; _] => Ok (nd_mat (RtoC 0) a) | _ => Raise ValueError end.
Definition as_vector (a : ndarr C) : res (list C) :=
  match nd_shape a with [_] => Ok (nd_data a) | _ => Raise ValueError end.
Definition rscal (c : R) (x : rmat) : rmat := Mat (nr x) (nc x) (fun i j => (c * ent x i j)%R).
(** 0.5 * (X + X.T) of a square matrix *)
Definition symmetrised (x : rmat) : rmat := Mat (nr x) (nc x) (fun i j => (/ 2 * (ent x i j + ent x j i))%R).
(** x / n for Python numbers *)
Definition pydiv (x n : R) : res R := if Req_EM_T n 0 then Raise ZeroDivisionError else Ok (x / n)%R.

Section Oracles.
  (** np.linalg.solve, np.linalg.inv (of complex and of real matrices), np.linalg.pinv, np.linalg.eigh *)
  Variable solve : cmat -> cmat -> res cmat.
  Variable cinv : cmat -> res cmat.
  Variable rinv : rmat -> res rmat.
  Variable pinv : cmat -> res cmat.
  Variable eigh : cmat -> res (list R * cmat).

  (** performance/crb.py:57-73 crb_sto_farfield_1d *)
  Definition crb_sto_farfield_1d (a : array) (s : sources) (lam : R) (p : parg) (sigma n_snapshots : R) (mode : string) : res output :=
    match s with
    | FF1 _ _ =>
      let k := src_size s in
      let! Pa := unify_p_to_matrix p k in
      let! (A, D) := steering_AD a s lam "all" in
      let A_H := mher A in
      let I := mid (ar_size a) in
      let! P := as_matrix Pa in
      let! AP := matmul A P in
      let! APA := matmul AP A_H in
      let Rm := APA +m mscal (RtoC sigma) I in
      let! AHA := matmul A_H A in
      let! X := solve AHA A_H in
      let! P_A := matmul A X in
      let! DP := matmul (mher D) (I -m P_A) in
      let! H := matmul DP D in
      let! RA := solve Rm A in
      let! ARA := matmul A_H RA in
      let! PARA := matmul P ARA in
      let! Q := matmul PARA P in
      let! V := rinv (mre (mhad H (mtr Q))) in
      let! c := pydiv sigma n_snapshots in
      reduce_output_matrix (symmetrised (rscal (c / 2) V)) mode
    | _ => Raise ValueError
    end.
  (** performance/crb.py:128-141 crb_det_farfield_1d; P is an ndarray *)
  Definition crb_det_farfield_1d (a : array) (s : sources) (lam : R) (P : ndarr C) (sigma n_snapshots : R) (mode : string) : res output :=
    match s with
    | FF1 _ _ =>
      let k := src_size s in
      let m := ar_size a in
      raise_if negb (Nat.eqb (nd_ndim P) 2) || negb (Nat.eqb (nth 0 (nd_shape P) 0) k) || negb (Nat.eqb (nth 1 (nd_shape P) 0) k) as ValueError ;;
      let P := nd_mat (RtoC 0) P in
      let! (A, D) := steering_AD a s lam "all" in
      let! P_A := projm solve pinv false true A in
      let! DP := matmul (mher D) (mid m -m P_A) in
      let! H := matmul DP D in
      let! V := rinv (mre (mhad H (mtr P))) in
      let! c := pydiv sigma n_snapshots in
      reduce_output_matrix (symmetrised (rscal (c / 2) V)) mode
    | _ => Raise ValueError
    end.

  (** performance/crb.py:205-230: the Fisher information matrix (2k+1 rows and columns: locations, powers, noise).
      [p] is the power vector, a complex array in general. *)
  Definition fim_stouc (m : nat) (A DA : cmat) (p : list C) (sigma : R) : res rmat :=
    let k := List.length p in
    let pk := fun i => nth i p (RtoC 0) in
    let A_H := mher A in
    let DA_H := mher DA in
    let! RR := matmul (Mat (nr A) (nc A) (fun i j => (ent A i j * pk j)%C)) A_H in
    let Rm := RR +m mscal (RtoC sigma) (mid m) in
    let! R0 := cinv Rm in
    let R_inv := mscal (RtoC (/ 2)) (R0 +m mher R0) in
    let! DR := matmul DA_H R_inv in
    let! DRD := matmul DR DA in
    let! DRA := matmul DR A in
    let! AR := matmul A_H R_inv in
    let! ARD := matmul AR DA in
    let! ARA := matmul AR A in
    let PP := fun i j => (pk i * pk j)%C in
    let FIM_tt := fun i j => (2 * Re ((ent DRD j i * ent ARA i j + Cconj (ent DRA i j) * ent ARD i j) * PP i j)%C)%R in
    let FIM_pp := fun i j => Re (Cconj (ent ARA j i) * ent ARA i j)%C in
    let! R_inv2 := matmul R_inv R_inv in
    let FIM_ss := Re (mtrace R_inv2) in
    let FIM_tp := fun i j => (2 * Re (Cconj (ent DRA i j) * (pk i * ent ARA i j))%C)%R in
    let! RA := matmul R_inv2 A in
    let FIM_ts := fun j => (2 * Re (pk j * csum m (fun i => Cconj (ent DA i j) * ent RA i j))%C)%R in
    let FIM_ps := fun j => Re (csum m (fun i => Cconj (ent A i j) * ent RA i j))%C in
    (* np.block *)
    Ok (Mat (2 * k + 1) (2 * k + 1) (fun r c =>
      if Nat.ltb r k then
        if Nat.ltb c k then FIM_tt r c else if Nat.ltb c (2 * k) then FIM_tp r (c - k) else FIM_ts r
      else if Nat.ltb r (2 * k) then
        if Nat.ltb c k then FIM_tp c (r - k) else if Nat.ltb c (2 * k) then FIM_pp (r - k) (c - k) else FIM_ps (r - k)
      else
        if Nat.ltb c k then FIM_ts c else if Nat.ltb c (2 * k) then FIM_ps (c - k) else FIM_ss)).
  (** performance/crb.py:201-232 crb_stouc_farfield_1d; division of an array by 0 gives inf/NaN, not followed: n_snapshots <> 0 *)
  Definition crb_stouc_farfield_1d (a : array) (s : sources) (lam : R) (p : parg) (sigma n_snapshots : R) (mode : string) : res output :=
    match s with
    | FF1 _ _ =>
      let k := src_size s in
      let! pa := unify_p_to_vector p k in
      let! (A, DA) := steering_AD a s lam "all" in
      let! p := as_vector pa in
      let! FIM := fim_stouc (ar_size a) A DA p sigma in
      let! V := rinv FIM in
      let CRB := rscal (/ n_snapshots) (Mat k k (ent V)) in
      reduce_output_matrix (symmetrised CRB) mode
    | _ => Raise ValueError
    end.

  (** performance/mse.py:55-75 ecov_music_1d; a zero in diag(H).real makes np.reciprocal infinite: result None (inf/NaN entries) *)
  Definition ecov_music_1d (a : array) (s : sources) (lam : R) (P : parg) (sigma n_snapshots : R) (sel mode : string) : res (option output) :=
    match s with
    | FF1 _ _ =>
      let k := src_size s in
      raise_if Nat.leb (ar_size a) k as ValueError ;;
      let! Pa := unify_p_to_matrix P k in
      let! (A, D) := steering_AD a s lam sel in
      let A_H := mher A in
      let! AHA := matmul A_H A in
      let! X := solve AHA A_H in
      let! AX := matmul A X in
      let! DP := matmul (mher D) (mid (ar_size a) -m AX) in
      let! H := matmul DP D in
      let! P := as_matrix Pa in
      let! P_inv := cinv P in
      let! Y := solve AHA P_inv in
      let! B := matmul P_inv (mid k +m mscal (RtoC sigma) Y) in
      let! c := pydiv (sigma / 2) n_snapshots in
      let h := fun i => (/ Re (ent H i i))%R in
      if existsb (fun i => if Req_EM_T (Re (ent H i i)) 0 then true else false) (seq 0 k) then
        (if existsb (String.eqb mode) ["full"; "diag"; "mean_diag"]%string then Ok None else Raise ValueError)
      else
        let C := Mat k k (fun i j => (c * (Re (ent H i j * ent B j i)%C * (h i * h j)))%R) in
        let! o := reduce_output_matrix C mode in Ok (Some o)
    | _ => Raise ValueError
    end.

  (** mse.py:140-143: the 0/1 matrix G as filled by the double loop *)
  Definition subarray_matrix (mv : nat) : cmat :=
    fold_left (fun G ij => let '(ii, jj) := ij in
        Mat (mv * mv) (2 * mv - 1) (fun r c => if Nat.eqb r (ii * mv + jj) && Nat.eqb c (mv - ii + jj - 1) then RtoC 1 else ent G r c))
      (list_prod (seq 0 mv) (seq 0 mv)) (Mat (mv * mv) (2 * mv - 1) (fun _ _ => RtoC 0)).
  (** np.kron of matrices and of vectors *)
  Definition kron (A B : cmat) : cmat :=
    Mat (nr A * nr B) (nc A * nc B) (fun i j => (ent A (Nat.div i (nr B)) (Nat.div j (nc B)) * ent B (Nat.modulo i (nr B)) (Nat.modulo j (nc B)))%C).
  Definition kronv (n : nat) (u v : nat -> C) : nat -> C := fun i => (u (Nat.div i n) * v (Nat.modulo i n))%C.
  (** mse.py:133-161: error covariance from the physical steering matrix A, the virtual one (Av, DAv) and F; None when a gamma_k or a power is 0
      (division by zero, inf/NaN) *)
  Definition coarray_ecov (m mv : nat) (A Av DAv : cmat) (F : rmat) (p : list C) (sigma n_snapshots : R) : res (option rmat) :=
    let k := List.length p in
    let pk := fun i => nth i p (RtoC 0) in
    let! RR := matmul (Mat (nr A) (nc A) (fun i j => (ent A i j * pk j)%C)) (mher A) in
    let R_ideal := RR +m mscal (RtoC sigma) (mid m) in
    let! SS := matmul (Mat (nr Av) (nc Av) (fun i j => (ent Av i j * pk j)%C)) (mher Av) in
    let Rss := SS +m mscal (RtoC sigma) (mid mv) in
    let! (_, E) := eigh Rss in
    let En := col_slice E None (Some (- Z.of_nat k)%Z) in
    let! proj_En := matmul En (mher En) in
    let! GF := matmul (subarray_matrix mv) (mofR F) in
    let! pinv_Av := pinv Av in
    let beta := fun kk => mvec proj_En (fun i => ent DAv i kk) in
    let gamma := fun kk => Re (csum mv (fun i => (Cconj (beta kk i) * beta kk i)%C)) in
    let alpha := fun kk i => (- ent pinv_Av kk i / pk kk)%C in
    let Xi := Mat (m * m) k (fun i kk => (mvec (mtr GF) (kronv mv (beta kk) (alpha kk)) i / RtoC (gamma kk))%C) in
    let! XK := matmul (mher Xi) (kron R_ideal (mtr R_ideal)) in
    let! XKX := matmul XK Xi in
    if existsb (fun kk => if Req_EM_T (gamma kk) 0 then true else if Req_EM_T (Cmod (pk kk)) 0 then true else false) (seq 0 k) then Ok None
    else Ok (Some (Mat k k (fun i j => (Re (ent XKX i j) / n_snapshots)%R))).
  (** performance/mse.py:117-161 ecov_coarray_music_1d *)
  Definition ecov_coarray_music_1d (g : gdesign) (s : sources) (lam : R) (p : parg) (sigma n_snapshots : R) (mode : string) : res (option output) :=
    match s with
    | FF1 _ _ =>
      let a := gd_array g in
      raise_if is_perturbed a as ValueError ;;
      let k := src_size s in
      let! pa := unify_p_to_vector p k in
      let m := ar_size a in
      let! wf := mk_WeightFunction1D g in
      let! (F, _) := get_coarray_selection_matrix wf false in
      let mv := Nat.div (nr F + 1) 2 in
      raise_if Nat.leb mv k as ValueError ;;
      let! (St, _) := steering_matrix a s lam false "all" false in
      let! v := mk_ULA (Z.of_nat mv) (D0Scalar (lam / 2)) None no_kwargs in
      let! (Av, DAv) := steering_AD (gd_array v) s lam "all" in
      let! p := as_vector pa in
      match St with
      | Flat A =>
        let! C := coarray_ecov m mv A Av DAv F p sigma n_snapshots in
        match C with
        | Some C => let! o := reduce_output_matrix C mode in Ok (Some o)
        | None => if existsb (String.eqb mode) ["full"; "diag"; "mean_diag"]%string then Ok None else Raise ValueError
        end
      | Stack _ => Raise ValueError   (* arrays with vector elements are not followed further *)
      end
    | _ => Raise ValueError
    end.
End Oracles.
