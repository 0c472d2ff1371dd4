(** Models of doatools/model/signals.py, doatools/model/snapshots.py and utils/math.py randcn *)
From Verif Require Import Base_Np Base_Trig M_utils M_sources M_array.
Open Scope nat_scope.

(** numpy.random: the numbers that the global generator will deliver, standard normal and uniform on [0,1), and how many of
    each have been used.  (In numpy both are computed from one stream of random bits; the model keeps two streams.) *)
Record draws := Draws { normals : nat -> R; uniforms : nat -> R }.
Record rngst := Rng { used_normals : nat; used_uniforms : nat }.
(** np.random.randn(k, n) and np.random.uniform(lo, hi, (k, n)): filled in C order *)
Definition randn (d : draws) (k n : nat) (st : rngst) : rmat * rngst :=
  (Mat k n (fun i t => normals d (used_normals st + (i * n + t))), Rng (used_normals st + k * n) (used_uniforms st)).
Definition uniform (d : draws) (lo hi : R) (k n : nat) (st : rngst) : rmat * rngst :=
  (Mat k n (fun i t => lo + (hi - lo) * uniforms d (used_uniforms st + (i * n + t)))%R, Rng (used_normals st) (used_uniforms st + k * n)).
(** utils/math.py:74-87 randcn, for a shape (k, n) *)
Definition randcn (d : draws) (k n : nat) (st : rngst) : cmat * rngst :=
  let '(x, st) := randn d k n st in
  let '(y, st) := randn d k n st in
  (Mat k n (fun i t => ((Ci * RtoC (ent x i t) + RtoC (ent y i t)) * RtoC (sqrt (1 / 2)))%C), st).

(** the argument C: a real scalar, an array of any shape (vectors are real, see the documentation), or something without
    an ndim attribute such as a list *)
Inductive carg := CScalar (c : R) | CVec (l : list R) | CMat (c : cmat) | COther (ndim : nat) | CList.
(** signals.py:47-70: what __init__ stores *)
Inductive cstoch := StoScalar (dim : nat) (c2 : R) | StoVec (dim : nat) (c2 : list R) | StoMat (dim : nat) (c2 : cmat).
(** np.sqrt of a negative number is NaN: not modelled (Coq's sqrt is 0 there), the theorems assume non-negative variances.
    [sqrtm] is scipy.linalg.sqrtm. *)
Definition mk_stochastic (sqrtm : cmat -> res cmat) (dim : nat) (c : carg) : res cstoch :=
  match c with
  | CScalar c => Ok (StoScalar dim (sqrt c))
  | CVec l => raise_if negb (Nat.eqb (List.length l) dim) as ValueError ;; Ok (StoVec dim (map sqrt l))
  | CMat c => raise_if negb (Nat.eqb (nr c) dim) || negb (Nat.eqb (nc c) dim) as ValueError ;;
              let! c2 := sqrtm c in Ok (StoMat dim c2)
  | COther _ => Raise ValueError
  | CList => Raise AttributeError
  end.
(** signals.py:72-74 dim *)
Definition sto_dim (g : cstoch) : nat := match g with StoScalar k _ => k | StoVec k _ => k | StoMat k _ => k end.
(** signals.py:52, 58, 64 and 76-77 emit.  (dim,1) * (dim,n) broadcasts the columns. *)
Definition sto_emit (d : draws) (g : cstoch) (n : nat) (st : rngst) : res cmat * rngst :=
  let '(w, st') := randcn d (sto_dim g) n st in
  match g with
  | StoScalar _ c2 => (Ok (Mat (nr w) (nc w) (fun i t => (RtoC c2 * ent w i t)%C)), st')
  | StoVec _ c2 => (Ok (Mat (nr w) (nc w) (fun i t => (RtoC (nth i c2 0%R) * ent w i t)%C)), st')
  | StoMat _ c2 => (matmul c2 w, st')
  end.

(** RandomPhaseSignal.  The argument amplitudes: a Python float or int, an ndarray (any shape; its size and elements in C
    order), or an object without a size attribute such as a list. *)
Inductive aarg := AFloat (x : R) | AInt (z : Z) | AArr (a : list R) | AList.
(** the stored array: a column, or the 1-D array that np.full(a, (dim, 1)) makes *)
Inductive amps := AmpCol (a : list R) | AmpRow (a : list R).
Record rphase := RPhase { rp_dim : nat; rp_amps : amps }.
(** signals.py:93-100.  np.full(amplitudes, (dim, 1)) uses the amplitude as the shape and (dim, 1) as the fill value: a float
    is no shape; the pair can be broadcast only to the shape (2,). *)
Definition mk_random_phase (dim : nat) (a : aarg) : res rphase :=
  match a with
  | AFloat _ => Raise TypeError
  | AInt z => if Z.eqb z 2 then Ok (RPhase dim (AmpRow [INR dim; 1%R])) else Raise ValueError
  | AArr l => raise_if negb (Nat.eqb (List.length l) dim) as ValueError ;; Ok (RPhase dim (AmpCol l))
  | AList => Raise AttributeError
  end.
(** signals.py:106-110 emit *)
Definition rp_emit (d : draws) (g : rphase) (n : nat) (st : rngst) : res cmat * rngst :=
  let '(ph, st') := uniform d (- PI) PI (rp_dim g) n st in
  let c := Mat (rp_dim g) n (fun i t => (RtoC (sin (ent ph i t)) * Ci + RtoC (cos (ent ph i t)))%C) in
  match rp_amps g with
  | AmpCol a => (Ok (Mat (rp_dim g) n (fun i t => (RtoC (nth i a 0%R) * ent c i t)%C)), st')
  | AmpRow a => if Nat.eqb n (List.length a) then (Ok (Mat (rp_dim g) n (fun i t => (RtoC (nth t a 0%R) * ent c i t)%C)), st')
                else if Nat.eqb n 1 then (Ok (Mat (rp_dim g) (List.length a) (fun i t => (RtoC (nth t a 0%R) * ent c i 0)%C)), st')
                else (Raise ValueError, st')
  end.

(** *** snapshots.py.  A signal generator is anything with an emit method; it may depend on and change some state. *)
Definition gen (St : Type) := nat -> St -> res cmat * St.
(** Y += N: N is broadcast to the shape of Y *)
Definition iadd (Y N : cmat) : res cmat :=
  if (Nat.eqb (nr N) (nr Y) || Nat.eqb (nr N) 1) && (Nat.eqb (nc N) (nc Y) || Nat.eqb (nc N) 1)
  then Ok (Mat (nr Y) (nc Y) (fun i t => (ent Y i t + ent N (if Nat.eqb (nr N) 1 then 0 else i) (if Nat.eqb (nc N) 1 then 0 else t))%C))
  else Raise ValueError.
(** the result: Y, and the sample covariance if asked for (None when n_snapshots = 0: 0/0) *)
Inductive snapshots := Snap (Y : cmat) | SnapCov (Y : cmat) (R : option cmat).
(** snapshots.py:1-56 get_narrowband_snapshots *)
Definition get_narrowband_snapshots {St} (arr : array) (s : sources) (lam : R) (source_signal : gen St)
    (noise_signal : option (gen St)) (n_snapshots : nat) (return_covariance : bool) (st : St) : res snapshots * St :=
  match steering_matrix arr s lam false "all" true with
  | Raise e => (Raise e, st)
  | Ok (Flat A, _) =>
      let '(Sg, st1) := source_signal n_snapshots st in
      match (let! Sg := Sg in matmul A Sg) with
      | Raise e => (Raise e, st1)
      | Ok Y =>
          let '(Y, st2) := match noise_signal with
                           | None => (Ok Y, st1)
                           | Some g => let '(N, st2) := g n_snapshots st1 in ((let! N := N in iadd Y N), st2)
                           end in
          match Y with
          | Raise e => (Raise e, st2)
          | Ok Y =>
              if return_covariance then
                (let! R := matmul Y (mher Y) in
                 Ok (SnapCov Y (if Nat.eqb n_snapshots 0 then None else Some (mscal (/ RtoC (INR n_snapshots))%C R))), st2)
              else (Ok (Snap Y), st2)
          end
      end
  | Ok _ => (Raise ValueError, st)
  end.
