(** Vocabulary of the properties about signals and snapshots. *)
From Verif Require Import Base_Np Base_Trig M_utils M_sources M_array M_signals.
Open Scope C_scope.

(** the covariance matrix that the argument C denotes *)
Definition carg_cov (dim : nat) (c : carg) : cmat :=
  match c with
  | CScalar x => mdiag dim (fun _ => RtoC x)
  | CVec l => mdiag dim (fun i => RtoC (nth i l 0%R))
  | CMat c => c
  | _ => mdiag dim (fun _ => RtoC 0)
  end.
(** a documented argument: non-negative variances, or a Hermitian positive semidefinite matrix, of the right size *)
Definition carg_ok (dim : nat) (c : carg) : Prop :=
  match c with
  | CScalar x => (0 <= x)%R
  | CVec l => List.length l = dim /\ Forall (fun x => (0 <= x)%R) l
  | CMat c => nr c = dim /\ nc c = dim /\ psd c
  | _ => False
  end.
(** contract of scipy.linalg.sqrtm on positive semidefinite matrices: the Hermitian square root *)
Definition sqrtm_ok (sqrtm : cmat -> res cmat) : Prop := forall c, psd c -> exists X, sqrtm c = Ok X /\ hermitian X /\ nr X = nr c /\ X *m X ==m c.

(** Expectation over the first N normal draws: a linear functional under which they have mean 0, variance 1 and are uncorrelated. *)
Record white (N : nat) (E : ((nat -> R) -> R) -> R) : Prop := {
  wh_ext : forall f g, (forall x, f x = g x) -> E f = E g;
  wh_lin : forall a b f g, E (fun x => a * f x + b * g x)%R = (a * E f + b * E g)%R;
  wh_mean : forall i, (i < N)%nat -> E (fun x => x i) = 0%R;
  wh_cov : forall i j, (i < N)%nat -> (j < N)%nat -> E (fun x => x i * x j)%R = if Nat.eqb i j then 1%R else 0%R
}.
(** of a complex random variable *)
Definition expect (E : ((nat -> R) -> R) -> R) (f : (nat -> R) -> C) : C := (E (fun x => Re (f x)), E (fun x => Im (f x))).
(** a matrix emitted (the default never occurs where the theorems use it) *)
Definition emitted (r : res cmat * rngst) : cmat := match fst r with Ok X => X | Raise _ => Mat 0 0 (fun _ _ => RtoC 0) end.
(** sample covariance of the columns *)
Definition sample_cov (X : cmat) : cmat := mscal (RtoC (/ INR (nc X))) (X *m mher X).
(** the sample covariance in a result (the default never occurs where the theorems use it) *)
Definition snap_cov {St} (r : res snapshots * St) : cmat := match fst r with Ok (SnapCov _ (Some Rm)) => Rm | _ => Mat 0 0 (fun _ _ => RtoC 0) end.
