(** Vocabulary of the properties about performance bounds. *)
From Verif Require Import Base_Np Base_Lin S_model.
Open Scope C_scope.

(** contracts of np.linalg.solve and np.linalg.inv in exact arithmetic: what is returned solves the system, and non-singular systems are solved *)
Definition solve_exact (solve : cmat -> cmat -> res cmat) : Prop :=
  (forall G B X, solve G B = Ok X -> nr G = nc G /\ nr B = nr G /\ nr X = nr G /\ nc X = nc B /\ G *m X ==m B) /\
  (forall G B, nr G = nc G -> nr B = nr G -> inj G -> exists X, solve G B = Ok X).
Definition cinv_exact (inv : cmat -> res cmat) : Prop :=
  (forall G X, inv G = Ok X -> nr G = nc G /\ nr X = nr G /\ nc X = nr G /\ G *m X ==m mid (nr G)) /\
  (forall G, nr G = nc G -> inj G -> exists X, inv G = Ok X).
(** real matrices *)
Definition rident (i j : nat) : R := if Nat.eqb i j then 1%R else 0%R.
Definition rinj (S : rmat) : Prop := forall x : nat -> R, (forall i, (i < nr S)%nat -> rsum (nc S) (fun j => ent S i j * x j)%R = 0%R) -> forall j, (j < nc S)%nat -> x j = 0%R.
Definition rinv_exact (inv : rmat -> res rmat) : Prop :=
  (forall G X, inv G = Ok X -> nr G = nc G /\ nr X = nr G /\ nc X = nr G /\
     forall i j, (i < nr G)%nat -> (j < nr G)%nat -> rsum (nr G) (fun r => ent G i r * ent X r j)%R = rident i j) /\
  (forall G, nr G = nc G -> rinj G -> exists X, inv G = Ok X).
(** np.linalg.pinv of a matrix with independent columns *)
Definition pinv_exact (pinv : cmat -> res cmat) : Prop :=
  forall A, inj A -> exists X, pinv A = Ok X /\ nr X = nc A /\ nc X = nr A /\ X *m A ==m mid (nc A) /\ hermitian (A *m X).

(** real symmetric positive semidefinite *)
Definition rform (S : rmat) (x : nat -> R) : R := rsum (nr S) (fun i => x i * rsum (nr S) (fun j => ent S i j * x j))%R.
Definition rsym (S : rmat) : Prop := nr S = nc S /\ forall i j, (i < nr S)%nat -> (j < nr S)%nat -> ent S i j = ent S j i.
Definition rpsd (S : rmat) : Prop := rsym S /\ forall x, (0 <= rform S x)%R.

(** entry (i, j) is Re (d_i^H (I - Pi) d_j * Q_ji), where d_i is the i-th column of D *)
Definition info_matrix (D Pi Q : cmat) : rmat :=
  Mat (nc D) (nc D) (fun i j => Re (bform (mid (nr D) -m Pi) (col D i) (col D j) * ent Q j i)).
(** V is c times the inverse of S *)
Definition scaled_inverse (S : rmat) (c : R) (V : rmat) : Prop :=
  nr V = nr S /\ nc V = nr S /\
  forall i j, (i < nr S)%nat -> (j < nr S)%nat -> rsum (nr S) (fun r => ent S i r * ent V r j)%R = (c * rident i j)%R.
(** V <= W as quadratic forms *)
Definition rloewner (V W : rmat) : Prop := nr V = nr W /\ forall x, (rform V x <= rform W x)%R.

(** The Fisher information of uncorrelated sources.  Parameters: k locations, k powers, the noise power; [dcov A D p k r] is the
    derivative of model_cov A p sigma = sum_i p_i a_i a_i^H + sigma I in the r-th one, d_i being the derivative of the column a_i. *)
Definition outer (m : nat) (u v : nat -> C) : cmat := Mat m m (fun i j => u i * Cconj (v j)).
Definition dcov (A D : cmat) (p : nat -> R) (r : nat) : cmat :=
  let m := nr A in let k := nc A in
  if Nat.ltb r k then mscal (RtoC (p r)) (outer m (col D r) (col A r) +m outer m (col A r) (col D r))
  else if Nat.ltb r (2 * k) then outer m (col A (r - k)) (col A (r - k))
  else mid m.
(** Slepian-Bangs: tr (R^-1 dR_r R^-1 dR_c) for zero-mean circular Gaussian data *)
Definition slepian_bangs (Q X Y : cmat) : C := mtrace (Q *m X *m (Q *m Y)).

(** Coarray MUSIC: first-order error covariance.  [Rm] is the covariance of the physical array (order m), [Av], [DAv] the steering matrix of
    the virtual ULA (order mv) and its derivatives, [F] the coarray selection matrix, Pi the projector onto the span of Av, X the pseudo-inverse of Av:
    beta_k = (I - Pi) d_k, gamma_k = |beta_k|^2, alpha_k = - (row k of X) / p_k,
    xi_k = (GF)^T (beta_k (x) alpha_k) / gamma_k and V = Re (Xi^H (R (x) R^T) Xi) / N. *)
Definition coarray_beta (Pi DAv : cmat) (k : nat) : nat -> C := mvec (mid (nr DAv) -m Pi) (col DAv k).
Definition coarray_xi (mv : nat) (F : rmat) (Pi X DAv : cmat) (p : nat -> R) (k : nat) : nat -> C := fun r =>
  csum mv (fun i => csum mv (fun j => RtoC (ent F (mv - 1 - i + j) r) * coarray_beta Pi DAv k i * (- ent X k j / RtoC (p k))))
  / RtoC (vnorm2 mv (coarray_beta Pi DAv k)).
Definition coarray_mse (m : nat) (Rm : cmat) (xi : nat -> nat -> C) (N : R) (i j : nat) : R :=
  (Re (csum (m * m) (fun r => csum (m * m) (fun c =>
     (Cconj (xi i r) * (ent Rm (Nat.div r m) (Nat.div c m) * ent Rm (Nat.modulo c m) (Nat.modulo r m)) * xi j c)%C))) / N)%R.
