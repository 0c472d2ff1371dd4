(** The narrow-band array model. *)
From Verif Require Import Base_Np.
Open Scope nat_scope.

(** covariance A diag(p) A^H + sigma I of uncorrelated sources with powers p and white noise of power sigma *)
Definition model_cov (A : cmat) (p : nat -> R) (sigma : R) : cmat :=
  (A *m mdiag (nc A) (fun k => RtoC (p k)) *m mher A) +m mscal (RtoC sigma) (mid (nr A)).
(** covariance A P A^H + sigma I *)
Definition model_cov_P (A P : cmat) (sigma : R) : cmat := (A *m P *m mher A) +m mscal (RtoC sigma) (mid (nr A)).
