(** Vocabulary of the property that search-free estimates and source counts depend on the physical scene only. *)
From Verif Require Import Base_Np Base_Lin M_subspace S_subspace S_invar.
Open Scope nat_scope.

(** the same covariance matrix in another amplitude scale (c > 0) and with another noise floor or diagonal loading (delta) *)
Definition rescaled (c delta : R) (Rm Rm' : cmat) : Prop :=
  (0 < c)%R /\ Rm' ==m mscal (RtoC c) Rm +m mscal (RtoC delta) (mid (nr Rm)).
(** the sensor spacing in another unit of length; None stands for half of the wavelength *)
Definition in_unit (alpha : R) (d0 : option R) : option R := option_map (Rmult alpha) d0.
(** the two least-squares problems of ESPRIT determine the rotation matrix: for "ls" the first subarray matrix has full column rank;
    for "tls" the k smallest eigenvalues of [E1 E2]^H [E1 E2] are separated from the others and the lower half of their eigenvectors
    is invertible *)
Definition determined (formulation : string) (k : nat) (E1 E2 : cmat) : Prop :=
  (formulation = "ls"%string /\ inj E1) \/
  (formulation = "tls"%string /\ forall w V, eigh_ok (mher (hcat E1 E2) *m hcat E1 E2) w V ->
     (nth (k - 1) w 0 < nth k w 0)%R /\ inj (Mat k k (fun i j => ent V (k + i) j) : cmat)).
(** ESPRIT on the eigenvectors E (m x m), with displacement d and row weights rw *)
Definition esprit_determined (formulation : string) (rw : row_weights) (m k d : nat) (E : cmat) : Prop :=
  exists wt E1 E2, check_row_weights rw (Z.of_nat (m - d)) = Ok wt /\ esprit_subarrays E (Z.of_nat k) (Z.of_nat d) wt = Ok (E1, E2) /\
    determined formulation k E1 E2.
