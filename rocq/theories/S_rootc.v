(** Vocabulary of the continuity property of root-MUSIC. *)
From Verif Require Import Base_Np Base_Lin M_core S_subspace.
Open Scope C_scope.

(** (x - z_1) (x - z_2) ... *)
Fixpoint product_at (zs : list C) (x : C) : C := match zs with [] => RtoC 1 | z :: zs' => (x - z) * product_at zs' x end.
(** what numpy.roots promises for a polynomial that is not identically zero (highest power first): all its roots with their multiplicities, that is, the
    polynomial is a constant times the product of the (x - root) *)
Definition roots_contract (roots : list C -> res (list C)) : Prop :=
  forall c, (exists a, In a c /\ a <> RtoC 0) -> exists l a, roots c = Ok l /\ a <> RtoC 0 /\ forall x, poly c x = a * product_at l x.
(** no unit-modulus z has its steering vector (1, z, z^2, ...) orthogonal to all the estimated noise eigenvectors *)
Definition no_exact_null (eigh : cmat -> res (list R * cmat)) (Rm : cmat) (k : nat) : Prop :=
  forall En, get_noise_subspace eigh Rm (Z.of_nat k) = Ok En -> forall z, Cmod z = 1%R -> exists j, (j < nc En)%nat /\ vdot (nr En) (col En j) (fun i => cpow z i) <> RtoC 0.
