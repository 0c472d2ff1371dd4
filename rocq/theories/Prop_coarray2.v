(** Property C40 (augmented covariance matrices of model covariances). *)
From Coq Require Import Lra.
From Verif Require Import Base_Np Base_Trig S_model P_model M_utils S_utils M_sources S_sources M_array S_array P_array P_array3 M_designs S_designs P_designs M_coarray S_coarray P_coarray P_coarray2.
Open Scope nat_scope.

(** C40: on any 1-D grid design with sensors at the distinct grid positions l times d *)
Theorem C40_exact : forall g l d w0 calls s lam p sigma nm A (R : cmat), places_1d g l d -> gd_d0 g = [d] -> mk_WeightFunction1D g = Ok w0 ->
  l <> [] -> NoDup l -> ar_perts (gd_array g) = [] -> scalar_isotropic (gd_array g) -> valid_sources s -> is_far_field s = true ->
  steering_matrix (gd_array g) s lam false "all" true = Ok (Flat A, []) -> R ==m model_cov A p sigma ->
  exists v Av D, get_virtual_ula (Acm g (after w0 calls)) nm = Ok v /\
    steering_matrix (gd_array v) s lam false "all" true = Ok (Flat Av, []) /\
    transform (Acm g (after w0 calls)) R "da" = Ok D /\ D ==m model_cov Av p sigma.
Proof. exact da_model_cov. Qed.
(** the virtual array: sensors 0, d, 2d, ... up to the first hole of the coarray *)
Theorem C40_virtual_ula : forall g l d w0 calls nm h, places_1d g l d -> gd_d0 g = [d] -> mk_WeightFunction1D g = Ok w0 -> first_hole l h ->
  exists v q, get_virtual_ula (Acm g (after w0 calls)) nm = Ok v /\ places_1d v q d /\ List.length q = Z.to_nat h /\
    forall i, i < Z.to_nat h -> nth i q 0%Z = Z.of_nat i.
Proof.
  intros g l d w0 calls nm h P D0 Hw Hh. pose proof (places_grid_1d g l d P) as Hg.
  assert (Eo : acm_output_size (Acm g (after w0 calls)) = Z.of_nat (mv0 g)) by exact (central_ula g l Hg w0 Hw calls true).
  assert (E : h = Z.of_nat (mv0 g)).
  { destruct Hh as (P0 & N & A), (mv0_hole g l Hg) as (P' & N' & A'). destruct (Z.lt_trichotomy h (Z.of_nat (mv0 g))) as [X|[X|X]]; [|exact X|]; exfalso; [apply N, A' | apply N', A]; lia. }
  destruct (ULA_virtual h d (Some (name_or nm ("Virtual ULA of " ++ ar_name (gd_array g))))) as (v & Ev & Pv & _).
  exists v, (ULA_indices h). split; [unfold get_virtual_ula; rewrite Eo, <- E; cbn [acm_array]; rewrite D0; exact Ev|]. split; [exact Pv|].
  split; [apply ULA_indices_length | apply ULA_indices_nth].
Qed.
(** the constructors give such designs *)
Example C40_example : exists g w A, mk_Nested 2 2 (D0Scalar 0.5) None no_kwargs = Ok g /\ places_1d g [0; 1; 2; 5]%Z 0.5 /\ gd_d0 g = [0.5%R] /\
  mk_WeightFunction1D g = Ok w /\ NoDup [0; 1; 2; 5]%Z /\ ar_perts (gd_array g) = [] /\ scalar_isotropic (gd_array g) /\
  valid_sources (FF1 [0; 0.1]%R "rad") /\ steering_matrix (gd_array g) (FF1 [0; 0.1]%R "rad") 1 false "all" true = Ok (Flat A, []).
Proof.
  eexists _, _, _. split; [reflexivity|]. split; [apply (places_column _ _ "Nested (2,2)" no_kwargs); reflexivity|]. split; [reflexivity|]. split; [reflexivity|].
  split; [repeat (apply NoDup_cons; [cbn; lia|]); apply NoDup_nil|]. split; [reflexivity|]. split; [split; reflexivity|]. split; [|unfold steering_matrix, phase_delay_matrix; rewrite (P_sources.Reqb_neq 1 0 R1_neq_R0); reflexivity].
  split; [left; reflexivity|]. pose proof PI2_3_2. pose proof PI_RGT_0. repeat (apply Forall_cons || apply Forall_nil); left; split; try reflexivity; lra.
Qed.
Print Assumptions C40_exact.
