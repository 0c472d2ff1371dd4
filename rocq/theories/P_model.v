(** Facts about the narrow-band model. *)
From Coq Require Import Lra.
From Verif Require Import Base_Np Base_Trig S_model M_utils S_utils M_sources S_sources P_sources M_array S_array P_array P_array2 P_array3 M_designs S_designs P_designs M_coarray S_coarray P_coarray P_coarray2.
Open Scope nat_scope.

Lemma model_cov_shape A p sigma : nr (model_cov A p sigma) = nr A /\ nc (model_cov A p sigma) = nr A.
Proof. split; reflexivity. Qed.
Lemma model_cov_ent A p sigma i j : ent (model_cov A p sigma) i j =
  (csum (nc A) (fun k => RtoC (p k) * ent A i k * Cconj (ent A j k)) + if Nat.eqb i j then RtoC sigma else RtoC 0)%C.
Proof.
  unfold model_cov, madd, mscal, mid. cbn [ent nr nc mmul]. f_equal.
  - apply csum_ext. intros k Hk. cbn [mher ent]. f_equal.
    rewrite (csum_single _ _ k Hk); [cbn [mdiag ent]; rewrite Nat.eqb_refl; ring|].
    intros q Hq Hn. cbn [mdiag ent]. destruct (Nat.eqb_spec q k); [contradiction|]. ring.
  - destruct (Nat.eqb i j); ring.
Qed.
Lemma model_cov_eq A B p sigma : A ==m B -> model_cov A p sigma ==m model_cov B p sigma.
Proof.
  intros (E1 & E2 & E3). split; [exact E1|]. split; [exact E1|]. intros i j Hi Hj. cbn in Hi, Hj. rewrite !model_cov_ent, <- E2. f_equal.
  apply csum_ext. intros k Hk. rewrite !E3 by assumption. reflexivity.
Qed.
Lemma model_cov_psd A p sigma : (forall k, k < nc A -> (0 <= p k)%R) -> (0 <= sigma)%R -> psd (model_cov A p sigma).
Proof.
  intros Hp Hs. unfold model_cov. apply psd_madd; [reflexivity| |apply psd_mscal; [exact Hs | apply psd_mid]].
  apply psd_congr'; [reflexivity|]. apply psd_mdiag. exact Hp.
Qed.

(** far-field phases on a linear array *)
Lemma response_1d g l d s lam A : places_1d g l d -> ar_perts (gd_array g) = [] -> scalar_isotropic (gd_array g) -> valid_sources s -> is_far_field s = true ->
  steering_matrix (gd_array g) s lam false "all" true = Ok (Flat A, []) ->
  nr A = List.length l /\ nc A = src_size s /\ forall i k, i < List.length l -> k < src_size s ->
    ent A i k = cis (2 * PI / lam * (IZR (nth i l 0%Z) * d) * fst (fst (direction s k)))%R.
Proof.
  intros P Pe Iso V F H.
  assert (W : wf_array (gd_array g)). { destruct (gd_array g) as [lo nm el pe]. cbn in Pe. subst pe. apply wf_empty. }
  destruct (steering_scalar_inv _ _ _ _ _ _ _ _ W Iso H) as (ps & L & T & DT & B & H1 & H2 & H3 & H4 & H5 & H6 & H7 & H8 & _).
  unfold select_perturbations, perturbations in H1. rewrite Pe in H1. cbn in H1. injection H1 as <-. injection H2 as <-. injection H7 as <-. cbn in H8.
  apply phase_ff in H4 as (P1 & P2 & P3); [|exact V|exact F]. destruct H8 as (E1 & E2 & E3). cbn in E1, E2.
  pose proof (pl_size g l d P) as Sz. pose proof (pl_ndim g l d P) as Nd. unfold ar_size, ar_ndim in *. rewrite P1, Sz in E1. rewrite P2 in E2.
  split; [exact E1|]. split; [exact E2|]. intros i k Hi Hk. rewrite E3 by lia. cbn. rewrite P3 by lia. f_equal.
  unfold plane_phase. destruct (direction s k) as ((x, y), z). unfold coord. rewrite Nd. cbn. rewrite (pl_loc g l d P i Hi). ring.
Qed.

Lemma ULA_virtual h d nm : exists v, mk_ULA h (D0List [d]) nm no_kwargs = Ok v /\ places_1d v (ULA_indices h) d /\
  ar_perts (gd_array v) = [] /\ scalar_isotropic (gd_array v).
Proof.
  destruct (column_places (ULA_indices h) d (name_or nm ("ULA " ++ strZ h))) as (v & E & P). exists v.
  split; [exact E|]. split; [exact P|]. unfold mk_Grid in E. cbn in E. injection E as <-. split; [reflexivity|]. split; reflexivity.
Qed.

Lemma da_model_cov g l d w0 calls s lam p sigma nm A (R : cmat) : places_1d g l d -> gd_d0 g = [d] -> mk_WeightFunction1D g = Ok w0 ->
  l <> [] -> NoDup l -> ar_perts (gd_array g) = [] -> scalar_isotropic (gd_array g) -> valid_sources s -> is_far_field s = true ->
  steering_matrix (gd_array g) s lam false "all" true = Ok (Flat A, []) -> R ==m model_cov A p sigma ->
  exists v Av D, get_virtual_ula (Acm g (after w0 calls)) nm = Ok v /\
    steering_matrix (gd_array v) s lam false "all" true = Ok (Flat Av, []) /\
    transform (Acm g (after w0 calls)) R "da" = Ok D /\ D ==m model_cov Av p sigma.
Proof.
  intros P D0 Hw Hl ND Pe Iso V F H HR.
  pose proof (places_grid_1d g l d P) as Hg. pose proof (mv0_pos g l Hg Hl) as Hmv.
  destruct (response_1d g l d s lam A P Pe Iso V F H) as (A1 & A2 & A3).
  destruct HR as (R1 & R2 & R3). cbn in R1, R2.
  destruct (transform_da g l w0 Hg Hw calls R Hmv ltac:(lia) ltac:(lia)) as (D & ED & D1 & D2 & D3).
  assert (Eo : acm_output_size (Acm g (after w0 calls)) = Z.of_nat (mv0 g)) by exact (central_ula g l Hg w0 Hw calls true).
  destruct (ULA_virtual (Z.of_nat (mv0 g)) d (Some (name_or nm ("Virtual ULA of " ++ ar_name (gd_array g))))) as (v & Ev & Pv & Pev & Isov).
  assert (HS : exists Av, steering_matrix (gd_array v) s lam false "all" true = Ok (Flat Av, [])).
  { refine (steering_defined (gd_array v) s lam "all" [] true (steering_nonzero _ _ _ _ _ _ _ H) Isov _ _ _ _ _).
    - unfold mk_ULA, mk_Grid in Ev. cbn in Ev. injection Ev as <-. reflexivity.
    - rewrite (pl_ndim _ _ _ Pv). lia.
    - rewrite (pl_size _ _ _ Pv), ULA_indices_length. lia.
    - unfold select_perturbations, perturbations. rewrite Pev. reflexivity.
    - intros q []. }
  destruct HS as (Av & HAv). exists v, Av, D. split; [unfold get_virtual_ula; rewrite Eo; cbn [acm_array]; rewrite D0; exact Ev|]. split; [exact HAv|]. split; [exact ED|].
  destruct (response_1d v _ d s lam Av Pv Pev Isov V F HAv) as (B1 & B2 & B3). rewrite ULA_indices_length, Nat2Z.id in B1, B3.
  set (om := fun k => (2 * PI / lam * d * fst (fst (direction s k)))%R).
  set (f := fun q : Z => (csum (src_size s) (fun k => RtoC (p k) * cis (IZR q * om k)%R) + if Z.eqb q 0 then RtoC sigma else RtoC 0)%C).
  split; [exact (eq_trans D1 (eq_sym B1))|]. split; [exact (eq_trans D2 (eq_sym B1))|]. intros r c Hr Hc. rewrite D1 in Hr. rewrite D2 in Hc.
  rewrite D3 by assumption. rewrite (lag_mean_const g l w0 Hg Hw R f).
  - rewrite model_cov_ent, B2. unfold f. f_equal.
    + apply csum_ext. intros k Hk. rewrite !B3 by assumption. rewrite !ULA_indices_nth by lia. rewrite <- cis_opp, <- Cmult_assoc, <- cis_plus. f_equal. f_equal.
      rewrite minus_IZR. unfold om. ring.
    + destruct (Z.eqb_spec (Z.of_nat r - Z.of_nat c) 0), (Nat.eqb_spec r c); try lia; reflexivity.
  - apply (mv0_lag g l Hg). lia.
  - intros i j Hi Hj. rewrite R3 by lia. rewrite model_cov_ent, A2. unfold f. f_equal.
    + apply csum_ext. intros k Hk. rewrite !A3 by assumption. rewrite <- cis_opp, <- Cmult_assoc, <- cis_plus. f_equal. f_equal.
      rewrite minus_IZR. unfold om. ring.
    + destruct (Z.eqb_spec (nth i l 0 - nth j l 0)%Z 0) as [E|E], (Nat.eqb_spec i j) as [E'|E']; try reflexivity.
      * exfalso. apply E'. apply (proj1 (NoDup_nth l 0%Z) ND i j Hi Hj). lia.
      * subst. lia.
Qed.
