(** C100, continued: the AIC and MDL criteria do not undercount. *)
From Coq Require Import Lra Sorted Permutation.
From Verif Require Import Base_Np Base_Trig Base_Lin S_model M_utils S_utils P_utils M_sources S_sources P_sources M_array S_array P_array P_array2 P_array3 M_designs S_designs P_designs M_coarray S_coarray P_coarray P_coarray2 P_model
  M_grid S_grid P_grid M_core P_core P_core2 M_sparse M_subspace S_subspace P_subspace P_subspace2 P_subspace5 P_courant M_srcnum S_srcnum P_srcnum M_pipeline S_pipeline Prop_srcnum Prop_srcnum2 P_pipeline P_pipeline4 Prop_pipeline Prop_pipeline5 S_stable P_stable Prop_stable S_detect P_detect.
From Verif Require P_oracles P_perf5.
From Verif Require Import P_detect2 Prop_detect.
Open Scope R_scope.

(** Eigenvalues off by at most eps, or a Hermitian covariance estimate within eps: from N0 snapshots on, both criteria return a number that is at least the number of sources, whatever the relation of eps and the
    number of snapshots.  (Neither bound of C100_aic_mdl is needed: an error that stays bounded by eps can only make them report more sources.) *)
Theorem C100_never_fewer_values : forall x K s, noise_and_signal x K s ->
  exists eps N0, 0 < eps /\ forall eigvalsh y N, values_within eps x y -> N0 <= N ->
    (exists q, aic eigvalsh (EVec y) N = Ok q /\ (K <= q < List.length x)%nat) /\ (exists q, mdl eigvalsh (EVec y) N = Ok q /\ (K <= q < List.length x)%nat).
Proof.
  intros x K s H. destruct (never_fewer x K s H) as (e0 & N0 & He & H1 & HN). exists e0, N0. split; [exact He|]. intros ev y N (HL & HC) L0. destruct (HN y N HL HC L0) as (A & B).
  split; [exact A | rewrite mdl_pos by lra; exact B].
Qed.
Theorem C100_never_fewer : forall (Rm A P : cmat) s, exact_cov Rm A P s -> inj A -> pd P -> 0 < s -> (nc A < nr A)%nat ->
  exists eps N0, 0 < eps /\ forall eigvalsh Rm' N, eigvalsh_contract (nr A) eigvalsh -> hermitian Rm' -> nr Rm' = nr A -> N0 <= N -> distance Rm Rm' <= eps ->
    (exists q, aic eigvalsh (EMat Rm') N = Ok q /\ (nc A <= q < nr A)%nat) /\ (exists q, mdl eigvalsh (EMat Rm') N = Ok q /\ (nc A <= q < nr A)%nat).
Proof.
  intros Rm A P s HX HA HP Hs Hk. destruct (ex_dims Rm A P s HX) as (D1 & D2). pose proof (exact_herm _ _ _ _ HX (proj1 HP)) as HH.
  destruct (P_oracles.eigh_ref_contract (nr Rm) Rm HH (le_n _)) as (w & E & EW & OE). assert (LW : List.length w = nr A) by (rewrite <- D1; apply OE).
  destruct (C87_exact_covariance (fun _ => Ok w) Rm A P s w E HX HA HP Hs Hk eq_refl OE) as (NS & _). destruct (C100_never_fewer_values w (nc A) s NS) as (e0 & N0 & He & HN).
  exists e0, N0. split; [exact He|]. intros ev Rm' N EC H' N' L0 DS. destruct (EC Rm' H' ltac:(lia)) as (w' & E' & EW' & OE'). assert (LW' : List.length w' = nr A) by (rewrite <- N'; apply OE').
  destruct (C53_matrix_argument ev Rm' w' N EW') as (-> & ->). rewrite LW in HN. apply HN; [|exact L0]. split; [congruence|]. intros j Hj. eapply Rle_trans; [|exact DS]. apply (weyl Rm Rm' w E w' E' j); try assumption; lia.
Qed.
(** Three sensors, one source: with eigenvalues [1; 1; 3] +- eps both report one or two sources, never none *)
Example C100_never_fewer_example : noise_and_signal [1; 1; 3] 1 1 /\ exists eps N0, 0 < eps /\ values_within eps [1; 1; 3] [1 - eps; 1; 3] /\ forall N, N0 <= N ->
  exists q, aic (fun _ => Raise ValueError) (EVec [1 - eps; 1; 3]) N = Ok q /\ (1 <= q < 3)%nat.
Proof.
  assert (NS : noise_and_signal [1; 1; 3] 1 1).
  { split; [lra|]. split; [cbn; lia|]. split; intros i Hi; cbn in Hi; destruct i as [|[|[|i]]]; cbn; try lra; lia. }
  split; [exact NS|]. destruct (C100_never_fewer_values [1; 1; 3] 1 1 NS) as (eps & N0 & He & H). exists eps, N0. split; [exact He|].
  assert (W : values_within eps [1; 1; 3] [1 - eps; 1; 3]) by (split; [reflexivity|]; intros j Hj; cbn in Hj; destruct j as [|[|[|j]]]; cbn; [| | |lia]; (apply Rabs_le; lra)).
  split; [exact W|]. intros N L. exact (proj1 (H (fun _ => Raise ValueError) _ N W L)).
Qed.
Print Assumptions C100_never_fewer_values. Print Assumptions C100_never_fewer.
