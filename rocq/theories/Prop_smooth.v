(** C110: spatial smoothing with estimated covariance matrices: coherent sources are counted and located from finitely many snapshots. *)
From Coq Require Import Lra Sorted Permutation.
From Verif Require Import Base_Np Base_Trig Base_Lin S_model M_utils S_utils P_utils M_sources S_sources P_sources P_sources3 M_array S_array P_array P_array2 P_array3 M_designs S_designs P_designs M_coarray S_coarray P_coarray P_coarray2 P_model
  M_grid S_grid P_grid M_core P_core P_core2 M_sparse M_subspace S_subspace P_subspace P_subspace2 P_subspace3 P_subspace5 P_perf5 M_srcnum M_pipeline S_pipeline P_pipeline P_pipeline2 P_pipeline3 P_gauss P_fta P_fta2 Prop_pipeline Prop_pipeline2
  S_stable P_stable P_stable3 P_stable5 Prop_stable S_invar S_invar2 P_invar4 Prop_invar2 P_cont P_cont4 P_cont5 P_cont6 S_cont Prop_cont S_rootc P_rootc P_rootc2 P_rootc3 P_rootc4 P_rootc5 Prop_rootc S_detect P_detect Prop_detect.
From Verif Require P_oracles Prop_subspace Prop_esprit Prop_coarray Prop_coarray2 Prop_pipeline5 Prop_perf3.
Import Prop_pipeline5.
From Verif Require Import M_signals S_signals S_stat P_stat Prop_detect2 S_offgrid S_refine S_scan P_smooth.
From Verif Require Prop_stat Prop_signals Prop_refine Prop_offgrid2.
Import Prop_stat.
Open Scope nat_scope.

(** smoothing is defined for every estimate, keeps it Hermitian and never increases its error *)
Theorem C110_never_amplifies : forall ty (Rm Rm' : cmat) l fb, ty <> MInt -> hermitian Rm -> hermitian Rm' -> nr Rm' = nr Rm -> 1 <= l <= nr Rm ->
  exists B B', spatial_smooth ty Rm (Z.of_nat l) fb = Ok B /\ spatial_smooth ty Rm' (Z.of_nat l) fb = Ok B' /\
    hermitian B' /\ nr B' = nr Rm - l + 1 /\ (distance B B' <= distance Rm Rm')%R.
Proof.
  intros ty Rm Rm' l fb HT HH HH' N' Hl. destruct (smooth_ok ty Rm l fb HT Hl HH) as (B & E & _ & _). destruct (smooth_ok ty Rm' l fb HT ltac:(lia) HH') as (B' & E' & N1 & H1).
  exists B, B'. split; [exact E|]. split; [exact E'|]. split; [exact H1|]. split; [congruence|]. destruct HH as (SQ & _). apply (smooth_close ty Rm Rm' B B' l fb); try assumption. now symmetry.
Qed.

(** the scene after smoothing *)
Lemma view_unambiguous d lam u doas : NoDup doas -> in_view d 1 lam u doas -> unambiguous d lam u doas.
Proof.
  intros ND W. split; [exact ND|]. intros a b Ia Ib. destruct (W a Ia) as (_ & A1), (W b Ib) as (_ & B1). change (INR 1) with 1%R in *. lra.
Qed.
Lemma exact_square (Rm A P : cmat) s : exact_cov Rm A P s -> nr Rm = nr A /\ nc Rm = nr A.
Proof. intros (_ & _ & HX). rewrite (meq_nr _ _ HX), (meq_nc _ _ HX). split; reflexivity. Qed.
Lemma smoothed_scene n l d nm g lam doas u src (A P Rm : cmat) s fb : mk_ULA (Z.of_nat n) (D0Scalar d) nm no_kwargs = Ok g -> mk_FF1 (vec1 doas) u = Ok src ->
  steering_matrix (gd_array g) src lam false "all" true = Ok (Flat A, []) -> exact_cov Rm A P s -> psd P -> (forall k, k < List.length doas -> ent P k k <> RtoC 0) ->
  (0 < d)%R -> (0 < lam)%R -> NoDup doas -> in_view d 1 lam u doas -> 1 <= List.length doas <= l -> l <= n ->
  forall nm' g', mk_ULA (Z.of_nat (n - l + 1)) (D0Scalar d) nm' no_kwargs = Ok g' ->
  exists A' B P', steering_matrix (gd_array g') src lam false "all" true = Ok (Flat A', []) /\ spatial_smooth MComplex Rm (Z.of_nat l) fb = Ok B /\ exact_cov B A' P' s /\ pd P' /\
    forall Rm' : cmat, hermitian Rm' -> nr Rm' = n -> exists B', spatial_smooth MComplex Rm' (Z.of_nat l) fb = Ok B' /\ hermitian B' /\ nr B' = n - l + 1 /\ (distance B B' <= distance Rm Rm')%R.
Proof.
  intros Eg Es HA HX HP Hp Hd Hl ND W Hk Hln nm' g' Eg'. destruct (ULA_facts _ _ _ _ Eg') as (PL' & Pe' & I' & DT' & _).
  assert (SD : exists A', steering_matrix (gd_array g') src lam false "all" true = Ok (Flat A', [])).
  { apply mk_FF1_ok in Es as (_ & K & V & ->). apply (steering_defined (gd_array g') (FF1 (nd_data (vec1 doas)) u) lam "all" [] true (steering_nonzero _ _ _ _ _ _ _ HA) I' DT');
    [rewrite (pl_ndim _ _ _ PL'); lia | rewrite (pl_size _ _ _ PL'), ULA_indices_length; lia | unfold select_perturbations, perturbations; now rewrite Pe' | intros ? []]. }
  destruct SD as (A' & HA'). destruct (ula_size _ _ _ _ _ _ _ _ _ Eg Es HA) as (NA & NK). destruct (exact_square Rm A P s HX) as (R1 & R2).
  destruct (C86_rank_restored n l d nm nm' g g' lam doas u src A A' P Rm s fb Eg Eg' Es HA HA' Hd Hl (view_unambiguous d lam u doas ND W) HX HP Hp Hk Hln) as (B & P' & EB & XB & PB).
  exists A', B, P'. split; [exact HA'|]. split; [exact EB|]. split; [exact XB|]. split; [exact PB|]. intros Rm' HH' N'.
  destruct (smooth_ok MComplex Rm' l fb ltac:(discriminate) ltac:(lia) HH') as (B' & E' & N1 & H1). exists B'. split; [exact E'|]. split; [exact H1|]. split; [congruence|].
  apply (smooth_close MComplex Rm Rm' B B' l fb); try assumption; [discriminate | congruence | congruence | lia].
Qed.
(** MDL on the smoothed matrix counts coherent sources, and ESPRIT on it finds their directions *)
Theorem C110_detect_then_esprit : forall n l d name g lam doas u src (A P Rm : cmat) s fb D formulation rw tol,
  mk_ULA (Z.of_nat n) (D0Scalar d) name no_kwargs = Ok g -> mk_FF1 (vec1 doas) u = Ok src ->
  steering_matrix (gd_array g) src lam false "all" true = Ok (Flat A, []) -> exact_cov Rm A P s ->
  psd P -> (forall k, k < List.length doas -> ent P k k <> RtoC 0) -> (0 < s)%R ->
  (0 < d)%R -> (0 < lam)%R -> NoDup doas -> in_view d D lam u doas ->
  1 <= D -> 1 <= List.length doas <= l -> l <= n -> List.length doas + D <= n - l + 1 ->
  formulation = "tls"%string \/ formulation = "ls"%string -> Prop_esprit.harmless_weights rw (n - l + 1) D -> (0 < tol)%R ->
  exists c N0, (0 < c)%R /\ forall (Rm' : cmat) N, hermitian Rm' -> nr Rm' = n -> (N0 <= N)%R -> (N * (distance Rm Rm' * distance Rm Rm') <= c * ln N)%R ->
    exists B, spatial_smooth MComplex Rm' (Z.of_nat l) fb = Ok B /\
      forall eigvalsh eigh solve eigvals, eigvalsh_contract (n - l + 1) eigvalsh -> eigh_contract (Nat.max (n - l + 1) (2 * List.length doas)) eigh ->
      solve_contract (List.length doas) solve -> eigvals_contract (List.length doas) eigvals ->
      exists k r, mdl eigvalsh (EMat B) N = Ok k /\ k = List.length doas /\
        esprit eigh solve eigvals lam B (Z.of_nat k) (Some d) (Z.of_nat D) formulation rw u = Ok (true, (map Some r, u)) /\ accurate tol doas r.
Proof.
  intros n l d nm g lam doas u src A P Rm s fb D f rw tol Eg Es HA HX HP Hp Hs Hd Hl ND W HD Hk Hln Hkn HF HW Ht. pose proof (view_all d D lam u doas HD Hd Hl W) as W1.
  destruct (Prop_perf3.ULA_scalar (Z.of_nat (n - l + 1)) d None) as (g' & Eg' & _).
  destruct (smoothed_scene n l d nm g lam doas u src A P Rm s fb Eg Es HA HX HP Hp Hd Hl ND W1 Hk Hln None g' Eg') as (A' & B & P' & HA' & _ & XB & PB & HB).
  destruct (C103_detect_then_esprit _ d None g' lam doas u src A' P' B s D f rw tol Eg' Es HA' XB PB Hs Hd Hl ND W HD (proj1 Hk) Hkn HF HW Ht) as (c & N0 & Hc & H).
  exists c, (Rmax N0 1). split; [exact Hc|]. intros Rm' N HH N' LN BD. destruct (HB Rm' HH N') as (B' & EB & HB' & NB & CL). exists B'. split; [exact EB|].
  pose proof (Rmax_l N0 1). pose proof (Rmax_r N0 1). apply H; [exact HB'|exact NB|lra|]. eapply Rle_trans; [|exact BD]. apply Rmult_le_compat_l; [lra|]. pose proof (distance_nonneg B B'). apply Rmult_le_compat; assumption.
Qed.
(** or root-MUSIC *)
Theorem C110_detect_then_root_music : forall n l d name g lam doas u src (A P Rm : cmat) s fb tol,
  mk_ULA (Z.of_nat n) (D0Scalar d) name no_kwargs = Ok g -> mk_FF1 (vec1 doas) u = Ok src ->
  steering_matrix (gd_array g) src lam false "all" true = Ok (Flat A, []) -> exact_cov Rm A P s ->
  psd P -> (forall k, k < List.length doas -> ent P k k <> RtoC 0) -> (0 < s)%R ->
  (0 < d)%R -> (0 < lam)%R -> NoDup doas -> in_view d 1 lam u doas -> 1 <= List.length doas <= l -> l <= n -> List.length doas < n - l + 1 -> (0 < tol)%R ->
  exists c N0, (0 < c)%R /\ forall (Rm' : cmat) N, hermitian Rm' -> nr Rm' = n -> (N0 <= N)%R -> (N * (distance Rm Rm' * distance Rm Rm') <= c * ln N)%R ->
    exists B, spatial_smooth MComplex Rm' (Z.of_nat l) fb = Ok B /\
      forall eigvalsh eigh roots argsort, eigvalsh_contract (n - l + 1) eigvalsh -> eigh_contract (n - l + 1) eigh -> roots_contract roots -> (forall v, is_argsort v (argsort v)) ->
      no_exact_null eigh B (List.length doas) ->
      exists k r, mdl eigvalsh (EMat B) N = Ok k /\ k = List.length doas /\
        root_music eigh roots argsort lam B (Z.of_nat k) (Some d) u = Ok (true, Some (map Some r, u)) /\ accurate tol doas r.
Proof.
  intros n l d nm g lam doas u src A P Rm s fb tol Eg Es HA HX HP Hp Hs Hd Hl ND W Hk Hln Hkn Ht.
  destruct (Prop_perf3.ULA_scalar (Z.of_nat (n - l + 1)) d None) as (g' & Eg' & _).
  destruct (smoothed_scene n l d nm g lam doas u src A P Rm s fb Eg Es HA HX HP Hp Hd Hl ND W Hk Hln None g' Eg') as (A' & B & P' & HA' & _ & XB & PB & HB).
  destruct (C103_detect_then_root_music _ d None g' lam doas u src A' P' B s tol Eg' Es HA' XB PB Hs Hd Hl ND W (conj (proj1 Hk) Hkn) Ht) as (c & N0 & Hc & H).
  exists c, (Rmax N0 1). split; [exact Hc|]. intros Rm' N HH N' LN BD. destruct (HB Rm' HH N') as (B' & EB & HB' & NB & CL). exists B'. split; [exact EB|].
  pose proof (Rmax_l N0 1). pose proof (Rmax_r N0 1). apply H; [exact HB'|exact NB|lra|]. eapply Rle_trans; [|exact BD]. apply Rmult_le_compat_l; [lra|]. pose proof (distance_nonneg B B'). apply Rmult_le_compat; assumption.
Qed.
(** MUSIC and Min-Norm on the smaller array, with refinement, on one sufficiently fine default grid *)
Theorem C110_music : forall n l d name name' g g' lam doas u src (A : cmat),
  mk_ULA (Z.of_nat n) (D0Scalar d) name no_kwargs = Ok g -> mk_ULA (Z.of_nat (n - l + 1)) (D0Scalar d) name' no_kwargs = Ok g' -> mk_FF1 (vec1 doas) u = Ok src ->
  steering_matrix (gd_array g) src lam false "all" true = Ok (Flat A, []) ->
  (0 < d)%R -> (2 * d <= lam)%R -> (forall a, In a doas -> (- (PI / 2) < to_rad u a < PI / 2)%R) -> NoDup doas ->
  1 <= List.length doas <= l -> l <= n -> List.length doas < n - l + 1 ->
  exists size0, forall size, size0 <= size -> exists q, mk_grid1d None None (Z.of_nat size) u = Ok (SGrid G1D [vec1 q] u DFloat) /\ List.length q = size /\
    forall (P Rm : cmat) s fb t, exact_cov Rm A P s -> psd P -> (forall k, k < List.length doas -> ent P k k <> RtoC 0) -> (0 < t)%R -> exists n0 eps, (0 < eps)%R /\
      forall Rm' : cmat, hermitian Rm' -> nr Rm' = n -> (distance Rm Rm' < eps)%R -> exists B, spatial_smooth MComplex Rm' (Z.of_nat l) fb = Ok B /\
        forall eigh ret_sp density n_iters, eigh_contract (n - l + 1) eigh -> (2 <= density)%Z -> n0 <= n_iters ->
          located (music_estimate eigh (n - l + 1)) g' lam doas u q t (Opts ret_sp true density n_iters) B /\
          located (min_norm_estimate eigh (n - l + 1)) g' lam doas u q t (Opts ret_sp true density n_iters) B.
Proof.
  intros n l d nm nm' g g' lam doas u src A Eg Eg' Es HA Hd H2 IN ND Hk Hln Hkn. assert (Hl : (0 < lam)%R) by lra.
  assert (W : in_view d 1 lam u doas).
  { intros a Ia. split; [now apply IN|]. change (INR 1) with 1%R. rewrite Rmult_1_r. destruct (IN a Ia) as (I1 & I2).
    assert (S1 : (sin (to_rad u a) < 1)%R) by (rewrite <- sin_PI2; apply sin_increasing_1; lra). assert (S2 : (-1 < sin (to_rad u a))%R) by (replace (-1)%R with (sin (- (PI / 2))) by (rewrite sin_neg, sin_PI2; ring); apply sin_increasing_1; lra). nra. }
  assert (SD : exists A', steering_matrix (gd_array g') src lam false "all" true = Ok (Flat A', [])).
  { destruct (ULA_facts _ _ _ _ Eg') as (PL' & Pe' & I' & DT' & _). apply mk_FF1_ok in Es as (_ & K & V & ->). apply (steering_defined (gd_array g') (FF1 (nd_data (vec1 doas)) u) lam "all" [] true (steering_nonzero _ _ _ _ _ _ _ HA) I' DT');
    [rewrite (pl_ndim _ _ _ PL'); lia | rewrite (pl_size _ _ _ PL'), ULA_indices_length; lia | unfold select_perturbations, perturbations; now rewrite Pe' | intros ? []]. }
  destruct SD as (A' & HA').
  destruct (Prop_refine.C107_default_grid _ d nm' g' lam doas u src A' Eg' Es HA' Hd H2 IN ND (conj (proj1 Hk) Hkn)) as (z1 & H1).
  destruct (Prop_offgrid2.C108_min_norm_default_grid _ d nm' g' lam doas u src A' Eg' Es HA' Hd H2 IN ND (conj (proj1 Hk) Hkn)) as (z2 & H3).
  exists (Nat.max z1 z2). intros size Hs. destruct (H1 size ltac:(lia)) as (q & Eq & Lq & HM). destruct (H3 size ltac:(lia)) as (q2 & Eq2 & _ & HN). rewrite Eq in Eq2. injection Eq2 as _ <-. exists q. split; [exact Eq|]. split; [exact Lq|].
  intros P Rm s fb t HX HP Hp Ht. destruct (smoothed_scene n l d nm g lam doas u src A P Rm s fb Eg Es HA HX HP Hp Hd Hl ND W Hk Hln nm' g' Eg') as (A2 & B & P' & HA2 & _ & XB & PB & HB).
  rewrite HA' in HA2. injection HA2 as <-. destruct (HM P' B s t XB PB Ht) as (n1 & e1 & He1 & G1). destruct (HN P' B s t XB PB Ht) as (n2 & e2 & He2 & G2).
  exists (Nat.max n1 n2), (Rmin e1 e2). split; [now apply Rmin_pos|]. intros Rm' HH N' DS. destruct (HB Rm' HH N') as (B' & EB & HB' & NB & CL). exists B'. split; [exact EB|].
  pose proof (Rmin_l e1 e2). pose proof (Rmin_r e1 e2). intros eigh rs D ni EC HD Hi. split.
  - intros fp asort ca h0 e0 h1 e h FP AS HNe RE. apply (G1 B' fp asort ca h0 e0 h1 eigh e h rs D ni HB' NB ltac:(lra) FP AS HNe EC); [now apply reaches_music | exact HD | lia].
  - apply (G2 B' eigh rs D ni HB' NB ltac:(lra) EC HD). lia.
Qed.

(** Without smoothing, fully coherent sources count as a single one, however many they are and however many snapshots are taken. *)
Theorem C110_coherent_counted_once : forall (Rm A P : cmat) s (q : nat -> C), exact_cov Rm A P s -> inj A -> 2 <= nr A -> (0 < s)%R ->
  (forall i j, i < nc A -> j < nc A -> ent P i j = (q i * Cconj (q j))%C) -> (exists i, i < nc A /\ q i <> RtoC 0) ->
  exists c N0, (0 < c)%R /\ forall eigvalsh (Rm' : cmat) N, eigvalsh_contract (nr A) eigvalsh -> hermitian Rm' -> nr Rm' = nr A -> (N0 <= N)%R ->
    (N * (distance Rm Rm' * distance Rm Rm') <= c * ln N)%R -> mdl eigvalsh (EMat Rm') N = Ok 1.
Proof.
  intros Rm A P s q (P1 & P2 & HX) IA Hn Hs HP (i0 & Hi0 & Q0). set (a := mvec A q). set (A1 := Mat (nr A) 1 (fun i _ => a i)).
  assert (X1 : exact_cov Rm A1 (mid 1) s).
  { split; [reflexivity|]. split; [reflexivity|]. etransitivity; [exact HX|]. split; [reflexivity|]. split; [reflexivity|]. intros i j Hi Hj. cbn [madd mmul mscal mid A1 nr nc] in Hi, Hj |- *. cbn [madd ent mscal mid A1 nr nc]. f_equal. rewrite apa_ent by assumption. rewrite (apa_ent A1 (mid 1)) by reflexivity. cbn [A1 nc csum ent mid Nat.eqb].
    transitivity (a i * Cconj (a j))%C; [|ring]. unfold a, mvec.
    rewrite csum_conj, <- csum_scal. apply csum_ext. intros k Hk. rewrite <- csum_scal_r. apply csum_ext. intros r Hr. rewrite HP, Cmult_conj by assumption. ring. }
  assert (I1 : inj A1).
  { intros x Hx j Hj. cbn [A1 nc] in Hj. assert (j = 0) as -> by lia. destruct (Ceq_dec (x 0) (RtoC 0)) as [E|E]; [exact E|]. elim Q0. apply (IA q); [|exact Hi0]. intros i Hi. specialize (Hx i Hi). unfold mvec, A1 in Hx. cbn [nc ent csum] in Hx.
    fold a. assert (Y : (a i * x 0%nat)%C = RtoC 0) by (rewrite <- Hx; ring). destruct (Cmult_0 _ _ Y) as [Z|Z]; [exact Z | contradiction]. }
  assert (PD1 : pd (mid 1)) by (apply (pd_eq (mdiag 1 (fun _ => RtoC 1))); [reflexivity | apply pd_mdiag; intros; lra]).
  destruct (C100_covariance Rm A1 (mid 1) s X1 I1 PD1 Hs ltac:(cbn; lia)) as (c & N0 & Hc & H). exists c, N0. split; [exact Hc|]. intros ev Rm' N VC HH N' LN B. exact (proj2 (H ev Rm' N VC HH N' LN) B).
Qed.

Print Assumptions C110_never_amplifies. Print Assumptions C110_detect_then_esprit. Print Assumptions C110_detect_then_root_music. Print Assumptions C110_music. Print Assumptions C110_coherent_counted_once.
