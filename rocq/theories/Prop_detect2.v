(** Detect the number of sources, then locate them without a search grid (C103): MDL followed by ESPRIT or root-MUSIC, on uniform linear arrays and on coarrays. *)
From Coq Require Import Lra Sorted Permutation.
From Verif Require Import Base_Np Base_Trig Base_Lin S_model M_utils S_utils P_utils M_sources S_sources P_sources P_sources3 M_array S_array P_array P_array2 P_array3 M_designs S_designs P_designs M_coarray S_coarray P_coarray P_coarray2 P_model
  M_grid S_grid P_grid M_core P_core P_core2 M_sparse M_subspace S_subspace P_subspace P_subspace2 P_subspace3 P_subspace5 P_perf5 M_srcnum M_pipeline S_pipeline P_pipeline P_pipeline2 P_pipeline3 P_gauss P_fta P_fta2 Prop_pipeline Prop_pipeline2
  S_stable P_stable P_stable3 P_stable5 Prop_stable S_invar S_invar2 P_invar4 Prop_invar2 P_cont P_cont4 P_cont5 P_cont6 S_cont Prop_cont S_rootc P_rootc P_rootc2 P_rootc3 P_rootc4 P_rootc5 Prop_rootc S_detect P_detect Prop_detect.
From Verif Require P_oracles Prop_subspace Prop_esprit Prop_coarray Prop_coarray2 Prop_pipeline5.
Import Prop_pipeline5.
Open Scope nat_scope.

(** a property of every Hermitian matrix within eps0 of an exact covariance holds together with the right count, once the errors are within the budget of MDL *)
Lemma detect_near (Good : cmat -> Prop) (Rm A P : cmat) s m eps0 : exact_cov Rm A P s -> inj A -> pd P -> (0 < s)%R -> nr A = m -> nc A < m -> (0 < eps0)%R ->
  (forall Rm' : cmat, hermitian Rm' -> nr Rm' = m -> (distance Rm Rm' < eps0)%R -> Good Rm') ->
  exists c N0, (0 < c)%R /\ forall (Rm' : cmat) N, hermitian Rm' -> nr Rm' = m -> (N0 <= N)%R -> (N * (distance Rm Rm' * distance Rm Rm') <= c * ln N)%R ->
    (forall eigvalsh, eigvalsh_contract m eigvalsh -> mdl eigvalsh (EMat Rm') N = Ok (nc A)) /\ Good Rm'.
Proof.
  intros HX HA HP Hs A1 A2 He HG. destruct (C100_covariance Rm A P s HX HA HP Hs ltac:(lia)) as (c & N0 & Hc & HC). destruct (log_small c eps0 Hc He) as (N1 & H1).
  exists c, (Rmax N0 N1). split; [exact Hc|]. intros Rm' N HH N' LN B.
  assert (L0 : (N0 <= N)%R) by (eapply Rle_trans; [apply Rmax_l | exact LN]). assert (L1 : (N1 <= N)%R) by (eapply Rle_trans; [apply Rmax_r | exact LN]). split.
  - intros ev VC. destruct (HC ev Rm' N ltac:(rewrite A1; exact VC) HH ltac:(congruence) L0) as (_ & HM). now apply HM.
  - apply HG; [exact HH|exact N'|]. apply (H1 N); [exact L1|apply sqrt_pos|exact B].
Qed.
Lemma along (Q : cmat -> R -> Prop) (Rm : cmat) m (Ns : nat -> R) (Rs : nat -> cmat) c N0 : (0 < c)%R ->
  (forall (Rm' : cmat) N, hermitian Rm' -> nr Rm' = m -> (N0 <= N)%R -> (N * (distance Rm Rm' * distance Rm Rm') <= c * ln N)%R -> Q Rm' N) ->
  unbounded Ns -> (forall i, hermitian (Rs i) /\ nr (Rs i) = m) -> faster_than_log Ns Rs Rm -> exists i0, forall i, i0 <= i -> Q (Rs i) (Ns i).
Proof.
  intros Hc H U HR F. destruct (U N0) as (i1 & H1), (F c Hc) as (i2 & H2). exists (Nat.max i1 i2). intros i Hi. destruct (HR i). apply H; auto; [apply H1|apply H2]; lia.
Qed.

Lemma view_all d D lam u doas : 1 <= D -> (0 < d)%R -> (0 < lam)%R -> in_view d D lam u doas -> in_view d 1 lam u doas.
Proof.
  intros HD Hd Hl IV a Ia. destruct (IV a Ia) as (T & W). split; [exact T|]. change (INR 1) with 1%R. rewrite Rmult_1_r. apply le_INR in HD. change (INR 1) with 1%R in HD.
  set (x := (d * sin (to_rad u a))%R). replace (d * INR D * sin (to_rad u a))%R with (x * INR D)%R in W by (unfold x; ring). clearbody x. clear T. split; nra.
Qed.

(** C103: MDL, then ESPRIT *)
Theorem C103_detect_then_esprit : forall n d name g lam doas u src (A P Rm : cmat) s D formulation rw tol,
  mk_ULA (Z.of_nat n) (D0Scalar d) name no_kwargs = Ok g -> mk_FF1 (vec1 doas) u = Ok src ->
  steering_matrix (gd_array g) src lam false "all" true = Ok (Flat A, []) -> exact_cov Rm A P s -> pd P -> (0 < s)%R ->
  (0 < d)%R -> (0 < lam)%R -> NoDup doas -> in_view d D lam u doas ->
  1 <= D -> 1 <= List.length doas -> List.length doas + D <= n ->
  formulation = "tls"%string \/ formulation = "ls"%string -> Prop_esprit.harmless_weights rw n D -> (0 < tol)%R ->
  exists c N0, (0 < c)%R /\ forall (Rm' : cmat) N, hermitian Rm' -> nr Rm' = n -> (N0 <= N)%R -> (N * (distance Rm Rm' * distance Rm Rm') <= c * ln N)%R ->
    forall eigvalsh eigh solve eigvals, eigvalsh_contract n eigvalsh -> eigh_contract (Nat.max n (2 * List.length doas)) eigh -> solve_contract (List.length doas) solve -> eigvals_contract (List.length doas) eigvals ->
    exists k l, mdl eigvalsh (EMat Rm') N = Ok k /\ k = List.length doas /\
      esprit eigh solve eigvals lam Rm' (Z.of_nat k) (Some d) (Z.of_nat D) formulation rw u = Ok (true, (map Some l, u)) /\ accurate tol doas l.
Proof.
  intros n d nm g lam doas u src A P Rm s D f rw tol Eg Es HA HX HP Hs Hd Hl ND W HD Hk Hkn HF HW Ht. pose proof (view_all d D lam u doas HD Hd Hl W) as W1.
  destruct (C101_esprit_on_ula n d nm g lam doas u src A P Rm s D f rw tol Eg Es HA HX HP Hd Hl ND W HD Hk Hkn HF HW Ht) as (eps & He & H).
  apply mk_FF1_ok in Es as (_ & K & V & ->). cbn [vec1 nd_data] in *. destruct (ULA_facts _ _ _ _ Eg) as (PL & Pe & I & _ & _).
  pose proof (ula_steering g n d u doas lam PL Pe I (conj K V) A HA) as EA. pose proof EA as (A1 & A2 & _). cbn [ula_matrix nr nc] in A1, A2. rewrite map_length in A2.
  assert (IA : inj A) by (apply (Base_Lin.inj_eq (ula_matrix n (map (zof d lam u) doas))); [now symmetry|]; apply ula_inj; [now apply zof_nodup|rewrite map_length; lia]).
  destruct (detect_near (fun Rm' => forall eigh solve eigvals, eigh_contract (Nat.max n (2 * List.length doas)) eigh -> solve_contract (List.length doas) solve -> eigvals_contract (List.length doas) eigvals ->
    exists l, esprit eigh solve eigvals lam Rm' (Z.of_nat (List.length doas)) (Some d) (Z.of_nat D) f rw u = Ok (true, (map Some l, u)) /\ accurate tol doas l) Rm A P s n eps HX IA HP Hs A1 ltac:(lia) He) as (c & N0 & Hc & HN).
  - intros Rm' HH N' DS eigh solve eigvals EC SC VC. now apply H.
  - exists c, N0. split; [exact Hc|]. intros Rm' N HH N' LN B ev eigh solve eigvals VS EC SC VC. destruct (HN Rm' N HH N' LN B) as (M & G). destruct (G eigh solve eigvals EC SC VC) as (l & E & AC).
    exists (List.length doas), l. split; [rewrite <- A2; now apply M|]. auto.
Qed.
(** MDL, then root-MUSIC *)
Theorem C103_detect_then_root_music : forall n d name g lam doas u src (A P Rm : cmat) s tol,
  mk_ULA (Z.of_nat n) (D0Scalar d) name no_kwargs = Ok g -> mk_FF1 (vec1 doas) u = Ok src ->
  steering_matrix (gd_array g) src lam false "all" true = Ok (Flat A, []) -> exact_cov Rm A P s -> pd P -> (0 < s)%R ->
  (0 < d)%R -> (0 < lam)%R -> NoDup doas -> in_view d 1 lam u doas -> 1 <= List.length doas < n -> (0 < tol)%R ->
  exists c N0, (0 < c)%R /\ forall (Rm' : cmat) N, hermitian Rm' -> nr Rm' = n -> (N0 <= N)%R -> (N * (distance Rm Rm' * distance Rm Rm') <= c * ln N)%R ->
    forall eigvalsh eigh roots argsort, eigvalsh_contract n eigvalsh -> eigh_contract n eigh -> roots_contract roots -> (forall v, is_argsort v (argsort v)) -> no_exact_null eigh Rm' (List.length doas) ->
    exists k l, mdl eigvalsh (EMat Rm') N = Ok k /\ k = List.length doas /\
      root_music eigh roots argsort lam Rm' (Z.of_nat k) (Some d) u = Ok (true, Some (map Some l, u)) /\ accurate tol doas l.
Proof.
  intros n d nm g lam doas u src A P Rm s tol Eg Es HA HX HP Hs Hd Hl ND W Hk Ht.
  destruct (C102_root_music_on_ula n d nm g lam doas u src A P Rm s tol Eg Es HA HX HP Hd Hl ND W Hk Ht) as (eps & He & H).
  apply mk_FF1_ok in Es as (_ & K & V & ->). cbn [vec1 nd_data] in *. destruct (ULA_facts _ _ _ _ Eg) as (PL & Pe & I & _ & _).
  pose proof (ula_steering g n d u doas lam PL Pe I (conj K V) A HA) as EA. pose proof EA as (A1 & A2 & _). cbn [ula_matrix nr nc] in A1, A2. rewrite map_length in A2.
  assert (IA : inj A) by (apply (Base_Lin.inj_eq (ula_matrix n (map (zof d lam u) doas))); [now symmetry|]; apply ula_inj; [now apply zof_nodup|rewrite map_length; lia]).
  destruct (detect_near (fun Rm' => forall eigh roots argsort, eigh_contract n eigh -> roots_contract roots -> (forall v, is_argsort v (argsort v)) -> no_exact_null eigh Rm' (List.length doas) ->
    exists l, root_music eigh roots argsort lam Rm' (Z.of_nat (List.length doas)) (Some d) u = Ok (true, Some (map Some l, u)) /\ accurate tol doas l) Rm A P s n eps HX IA HP Hs A1 ltac:(lia) He) as (c & N0 & Hc & HN).
  - intros Rm' HH N' DS eigh roots asort EC RC AC NN. now apply H.
  - exists c, N0. split; [exact Hc|]. intros Rm' N HH N' LN B ev eigh roots asort VS EC RC AS NN. destruct (HN Rm' N HH N' LN B) as (M & G). destruct (G eigh roots asort EC RC AS NN) as (l & E & AC).
    exists (List.length doas), l. split; [rewrite <- A2; now apply M|]. auto.
Qed.
(** along a growing record: the programs that do not know the number of sources are consistent *)
Theorem C103_consistency : forall n d name g lam doas u src (A P Rm : cmat) s D formulation rw tol (Ns : nat -> R) (Rs : nat -> cmat),
  mk_ULA (Z.of_nat n) (D0Scalar d) name no_kwargs = Ok g -> mk_FF1 (vec1 doas) u = Ok src ->
  steering_matrix (gd_array g) src lam false "all" true = Ok (Flat A, []) -> exact_cov Rm A P s -> pd P -> (0 < s)%R ->
  (0 < d)%R -> (0 < lam)%R -> NoDup doas -> in_view d D lam u doas ->
  1 <= D -> 1 <= List.length doas -> List.length doas + D <= n ->
  formulation = "tls"%string \/ formulation = "ls"%string -> Prop_esprit.harmless_weights rw n D -> (0 < tol)%R ->
  unbounded Ns -> (forall i, hermitian (Rs i) /\ nr (Rs i) = n) -> faster_than_log Ns Rs Rm ->
  exists i0, forall i, i0 <= i -> forall eigvalsh eigh, eigvalsh_contract n eigvalsh -> eigh_contract (Nat.max n (2 * List.length doas)) eigh ->
    exists k, mdl eigvalsh (EMat (Rs i)) (Ns i) = Ok k /\ k = List.length doas /\
      (forall solve eigvals, solve_contract (List.length doas) solve -> eigvals_contract (List.length doas) eigvals ->
        exists l, esprit eigh solve eigvals lam (Rs i) (Z.of_nat k) (Some d) (Z.of_nat D) formulation rw u = Ok (true, (map Some l, u)) /\ accurate tol doas l) /\
      (forall roots argsort, roots_contract roots -> (forall v, is_argsort v (argsort v)) -> no_exact_null eigh (Rs i) (List.length doas) ->
        exists l, root_music eigh roots argsort lam (Rs i) (Z.of_nat k) (Some d) u = Ok (true, Some (map Some l, u)) /\ accurate tol doas l).
Proof.
  intros n d nm g lam doas u src A P Rm s D f rw tol Ns Rs Eg Es HA HX HP Hs Hd Hl ND W HD Hk Hkn HF HW Ht U HR F. pose proof (view_all d D lam u doas HD Hd Hl W) as W1.
  destruct (C103_detect_then_esprit n d nm g lam doas u src A P Rm s D f rw tol Eg Es HA HX HP Hs Hd Hl ND W HD Hk Hkn HF HW Ht) as (c1 & N1 & Hc1 & H1).
  destruct (C103_detect_then_root_music n d nm g lam doas u src A P Rm s tol Eg Es HA HX HP Hs Hd Hl ND W1 ltac:(lia) Ht) as (c2 & N2 & Hc2 & H2).
  destruct (along _ Rm n Ns Rs c1 N1 Hc1 H1 U HR F) as (i1 & G1). destruct (along _ Rm n Ns Rs c2 N2 Hc2 H2 U HR F) as (i2 & G2).
  exists (Nat.max i1 i2). intros i Hi ev eigh VS EC. destruct (G1 i ltac:(lia) ev eigh solve0 eigvals_ref VS EC (solve0_contract _) (eigvals_ref_contract _)) as (k & _ & M & -> & _).
  assert (EC' : eigh_contract n eigh) by (intros X HX' LX; apply EC; [exact HX'|lia]).
  exists (List.length doas). split; [exact M|]. split; [reflexivity|]. split.
  - intros solve eigvals SC VC. destruct (G1 i ltac:(lia) ev eigh solve eigvals VS EC SC VC) as (k & l & _ & -> & R). now exists l.
  - intros roots asort RC AS NN. destruct (G2 i ltac:(lia) ev eigh roots asort VS EC' RC AS NN) as (k & l & _ & -> & R). now exists l.
Qed.

(** *** coarrays *)
Lemma coarray_lipschitz g l d w0 calls m (Rm : cmat) method : places_1d g l d -> mk_WeightFunction1D g = Ok w0 -> first_hole l (Z.of_nat m) -> 1 <= m ->
  nr Rm = List.length l -> nc Rm = List.length l -> method = "da"%string \/ method = "ss"%string ->
  exists Ra K, transform (Acm g (after w0 calls)) Rm method = Ok Ra /\ (0 < K)%R /\ forall Rm' : cmat, hermitian Rm' -> nr Rm' = List.length l -> (distance Rm Rm' < 1)%R ->
    exists Ra', transform (Acm g (after w0 calls)) Rm' method = Ok Ra' /\ hermitian Ra' /\ nr Ra' = m /\ (distance Ra Ra' <= K * distance Rm Rm')%R.
Proof.
  intros PL Hw FH Hm R1 R2 HM. pose proof (places_grid_1d g l d PL) as Hg.
  assert (Nl : l <> []). { intros ->. destruct FH as (_ & _ & X). specialize (X 0%Z ltac:(lia)). destruct X as (? & ? & [] & _). }
  assert (Mp : (0 < IZR (Z.of_nat m))%R) by (apply IZR_lt; lia).
  destruct (Prop_coarray.C39_ss g l w0 calls Rm (Z.of_nat m) Hg Hw Nl FH R1 R2) as (Da & Sm & ED & ES & EG & _).
  destruct HM as [-> | ->].
  - exists Da, (IZR (Z.of_nat m)). split; [exact ED|]. split; [exact Mp|]. intros Rm' HH N DS. pose proof HH as (SQ & _).
    destruct (Prop_coarray.C39_da g l _ w0 calls Rm' (Z.of_nat m) Hg Hw eq_refl Nl FH N ltac:(congruence)) as (D' & ED' & N1 & N2 & _). rewrite Nat2Z.id in N1, N2.
    destruct (da_close g l w0 calls Rm Rm' Da D' (Z.of_nat m) Hg Hw Nl FH R1 R2 N ltac:(congruence) ED ED') as (_ & _ & _ & _ & _ & CL).
    exists D'. split; [exact ED'|]. split; [exact (Prop_coarray.C39_hermitian g l w0 calls Rm' D' Hg Hw Nl N HH ED')|]. split; [exact N1|exact CL].
  - destruct (upper_bound m (fun i => rsum m (fun j => Cmod (ent Da i j)))) as (L & HL & UB).
    assert (M1 : (0 < INR m)%R) by (apply lt_0_INR; lia). assert (Mi : (0 < / IZR (Z.of_nat m))%R) by now apply Rinv_0_lt_compat.
    set (K0 := (INR m * (/ IZR (Z.of_nat m) * INR m))%R). assert (K0p : (0 < K0)%R) by (unfold K0; apply Rmult_lt_0_compat; [exact M1|now apply Rmult_lt_0_compat]).
    exists Sm, (K0 * (2 * L + 1))%R. split; [exact ES|]. split; [apply Rmult_lt_0_compat; lra|]. intros Rm' HH N DS. pose proof HH as (SQ & _).
    destruct (Prop_coarray.C39_ss g l w0 calls Rm' (Z.of_nat m) Hg Hw Nl FH N ltac:(congruence)) as (D' & Sm' & ED' & ES' & EG' & HS' & _).
    destruct (da_close g l w0 calls Rm Rm' Da D' (Z.of_nat m) Hg Hw Nl FH R1 R2 N ltac:(congruence) ED ED') as (N1 & N2 & N3 & N4 & CL & _). rewrite Nat2Z.id in N1, N2, N3, N4.
    exists Sm'. split; [exact ES'|]. split; [exact HS'|]. split; [destruct EG' as (G1 & _); cbn [mscal mmul nr] in G1; congruence|].
    eapply Rle_trans; [apply (gram_close Da D' Sm Sm' m (/ IZR (Z.of_nat m)) L (distance Rm Rm') N1 N2 N3 N4); [exact Mi | apply distance_nonneg | exact EG | exact EG' | | intros i j Hi Hj; apply CL; lia]|].
    + intros i j Hi Hj. eapply Rle_trans; [|apply (UB i Hi)]. apply (P_spectral.rsum_ge m (fun j => Cmod (ent Da i j)) j Hj). intros; apply Cmod_ge_0.
    + pose proof (distance_nonneg Rm Rm') as D0. set (t := distance Rm Rm') in *.
      replace (INR m * (/ IZR (Z.of_nat m) * (INR m * (t * (2 * L + t)))))%R with (K0 * (2 * L + t) * t)%R by (unfold K0; ring). apply Rmult_le_compat_r; [exact D0|]. apply Rmult_le_compat_l; lra.
Qed.
(** the augmented covariance of the true covariance *)
Lemma coarray_exact g l d w0 calls m lam doas u src (A Rm : cmat) p sigma method :
  places_1d g l d -> gd_d0 g = [d] -> NoDup l -> ar_perts (gd_array g) = [] -> scalar_isotropic (gd_array g) ->
  mk_WeightFunction1D g = Ok w0 -> first_hole l (Z.of_nat m) -> mk_FF1 (vec1 doas) u = Ok src ->
  steering_matrix (gd_array g) src lam false "all" true = Ok (Flat A, []) ->
  Rm ==m model_cov A p sigma -> (forall k, k < List.length doas -> (0 < p k)%R) -> (0 < sigma)%R ->
  (0 < d)%R -> (0 < lam)%R -> NoDup doas -> in_view d 1 lam u doas -> 1 <= List.length doas < m -> method = "da"%string \/ method = "ss"%string ->
  nr Rm = List.length l /\ nc Rm = List.length l /\
  exists Av Ra Pa sa, transform (Acm g (after w0 calls)) Rm method = Ok Ra /\ Av ==m ula_matrix m (map (zof d lam u) doas) /\ exact_cov Ra Av Pa sa /\ pd Pa /\ (0 < sa)%R /\ inj Av.
Proof.
  intros PL D0 NDl Pe Iso Hw FH Es HA HRm Hp Hs Hd Hl ND W Hk HM.
  apply mk_FF1_ok in Es as (_ & K & V & ->). cbn [vec1 nd_data] in *. assert (VS : valid_sources (FF1 doas u)) by exact (conj K V).
  assert (Nl : l <> []). { intros ->. destruct FH as (_ & _ & X). specialize (X 0%Z ltac:(lia)). destruct X as (? & ? & [] & _). }
  pose proof (places_grid_1d g l d PL) as Hg.
  assert (Em : Z.of_nat m = Z.of_nat (mv0 g)) by exact (Prop_coarray.C37_first_hole_unique l _ _ FH (mv0_hole g l Hg)).
  destruct (Prop_coarray2.C40_exact g l d w0 calls _ lam p sigma None A Rm PL D0 Hw Nl NDl Pe Iso VS eq_refl HA HRm) as (v & Av & Da & Ev & HAv & ED & HDa).
  assert (VF : places_1d v (ULA_indices (Z.of_nat m)) d /\ ar_perts (gd_array v) = [] /\ scalar_isotropic (gd_array v)).
  { unfold get_virtual_ula in Ev. cbn [acm_array] in Ev. rewrite D0 in Ev. assert (Eo : acm_output_size (Acm g (after w0 calls)) = Z.of_nat (mv0 g)) by exact (central_ula g l Hg w0 Hw calls true). rewrite Eo, <- Em in Ev.
    destruct (ULA_virtual (Z.of_nat m) d (Some (name_or None ("Virtual ULA of " ++ ar_name (gd_array g))))) as (v2 & E2 & X). rewrite Ev in E2. injection E2 as <-. exact X. }
  destruct VF as (PV & PeV & IsoV). pose proof (ula_steering v m d u _ lam PV PeV IsoV VS Av HAv) as EA. pose proof EA as (A1 & A2 & _). cbn [ula_matrix nr nc] in A1, A2. rewrite map_length in A2.
  assert (X0 : exact_cov Da Av (mdiag (nc Av) (fun k => RtoC (p k))) sigma) by (split; [reflexivity|]; split; [reflexivity|]; exact HDa).
  assert (PP : pd (mdiag (nc Av) (fun k => RtoC (p k)))) by (apply pd_mdiag; intros k Hk'; apply Hp; lia).
  pose proof HRm as (R1 & R2 & _). cbn in R1, R2. destruct (response_1d g l d _ lam A PL Pe Iso VS eq_refl HA) as (A3 & _).
  assert (IA : inj Av) by (apply (Base_Lin.inj_eq (ula_matrix m (map (zof d lam u) doas))); [now symmetry|]; apply ula_inj; [now apply zof_nodup|rewrite map_length; lia]).
  split; [congruence|]. split; [congruence|].
  destruct HM as [-> | ->].
  - exists Av, Da, (mdiag (nc Av) (fun k => RtoC (p k))), sigma. auto 10.
  - destruct (Prop_coarray.C39_ss g l w0 calls Rm (Z.of_nat m) Hg Hw Nl FH ltac:(congruence) ltac:(congruence)) as (D' & Sm & ED' & ES & EG & _). rewrite ED in ED'. injection ED' as <-.
    assert (0 < / IZR (Z.of_nat m))%R by (apply Rinv_0_lt_compat, IZR_lt; lia).
    destruct (gram_exact Da Sm Av _ sigma (/ IZR (Z.of_nat m)) X0 IA PP ltac:(lra) ltac:(assumption) EG) as (P' & X1 & PP').
    exists Av, Sm, P', (/ IZR (Z.of_nat m) * (sigma * sigma))%R. split; [exact ES|]. split; [exact EA|]. split; [exact X1|]. split; [exact PP'|]. split; [|exact IA]. apply Rmult_lt_0_compat; [assumption|now apply Rmult_lt_0_compat].
Qed.
(** a property of every Hermitian matrix near an exact covariance of the virtual array, together with the count *)
Lemma coarray_detect (Good : cmat -> Prop) g l d w0 calls m lam doas u src (A Rm : cmat) p sigma method :
  places_1d g l d -> gd_d0 g = [d] -> NoDup l -> ar_perts (gd_array g) = [] -> scalar_isotropic (gd_array g) ->
  mk_WeightFunction1D g = Ok w0 -> first_hole l (Z.of_nat m) -> mk_FF1 (vec1 doas) u = Ok src ->
  steering_matrix (gd_array g) src lam false "all" true = Ok (Flat A, []) ->
  Rm ==m model_cov A p sigma -> (forall k, k < List.length doas -> (0 < p k)%R) -> (0 < sigma)%R ->
  (0 < d)%R -> (0 < lam)%R -> NoDup doas -> in_view d 1 lam u doas -> 1 <= List.length doas < m -> method = "da"%string \/ method = "ss"%string ->
  (forall (Av Pa Ra : cmat) sa, Av ==m ula_matrix m (map (zof d lam u) doas) -> exact_cov Ra Av Pa sa -> pd Pa ->
     exists tau, (0 < tau)%R /\ forall Ra' : cmat, hermitian Ra' -> nr Ra' = m -> (distance Ra Ra' < tau)%R -> Good Ra') ->
  exists c N0, (0 < c)%R /\ forall (Rm' : cmat) N, hermitian Rm' -> nr Rm' = List.length l -> (N0 <= N)%R -> (N * (distance Rm Rm' * distance Rm Rm') <= c * ln N)%R ->
    exists Ra, transform (Acm g (after w0 calls)) Rm' method = Ok Ra /\ (forall eigvalsh, eigvalsh_contract m eigvalsh -> mdl eigvalsh (EMat Ra) N = Ok (List.length doas)) /\ Good Ra.
Proof.
  intros PL D0 NDl Pe Iso Hw FH Es HA HRm Hp Hs Hd Hl ND W Hk HM HG.
  destruct (coarray_exact g l d w0 calls m lam doas u src A Rm p sigma method PL D0 NDl Pe Iso Hw FH Es HA HRm Hp Hs Hd Hl ND W Hk HM) as (R1 & R2 & Av & Ra & Pa & sa & ER & EA & XA & PA & Sa & IA).
  pose proof EA as (A1 & A2 & _). cbn [ula_matrix nr nc] in A1, A2. rewrite map_length in A2.
  destruct (HG Av Pa Ra sa EA XA PA) as (tau & Htau & H).
  destruct (detect_near Good Ra Av Pa sa m tau XA IA PA Sa A1 ltac:(lia) Htau H) as (c0 & N0 & Hc0 & HN).
  destruct (coarray_lipschitz g l d w0 calls m Rm method PL Hw FH ltac:(lia) R1 R2 HM) as (Ra2 & K & ER2 & HK & HL). rewrite ER in ER2. injection ER2 as <-.
  assert (KK : (0 < K * K)%R) by now apply Rmult_lt_0_compat. assert (Hc : (0 < c0 / (K * K))%R) by now apply Rdiv_lt_0_compat. destruct (log_small _ 1 Hc ltac:(lra)) as (N1 & H1).
  exists (c0 / (K * K))%R, (Rmax (Rmax N0 N1) 1). split; [exact Hc|]. intros Rm' N HH N' LN B.
  assert (L0 : (N0 <= N)%R) by (eapply Rle_trans; [|exact LN]; eapply Rle_trans; [|apply Rmax_l]; apply Rmax_l). assert (L1 : (N1 <= N)%R) by (eapply Rle_trans; [|exact LN]; eapply Rle_trans; [|apply Rmax_l]; apply Rmax_r).
  assert (L2 : (1 <= N)%R) by (eapply Rle_trans; [apply Rmax_r|exact LN]).
  destruct (HL Rm' HH N' ltac:(apply (H1 N); [exact L1|apply sqrt_pos|exact B])) as (Ra' & ER' & HH' & N2 & CL). exists Ra'. split; [exact ER'|]. rewrite <- A2. apply HN; try assumption.
  pose proof (distance_nonneg Ra Ra') as P1. pose proof (distance_nonneg Rm Rm') as P2. set (t := distance Rm Rm') in *. set (t' := distance Ra Ra') in *.
  assert (Q : (t' * t' <= (K * K) * (t * t))%R). { replace ((K * K) * (t * t))%R with ((K * t) * (K * t))%R by ring. now apply Rmult_le_compat. }
  apply Rle_trans with (N * ((K * K) * (t * t)))%R; [apply Rmult_le_compat_l; lra|]. replace (N * (K * K * (t * t)))%R with ((K * K) * (N * (t * t)))%R by ring.
  apply Rle_trans with ((K * K) * (c0 / (K * K) * ln N))%R; [apply Rmult_le_compat_l; lra|]. right. field. intros E. rewrite E in KK. lra.
Qed.
(** C103 on coarrays, also with more sources than sensors: MDL on the augmented covariance, then ESPRIT *)
Theorem C103_coarray_esprit : forall g l d w0 calls m lam doas u src (A Rm : cmat) p sigma D method formulation rw tol,
  places_1d g l d -> gd_d0 g = [d] -> NoDup l -> ar_perts (gd_array g) = [] -> scalar_isotropic (gd_array g) ->
  mk_WeightFunction1D g = Ok w0 -> first_hole l (Z.of_nat m) -> mk_FF1 (vec1 doas) u = Ok src ->
  steering_matrix (gd_array g) src lam false "all" true = Ok (Flat A, []) ->
  Rm ==m model_cov A p sigma -> (forall k, k < List.length doas -> (0 < p k)%R) -> (0 < sigma)%R ->
  (0 < d)%R -> (0 < lam)%R -> NoDup doas -> in_view d D lam u doas ->
  1 <= D -> 1 <= List.length doas -> List.length doas + D <= m ->
  method = "da"%string \/ method = "ss"%string -> formulation = "tls"%string \/ formulation = "ls"%string -> Prop_esprit.harmless_weights rw m D -> (0 < tol)%R ->
  exists c N0, (0 < c)%R /\ forall (Rm' : cmat) N, hermitian Rm' -> nr Rm' = List.length l -> (N0 <= N)%R -> (N * (distance Rm Rm' * distance Rm Rm') <= c * ln N)%R ->
    exists Ra, transform (Acm g (after w0 calls)) Rm' method = Ok Ra /\
      forall eigvalsh eigh solve eigvals, eigvalsh_contract m eigvalsh -> eigh_contract (Nat.max m (2 * List.length doas)) eigh -> solve_contract (List.length doas) solve -> eigvals_contract (List.length doas) eigvals ->
      exists k r, mdl eigvalsh (EMat Ra) N = Ok k /\ k = List.length doas /\
        esprit eigh solve eigvals lam Ra (Z.of_nat k) (Some d) (Z.of_nat D) formulation rw u = Ok (true, (map Some r, u)) /\ accurate tol doas r.
Proof.
  intros g l d w0 calls m lam doas u src A Rm p sigma D method f rw tol PL D0 NDl Pe Iso Hw FH Es HA HRm Hp Hs Hd Hl ND W HD Hk Hkm HM HF HW Ht. pose proof (view_all d D lam u doas HD Hd Hl W) as W1.
  destruct (coarray_detect (fun Ra => forall eigh solve eigvals, eigh_contract (Nat.max m (2 * List.length doas)) eigh -> solve_contract (List.length doas) solve -> eigvals_contract (List.length doas) eigvals ->
      exists r, esprit eigh solve eigvals lam Ra (Z.of_nat (List.length doas)) (Some d) (Z.of_nat D) f rw u = Ok (true, (map Some r, u)) /\ accurate tol doas r)
      g l d w0 calls m lam doas u src A Rm p sigma method PL D0 NDl Pe Iso Hw FH Es HA HRm Hp Hs Hd Hl ND W1 ltac:(lia) HM) as (c & N0 & Hc & H).
  - apply mk_FF1_ok in Es as (_ & K & V & _). cbn [vec1 nd_data] in *. intros Av Pa Ra sa EA XA PA. destruct (esprit_ula_cont m d lam u doas Av Pa sa Ra D f rw tol Hd Hl K V ND W EA XA PA HD Hk Hkm HF HW Ht) as (tau & Htau & H).
    exists tau. split; [exact Htau|]. intros Ra' HH N DS eigh solve eigvals EC SC VC. now apply H.
  - exists c, N0. split; [exact Hc|]. intros Rm' N HH N' LN B. destruct (H Rm' N HH N' LN B) as (Ra & ER & M & G). exists Ra. split; [exact ER|]. intros ev eigh solve eigvals VS EC SC VC.
    destruct (G eigh solve eigvals EC SC VC) as (r & E & AC). exists (List.length doas), r. split; [now apply M|]. auto.
Qed.
(** and root-MUSIC *)
Theorem C103_coarray_root_music : forall g l d w0 calls m lam doas u src (A Rm : cmat) p sigma method tol,
  places_1d g l d -> gd_d0 g = [d] -> NoDup l -> ar_perts (gd_array g) = [] -> scalar_isotropic (gd_array g) ->
  mk_WeightFunction1D g = Ok w0 -> first_hole l (Z.of_nat m) -> mk_FF1 (vec1 doas) u = Ok src ->
  steering_matrix (gd_array g) src lam false "all" true = Ok (Flat A, []) ->
  Rm ==m model_cov A p sigma -> (forall k, k < List.length doas -> (0 < p k)%R) -> (0 < sigma)%R ->
  (0 < d)%R -> (0 < lam)%R -> NoDup doas -> in_view d 1 lam u doas -> 1 <= List.length doas < m -> method = "da"%string \/ method = "ss"%string -> (0 < tol)%R ->
  exists c N0, (0 < c)%R /\ forall (Rm' : cmat) N, hermitian Rm' -> nr Rm' = List.length l -> (N0 <= N)%R -> (N * (distance Rm Rm' * distance Rm Rm') <= c * ln N)%R ->
    exists Ra, transform (Acm g (after w0 calls)) Rm' method = Ok Ra /\
      forall eigvalsh eigh roots argsort, eigvalsh_contract m eigvalsh -> eigh_contract m eigh -> roots_contract roots -> (forall v, is_argsort v (argsort v)) -> no_exact_null eigh Ra (List.length doas) ->
      exists k r, mdl eigvalsh (EMat Ra) N = Ok k /\ k = List.length doas /\
        root_music eigh roots argsort lam Ra (Z.of_nat k) (Some d) u = Ok (true, Some (map Some r, u)) /\ accurate tol doas r.
Proof.
  intros g l d w0 calls m lam doas u src A Rm p sigma method tol PL D0 NDl Pe Iso Hw FH Es HA HRm Hp Hs Hd Hl ND W Hk HM Ht.
  destruct (coarray_detect (fun Ra => forall eigh roots argsort, eigh_contract m eigh -> roots_contract roots -> (forall v, is_argsort v (argsort v)) -> no_exact_null eigh Ra (List.length doas) ->
        exists r, root_music eigh roots argsort lam Ra (Z.of_nat (List.length doas)) (Some d) u = Ok (true, Some (map Some r, u)) /\ accurate tol doas r)
      g l d w0 calls m lam doas u src A Rm p sigma method PL D0 NDl Pe Iso Hw FH Es HA HRm Hp Hs Hd Hl ND W Hk HM) as (c & N0 & Hc & H).
  - apply mk_FF1_ok in Es as (_ & K & V & _). cbn [vec1 nd_data] in *. intros Av Pa Ra sa EA XA PA. destruct (root_ula_cont m d lam u doas Av Pa Ra sa tol Hd Hl K V ND W EA XA PA Hk Ht) as (tau & Htau & H).
    exists tau. split; [exact Htau|]. intros Ra' HH N DS eigh roots asort EC RC AS NN. now apply H.
  - exists c, N0. split; [exact Hc|]. intros Rm' N HH N' LN B. destruct (H Rm' N HH N' LN B) as (Ra & ER & M & G). exists Ra. split; [exact ER|]. intros ev eigh roots asort VS EC RC AS NN.
    destruct (G eigh roots asort EC RC AS NN) as (r & E & AC). exists (List.length doas), r. split; [now apply M|]. auto.
Qed.
(** along a growing record, with more sources than sensors and an unknown number of sources *)
Theorem C103_coarray_consistency : forall g l d w0 calls m lam doas u src (A Rm : cmat) p sigma D method formulation rw tol (Ns : nat -> R) (Rs : nat -> cmat),
  places_1d g l d -> gd_d0 g = [d] -> NoDup l -> ar_perts (gd_array g) = [] -> scalar_isotropic (gd_array g) ->
  mk_WeightFunction1D g = Ok w0 -> first_hole l (Z.of_nat m) -> mk_FF1 (vec1 doas) u = Ok src ->
  steering_matrix (gd_array g) src lam false "all" true = Ok (Flat A, []) ->
  Rm ==m model_cov A p sigma -> (forall k, k < List.length doas -> (0 < p k)%R) -> (0 < sigma)%R ->
  (0 < d)%R -> (0 < lam)%R -> NoDup doas -> in_view d D lam u doas ->
  1 <= D -> 1 <= List.length doas -> List.length doas + D <= m ->
  method = "da"%string \/ method = "ss"%string -> formulation = "tls"%string \/ formulation = "ls"%string -> Prop_esprit.harmless_weights rw m D -> (0 < tol)%R ->
  unbounded Ns -> (forall i, hermitian (Rs i) /\ nr (Rs i) = List.length l) -> faster_than_log Ns Rs Rm ->
  exists i0, forall i, i0 <= i -> exists Ra, transform (Acm g (after w0 calls)) (Rs i) method = Ok Ra /\
    forall eigvalsh eigh, eigvalsh_contract m eigvalsh -> eigh_contract (Nat.max m (2 * List.length doas)) eigh ->
    exists k, mdl eigvalsh (EMat Ra) (Ns i) = Ok k /\ k = List.length doas /\
      (forall solve eigvals, solve_contract (List.length doas) solve -> eigvals_contract (List.length doas) eigvals ->
        exists r, esprit eigh solve eigvals lam Ra (Z.of_nat k) (Some d) (Z.of_nat D) formulation rw u = Ok (true, (map Some r, u)) /\ accurate tol doas r) /\
      (forall roots argsort, roots_contract roots -> (forall v, is_argsort v (argsort v)) -> no_exact_null eigh Ra (List.length doas) ->
        exists r, root_music eigh roots argsort lam Ra (Z.of_nat k) (Some d) u = Ok (true, Some (map Some r, u)) /\ accurate tol doas r).
Proof.
  intros g l d w0 calls m lam doas u src A Rm p sigma D method f rw tol Ns Rs PL D0 NDl Pe Iso Hw FH Es HA HRm Hp Hs Hd Hl ND W HD Hk Hkm HM HF HW Ht U HR F. pose proof (view_all d D lam u doas HD Hd Hl W) as W1.
  destruct (C103_coarray_esprit g l d w0 calls m lam doas u src A Rm p sigma D method f rw tol PL D0 NDl Pe Iso Hw FH Es HA HRm Hp Hs Hd Hl ND W HD Hk Hkm HM HF HW Ht) as (c1 & N1 & Hc1 & H1).
  destruct (C103_coarray_root_music g l d w0 calls m lam doas u src A Rm p sigma method tol PL D0 NDl Pe Iso Hw FH Es HA HRm Hp Hs Hd Hl ND W1 ltac:(lia) HM Ht) as (c2 & N2 & Hc2 & H2).
  destruct (along _ Rm _ Ns Rs c1 N1 Hc1 H1 U HR F) as (i1 & G1). destruct (along _ Rm _ Ns Rs c2 N2 Hc2 H2 U HR F) as (i2 & G2).
  exists (Nat.max i1 i2). intros i Hi. destruct (G1 i ltac:(lia)) as (Ra & ER & G1'). destruct (G2 i ltac:(lia)) as (Ra2 & ER2 & G2'). rewrite ER in ER2. injection ER2 as <-. exists Ra. split; [exact ER|].
  intros ev eigh VS EC. destruct (G1' ev eigh solve0 eigvals_ref VS EC (solve0_contract _) (eigvals_ref_contract _)) as (k & _ & M & -> & _).
  assert (EC' : eigh_contract m eigh) by (intros X HX' LX; apply EC; [exact HX'|lia]).
  exists (List.length doas). split; [exact M|]. split; [reflexivity|]. split.
  - intros solve eigvals SC VC. destruct (G1' ev eigh solve eigvals VS EC SC VC) as (k & r & _ & -> & R). now exists r.
  - intros roots asort RC AS NN. destruct (G2' ev eigh roots asort VS EC' RC AS NN) as (k & r & _ & -> & R). now exists r.
Qed.

(** *** a concrete record: the covariance of N = i + 3 snapshots is off by 1 / N *)
Lemma record_rate (Rm : cmat) : 0 < nr Rm -> 0 < nc Rm ->
  unbounded (fun i => INR i + 3)%R /\ faster_than_log (fun i => INR i + 3)%R (fun i => off_by (/ (INR i + 3)) Rm) Rm.
Proof.
  intros H1 H2. split.
  - intros B. destruct (INR_unbounded B) as (n & Hn). exists n. intros i Hi. apply le_INR in Hi. lra.
  - intros c Hc. destruct (INR_unbounded (/ c)) as (n & Hn). exists n. intros i Hi. apply le_INR in Hi. assert (P : (0 < INR i + 3)%R) by (pose proof (pos_INR i); lra).
    rewrite off_by_distance by (assumption || now apply Rinv_0_lt_compat). replace ((INR i + 3) * (/ (INR i + 3) * / (INR i + 3)))%R with (/ (INR i + 3))%R by (field; lra).
    assert (L : (1 <= ln (INR i + 3))%R). { rewrite <- (ln_exp 1). destruct (Req_dec (exp 1) (INR i + 3)) as [->|N]; [lra|]. left. apply ln_increasing; [apply exp_pos|]. pose proof exp_le_3. pose proof (pos_INR i). lra. }
    apply Rle_trans with c; [|rewrite <- (Rmult_1_r c) at 1; apply Rmult_le_compat_l; lra]. rewrite <- (Rinv_inv c). apply Rinv_le_contravar; [now apply Rinv_0_lt_compat|]. lra.
Qed.
Lemma view_45 : in_view 1 1 2 "deg" [45; -30]%R.
Proof.
  pose proof PI_RGT_0 as PP. intros a [<-|[<-|[]]]; cbn [to_rad String.eqb Ascii.eqb Bool.eqb]; (split; [lra|]); change (INR 1) with 1%R.
  - replace (45 * (PI / 180))%R with (PI / 4)%R by field. rewrite sin_PI4. pose proof (sqrt_lt_R0 2 ltac:(lra)). assert (1 / sqrt 2 < 1)%R; [|assert (0 < 1 / sqrt 2)%R by (apply Rdiv_lt_0_compat; lra); lra].
    apply (Rmult_lt_reg_r (sqrt 2)); [lra|]. replace (1 / sqrt 2 * sqrt 2)%R with 1%R by (field; lra). rewrite Rmult_1_l. rewrite <- sqrt_1 at 1. apply sqrt_lt_1; lra.
  - replace (-30 * (PI / 180))%R with (- (PI / 6))%R by field. rewrite sin_neg, sin_PI6. lra.
Qed.
(** four sensors, two correlated sources: the program that does not know their number finds them to a hundredth of a degree after finitely many snapshots *)
Example C103_example : exists g src (A Rm : cmat) i0,
  mk_ULA 4 (D0Scalar 1) None no_kwargs = Ok g /\ mk_FF1 (vec1 [45; -30]%R) "deg" = Ok src /\
  steering_matrix (gd_array g) src 2 false "all" true = Ok (Flat A, []) /\ exact_cov Rm A correlated2 1 /\
  forall i, i0 <= i -> let N := (INR i + 3)%R in let Rm' := off_by (/ N) Rm in
    distance Rm Rm' = (/ N)%R /\ exists k l, mdl eigvalsh_ref (EMat Rm') N = Ok k /\ k = 2 /\
    esprit P_oracles.eigh_ref solve0 eigvals_ref 2 Rm' (Z.of_nat k) (Some 1%R) 1 "tls" (RWStr "none") "deg" = Ok (true, (map Some l, "deg"%string)) /\ accurate (1 / 100) [45; -30]%R l.
Proof.
  destruct C85_example as (g & src & A & Rm & Eg & Es & HA & HX & _). destruct (ex_dims Rm A _ 1 HX) as (D1 & D2).
  pose proof (exact_herm _ _ _ _ HX (proj1 correlated2_pd)) as HH.
  assert (A1 : nr A = 4). { destruct (ULA_facts _ _ _ _ Eg) as (PL & X2 & X3 & _). pose proof Es as Es'. apply mk_FF1_ok in Es' as (_ & K & V & ->). cbn [vec1 nd_data] in *. destruct (ula_steering g 4 1 "deg" [45; -30]%R 2 PL X2 X3 (conj K V) A HA) as (A1 & _). exact A1. }
  destruct (record_rate Rm ltac:(lia) ltac:(lia)) as (UN & FL).
  destruct (C103_consistency 4 1 None g 2 [45; -30]%R "deg" src A correlated2 Rm 1 1 "tls" (RWStr "none") (1 / 100) (fun i => INR i + 3)%R (fun i => off_by (/ (INR i + 3)) Rm) Eg Es HA HX correlated2_pd ltac:(lra) ltac:(lra) ltac:(lra)) as (i0 & H).
  - repeat constructor; cbn; lra.
  - exact view_45.
  - lia.
  - cbn; lia.
  - cbn; lia.
  - now left.
  - left. reflexivity.
  - lra.
  - exact UN.
  - intros i. split; [now apply off_by_herm|cbn [off_by nr]; lia].
  - exact FL.
  - exists g, src, A, Rm, i0. do 4 (split; [assumption|]). intros i Hi N Rm'. split; [apply off_by_distance; [apply Rinv_0_lt_compat; unfold N; pose proof (pos_INR i); lra|lia|lia]|].
    destruct (H i Hi eigvalsh_ref P_oracles.eigh_ref (eigvalsh_ref_contract _) (P_oracles.eigh_ref_contract _)) as (k & M & -> & ES & _). destruct (ES solve0 eigvals_ref (solve0_contract _) (eigvals_ref_contract _)) as (l & E & AC).
    exists 2, l. split; [exact M|]. split; [reflexivity|]. split; [exact E|exact AC].
Qed.

(** four sensors of a nested array, five sources (more than sensors): MDL on the augmented covariance counts five and ESPRIT finds their sines to 1/100 after finitely many snapshots *)
Example C103_coarray_example : exists g w0 src (A Rm : cmat) i0,
  mk_Nested 2 2 (D0Scalar 1) None no_kwargs = Ok g /\ ar_size (gd_array g) = 4 /\ mk_WeightFunction1D g = Ok w0 /\ mk_FF1 (vec1 [-(4/5); -(2/5); 0; 2/5; 4/5]%R) "sin" = Ok src /\
  steering_matrix (gd_array g) src 2 false "all" true = Ok (Flat A, []) /\ Rm ==m model_cov A (fun _ => 1%R) 1 /\
  forall i, i0 <= i -> let N := (INR i + 3)%R in let Rm' := off_by (/ N) Rm in
    distance Rm Rm' = (/ N)%R /\ exists Ra k l, transform (Acm g w0) Rm' "ss" = Ok Ra /\ mdl eigvalsh_ref (EMat Ra) N = Ok k /\ k = 5 /\
    esprit P_oracles.eigh_ref solve0 eigvals_ref 2 Ra (Z.of_nat k) (Some 1%R) 1 "ls" (RWStr "none") "sin" = Ok (true, (map Some l, "sin"%string)) /\ accurate (1 / 100) [-(4/5); -(2/5); 0; 2/5; 4/5]%R l.
Proof.
  set (doas := [-(4/5); -(2/5); 0; 2/5; 4/5]%R).
  destruct (Prop_designs.C10_constructible 0 2 2 1 None) as (_ & (g & Eg) & _).
  destruct (Prop_designs.C10_Nested 2 2 1 None no_kwargs g ltac:(lia) ltac:(lia) Eg) as (lp & PL & LL & SI & _).
  assert (ND : NoDup lp) by (apply (proj2 (NoDup_nth lp 0%Z)); intros i j Hi Hj E; destruct (Nat.lt_trichotomy i j) as [L|[L|L]]; [|exact L|]; [specialize (SI i j L Hj) | specialize (SI j i L Hi)]; lia).
  change (Z.to_nat (2 + 2)) with 4 in LL.
  destruct (proj2 (Prop_coarray.C36_constructor g) (pl_ndim _ _ _ PL)) as (w0 & Hw).
  assert (X : gd_d0 g = [1%R] /\ ar_perts (gd_array g) = [] /\ scalar_isotropic (gd_array g) /\ la_dt (ar_loc (gd_array g)) = DFloat).
  { unfold mk_Nested, mk_Grid in Eg. cbn in Eg. injection Eg as <-. repeat split. }
  destruct X as (X1 & X2 & X3 & X4). assert (K : known_unit "sin") by (right; right; reflexivity).
  assert (B : forall a, In a doas -> (-1 < a < 1)%R) by (intros a Ia; cbn in Ia; decompose [or] Ia; subst; try lra; contradiction).
  assert (V : Forall (valid_angle "sin") doas) by (apply Forall_forall; intros a Ia; right; right; split; [reflexivity|]; specialize (B a Ia); lra).
  assert (Es : mk_FF1 (vec1 doas) "sin" = Ok (FF1 doas "sin")) by (apply mk_FF1_ok; split; [cbn; lia|]; split; [exact K|]; split; [exact V | reflexivity]).
  assert (FH : first_hole lp (Z.of_nat 6)).
  { destruct (Prop_designs.C14_nested_hole_free 2 2 1 None no_kwargs g ltac:(lia) ltac:(lia) Eg) as (l' & PL' & HF). pose proof (places_unique _ _ _ _ _ PL PL') as <-. split; [lia|]. split; [intros Z; apply HF in Z; lia|]. intros z Hz. apply HF. lia. }
  destruct (steering_defined (gd_array g) (FF1 doas "sin") 2 "all" [] true ltac:(lra) X3 X4) as (A & HA);
    [rewrite (pl_ndim _ _ _ PL); lia | rewrite (pl_size _ _ _ PL); lia | unfold select_perturbations, perturbations; now rewrite X2 | intros ? []|].
  set (Rm := model_cov A (fun _ => 1%R) 1).
  destruct (response_1d g lp 1 _ 2 A PL X2 X3 (conj K V : valid_sources (FF1 doas "sin")) eq_refl HA) as (A3 & _).
  assert (D1 : nr Rm = 4) by (cbn; congruence). assert (D2 : nc Rm = 4) by (cbn; congruence).
  assert (HH : hermitian Rm).
  { assert (XM : exact_cov Rm A (mdiag (nc A) (fun k => RtoC 1)) 1) by (split; [reflexivity|]; split; [reflexivity|]; reflexivity). apply (exact_herm _ _ _ _ XM). apply (pd_mdiag _ (fun _ => 1%R)). intros; lra. }
  destruct (record_rate Rm ltac:(lia) ltac:(lia)) as (UN & FL).
  destruct (C103_coarray_consistency g lp 1 w0 [] 6 2 doas "sin" (FF1 doas "sin") A Rm (fun _ => 1%R) 1 1 "ss" "ls" (RWStr "none") (1 / 100) (fun i => INR i + 3)%R (fun i => off_by (/ (INR i + 3)) Rm)
    PL X1 ND X2 X3 Hw FH Es HA) as (i0 & H); try lra; try lia.
  - reflexivity.
  - intros; lra.
  - unfold doas. repeat (constructor; [cbn; intros Q; decompose [or] Q; try lra; contradiction|]). constructor.
  - intros a Ia. specialize (B a Ia). cbn [to_rad String.eqb Ascii.eqb Bool.eqb]. change (INR 1) with 1%R. split; [|rewrite sin_asin; lra]. apply asin_bound_lt. exact B.
  - cbn; lia.
  - cbn; lia.
  - now right.
  - now right.
  - left. reflexivity.
  - exact UN.
  - intros i. split; [now apply off_by_herm|cbn [off_by nr]; lia].
  - exact FL.
  - exists g, w0, (FF1 doas "sin"), A, Rm, i0. split; [exact Eg|]. split; [rewrite (pl_size _ _ _ PL); exact LL|]. split; [exact Hw|]. split; [exact Es|]. split; [exact HA|]. split; [reflexivity|].
    intros i Hi N Rm'. split; [apply off_by_distance; [apply Rinv_0_lt_compat; unfold N; pose proof (pos_INR i); lra|lia|lia]|].
    destruct (H i Hi) as (Ra & ER & H'). destruct (H' eigvalsh_ref P_oracles.eigh_ref (eigvalsh_ref_contract _) (P_oracles.eigh_ref_contract _)) as (k & M & -> & ES & _). destruct (ES solve0 eigvals_ref (solve0_contract _) (eigvals_ref_contract _)) as (l & E & AC).
    exists Ra, 5, l. split; [exact ER|]. split; [exact M|]. split; [reflexivity|]. split; [exact E|exact AC].
Qed.
Print Assumptions C103_detect_then_esprit.
Print Assumptions C103_detect_then_root_music.
Print Assumptions C103_consistency.
Print Assumptions C103_coarray_esprit.
Print Assumptions C103_coarray_root_music.
Print Assumptions C103_coarray_consistency.
