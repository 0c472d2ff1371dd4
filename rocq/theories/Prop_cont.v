(** Continuity of ESPRIT (C101): small errors of the covariance matrix move the estimates only a little. *)
From Coq Require Import Lra Sorted Permutation.
From Verif Require Import Base_Np Base_Trig Base_Lin S_model M_utils S_utils P_utils M_sources S_sources P_sources P_sources3 M_array S_array P_array P_array2 P_array3 M_designs S_designs P_designs M_coarray S_coarray P_coarray P_coarray2 P_model
  M_grid S_grid P_grid M_core P_core P_core2 M_sparse M_subspace S_subspace P_subspace P_subspace3 P_subspace5 P_perf5 M_srcnum M_pipeline S_pipeline P_pipeline P_pipeline2 P_pipeline3 P_gauss P_fta2 Prop_pipeline Prop_pipeline2
  S_stable P_stable P_stable3 P_stable5 Prop_stable S_invar S_invar2 P_invar4 Prop_invar2 P_cont P_cont4 P_cont5 P_cont6 S_cont.
From Verif Require P_oracles Prop_subspace Prop_esprit Prop_designs Prop_grid Prop_coarray Prop_coarray2 Prop_perf3.
Open Scope nat_scope.

Lemma sort_strict (l : list R) : NoDup l -> StronglySorted Rlt (sort_by Rleb l).
Proof.
  intros ND. pose proof (sort_R_ascending l) as A. assert (N2 : NoDup (sort_by Rleb l)) by (eapply Permutation_NoDup; [symmetry; apply sort_by_perm|exact ND]).
  unfold ascending in A. induction A as [|a s A IH F]; [constructor|]. inversion N2 as [|? ? Ni N3]; subst. constructor; [now apply IH|].
  rewrite Forall_forall in *. intros b Hb. specialize (F b Hb). destruct F as [F| ->]; [exact F|contradiction].
Qed.

Lemma esprit_ula_cont m d lam u doas A P s (Rm : cmat) D formulation rw tol : (0 < d)%R -> (0 < lam)%R -> known_unit u -> Forall (valid_angle u) doas -> NoDup doas -> in_view d D lam u doas ->
  A ==m ula_matrix m (map (zof d lam u) doas) -> exact_cov Rm A P s -> pd P -> 1 <= D -> 1 <= List.length doas -> List.length doas + D <= m ->
  formulation = "tls"%string \/ formulation = "ls"%string -> Prop_esprit.harmless_weights rw m D -> (0 < tol)%R ->
  exists eps, (0 < eps)%R /\ forall eigh solve eigvals (Rm' : cmat), eigh_contract (Nat.max m (2 * List.length doas)) eigh -> solve_contract (List.length doas) solve -> eigvals_contract (List.length doas) eigvals ->
    hermitian Rm' -> nr Rm' = m -> (distance Rm Rm' < eps)%R ->
    exists l, esprit eigh solve eigvals lam Rm' (Z.of_nat (List.length doas)) (Some d) (Z.of_nat D) formulation rw u = Ok (true, (map Some l, u)) /\ accurate tol doas l.
Proof.
  intros Hd Hl K V ND IV EA HX HP HD Hk Hkm HF HW Ht. pose proof PI_RGT_0 as PP. rewrite Forall_forall in V.
  set (k := List.length doas) in *. set (zs := map (zof d lam u) doas) in *. assert (Lz : List.length zs = k) by apply map_length.
  assert (Dp : (0 < IZR (Z.of_nat D))%R) by (apply IZR_lt; lia).
  pose proof (exact_cov_eq Rm A _ P s EA HX) as HX'.
  set (c := (2 * PI * (d * IZR (Z.of_nat D)) / lam)%R). assert (Hc : (0 < c)%R) by (unfold c; apply Rdiv_lt_0_compat; [|exact Hl]; apply Rmult_lt_0_compat; [lra | now apply Rmult_lt_0_compat]).
  assert (IV2 : forall a, In a doas -> (- PI < c * sin (to_rad u a) < PI)%R).
  { intros a Ia. destruct (IV a Ia) as (_ & W). rewrite INR_IZR_INZ in W. unfold c.
    replace (2 * PI * (d * IZR (Z.of_nat D)) / lam * sin (to_rad u a))%R with ((2 * PI / lam) * (d * IZR (Z.of_nat D) * sin (to_rad u a)))%R by (field; lra).
    assert (0 < 2 * PI / lam)%R by (apply Rdiv_lt_0_compat; lra). assert (2 * PI / lam * (lam / 2) = PI)%R by (field; lra). split; nra. }
  set (f := fun a => cis (c * sin (to_rad u a))).
  assert (CP : map (fun z => cpow z D) zs = map f doas).
  { unfold zs. rewrite map_map. apply map_ext. intros a. unfold zof, f. rewrite cpow_cis. f_equal. unfold c. rewrite INR_IZR_INZ. field. lra. }
  assert (NZ : NoDup (map (fun z => cpow z D) zs)).
  { rewrite CP. apply NoDup_map_in; [exact ND|]. intros a b Ia Ib E. unfold f in E. pose proof (IV2 a Ia). pose proof (IV2 b Ib). apply cis_inj in E; [|lra|lra]. apply Rmult_eq_reg_l in E; [|lra].
    apply to_rad_inj with (u := u); auto. destruct (IV a Ia), (IV b Ib). rewrite <- (asin_sin (to_rad u a)), <- (asin_sin (to_rad u b)) by lra. now rewrite E. }
  destruct (Prop_esprit.C63_exact P_oracles.eigh_ref solve0 eigvals_ref Rm P s zs m D formulation rw (P_oracles.eigh_ref_contract _) (solve0_contract _) (eigvals_ref_contract _) HX' HP NZ HD ltac:(lia) ltac:(lia) HF HW) as (z & EZ & PZ).
  rewrite Lz in EZ.
  pose proof (exact_herm _ _ _ _ HX' (proj1 HP)) as HH. destruct (ex_dims Rm _ P s HX') as (D1 & _). cbn [ula_matrix nr] in D1.
  destruct (P_oracles.eigh_ref_contract (nr Rm) Rm HH (le_n _)) as (w & E & EE & OE).
  destruct (C96_esprit_exact Rm P s zs m D formulation rw w E HX' HP (NoDup_map_inv _ _ NZ) HD ltac:(lia) ltac:(lia) HF HW OE) as (_ & Gap & DT). rewrite Lz in Gap, DT.
  unfold gap in Gap. replace (List.length w) with m in Gap by (rewrite <- D1; symmetry; apply OE).
  set (truth := sort_by Rleb doas). assert (PT : Permutation truth doas) by apply sort_by_perm. set (ts := map (to_rad u) truth).
  assert (OT : map (of_rad u) ts = truth).
  { unfold ts. rewrite map_map. rewrite (map_ext_in _ (fun a => a)), map_id; [reflexivity|]. intros a Ia. apply of_to_rad. apply V. eapply Permutation_in; [exact PT|exact Ia]. }
  destruct (from_z_cont ts lam (d * IZR (Z.of_nat D)) u tol K Hl) as (e1 & p1 & H1).
  { now apply Rmult_lt_0_compat. }
  { rewrite OT. now apply sort_strict. }
  { apply Forall_forall. intros t It. apply in_map_iff in It as (a & <- & Ia). assert (Ia' : In a doas) by (eapply Permutation_in; [exact PT|exact Ia]). split; [apply IV; exact Ia'|apply IV2; exact Ia']. }
  { exact Ht. }
  fold c in H1. rewrite OT in H1.
  destruct (esprit_z_cont P_oracles.eigh_ref solve0 eigvals_ref m Rm w E k D formulation rw z e1 (solve0_contract _) (eigvals_ref_contract _) (fun _ => P_oracles.eigh_ref_contract _) D1 HH EE OE Hk HD ltac:(lia) Gap DT EZ) as (eps & pe & HC).
  { eapply Permutation_NoDup; [symmetry; exact PZ|exact NZ]. }
  { exact p1. }
  exists eps. split; [exact pe|]. intros eigh solve eigvals Rm' EC SC VC HH' N' DS.
  destruct (HC eigh solve eigvals Rm' EC SC VC HH' N' DS) as (z' & z0 & EZ' & PZ0 & FZ).
  assert (PF : Permutation z (map f truth)). { rewrite PZ, CP. apply Permutation_map. now symmetry. }
  destruct (Permutation_Forall2 PF FZ) as (z1 & P1 & F1).
  destruct (H1 z' z1) as (l & EL & AL & FL).
  { rewrite <- P1. exact PZ0. }
  { unfold ts. rewrite map_map. exact F1. }
  exists l. split.
  - unfold esprit. rewrite EZ'. cbn [bind]. rewrite EL. reflexivity.
  - split; [exact AL|]. exists truth. split; [exact PT|]. split; [apply sort_R_ascending|exact FL].
Qed.

(** C101.  The shifts: around every Hermitian matrix with a gap between its noise and signal eigenvalues and a well-posed rotation
    problem, the shifts found by ESPRIT (if distinct) are continuous functions of the covariance matrix: for every tolerance there is a radius such
    that whatever eigensolver, linear solver and eigenvalue routine meeting their contracts are used on whatever Hermitian matrix within that radius,
    the computation succeeds and returns the shifts of the reference run, up to the order and the tolerance *)
Theorem C101_shifts : forall eigh solve eigvals m (Rm : cmat) w E k d formulation rw z tol,
  solve_contract k solve -> eigvals_contract k eigvals -> (formulation = "tls"%string -> eigh_contract (2 * k) eigh) ->
  nr Rm = m -> hermitian Rm -> eigh Rm = Ok (w, E) -> eigh_ok Rm w E -> 1 <= k -> 1 <= d -> k + d <= m -> gap k w ->
  esprit_determined formulation rw m k d E -> esprit_z eigh solve eigvals Rm (Z.of_nat k) (Z.of_nat d) formulation rw = Ok z -> NoDup z -> (0 < tol)%R ->
  exists eps, (0 < eps)%R /\ forall eigh' solve' eigvals' (Rm' : cmat), eigh_contract (Nat.max m (2 * k)) eigh' -> solve_contract k solve' -> eigvals_contract k eigvals' ->
    hermitian Rm' -> nr Rm' = m -> (distance Rm Rm' < eps)%R ->
    exists z' z0, esprit_z eigh' solve' eigvals' Rm' (Z.of_nat k) (Z.of_nat d) formulation rw = Ok z' /\ Permutation z0 z' /\ Forall2 (fun a b => Cmod (a - b)%C < tol)%R z z0.
Proof.
  intros eigh solve eigvals m Rm w E k d f rw z tol HS HV HEc R1 HH EE OE Hk Hd Hkd Gap DT HZ ND Ht. unfold gap in Gap. replace (List.length w) with m in Gap by (rewrite <- R1; symmetry; apply OE).
  exact (esprit_z_cont eigh solve eigvals m Rm w E k d f rw z tol HS HV HEc R1 HH EE OE Hk Hd Hkd Gap DT HZ ND Ht).
Qed.

(** The directions: sources on a uniform linear array, none at endfire or at the ambiguity boundary.  For every tolerance there is a radius such that
    ESPRIT on every Hermitian matrix closer than that to the true covariance matrix returns the true directions within the tolerance *)
Theorem C101_esprit_on_ula : forall n d name g lam doas u src (A P Rm : cmat) s D formulation rw tol,
  mk_ULA (Z.of_nat n) (D0Scalar d) name no_kwargs = Ok g -> mk_FF1 (vec1 doas) u = Ok src ->
  steering_matrix (gd_array g) src lam false "all" true = Ok (Flat A, []) -> exact_cov Rm A P s -> pd P ->
  (0 < d)%R -> (0 < lam)%R -> NoDup doas -> in_view d D lam u doas ->
  1 <= D -> 1 <= List.length doas -> List.length doas + D <= n ->
  formulation = "tls"%string \/ formulation = "ls"%string -> Prop_esprit.harmless_weights rw n D -> (0 < tol)%R ->
  exists eps, (0 < eps)%R /\ forall eigh solve eigvals (Rm' : cmat),
    eigh_contract (Nat.max n (2 * List.length doas)) eigh -> solve_contract (List.length doas) solve -> eigvals_contract (List.length doas) eigvals ->
    hermitian Rm' -> nr Rm' = n -> (distance Rm Rm' < eps)%R ->
    exists l, esprit eigh solve eigvals lam Rm' (Z.of_nat (List.length doas)) (Some d) (Z.of_nat D) formulation rw u = Ok (true, (map Some l, u)) /\ accurate tol doas l.
Proof.
  intros n d nm g lam doas u src A P Rm s D formulation rw tol Eg Es HA HX HP Hd Hl ND W HD Hk Hkn HF HW Ht.
  apply mk_FF1_ok in Es as (_ & K & V & ->). cbn [vec1 nd_data] in *. destruct (ULA_facts _ _ _ _ Eg) as (PL & Pe & I & _ & _).
  pose proof (ula_steering g n d u doas lam PL Pe I (conj K V) A HA) as EA. apply (esprit_ula_cont n d lam u doas A P s Rm D formulation rw tol); assumption.
Qed.

(** consistency: if the covariance estimates converge to the true covariance matrix, the ESPRIT estimates converge to the true directions *)
Theorem C101_consistency : forall n d name g lam doas u src (A P Rm : cmat) s D formulation rw (Rs : nat -> cmat) tol,
  mk_ULA (Z.of_nat n) (D0Scalar d) name no_kwargs = Ok g -> mk_FF1 (vec1 doas) u = Ok src ->
  steering_matrix (gd_array g) src lam false "all" true = Ok (Flat A, []) -> exact_cov Rm A P s -> pd P ->
  (0 < d)%R -> (0 < lam)%R -> NoDup doas -> in_view d D lam u doas ->
  1 <= D -> 1 <= List.length doas -> List.length doas + D <= n ->
  formulation = "tls"%string \/ formulation = "ls"%string -> Prop_esprit.harmless_weights rw n D ->
  (forall i, hermitian (Rs i) /\ nr (Rs i) = n) -> converges Rs Rm -> (0 < tol)%R ->
  exists N, forall i eigh solve eigvals, N <= i ->
    eigh_contract (Nat.max n (2 * List.length doas)) eigh -> solve_contract (List.length doas) solve -> eigvals_contract (List.length doas) eigvals ->
    exists l, esprit eigh solve eigvals lam (Rs i) (Z.of_nat (List.length doas)) (Some d) (Z.of_nat D) formulation rw u = Ok (true, (map Some l, u)) /\ accurate tol doas l.
Proof.
  intros n d nm g lam doas u src A P Rm s D formulation rw Rs tol Eg Es HA HX HP Hd Hl ND W HD Hk Hkn HF HW HR CV Ht.
  destruct (C101_esprit_on_ula n d nm g lam doas u src A P Rm s D formulation rw tol Eg Es HA HX HP Hd Hl ND W HD Hk Hkn HF HW Ht) as (eps & He & H).
  destruct (CV eps He) as (N & HN). exists N. intros i eigh solve eigvals Hi EC SC VC. destruct (HR i). apply H; auto.
Qed.

(** *** coarrays *)
Lemma coarray_transform_close g l d w0 calls m (Rm : cmat) method tau : places_1d g l d -> mk_WeightFunction1D g = Ok w0 -> first_hole l (Z.of_nat m) -> 1 <= m ->
  nr Rm = List.length l -> nc Rm = List.length l -> method = "da"%string \/ method = "ss"%string -> (0 < tau)%R ->
  exists Ra, transform (Acm g (after w0 calls)) Rm method = Ok Ra /\ exists eps, (0 < eps)%R /\ forall Rm' : cmat, hermitian Rm' -> nr Rm' = List.length l -> (distance Rm Rm' < eps)%R ->
    exists Ra', transform (Acm g (after w0 calls)) Rm' method = Ok Ra' /\ hermitian Ra' /\ nr Ra' = m /\ (distance Ra Ra' < tau)%R.
Proof.
  intros PL Hw FH Hm R1 R2 HM Ht. pose proof (places_grid_1d g l d PL) as Hg.
  assert (Nl : l <> []). { intros ->. destruct FH as (_ & _ & X). specialize (X 0%Z ltac:(lia)). destruct X as (? & ? & [] & _). }
  assert (Mp : (0 < IZR (Z.of_nat m))%R) by (apply IZR_lt; lia).
  destruct (Prop_coarray.C39_ss g l w0 calls Rm (Z.of_nat m) Hg Hw Nl FH R1 R2) as (Da & Sm & ED & ES & EG & _).
  destruct HM as [-> | ->].
  - exists Da. split; [exact ED|]. exists (tau / IZR (Z.of_nat m))%R. split; [now apply Rdiv_lt_0_compat|]. intros Rm' HH N DS. pose proof HH as (SQ & _).
    destruct (Prop_coarray.C39_da g l _ w0 calls Rm' (Z.of_nat m) Hg Hw eq_refl Nl FH N ltac:(congruence)) as (D' & ED' & N1 & N2 & _). rewrite Nat2Z.id in N1, N2.
    destruct (da_close g l w0 calls Rm Rm' Da D' (Z.of_nat m) Hg Hw Nl FH R1 R2 N ltac:(congruence) ED ED') as (_ & _ & _ & _ & _ & CL).
    exists D'. split; [exact ED'|]. split; [exact (Prop_coarray.C39_hermitian g l w0 calls Rm' D' Hg Hw Nl N HH ED')|]. split; [exact N1|].
    eapply Rle_lt_trans; [exact CL|]. apply Rlt_le_trans with (IZR (Z.of_nat m) * (tau / IZR (Z.of_nat m)))%R; [now apply Rmult_lt_compat_l|]. right. field. lra.
  - exists Sm. split; [exact ES|]. destruct (upper_bound m (fun i => rsum m (fun j => Cmod (ent Da i j)))) as (L & HL & UB).
    assert (K0 : (0 <= INR m * (/ IZR (Z.of_nat m) * INR m))%R) by (apply Rmult_le_pos; [apply pos_INR | apply Rmult_le_pos; [left; now apply Rinv_0_lt_compat | apply pos_INR]]).
    destruct (small_quadratic _ L tau K0 (Rlt_le _ _ HL) Ht) as (eps1 & He1 & SM).
    exists eps1. split; [exact He1|]. intros Rm' HH N DS. pose proof HH as (SQ & _).
    destruct (Prop_coarray.C39_ss g l w0 calls Rm' (Z.of_nat m) Hg Hw Nl FH N ltac:(congruence)) as (D' & Sm' & ED' & ES' & EG' & HS' & _).
    destruct (da_close g l w0 calls Rm Rm' Da D' (Z.of_nat m) Hg Hw Nl FH R1 R2 N ltac:(congruence) ED ED') as (N1 & N2 & N3 & N4 & CL & _). rewrite Nat2Z.id in N1, N2, N3, N4.
    exists Sm'. split; [exact ES'|]. split; [exact HS'|]. split; [destruct EG' as (G1 & _); cbn [mscal mmul nr] in G1; congruence|].
    eapply Rle_lt_trans; [apply (gram_close Da D' Sm Sm' m (/ IZR (Z.of_nat m)) L (distance Rm Rm') N1 N2 N3 N4); [now apply Rinv_0_lt_compat | apply distance_nonneg | exact EG | exact EG' | | intros i j Hi Hj; apply CL; lia]|].
    + intros i j Hi Hj. eapply Rle_trans; [|apply (UB i Hi)]. apply (P_spectral.rsum_ge m (fun j => Cmod (ent Da i j)) j Hj). intros; apply Cmod_ge_0.
    + replace (INR m * (/ IZR (Z.of_nat m) * (INR m * (distance Rm Rm' * (2 * L + distance Rm Rm')))))%R with ((INR m * (/ IZR (Z.of_nat m) * INR m)) * (distance Rm Rm' * (2 * L + distance Rm Rm')))%R by ring.
      apply SM. split; [apply distance_nonneg | exact DS].
Qed.

(** ESPRIT on the virtual array of a sparse design (more sources than sensors): both augmentation methods are covered *)
Theorem C101_coarray_esprit : forall g l d w0 calls m lam doas u src (A Rm : cmat) p sigma D method formulation rw tol,
  places_1d g l d -> gd_d0 g = [d] -> NoDup l -> ar_perts (gd_array g) = [] -> scalar_isotropic (gd_array g) ->
  mk_WeightFunction1D g = Ok w0 -> first_hole l (Z.of_nat m) -> mk_FF1 (vec1 doas) u = Ok src ->
  steering_matrix (gd_array g) src lam false "all" true = Ok (Flat A, []) ->
  Rm ==m model_cov A p sigma -> (forall k, k < List.length doas -> (0 < p k)%R) -> (0 <= sigma)%R ->
  (0 < d)%R -> (0 < lam)%R -> NoDup doas -> in_view d D lam u doas ->
  1 <= D -> 1 <= List.length doas -> List.length doas + D <= m ->
  method = "da"%string \/ method = "ss"%string -> formulation = "tls"%string \/ formulation = "ls"%string -> Prop_esprit.harmless_weights rw m D -> (0 < tol)%R ->
  exists eps, (0 < eps)%R /\ forall eigh solve eigvals (Rm' : cmat),
    eigh_contract (Nat.max m (2 * List.length doas)) eigh -> solve_contract (List.length doas) solve -> eigvals_contract (List.length doas) eigvals ->
    hermitian Rm' -> nr Rm' = List.length l -> (distance Rm Rm' < eps)%R ->
    exists Ra r, transform (Acm g (after w0 calls)) Rm' method = Ok Ra /\
      esprit eigh solve eigvals lam Ra (Z.of_nat (List.length doas)) (Some d) (Z.of_nat D) formulation rw u = Ok (true, (map Some r, u)) /\ accurate tol doas r.
Proof.
  intros g l d w0 calls m lam doas u src A Rm p sigma D method formulation rw tol PL D0 NDl Pe Iso Hw FH Es HA HRm Hp Hs Hd Hl ND W HD Hk Hkm HM HF HW Ht.
  apply mk_FF1_ok in Es as (_ & K & V & ->). cbn [vec1 nd_data] in *. assert (VS : valid_sources (FF1 doas u)) by exact (conj K V).
  assert (Nl : l <> []). { intros ->. destruct FH as (_ & _ & X). specialize (X 0%Z ltac:(lia)). destruct X as (? & ? & [] & _). }
  pose proof (places_grid_1d g l d PL) as Hg.
  assert (Em : Z.of_nat m = Z.of_nat (mv0 g)) by exact (Prop_coarray.C37_first_hole_unique l _ _ FH (mv0_hole g l Hg)).
  destruct (Prop_coarray2.C40_exact g l d w0 calls _ lam p sigma None A Rm PL D0 Hw Nl NDl Pe Iso VS eq_refl HA HRm) as (v & Av & Da & Ev & HAv & ED & HDa).
  assert (VF : places_1d v (ULA_indices (Z.of_nat m)) d /\ ar_perts (gd_array v) = [] /\ scalar_isotropic (gd_array v)).
  { unfold get_virtual_ula in Ev. cbn [acm_array] in Ev. rewrite D0 in Ev. assert (Eo : acm_output_size (Acm g (after w0 calls)) = Z.of_nat (mv0 g)) by exact (central_ula g l Hg w0 Hw calls true). rewrite Eo, <- Em in Ev.
    destruct (ULA_virtual (Z.of_nat m) d (Some (name_or None ("Virtual ULA of " ++ ar_name (gd_array g))))) as (v2 & E2 & X). rewrite Ev in E2. injection E2 as <-. exact X. }
  destruct VF as (PV & PeV & IsoV). pose proof (ula_steering v m d u _ lam PV PeV IsoV VS Av HAv) as EA. pose proof EA as (A1 & A2 & _). cbn [ula_matrix nr nc] in A1, A2. rewrite map_length in A2.
  assert (X0 : exact_cov Da Av (mdiag (nc Av) (fun k => RtoC (p k))) sigma) by (split; [reflexivity|]; split; [reflexivity|]; exact HDa).
  assert (PP : pd (mdiag (nc Av) (fun k => RtoC (p k)))) by (apply pd_mdiag; intros k Hk'; apply Hp; lia).
  pose proof HRm as (R1 & R2 & _). cbn in R1, R2. destruct (response_1d g l d _ lam A PL Pe Iso VS eq_refl HA) as (A3 & _).
  assert (GEN : forall Ra Pa sa, transform (Acm g (after w0 calls)) Rm method = Ok Ra -> exact_cov Ra Av Pa sa -> pd Pa ->
    exists eps, (0 < eps)%R /\ forall eigh solve eigvals (Rm' : cmat),
      eigh_contract (Nat.max m (2 * List.length doas)) eigh -> solve_contract (List.length doas) solve -> eigvals_contract (List.length doas) eigvals ->
      hermitian Rm' -> nr Rm' = List.length l -> (distance Rm Rm' < eps)%R ->
      exists Ra r, transform (Acm g (after w0 calls)) Rm' method = Ok Ra /\
        esprit eigh solve eigvals lam Ra (Z.of_nat (List.length doas)) (Some d) (Z.of_nat D) formulation rw u = Ok (true, (map Some r, u)) /\ accurate tol doas r).
  { intros Ra Pa sa ER XA PA. destruct (esprit_ula_cont m d lam u doas Av Pa sa Ra D formulation rw tol Hd Hl K V ND W EA XA PA HD Hk Hkm HF HW Ht) as (tau & Htau & H).
    destruct (coarray_transform_close g l d w0 calls m Rm method tau PL Hw FH ltac:(lia) ltac:(congruence) ltac:(congruence) HM Htau) as (Ra2 & ER2 & eps & He & HC). rewrite ER in ER2. injection ER2 as <-.
    exists eps. split; [exact He|]. intros eigh solve eigvals Rm' EC SC VC HH N DS. destruct (HC Rm' HH N DS) as (Ra' & ER' & HH' & N' & DS').
    destruct (H eigh solve eigvals Ra' EC SC VC HH' N' DS') as (r & Q1 & Q2). exists Ra', r. auto. }
  destruct HM as [-> | ->].
  - exact (GEN Da _ sigma ED X0 PP).
  - assert (IA : inj Av).
    { apply (Base_Lin.inj_eq (ula_matrix m (map (zof d lam u) doas))); [now symmetry|]. apply ula_inj; [|rewrite map_length; lia]. apply NoDup_map_in; [exact ND|]. rewrite Forall_forall in V.
      intros a b Ia Ib E. apply to_rad_inj with (u := u); auto. destruct (W a Ia) as (Ta & Wa), (W b Ib) as (Tb & Wb). pose proof PI_RGT_0 as PI0. unfold zof in E.
      assert (D1 : (1 <= INR D)%R) by (change 1%R with (INR 1); apply le_INR; lia). assert (Q : (0 < 2 * PI / lam)%R) by (apply Rdiv_lt_0_compat; lra). assert (Q2 : (2 * PI / lam * (lam / 2) = PI)%R) by (field; lra).
      assert (B : forall x, (- (lam / 2) < d * INR D * x < lam / 2 -> - PI < 2 * PI / lam * d * x <= PI)%R).
      { intros x (X1 & X2). rewrite Rmult_assoc. replace (d * INR D * x)%R with (INR D * (d * x))%R in X1, X2 by ring. set (y := (d * x)%R) in *. clearbody y. assert (Y : (- (lam / 2) < y <= lam / 2)%R) by (destruct (Rle_dec 0 y); split; nra). split; nra. }
      apply cis_inj in E; [|now apply B|now apply B]. apply Rmult_eq_reg_l in E; [|apply Rgt_not_eq, Rmult_lt_0_compat; assumption].
      rewrite <- (asin_sin (to_rad u a)), <- (asin_sin (to_rad u b)) by lra. now rewrite E. }
    destruct (Prop_coarray.C39_ss g l w0 calls Rm (Z.of_nat m) Hg Hw Nl FH ltac:(congruence) ltac:(congruence)) as (D' & Sm & ED' & ES & EG & _). rewrite ED in ED'. injection ED' as <-.
    destruct (gram_exact Da Sm Av _ sigma (/ IZR (Z.of_nat m)) X0 IA PP Hs ltac:(apply Rinv_0_lt_compat, IZR_lt; lia) EG) as (P' & X1 & PP').
    exact (GEN Sm P' _ ES X1 PP').
Qed.

Theorem C101_coarray_consistency : forall g l d w0 calls m lam doas u src (A Rm : cmat) p sigma D method formulation rw (Rs : nat -> cmat) tol,
  places_1d g l d -> gd_d0 g = [d] -> NoDup l -> ar_perts (gd_array g) = [] -> scalar_isotropic (gd_array g) ->
  mk_WeightFunction1D g = Ok w0 -> first_hole l (Z.of_nat m) -> mk_FF1 (vec1 doas) u = Ok src ->
  steering_matrix (gd_array g) src lam false "all" true = Ok (Flat A, []) ->
  Rm ==m model_cov A p sigma -> (forall k, k < List.length doas -> (0 < p k)%R) -> (0 <= sigma)%R ->
  (0 < d)%R -> (0 < lam)%R -> NoDup doas -> in_view d D lam u doas ->
  1 <= D -> 1 <= List.length doas -> List.length doas + D <= m ->
  method = "da"%string \/ method = "ss"%string -> formulation = "tls"%string \/ formulation = "ls"%string -> Prop_esprit.harmless_weights rw m D ->
  (forall i, hermitian (Rs i) /\ nr (Rs i) = List.length l) -> converges Rs Rm -> (0 < tol)%R ->
  exists N, forall i eigh solve eigvals, N <= i ->
    eigh_contract (Nat.max m (2 * List.length doas)) eigh -> solve_contract (List.length doas) solve -> eigvals_contract (List.length doas) eigvals ->
    exists Ra r, transform (Acm g (after w0 calls)) (Rs i) method = Ok Ra /\
      esprit eigh solve eigvals lam Ra (Z.of_nat (List.length doas)) (Some d) (Z.of_nat D) formulation rw u = Ok (true, (map Some r, u)) /\ accurate tol doas r.
Proof.
  intros g l d w0 calls m lam doas u src A Rm p sigma D method formulation rw Rs tol PL D0 NDl Pe Iso Hw FH Es HA HRm Hp Hs Hd Hl ND W HD Hk Hkm HM HF HW HR CV Ht.
  destruct (C101_coarray_esprit g l d w0 calls m lam doas u src A Rm p sigma D method formulation rw tol PL D0 NDl Pe Iso Hw FH Es HA HRm Hp Hs Hd Hl ND W HD Hk Hkm HM HF HW Ht) as (eps & He & H).
  destruct (CV eps He) as (N & HN). exists N. intros i eigh solve eigvals Hi EC SC VC. destruct (HR i). apply H; auto.
Qed.

(** The condition in_view cannot be dropped: with two sensors half a wavelength apart and one source at +90 degrees, there are Hermitian matrices arbitrarily
    close to the true covariance matrix for which ESPRIT returns a direction below -80 degrees *)
Lemma steep x : continuity_pt (fun b => (PI * sin (b * (PI / 180)))%R) x.
Proof.
  apply (continuity_pt_mult (fct_cte PI) (fun b => sin (b * (PI / 180))%R)); [apply continuity_pt_const; intros ? ?; reflexivity|].
  apply (continuity_pt_comp (fun b => b * (PI / 180))%R sin); [|apply continuity_sin].
  apply (continuity_pt_mult id (fct_cte (PI / 180))); [apply derivable_continuous_pt, derivable_pt_id|apply continuity_pt_const; intros ? ?; reflexivity].
Qed.
Theorem C101_endfire : forall formulation eps, formulation = "tls"%string \/ formulation = "ls"%string -> (0 < eps)%R ->
  exists g (A Rm Rm' : cmat), mk_ULA 2 (D0Scalar 1) None no_kwargs = Ok g /\
    steering_matrix (gd_array g) (FF1 [90%R] "deg") 2 false "all" true = Ok (Flat A, []) /\ exact_cov Rm A (mid 1) 1 /\ hermitian Rm' /\ nr Rm' = 2 /\ (distance Rm Rm' < eps)%R /\
    forall eigh solve eigvals, eigh_contract 2 eigh -> solve_contract 1 solve -> eigvals_contract 1 eigvals ->
      esprit eigh solve eigvals 2 Rm 1 (Some 1%R) 1 formulation (RWStr "none") "deg" = Ok (true, ([Some 90%R], "deg"%string)) /\
      exists x, esprit eigh solve eigvals 2 Rm' 1 (Some 1%R) 1 formulation (RWStr "none") "deg" = Ok (true, ([Some x], "deg"%string)) /\ (x < -80)%R.
Proof.
  intros f eps Hf He. pose proof PI_RGT_0 as PP.
  destruct (Prop_designs.C10_constructible 2 0 0 1 None) as ((g & Eg) & _). destruct (ULA_facts _ _ _ _ Eg) as (PL & X2 & X3 & X4 & _). assert (K : known_unit "deg") by (right; left; reflexivity).
  assert (V : forall b, (-90 <= b <= 90)%R -> Forall (valid_angle "deg") [b]) by (intros b Hb; apply Forall_cons; [|apply Forall_nil]; right; left; split; [reflexivity|exact Hb]).
  destruct (steering_defined (gd_array g) (FF1 [90]%R "deg") 2 "all" [] true ltac:(lra) X3 X4) as (A & HA);
    [rewrite (pl_ndim _ _ _ PL); lia | rewrite (pl_size _ _ _ PL), ULA_indices_length; lia | unfold select_perturbations, perturbations; now rewrite X2 | intros ? []|].
  pose proof (ula_steering g 2 1 "deg" [90%R] 2 PL X2 X3 (conj K (V 90%R ltac:(lra))) A HA) as EA.
  set (cv := fun z : C => Prop_esprit.cov_of (ula_matrix 2 [z])).
  assert (XC : forall z, exact_cov (cv z) (ula_matrix 2 [z]) (mid 1) 1) by (intros; apply Prop_esprit.cov_of_exact).
  assert (P1 : pd (mid 1)) by apply Prop_subspace.pd_mid.
  assert (ZV : forall b, zof 1 2 "deg" b = cis (PI * sin (b * (PI / 180)))) by (intros; unfold zof; cbn [to_rad String.eqb Ascii.eqb Bool.eqb]; f_equal; field).
  assert (RUN : forall b eigh solve eigvals, (-90 < b <= 90)%R -> eigh_contract 2 eigh -> solve_contract 1 solve -> eigvals_contract 1 eigvals ->
    esprit eigh solve eigvals 2 (cv (zof 1 2 "deg" b)) 1 (Some 1%R) 1 f (RWStr "none") "deg" = Ok (true, ([Some b], "deg"%string))).
  { intros b eigh solve eigvals Hb EC SC VC.
    destruct (esprit_ula eigh solve eigvals 2 1 2 "deg" [b] (ula_matrix 2 [zof 1 2 "deg" b]) (mid 1) 1 (cv (zof 1 2 "deg" b)) 1 f (RWStr "none")) as (l & E & _ & PM); try assumption; try (cbn; lia); try lra; try reflexivity.
    - apply V. lra.
    - constructor; [intros []|constructor].
    - apply Forall_cons; [|apply Forall_nil]. change (INR 1) with 1%R. cbn [to_rad String.eqb Ascii.eqb Bool.eqb]. pose proof (SIN_bound (b * (PI / 180))) as SB. split; [|lra].
      pose proof (sin_increasing_1 (- (PI / 2)) (b * (PI / 180)) ltac:(lra) ltac:(lra) ltac:(nra) ltac:(nra) ltac:(nra)) as X. rewrite sin_neg, sin_PI2 in X. lra.
    - apply XC.
    - left. reflexivity.
    - apply Permutation_sym, Permutation_length_1_inv in PM. subst l. exact E. }
  destruct (cont_at (fun b => cos (PI * sin (b * (PI / 180)))) (-90) ltac:(apply (continuity_pt_comp _ cos); [apply steep|apply continuity_cos]) (eps / 8) ltac:(lra)) as (e1 & p1 & H1).
  destruct (cont_at (fun b => sin (PI * sin (b * (PI / 180)))) (-90) ltac:(apply (continuity_pt_comp _ sin); [apply steep|apply continuity_sin]) (eps / 8) ltac:(lra)) as (e2 & p2 & H2).
  destruct (pick2 e1 e2 p1 p2) as (e3 & p3 & l1 & l2). destruct (pick2 e3 5 p3 ltac:(lra)) as (e4 & p4 & l3 & l4).
  set (b := (-90 + e4 / 2)%R). assert (Hb : (Rabs (-90 - b) < e4)%R) by (unfold b; replace (-90 - (-90 + e4 / 2))%R with (- (e4 / 2))%R by ring; rewrite Rabs_Ropp, Rabs_pos_eq; lra).
  specialize (H1 b ltac:(lra)). specialize (H2 b ltac:(lra)).
  set (z0 := zof 1 2 "deg" 90). set (z1 := zof 1 2 "deg" b).
  assert (S1 : sin (90 * (PI / 180)) = 1%R) by (replace (90 * (PI / 180))%R with (PI / 2)%R by field; apply sin_PI2).
  assert (S2 : sin (-90 * (PI / 180)) = (-1)%R) by (replace (-90 * (PI / 180))%R with (- (PI / 2))%R by field; rewrite sin_neg, sin_PI2; lra).
  rewrite S2 in H1, H2.
  assert (CZ : (Cmod (z0 - z1)%C <= eps / 4)%R).
  { unfold z0, z1. rewrite !ZV, S1. replace (cis (PI * 1)) with (cis (PI * -1)).
    2:{ unfold cis. f_equal; [replace (PI * -1)%R with (- (PI * 1))%R by ring; apply cos_neg|]. replace (PI * -1)%R with (- PI)%R by ring. rewrite Rmult_1_r, sin_neg, sin_PI. lra. }
    set (p := (PI * sin (b * (PI / 180)))%R) in *. unfold cis. set (x := (cos (PI * -1) - cos p)%R) in *. set (y := (sin (PI * -1) - sin p)%R) in *.
    replace (((cos (PI * -1), sin (PI * -1)) : C) - ((cos p, sin p) : C))%C with (RtoC x + Ci * RtoC y)%C by (unfold x, y, Cminus, Cplus, Copp, Ci, Cmult, RtoC; cbn; f_equal; ring).
    eapply Rle_trans; [apply Cmod_triangle|]. rewrite Cmod_mult, !Cmod_R. replace (Cmod Ci) with 1%R by (unfold Cmod, Ci; cbn; replace (0 * (0 * 1) + 1 * (1 * 1))%R with 1%R by ring; symmetry; apply sqrt_1). lra. }
  exists g, A, (cv z0), (cv z1). split; [exact Eg|]. split; [exact HA|]. split; [|split; [|split; [|split]]].
  - apply (exact_cov_eq _ (ula_matrix 2 [z0])); [symmetry; exact EA|apply XC].
  - apply (exact_herm _ _ _ _ (XC z1) (proj1 P1)).
  - reflexivity.
  - assert (NR : near (eps / 4) (cv z0) (cv z1)).
    { split; [reflexivity|]. split; [reflexivity|]. intros i j Hi Hj. cbn in Hi, Hj. cbn [cv Prop_esprit.cov_of ula_matrix madd mscal mmul mid mher nr nc ent csum List.length nth].
      assert (M0 : (z0 * Cconj z0)%C = RtoC 1) by (unfold z0; rewrite ZV; apply cis_norm). assert (M1 : (z1 * Cconj z1)%C = RtoC 1) by (unfold z1; rewrite ZV; apply cis_norm).
      destruct i as [|[|i]]; [| |lia]; (destruct j as [|[|j]]; [| |lia]); cbn [cpow Nat.eqb]; rewrite ?Cmult_1_r, ?Cplus_0_l, ?Cmult_1_l.
      - rewrite Cmod_self. lra.
      - match goal with |- (Cmod ?x <= _)%R => replace x with (Cconj (z0 - z1))%C by (rewrite Cminus_conj; ring) end. rewrite P_spectral.Cmod_conj. exact CZ.
      - match goal with |- (Cmod ?x <= _)%R => replace x with (z0 - z1)%C by (rewrite ?Cconj_RtoC; ring) end. exact CZ.
      - match goal with |- (Cmod ?x <= _)%R => replace x with (z0 * Cconj z0 - z1 * Cconj z1)%C by ring end. rewrite M0, M1, Cmod_self. lra. }
    pose proof (P_cont2.near_distance 2 (eps / 4) (cv z0) (cv z1) eq_refl eq_refl ltac:(lra) NR) as ND. cbn [INR] in ND. lra.
  - intros eigh solve eigvals EC SC VC. split; [apply RUN; auto; lra|]. exists b. split; [apply RUN; auto; unfold b; lra|unfold b; lra].
Qed.

(** ** Non-vacuity *)
(** the example of C85 (correlated sources at 45 and -30 degrees on four sensors half a wavelength apart) with one entry of the covariance matrix off *)
Example C101_example : exists g src (A Rm Rm' : cmat) x l,
  mk_ULA 4 (D0Scalar 1) None no_kwargs = Ok g /\ mk_FF1 (vec1 [45; -30]%R) "deg" = Ok src /\
  steering_matrix (gd_array g) src 2 false "all" true = Ok (Flat A, []) /\ exact_cov Rm A correlated2 1 /\ in_view 1 1 2 "deg" [45; -30]%R /\
  (0 < x)%R /\ hermitian Rm' /\ distance Rm Rm' = x /\
  esprit P_oracles.eigh_ref solve0 eigvals_ref 2 Rm' 2 (Some 1%R) 1 "tls" (RWStr "none") "deg" = Ok (true, (map Some l, "deg"%string)) /\ accurate (1 / 100) [45; -30]%R l.
Proof.
  destruct C85_example as (g & src & A & Rm & Eg & Es & HA & HX & _). pose proof PI_RGT_0 as PP.
  assert (IV : in_view 1 1 2 "deg" [45; -30]%R).
  { intros a [<-|[<-|[]]]; cbn [to_rad String.eqb Ascii.eqb Bool.eqb]; (split; [lra|]); change (INR 1) with 1%R.
    - replace (45 * (PI / 180))%R with (PI / 4)%R by field. rewrite sin_PI4. pose proof (sqrt_lt_R0 2 ltac:(lra)). assert (1 / sqrt 2 < 1)%R; [|assert (0 < 1 / sqrt 2)%R by (apply Rdiv_lt_0_compat; lra); lra].
      apply (Rmult_lt_reg_r (sqrt 2)); [lra|]. replace (1 / sqrt 2 * sqrt 2)%R with 1%R by (field; lra). rewrite Rmult_1_l. rewrite <- sqrt_1 at 1. apply sqrt_lt_1; lra.
    - replace (-30 * (PI / 180))%R with (- (PI / 6))%R by field. rewrite sin_neg, sin_PI6. lra. }
  destruct (C101_esprit_on_ula 4 1 None g 2 [45; -30]%R "deg" src A correlated2 Rm 1 1 "tls" (RWStr "none") (1 / 100) Eg Es HA HX correlated2_pd ltac:(lra) ltac:(lra)) as (eps & He & H).
  - repeat constructor; cbn; lra.
  - exact IV.
  - lia.
  - cbn; lia.
  - cbn; lia.
  - now left.
  - left. reflexivity.
  - lra.
  - destruct (ex_dims Rm A _ 1 HX) as (D1 & D2). destruct (ULA_facts _ _ _ _ Eg) as (PL & X2 & X3 & _). pose proof Es as Es'. apply mk_FF1_ok in Es' as (_ & K & V & ->). cbn [vec1 nd_data] in *.
    destruct (ula_steering g 4 1 "deg" [45; -30]%R 2 PL X2 X3 (conj K V) A HA) as (A1 & _). cbn [ula_matrix nr] in A1.
    pose proof (exact_herm _ _ _ _ HX (proj1 correlated2_pd)) as HH.
    assert (DS : distance Rm (off_by (eps / 2) Rm) = (eps / 2)%R) by (apply off_by_distance; [lra|lia|lia]).
    destruct (H P_oracles.eigh_ref solve0 eigvals_ref (off_by (eps / 2) Rm) (P_oracles.eigh_ref_contract _) (solve0_contract _) (eigvals_ref_contract _)) as (l & E & AC).
    + now apply off_by_herm.
    + cbn [off_by nr]. congruence.
    + rewrite DS. lra.
    + exists g, (FF1 [45; -30]%R "deg"), A, Rm, (off_by (eps / 2) Rm), (eps / 2)%R, l. do 5 (split; [assumption|]). split; [lra|]. split; [now apply off_by_herm|]. split; [exact DS|]. split; [exact E|exact AC].
Qed.
Print Assumptions C101_shifts.
Print Assumptions C101_esprit_on_ula.
Print Assumptions C101_consistency.
Print Assumptions C101_coarray_esprit.
Print Assumptions C101_coarray_consistency.
Print Assumptions C101_endfire.
