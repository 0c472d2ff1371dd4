(** Continuity and consistency of root-MUSIC (C102), and resolution of every matrix in general position (C62). *)
From Coq Require Import Lra Sorted Permutation.
From Verif Require Import Base_Np Base_Trig Base_Lin S_model M_utils S_utils P_utils M_sources S_sources P_sources P_sources3 M_array S_array P_array P_array2 P_array3 M_designs S_designs P_designs M_coarray S_coarray P_coarray P_coarray2 P_model
  M_grid S_grid P_grid M_core P_core P_core2 M_sparse M_subspace S_subspace P_subspace P_subspace2 P_subspace3 P_subspace5 P_perf5 M_srcnum M_pipeline S_pipeline P_pipeline P_pipeline2 P_pipeline3 P_gauss P_fta P_fta2 Prop_pipeline Prop_pipeline2
  S_stable P_stable P_stable3 P_stable5 Prop_stable S_invar S_invar2 P_invar4 Prop_invar2 P_cont P_cont4 P_cont5 P_cont6 S_cont Prop_cont S_rootc P_rootc P_rootc2 P_rootc3 P_rootc4 P_rootc5.
From Verif Require P_invar P_oracles Prop_subspace Prop_root Prop_esprit Prop_designs Prop_grid Prop_coarray Prop_coarray2 Prop_perf3.
Open Scope nat_scope.

(** *** a root finder that meets the contract *)
Definition roots_ref (c : list C) : res (list C) := match zero_or (rev c) with left N => Ok (proj1_sig (projT2 (factor (rev c) N))) | right _ => Ok [] end.
Lemma roots_ref_contract : roots_contract roots_ref.
Proof.
  intros c (a & Ia & Na). unfold roots_ref. destruct (zero_or (rev c)) as [N|Z].
  - destruct (factor (rev c) N) as (b & zs & Nb & H). cbn [projT2 proj1_sig]. exists zs, b. split; [reflexivity|]. split; [exact Nb|]. intros x. rewrite (poly_pe c x).
 etransitivity; [apply H|]. f_equal.
  - exfalso. apply Na. apply in_rev in Ia. destruct (In_nth _ _ (RtoC 0) Ia) as (i & _ & Ei). rewrite <- Ei. apply Z.
Qed.

(** C62, strengthened: the hypotheses on the root finder of C62_pairs_resolved follow from numpy.roots returning all roots with their multiplicities.  Every Hermitian matrix with no
    steering vector exactly orthogonal to the noise eigenvectors is resolved, for every admissible number of sources, and the directions come from that many roots strictly inside the circle *)
Theorem C62_always_resolved : forall eigh roots argsort m (Rm : cmat) k, eigh_contract m eigh -> roots_contract roots -> (forall v, is_argsort v (argsort v)) ->
  hermitian Rm -> nr Rm = m -> 1 <= k < m -> no_exact_null eigh Rm k ->
  exists chosen, List.length chosen = k /\ (forall z, In z chosen -> (Cmod z < 1)%R) /\
    forall lam d0 unit, root_music eigh roots argsort lam Rm (Z.of_nat k) d0 unit =
      (let! p := from_z chosen lam (match d0 with None => (lam / 2)%R | Some d => d end) unit in Ok (true, Some p)).
Proof.
  intros eigh roots argsort m Rm k EC RC HA HH R1 Hk NN. destruct (EC Rm HH ltac:(lia)) as (w & E & EE & OE). assert (E1 : nr E = m) by (rewrite <- R1; apply OE). assert (E2 : nc E = m) by (rewrite <- R1; apply OE).
  destruct (Prop_subspace.noise_value eigh Rm k w E m EE E1 E2 ltac:(lia)) as (En & EN & M1 & M2 & _). specialize (NN En EN).
  set (cf := root_coeffs (En *m mher En)). assert (HHn : hermitian (En *m mher En)) by apply (psd_gram' En).
  assert (OnC : forall z, Cmod z = 1%R -> poly cf z <> RtoC 0).
  { intros z Hz Z. rewrite poly_pe in Z. pose proof (noise_poly_mod En m z M1 ltac:(lia) Hz) as Q. fold cf in Q. rewrite Z, Cmod_0 in Q. symmetry in Q. rewrite proj_power_0 in Q. destruct (NN z Hz) as (j & Hj & N). apply N. now apply Q. }
  destruct (RC cf) as (l & a & ER & Na & HF).
  { destruct (zero_or cf) as [(i & Y)|Y]; [|exfalso; apply (OnC (RtoC 1) Cmod_1); rewrite poly_pe; apply pe_zero; intros i; destruct (Nat.lt_ge_cases i (List.length (rev cf))) as [L|L]; [rewrite rev_nth by (rewrite rev_length in L; lia); apply Y|now apply nth_overflow]].
    exists (nth i cf (RtoC 0)). split; [|exact Y]. destruct (Nat.lt_ge_cases i (List.length cf)) as [L|L]; [now apply nth_In|]. exfalso. apply Y. now apply nth_overflow. }
  assert (HF' : forall x, poly cf x = (a * lin_prod l x)%C) by (intros x; rewrite HF, product_lin; reflexivity).
  assert (Off : forall v, In v l -> Cmod v <> 1%R). { intros v Iv Hv. apply (OnC v Hv). rewrite HF', (proj2 (lin_prod_0 l v) Iv). ring. }
  pose proof (kept_count (En *m mher En) m l a HHn ltac:(cbn; exact M1) ltac:(lia) Na HF' Off) as KC.
  destruct (Prop_root.C62_selection argsort l k) as (_ & SEL); [apply Forall_forall; exact Off|exact HA|]. change (fun w => if Rlt_dec (Cmod w) 1 then true else false) with inside in SEL.
  destruct SEL as (chosen & rst & ES & PS & LS & _); [lia|]. exists chosen. split; [exact LS|]. split.
  - intros z Iz. assert (I : In z (filter inside l)) by (apply (Permutation_in _ PS), in_or_app; now left). apply filter_In in I as (_ & I). unfold inside in I. destruct (Rlt_dec _ _); [assumption|discriminate].
  - intros lam d0 unit. assert (R2 : nc Rm = m) by (destruct HH as (SQ & _); congruence). unfold root_music. rewrite R1, R2, Nat.eqb_refl. cbn [negb]. unfold ensure_n_resolvable_sources. rewrite Z.gtb_ltb.
    destruct (Z.ltb_spec (Z.of_nat m - 1) (Z.of_nat k)); [lia|]. cbn [bind]. rewrite EN. cbn [bind]. rewrite matmul_ok by reflexivity. cbn [bind]. fold cf. rewrite ER. cbn [bind]. rewrite ES. reflexivity.
Qed.

(** C102.  The roots: the true covariance matrix of sources on the unit circle.  For every tolerance there is a radius such that for every Hermitian matrix closer than that without an exact
    null, the roots used by root-MUSIC are the true ones, up to the order and the tolerance *)
Theorem C102_roots : forall m zs (Rm P : cmat) s tol, NoDup zs -> (forall z, In z zs -> Cmod z = 1%R) -> 1 <= List.length zs < m -> exact_cov Rm (ula_matrix m zs) P s -> pd P -> (0 < tol)%R ->
  exists eps, (0 < eps)%R /\ forall eigh roots argsort (Rm' : cmat), eigh_contract m eigh -> roots_contract roots -> (forall v, is_argsort v (argsort v)) ->
    hermitian Rm' -> nr Rm' = m -> (distance Rm Rm' < eps)%R -> no_exact_null eigh Rm' (List.length zs) ->
    exists chosen z0, Permutation z0 chosen /\ Forall2 (fun a b => Cmod (a - b)%C < tol)%R zs z0 /\
      forall lam d0 unit, root_music eigh roots argsort lam Rm' (Z.of_nat (List.length zs)) d0 unit =
        (let! p := from_z chosen lam (match d0 with None => (lam / 2)%R | Some d => d end) unit in Ok (true, Some p)).
Proof. intros m zs Rm P s tol ND U Hk HX HP Ht. exact (root_shifts m zs Rm P s tol ND U Hk HX HP Ht). Qed.

Lemma view_1 d lam u doas : (0 < lam)%R -> in_view d 1 lam u doas -> forall a, In a doas -> (- (PI / 2) < to_rad u a < PI / 2 /\ - PI < 2 * PI * d / lam * sin (to_rad u a) < PI)%R.
Proof.
  intros Hl IV a Ia. destruct (IV a Ia) as (T & W). split; [exact T|]. change (INR 1) with 1%R in W. rewrite Rmult_1_r in W. pose proof PI_RGT_0 as PP.
  replace (2 * PI * d / lam * sin (to_rad u a))%R with ((2 * PI / lam) * (d * sin (to_rad u a)))%R by (field; lra).
  assert (0 < 2 * PI / lam)%R by (apply Rdiv_lt_0_compat; lra). assert (2 * PI / lam * (lam / 2) = PI)%R by (field; lra). split; nra.
Qed.
Lemma zof_nodup d lam u doas : (0 < d)%R -> (0 < lam)%R -> Forall (valid_angle u) doas -> NoDup doas -> in_view d 1 lam u doas -> NoDup (map (zof d lam u) doas).
Proof.
  intros Hd Hl V ND IV. pose proof (view_1 d lam u doas Hl IV) as W. rewrite Forall_forall in V. apply NoDup_map_in; [exact ND|]. intros a b Ia Ib E. pose proof PI_RGT_0 as PP.
  destruct (W a Ia) as (Ta & Wa), (W b Ib) as (Tb & Wb). assert (Q : forall x, (2 * PI / lam * d * x = 2 * PI * d / lam * x)%R) by (intros; field; lra).
  unfold zof in E. rewrite !Q in E. apply cis_inj in E; [|lra|lra]. apply Rmult_eq_reg_l in E; [|apply Rgt_not_eq; apply Rdiv_lt_0_compat; [|exact Hl]; apply Rmult_lt_0_compat; lra].
  apply to_rad_inj with (u := u); auto. rewrite <- (asin_sin (to_rad u a)), <- (asin_sin (to_rad u b)) by lra. now rewrite E.
Qed.

Lemma root_ula_cont m d lam u doas (A P Rm : cmat) s tol : (0 < d)%R -> (0 < lam)%R -> known_unit u -> Forall (valid_angle u) doas -> NoDup doas -> in_view d 1 lam u doas ->
  A ==m ula_matrix m (map (zof d lam u) doas) -> exact_cov Rm A P s -> pd P -> 1 <= List.length doas < m -> (0 < tol)%R ->
  exists eps, (0 < eps)%R /\ forall eigh roots argsort (Rm' : cmat), eigh_contract m eigh -> roots_contract roots -> (forall v, is_argsort v (argsort v)) ->
    hermitian Rm' -> nr Rm' = m -> (distance Rm Rm' < eps)%R -> no_exact_null eigh Rm' (List.length doas) ->
    exists l, root_music eigh roots argsort lam Rm' (Z.of_nat (List.length doas)) (Some d) u = Ok (true, Some (map Some l, u)) /\ accurate tol doas l.
Proof.
  intros Hd Hl K V ND IV EA HX HP Hk Ht. pose proof PI_RGT_0 as PP. pose proof (zof_nodup d lam u doas Hd Hl V ND IV) as NZ. pose proof (view_1 d lam u doas Hl IV) as W. rewrite Forall_forall in V.
  pose proof (exact_cov_eq Rm A _ P s EA HX) as HX'. set (zs := map (zof d lam u) doas) in *. assert (Lz : List.length zs = List.length doas) by apply map_length.
  set (truth := sort_by Rleb doas). assert (PT : Permutation truth doas) by apply sort_by_perm. set (ts := map (to_rad u) truth).
  assert (OT : map (of_rad u) ts = truth).
  { unfold ts. rewrite map_map. rewrite (map_ext_in _ (fun a => a)), map_id; [reflexivity|]. intros a Ia. apply of_to_rad. apply V. eapply Permutation_in; [exact PT|exact Ia]. }
  destruct (from_z_cont ts lam d u tol K Hl Hd) as (e1 & p1 & H1).
  { rewrite OT. now apply sort_strict. }
  { apply Forall_forall. intros t It. apply in_map_iff in It as (a & <- & Ia). assert (Ia' : In a doas) by (eapply Permutation_in; [exact PT|exact Ia]). apply W; exact Ia'. }
  { exact Ht. }
  rewrite OT in H1.
  destruct (root_shifts m zs Rm P s e1 NZ) as (eps & ep & H2).
  { intros z Iz. apply in_map_iff in Iz as (a & <- & _). apply cis_mod. }
  { lia. }
  { exact HX'. } { exact HP. } { exact p1. }
  exists eps. split; [exact ep|]. intros eigh roots argsort Rm' EC RC HA HH' R1' DS NN. rewrite <- Lz in NN.
  destruct (H2 eigh roots argsort Rm' EC RC HA HH' R1' DS NN) as (chosen & z0 & PZ & FZ & RM). rewrite Lz in RM.
  assert (PF : Permutation zs (map (fun t => cis (2 * PI * d / lam * sin t)) ts)).
  { unfold ts. rewrite map_map. unfold zs. rewrite (map_ext (zof d lam u) (fun a => cis (2 * PI * d / lam * sin (to_rad u a)))) by (intros a; unfold zof; f_equal; field; lra). apply Permutation_map. now symmetry. }
  destruct (Permutation_Forall2 PF FZ) as (z1 & P1 & F1).
  destruct (H1 chosen z1) as (l & EL & AL & FL); [rewrite <- P1; exact PZ|exact F1|].
  exists l. split; [rewrite RM, EL; reflexivity|]. split; [exact AL|]. exists truth. split; [exact PT|]. split; [apply sort_R_ascending|exact FL].
Qed.

(** The directions: sources on a uniform linear array, none at endfire or at the ambiguity boundary *)
Theorem C102_root_music_on_ula : forall n d name g lam doas u src (A P Rm : cmat) s tol,
  mk_ULA (Z.of_nat n) (D0Scalar d) name no_kwargs = Ok g -> mk_FF1 (vec1 doas) u = Ok src ->
  steering_matrix (gd_array g) src lam false "all" true = Ok (Flat A, []) -> exact_cov Rm A P s -> pd P ->
  (0 < d)%R -> (0 < lam)%R -> NoDup doas -> in_view d 1 lam u doas -> 1 <= List.length doas < n -> (0 < tol)%R ->
  exists eps, (0 < eps)%R /\ forall eigh roots argsort (Rm' : cmat),
    eigh_contract n eigh -> roots_contract roots -> (forall v, is_argsort v (argsort v)) ->
    hermitian Rm' -> nr Rm' = n -> (distance Rm Rm' < eps)%R -> no_exact_null eigh Rm' (List.length doas) ->
    exists l, root_music eigh roots argsort lam Rm' (Z.of_nat (List.length doas)) (Some d) u = Ok (true, Some (map Some l, u)) /\ accurate tol doas l.
Proof.
  intros n d nm g lam doas u src A P Rm s tol Eg Es HA HX HP Hd Hl ND W Hk Ht.
  apply mk_FF1_ok in Es as (_ & K & V & ->). cbn [vec1 nd_data] in *. destruct (ULA_facts _ _ _ _ Eg) as (PL & Pe & I & _ & _).
  pose proof (ula_steering g n d u doas lam PL Pe I (conj K V) A HA) as EA. apply (root_ula_cont n d lam u doas A P Rm s tol); assumption.
Qed.

(** consistency *)
Theorem C102_consistency : forall n d name g lam doas u src (A P Rm : cmat) s (Rs : nat -> cmat) tol,
  mk_ULA (Z.of_nat n) (D0Scalar d) name no_kwargs = Ok g -> mk_FF1 (vec1 doas) u = Ok src ->
  steering_matrix (gd_array g) src lam false "all" true = Ok (Flat A, []) -> exact_cov Rm A P s -> pd P ->
  (0 < d)%R -> (0 < lam)%R -> NoDup doas -> in_view d 1 lam u doas -> 1 <= List.length doas < n ->
  (forall i, hermitian (Rs i) /\ nr (Rs i) = n) -> converges Rs Rm -> (0 < tol)%R ->
  exists N, forall i eigh roots argsort, N <= i ->
    eigh_contract n eigh -> roots_contract roots -> (forall v, is_argsort v (argsort v)) -> no_exact_null eigh (Rs i) (List.length doas) ->
    exists l, root_music eigh roots argsort lam (Rs i) (Z.of_nat (List.length doas)) (Some d) u = Ok (true, Some (map Some l, u)) /\ accurate tol doas l.
Proof.
  intros n d nm g lam doas u src A P Rm s Rs tol Eg Es HA HX HP Hd Hl ND W Hk HR CV Ht.
  destruct (C102_root_music_on_ula n d nm g lam doas u src A P Rm s tol Eg Es HA HX HP Hd Hl ND W Hk Ht) as (eps & He & H).
  destruct (CV eps He) as (N & HN). exists N. intros i eigh roots argsort Hi EC RC HAr NN. destruct (HR i). apply H; auto.
Qed.

(** *** coarrays: a property of every Hermitian matrix near an exact covariance of the virtual array holds for the augmented covariance near the true covariance *)
Lemma coarray_lift_gen (Good : cmat -> Prop) g l d w0 calls m lam doas u src (A Rm : cmat) p sigma method :
  places_1d g l d -> gd_d0 g = [d] -> NoDup l -> ar_perts (gd_array g) = [] -> scalar_isotropic (gd_array g) ->
  mk_WeightFunction1D g = Ok w0 -> first_hole l (Z.of_nat m) -> mk_FF1 (vec1 doas) u = Ok src ->
  steering_matrix (gd_array g) src lam false "all" true = Ok (Flat A, []) ->
  Rm ==m model_cov A p sigma -> (forall k, k < List.length doas -> (0 < p k)%R) -> (0 <= sigma)%R ->
  (0 < d)%R -> (0 < lam)%R -> NoDup (map (zof d lam u) doas) -> 1 <= List.length doas < m -> method = "da"%string \/ method = "ss"%string ->
  (forall (Av Pa Ra : cmat) sa, Av ==m ula_matrix m (map (zof d lam u) doas) -> exact_cov Ra Av Pa sa -> pd Pa ->
     exists tau, (0 < tau)%R /\ forall Ra' : cmat, hermitian Ra' -> nr Ra' = m -> (distance Ra Ra' < tau)%R -> Good Ra') ->
  exists eps, (0 < eps)%R /\ forall Rm' : cmat, hermitian Rm' -> nr Rm' = List.length l -> (distance Rm Rm' < eps)%R ->
    exists Ra, transform (Acm g (after w0 calls)) Rm' method = Ok Ra /\ hermitian Ra /\ nr Ra = m /\ Good Ra.
Proof.
  intros PL D0 NDl Pe Iso Hw FH Es HA HRm Hp Hs Hd Hl NZ Hk HM HG.
  apply mk_FF1_ok in Es as (_ & K & V & ->). cbn [vec1 nd_data] in *. assert (VS : valid_sources (FF1 doas u)) by exact (conj K V).
  assert (Nl : l <> []). { intros ->. destruct FH as (_ & _ & X). specialize (X 0%Z ltac:(lia)). destruct X as (? & ? & [] & _). }
  pose proof (places_grid_1d g l d PL) as Hg.
  assert (Em : Z.of_nat m = Z.of_nat (mv0 g)) by exact (Prop_coarray.C37_first_hole_unique l _ _ FH (mv0_hole g l Hg)).
  destruct (Prop_coarray2.C40_exact g l d w0 calls _ lam p sigma None A Rm PL D0 Hw Nl NDl Pe Iso VS eq_refl HA HRm) as (v & Av & Da & Ev & HAv & ED & HDa).
  assert (VF : places_1d v (ULA_indices (Z.of_nat m)) d /\ ar_perts (gd_array v) = [] /\ scalar_isotropic (gd_array v)).
  { unfold get_virtual_ula in Ev. cbn [acm_array] in Ev. rewrite D0 in Ev. assert (Eo : acm_output_size (Acm g (after w0 calls)) = Z.of_nat (mv0 g)) by exact (central_ula g l Hg w0 Hw calls true). rewrite Eo, <- Em in Ev.
    destruct (ULA_virtual (Z.of_nat m) d (Some (name_or None ("Virtual ULA of " ++ ar_name (gd_array g))))) as (v2 & E2 & X). rewrite Ev in E2. injection E2 as <-. exact X. }
  destruct VF as (PV & PeV & IsoV). pose proof (ula_steering v m d u _ lam PV PeV IsoV VS Av HAv) as EA. pose proof EA as (A1 & A2 & _). cbn [ula_matrix nr nc] in A1, A2. rewrite map_length in A2.
  assert (X0 : exact_cov Da Av (mdiag (nc Av) (fun k => RtoC (p k))) sigma) by (split; [reflexivity|]; split; [reflexivity|]; exact HDa).
  assert (PP : pd (mdiag (nc Av) (fun k => RtoC (p k)))) by (apply pd_mdiag; intros k Hk'; apply Hp; lia).
  pose proof HRm as (R1 & R2 & _). cbn in R1, R2. destruct (response_1d g l d _ lam A PL Pe Iso VS eq_refl HA) as (A3 & _).
  assert (GEN : forall Ra Pa sa, transform (Acm g (after w0 calls)) Rm method = Ok Ra -> exact_cov Ra Av Pa sa -> pd Pa ->
    exists eps, (0 < eps)%R /\ forall Rm' : cmat, hermitian Rm' -> nr Rm' = List.length l -> (distance Rm Rm' < eps)%R ->
      exists Ra, transform (Acm g (after w0 calls)) Rm' method = Ok Ra /\ hermitian Ra /\ nr Ra = m /\ Good Ra).
  { intros Ra Pa sa ER XA PA. destruct (HG Av Pa Ra sa EA XA PA) as (tau & Htau & H).
    destruct (coarray_transform_close g l d w0 calls m Rm method tau PL Hw FH ltac:(lia) ltac:(congruence) ltac:(congruence) HM Htau) as (Ra2 & ER2 & eps & He & HC). rewrite ER in ER2. injection ER2 as <-.
    exists eps. split; [exact He|]. intros Rm' HH N DS. destruct (HC Rm' HH N DS) as (Ra' & ER' & HH' & N' & DS'). exists Ra'. auto. }
  destruct HM as [-> | ->].
  - exact (GEN Da _ sigma ED X0 PP).
  - assert (IA : inj Av) by (apply (Base_Lin.inj_eq (ula_matrix m (map (zof d lam u) doas))); [now symmetry|]; apply ula_inj; [exact NZ|rewrite map_length; lia]).
    destruct (Prop_coarray.C39_ss g l w0 calls Rm (Z.of_nat m) Hg Hw Nl FH ltac:(congruence) ltac:(congruence)) as (D' & Sm & ED' & ES & EG & _). rewrite ED in ED'. injection ED' as <-.
    destruct (gram_exact Da Sm Av _ sigma (/ IZR (Z.of_nat m)) X0 IA PP Hs ltac:(apply Rinv_0_lt_compat, IZR_lt; lia) EG) as (P' & X1 & PP').
    exact (GEN Sm P' _ ES X1 PP').
Qed.
Lemma coarray_lift (Good : cmat -> Prop) g l d w0 calls m lam doas u src (A Rm : cmat) p sigma method :
  places_1d g l d -> gd_d0 g = [d] -> NoDup l -> ar_perts (gd_array g) = [] -> scalar_isotropic (gd_array g) ->
  mk_WeightFunction1D g = Ok w0 -> first_hole l (Z.of_nat m) -> mk_FF1 (vec1 doas) u = Ok src ->
  steering_matrix (gd_array g) src lam false "all" true = Ok (Flat A, []) ->
  Rm ==m model_cov A p sigma -> (forall k, k < List.length doas -> (0 < p k)%R) -> (0 <= sigma)%R ->
  (0 < d)%R -> (0 < lam)%R -> NoDup doas -> in_view d 1 lam u doas -> 1 <= List.length doas < m -> method = "da"%string \/ method = "ss"%string ->
  (forall (Av Pa Ra : cmat) sa, Av ==m ula_matrix m (map (zof d lam u) doas) -> exact_cov Ra Av Pa sa -> pd Pa ->
     exists tau, (0 < tau)%R /\ forall Ra' : cmat, hermitian Ra' -> nr Ra' = m -> (distance Ra Ra' < tau)%R -> Good Ra') ->
  exists eps, (0 < eps)%R /\ forall Rm' : cmat, hermitian Rm' -> nr Rm' = List.length l -> (distance Rm Rm' < eps)%R ->
    exists Ra, transform (Acm g (after w0 calls)) Rm' method = Ok Ra /\ hermitian Ra /\ nr Ra = m /\ Good Ra.
Proof.
  intros PL D0 NDl Pe Iso Hw FH Es HA HRm Hp Hs Hd Hl ND W. apply (coarray_lift_gen Good g l d w0 calls m lam doas u src A Rm p sigma method); try assumption.
  apply mk_FF1_ok in Es as (_ & _ & V & _). cbn [vec1 nd_data] in V. now apply zof_nodup.
Qed.
Theorem C102_coarray_root_music : forall g l d w0 calls m lam doas u src (A Rm : cmat) p sigma method tol,
  places_1d g l d -> gd_d0 g = [d] -> NoDup l -> ar_perts (gd_array g) = [] -> scalar_isotropic (gd_array g) ->
  mk_WeightFunction1D g = Ok w0 -> first_hole l (Z.of_nat m) -> mk_FF1 (vec1 doas) u = Ok src ->
  steering_matrix (gd_array g) src lam false "all" true = Ok (Flat A, []) ->
  Rm ==m model_cov A p sigma -> (forall k, k < List.length doas -> (0 < p k)%R) -> (0 <= sigma)%R ->
  (0 < d)%R -> (0 < lam)%R -> NoDup doas -> in_view d 1 lam u doas -> 1 <= List.length doas < m -> method = "da"%string \/ method = "ss"%string -> (0 < tol)%R ->
  exists eps, (0 < eps)%R /\ forall Rm' : cmat, hermitian Rm' -> nr Rm' = List.length l -> (distance Rm Rm' < eps)%R ->
    exists Ra, transform (Acm g (after w0 calls)) Rm' method = Ok Ra /\
      forall eigh roots argsort, eigh_contract m eigh -> roots_contract roots -> (forall v, is_argsort v (argsort v)) -> no_exact_null eigh Ra (List.length doas) ->
        exists r, root_music eigh roots argsort lam Ra (Z.of_nat (List.length doas)) (Some d) u = Ok (true, Some (map Some r, u)) /\ accurate tol doas r.
Proof.
  intros g l d w0 calls m lam doas u src A Rm p sigma method tol PL D0 NDl Pe Iso Hw FH Es HA HRm Hp Hs Hd Hl ND W Hk HM Ht.
  destruct (coarray_lift (fun Ra => forall eigh roots argsort, eigh_contract m eigh -> roots_contract roots -> (forall v, is_argsort v (argsort v)) -> no_exact_null eigh Ra (List.length doas) ->
        exists r, root_music eigh roots argsort lam Ra (Z.of_nat (List.length doas)) (Some d) u = Ok (true, Some (map Some r, u)) /\ accurate tol doas r)
      g l d w0 calls m lam doas u src A Rm p sigma method PL D0 NDl Pe Iso Hw FH Es HA HRm Hp Hs Hd Hl ND W Hk HM) as (eps & He & H).
  - apply mk_FF1_ok in Es as (_ & K & V & _). cbn [vec1 nd_data] in *. intros Av Pa Ra sa EA XA PA. destruct (root_ula_cont m d lam u doas Av Pa Ra sa tol Hd Hl K V ND W EA XA PA Hk Ht) as (tau & Htau & H).
    exists tau. split; [exact Htau|]. intros Ra' HH N DS eigh roots argsort EC RC HAr NN. now apply H.
  - exists eps. split; [exact He|]. intros Rm' HH N DS. destruct (H Rm' HH N DS) as (Ra & ER & _ & _ & G). exists Ra. auto.
Qed.
Theorem C102_coarray_consistency : forall g l d w0 calls m lam doas u src (A Rm : cmat) p sigma method (Rs : nat -> cmat) tol,
  places_1d g l d -> gd_d0 g = [d] -> NoDup l -> ar_perts (gd_array g) = [] -> scalar_isotropic (gd_array g) ->
  mk_WeightFunction1D g = Ok w0 -> first_hole l (Z.of_nat m) -> mk_FF1 (vec1 doas) u = Ok src ->
  steering_matrix (gd_array g) src lam false "all" true = Ok (Flat A, []) ->
  Rm ==m model_cov A p sigma -> (forall k, k < List.length doas -> (0 < p k)%R) -> (0 <= sigma)%R ->
  (0 < d)%R -> (0 < lam)%R -> NoDup doas -> in_view d 1 lam u doas -> 1 <= List.length doas < m -> method = "da"%string \/ method = "ss"%string ->
  (forall i, hermitian (Rs i) /\ nr (Rs i) = List.length l) -> converges Rs Rm -> (0 < tol)%R ->
  exists N, forall i, N <= i -> exists Ra, transform (Acm g (after w0 calls)) (Rs i) method = Ok Ra /\
    forall eigh roots argsort, eigh_contract m eigh -> roots_contract roots -> (forall v, is_argsort v (argsort v)) -> no_exact_null eigh Ra (List.length doas) ->
      exists r, root_music eigh roots argsort lam Ra (Z.of_nat (List.length doas)) (Some d) u = Ok (true, Some (map Some r, u)) /\ accurate tol doas r.
Proof.
  intros g l d w0 calls m lam doas u src A Rm p sigma method Rs tol PL D0 NDl Pe Iso Hw FH Es HA HRm Hp Hs Hd Hl ND W Hk HM HR CV Ht.
  destruct (C102_coarray_root_music g l d w0 calls m lam doas u src A Rm p sigma method tol PL D0 NDl Pe Iso Hw FH Es HA HRm Hp Hs Hd Hl ND W Hk HM Ht) as (eps & He & H).
  destruct (CV eps He) as (N & HN). exists N. intros i Hi. destruct (HR i). apply H; auto.
Qed.

(** two sensors, one source: no estimated noise eigenvector of a covariance with unequal sensor powers is orthogonal to a steering vector *)
Lemma no_null_2 eigh (Rm : cmat) z x : eigh_contract 2 eigh -> hermitian Rm -> nr Rm = 2 -> Cnorm2 z = 1%R -> x <> 0%R ->
  ent Rm 0 0 = RtoC (2 + x) -> ent Rm 1 1 = RtoC 2 -> ent Rm 1 0 = z -> no_exact_null eigh Rm 1.
Proof.
  intros EC HH N2 Hz Hx E00 E11 E10. destruct (EC Rm HH ltac:(lia)) as (w & E & EE & OE). assert (E1 : nr E = 2) by (rewrite <- N2; apply OE). assert (E2 : nc E = 2) by (rewrite <- N2; apply OE).
  intros En EN y Hy. destruct (Prop_subspace.noise_value eigh Rm 1 w E 2 EE E1 E2 ltac:(lia)) as (En' & EN' & M1 & M2 & ME). change (Z.of_nat 1) with 1%Z in *. rewrite EN in EN'. injection EN' as <-.
  exists 0. split; [lia|]. rewrite M1. intros Q.
  pose proof OE as (_ & _ & _ & _ & _ & OR & AE). rewrite N2 in *.
  assert (E01 : ent Rm 0 1 = Cconj z). { destruct HH as (_ & Hh). rewrite (Hh 0 1) by lia. now rewrite E10. }
  destruct HH as (SQ & _). rewrite N2 in SQ. destruct AE as (_ & _ & AE), OR as (_ & _ & OR).
  pose proof (AE 0 0 ltac:(cbn; lia) ltac:(cbn; lia)) as Q0. pose proof (AE 1 0 ltac:(cbn; lia) ltac:(cbn; lia)) as Q1. pose proof (OR 0 0 ltac:(cbn; lia) ltac:(cbn; lia)) as Q2.
  unfold mmul in Q0, Q1, Q2. cbn [ent mher mid mdiag nr nc] in Q0, Q1, Q2. rewrite <- SQ, E2 in Q0, Q1. rewrite E1 in Q2. cbn [csum Nat.eqb] in Q0, Q1, Q2. rewrite E00, E01 in Q0. rewrite E10, E11 in Q1.
  unfold vdot, col in Q. cbn [csum cpow] in Q. rewrite !ME in Q.
  destruct (ent E 0 0) as [a1 a2], (ent E 1 0) as [b1 b2], y as [y1 y2], z as [z1 z2]. set (t := nth 0 w 0%R) in *.
  assert (Hy2 : (y1 * y1 + y2 * y2 = 1)%R). { pose proof (P_invar.Cmod_sq (y1, y2)) as Y. rewrite Hy in Y. unfold Cnorm2 in Y. cbn in Y. lra. }
  unfold Cnorm2 in Hz. cbn in Hz.
  apply Prop_esprit.pair_inv in Q, Q0, Q1, Q2. destruct Q as (A1 & A2), Q0 as (B1 & B2), Q1 as (C1 & C2), Q2 as (D1 & _).
  cbn in A1, A2, B1, B2, C1, C2, D1.
  clear - A1 A2 B1 B2 C1 C2 D1 Hy2 Hz Hx. ring_simplify in D1.
  assert (P1 : (a1 = - (b1 * y1 + b2 * y2))%R) by lra. assert (P2 : (a2 = b1 * y2 - b2 * y1)%R) by lra.
  assert (N : (a1 * a1 + a2 * a2 = b1 * b1 + b2 * b2)%R). { rewrite P1, P2. transitivity ((b1 * b1 + b2 * b2) * (y1 * y1 + y2 * y2))%R; [ring|rewrite Hy2; ring]. }
  assert (NN : (b1 * b1 + b2 * b2 = / 2)%R) by lra. assert (NA : (a1 * a1 + a2 * a2 = / 2)%R) by lra.
  assert (T1 : ((t - 2) * b1 = z1 * a1 - z2 * a2)%R) by lra. assert (T2 : ((t - 2) * b2 = z1 * a2 + z2 * a1)%R) by lra.
  assert (U1 : ((t - 2 - x) * a1 = z1 * b1 + z2 * b2)%R) by lra. assert (U2 : ((t - 2 - x) * a2 = z1 * b2 - z2 * b1)%R) by lra.
  assert (V1 : ((t - 2) * (t - 2 - x) * a1 = a1)%R). { transitivity (z1 * ((t - 2) * b1) + z2 * ((t - 2) * b2))%R; [transitivity ((t - 2) * ((t - 2 - x) * a1))%R; [ring|rewrite U1; ring]|]. rewrite T1, T2. transitivity ((z1 * z1 + z2 * z2) * a1)%R; [ring|rewrite Hz; ring]. }
  assert (V2 : ((t - 2) * (t - 2 - x) * a2 = a2)%R). { transitivity (z1 * ((t - 2) * b2) - z2 * ((t - 2) * b1))%R; [transitivity ((t - 2) * ((t - 2 - x) * a2))%R; [ring|rewrite U2; ring]|]. rewrite T1, T2. transitivity ((z1 * z1 + z2 * z2) * a2)%R; [ring|rewrite Hz; ring]. }
  assert (W1 : ((t - 2) * (t - 2 - x) = 1)%R). { apply (Rmult_eq_reg_r (/ 2)); [|lra]. rewrite <- NA. transitivity ((t - 2) * (t - 2 - x) * a1 * a1 + (t - 2) * (t - 2 - x) * a2 * a2)%R; [ring|rewrite V1, V2; ring]. }
  assert (W2 : ((t - 2) * (t - 2) = 1)%R). { apply (Rmult_eq_reg_r (/ 2)); [|lra]. rewrite <- NN at 1. transitivity ((t - 2) * b1 * ((t - 2) * b1) + (t - 2) * b2 * ((t - 2) * b2))%R; [ring|]. rewrite T1, T2. transitivity ((z1 * z1 + z2 * z2) * (a1 * a1 + a2 * a2))%R; [ring|]. rewrite Hz, NA. ring. }
  apply Hx. transitivity ((t - 2) * ((t - 2) * x))%R; [transitivity ((t - 2) * (t - 2) * x)%R; [rewrite W2; ring|ring]|]. replace ((t - 2) * x)%R with ((t - 2) * (t - 2) - (t - 2) * (t - 2 - x))%R by ring. rewrite W1, W2. ring.
Qed.

(** two sensors half a wavelength apart, one source at 30 degrees, and a covariance that is off by a positive amount: one hundredth of a degree is reached *)
Example C102_example : exists g src (A Rm Rm' : cmat) x l,
  mk_ULA 2 (D0Scalar 1) None no_kwargs = Ok g /\ mk_FF1 (vec1 [30]%R) "deg" = Ok src /\
  steering_matrix (gd_array g) src 2 false "all" true = Ok (Flat A, []) /\ exact_cov Rm A (mid 1) 1 /\ in_view 1 1 2 "deg" [30]%R /\
  (0 < x)%R /\ hermitian Rm' /\ nr Rm' = 2 /\ distance Rm Rm' = x /\ no_exact_null P_oracles.eigh_ref Rm' 1 /\
  root_music P_oracles.eigh_ref roots_ref Prop_subspace.argsort_R 2 Rm' 1 (Some 1%R) "deg" = Ok (true, Some (map Some l, "deg"%string)) /\ accurate (1 / 100) [30]%R l.
Proof.
  pose proof PI_RGT_0 as PP.
  destruct (Prop_designs.C10_constructible 2 0 0 1 None) as ((g & Eg) & _). destruct (ULA_facts _ _ _ _ Eg) as (PL & X2 & X3 & X4 & _). assert (K : known_unit "deg") by (right; left; reflexivity).
  assert (V : Forall (valid_angle "deg") [30%R]) by (apply Forall_cons; [|apply Forall_nil]; right; left; split; [reflexivity|lra]).
  destruct (steering_defined (gd_array g) (FF1 [30]%R "deg") 2 "all" [] true ltac:(lra) X3 X4) as (A & HA);
    [rewrite (pl_ndim _ _ _ PL); lia | rewrite (pl_size _ _ _ PL), ULA_indices_length; lia | unfold select_perturbations, perturbations; now rewrite X2 | intros ? []|].
  pose proof (ula_steering g 2 1 "deg" [30%R] 2 PL X2 X3 (conj K V) A HA) as EA. set (z := zof 1 2 "deg" 30) in *.
  assert (HX0 : exact_cov (Prop_esprit.cov_of (ula_matrix 2 [z])) (ula_matrix 2 [z]) (mid 1) 1) by apply Prop_esprit.cov_of_exact.
  assert (HX : exact_cov (Prop_esprit.cov_of (ula_matrix 2 [z])) A (mid 1) 1) by (apply (exact_cov_eq _ (ula_matrix 2 [z])); [now symmetry|exact HX0]). set (Rm := Prop_esprit.cov_of (ula_matrix 2 [z])) in *.
  assert (Es : mk_FF1 (vec1 [30]%R) "deg" = Ok (FF1 [30]%R "deg")).
  { apply mk_FF1_ok. cbn. split; [lia|]. split; [exact K|]. split; [exact V|reflexivity]. }
  assert (IV : in_view 1 1 2 "deg" [30]%R).
  { intros a [<-|[]]; cbn [to_rad String.eqb Ascii.eqb Bool.eqb]; (split; [lra|]); change (INR 1) with 1%R. replace (30 * (PI / 180))%R with (PI / 6)%R by field. rewrite sin_PI6. lra. }
  assert (P1 : pd (mid 1)) by apply Prop_subspace.pd_mid.
  destruct (C102_root_music_on_ula 2 1 None g 2 [30]%R "deg" (FF1 [30]%R "deg") A (mid 1) Rm 1 (1 / 100) Eg Es HA HX P1 ltac:(lra) ltac:(lra)) as (eps & He & H).
  - constructor; [intros []|constructor].
  - exact IV.
  - cbn; lia.
  - lra.
  - pose proof (exact_herm _ _ _ _ HX (proj1 P1)) as HH.
    assert (DS : distance Rm (off_by (eps / 2) Rm) = (eps / 2)%R) by (apply off_by_distance; [lra|cbn; lia|cbn; lia]).
    assert (NN : no_exact_null P_oracles.eigh_ref (off_by (eps / 2) Rm) 1).
    { apply (no_null_2 _ _ z (eps / 2)); try (apply off_by_herm; exact HH); try reflexivity; [apply P_oracles.eigh_ref_contract| | lra | | |].
      - rewrite <- P_invar.Cmod_sq. unfold z, zof. rewrite cis_mod. ring.
      - unfold Rm, Prop_esprit.cov_of, mmul, madd, mscal, off_by. cbn. unfold RtoC, Cconj, Cmult, Cplus. cbn. f_equal; ring.
      - assert (Hz : Cnorm2 z = 1%R) by (rewrite <- P_invar.Cmod_sq; unfold z, zof; rewrite cis_mod; ring). unfold Cnorm2 in Hz. cbn in Hz. apply injective_projections; unfold Rm, Prop_esprit.cov_of, mmul, madd, mscal, off_by; cbn; lra.
      - unfold Rm, Prop_esprit.cov_of, mmul, madd, mscal, off_by. cbn. rewrite Cconj_RtoC. ring. }
    destruct (H P_oracles.eigh_ref roots_ref Prop_subspace.argsort_R (off_by (eps / 2) Rm) (P_oracles.eigh_ref_contract _) roots_ref_contract Prop_subspace.argsort_R_ok) as (l & E & AC).
    + now apply off_by_herm.
    + reflexivity.
    + rewrite DS. lra.
    + exact NN.
    + exists g, (FF1 [30]%R "deg"), A, Rm, (off_by (eps / 2) Rm), (eps / 2)%R, l. split; [exact Eg|]. split; [exact Es|]. split; [exact HA|]. split; [exact HX|]. split; [exact IV|]. split; [lra|]. split; [now apply off_by_herm|].
      split; [reflexivity|]. split; [exact DS|]. split; [exact NN|]. split; [exact E|exact AC].
Qed.
Print Assumptions C62_always_resolved.
Print Assumptions C102_roots.
Print Assumptions C102_root_music_on_ula.
Print Assumptions C102_consistency.
Print Assumptions C102_coarray_root_music.
Print Assumptions C102_coarray_consistency.
