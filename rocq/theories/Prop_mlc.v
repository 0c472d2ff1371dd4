(** Consistency of the maximum-likelihood estimators on uniform linear arrays (C105). *)
From Coq Require Import Lra Sorting.Permutation Sorting.Sorted.
From Verif Require Import Base_Np Base_Trig Base_Lin S_model M_utils S_utils P_utils M_sources S_sources P_sources P_sources3 M_array S_array P_array P_array2 P_array3 M_designs S_designs P_designs M_coarray S_coarray P_coarray P_coarray2 P_model
  M_heap M_grid M_core M_ml S_subspace S_stable S_ml S_invar3 P_subspace P_subspace2 P_subspace3 P_spectral P_perf2 P_perf3 P_perf5 P_signals P_ml P_ml2 P_ml3 P_ml4 P_ml6 P_ml7 Prop_ml Prop_ml2 Prop_ml4 P_oracles P_stable P_stable2 P_stable3 P_cont4 P_cont6 M_srcnum M_pipeline P_pipeline Prop_pipeline Prop_pipeline2
  Prop_invar3 S_cont P_rootc Prop_rootc S_mlc P_mlc P_mlc2 P_mlc3 P_mlc4 P_mlc5 P_mlc6 P_mlc10 P_mlc11 P_mlc12.
Open Scope nat_scope.

Lemma zconv_any kind n zs (Rm P0 : cmat) s : NoDup zs -> (forall z, In z zs -> Cmod z = 1%R) -> 1 <= List.length zs < n -> identifiable kind n (List.length zs) s -> exact_cov Rm (ula_matrix n zs) P0 s -> pd P0 -> zconv kind n zs Rm.
Proof.
  intros ND U Hk HI HX HP. destruct kind; cbn [identifiable] in HI.
  - destruct HI as (Hs & H2). apply (zconv_aml n zs Rm P0 s); try assumption. lia.
  - now apply (zconv_cml n zs Rm P0 s).
  - now apply (zconv_wsf n zs Rm P0 s).
Qed.
(** from the value-level estimator to the code with its heap of source placements *)
Lemma through_heap env mini st (Rm : cmat) o h g b r st' h' : orel h o g -> ml_estimate env mini st Rm o h = (Ok (b, Some r), st', h') ->
  exists v vst', v_estimate env mini (VSt None (ms_M st)) Rm g = (Ok (b, Some v), vst') /\ orel h' r v.
Proof.
  intros HO E. destruct (estimate_rel env mini st (VSt None (ms_M st)) Rm o g h HO eq_refl) as (st1 & h1 & E1 & E2 & _ & _ & _ & _ & M). rewrite E in E1, E2, M. cbn [fst snd] in E1, E2, M. subst st1 h1.
  destruct (v_estimate env mini (VSt None (ms_M st)) Rm g) as [[[b' [v|]]|x] vst']; cbn [fst] in M; [|discriminate|discriminate]. destruct M as (r' & E' & OR & _). injection E' as <- <-. exists v, vst'. auto.
Qed.

(** The estimates: sources on a uniform linear array with at most half a wavelength between neighbours, none at endfire or at the ambiguity boundary. For
    every tolerance there is an error of the covariance matrix below which the directions returned by an optimiser that finds minima are within the tolerance. *)
Theorem C105_estimate : forall kind n d name ar lam doas u src (A P Rm : cmat) s tol,
  mk_ULA (Z.of_nat n) (D0Scalar d) name no_kwargs = Ok ar -> mk_FF1 (vec1 doas) u = Ok src ->
  steering_matrix (gd_array ar) src lam false "all" true = Ok (Flat A, []) -> exact_cov Rm A P s -> pd P -> identifiable kind n (List.length doas) s ->
  (0 < d)%R -> (0 < lam)%R -> (2 * d <= lam)%R -> NoDup doas -> in_view d 1 lam u doas -> 1 <= List.length doas < n -> (0 < tol)%R ->
  exists eps, (0 < eps)%R /\ forall env mini st guess (Rm' : cmat) o h b r st' h',
    ml_kind env = kind -> ml_array env = gd_array ar -> ml_lam env = lam -> ml_routines env ->
    hermitian Rm' -> nr Rm' = n -> (distance Rm Rm' < eps)%R ->
    Forall (valid_angle u) guess -> List.length guess = List.length doas -> orel h o (value_of (FF1 guess u) DFloat) ->
    finds_minimum eps env mini st Rm' (value_of (FF1 guess u) DFloat) ->
    ml_estimate env mini st Rm' o h = (Ok (b, Some r), st', h') ->
    b = true /\ exists l, orel h' r (value_of (FF1 l u) DFloat) /\ close_to tol doas l.
Proof.
  intros kind n d nm ar lam doas u src A P Rm s tol Eg Es HA HX HP HI Hd Hl H2 ND W Hk Ht.
  apply mk_FF1_ok in Es as (_ & K & V & ->). cbn [vec1 nd_data] in *. destruct (ULA_facts _ _ _ _ Eg) as (PL & Pe & I & _ & _).
  pose proof (ula_steering ar n d u doas lam PL Pe I (conj K V) A HA) as EA. apply (exact_cov_eq _ _ _ _ _ EA) in HX.
  assert (ZC : zconv kind n (map (zof d lam u) doas) Rm).
  { apply (zconv_any kind n _ Rm P s); rewrite ?map_length; try assumption; [now apply zof_nodup|]. intros z Iz. apply in_map_iff in Iz as (a & <- & _). apply cis_mod. }
  destruct (ml_lift n d nm ar lam doas u Eg K V Hl Hk kind Rm tol Hd H2 W Ht ZC) as (eps & ep & H). exists eps. split; [exact ep|].
  intros env mini st guess Rm' o h b r st' h' Ek Ea El HE HH R1 D VG LG HO FM E. destruct (through_heap _ _ _ _ _ _ _ _ _ _ _ HO E) as (v & vst' & EV & OR).
  destruct (H env mini (VSt None (ms_M st)) guess Rm' Ek Ea El HE HH R1 D VG LG FM b v vst' EV) as (-> & l & -> & CL). split; [reflexivity|]. exists l. auto.
Qed.

(** consistency: covariance estimates that converge to the true matrix *)
Theorem C105_consistency : forall kind n d name ar lam doas u src (A P Rm : cmat) s (Rs : nat -> cmat) tol,
  mk_ULA (Z.of_nat n) (D0Scalar d) name no_kwargs = Ok ar -> mk_FF1 (vec1 doas) u = Ok src ->
  steering_matrix (gd_array ar) src lam false "all" true = Ok (Flat A, []) -> exact_cov Rm A P s -> pd P -> identifiable kind n (List.length doas) s ->
  (0 < d)%R -> (0 < lam)%R -> (2 * d <= lam)%R -> NoDup doas -> in_view d 1 lam u doas -> 1 <= List.length doas < n ->
  (forall i, hermitian (Rs i) /\ nr (Rs i) = n) -> converges Rs Rm -> (0 < tol)%R ->
  exists N eps, (0 < eps)%R /\ forall i env mini st guess o h b r st' h', N <= i ->
    ml_kind env = kind -> ml_array env = gd_array ar -> ml_lam env = lam -> ml_routines env ->
    Forall (valid_angle u) guess -> List.length guess = List.length doas -> orel h o (value_of (FF1 guess u) DFloat) ->
    finds_minimum eps env mini st (Rs i) (value_of (FF1 guess u) DFloat) ->
    ml_estimate env mini st (Rs i) o h = (Ok (b, Some r), st', h') ->
    b = true /\ exists l, orel h' r (value_of (FF1 l u) DFloat) /\ close_to tol doas l.
Proof.
  intros kind n d nm ar lam doas u src A P Rm s Rs tol Eg Es HA HX HP HI Hd Hl H2 ND W Hk HR CV Ht.
  destruct (C105_estimate kind n d nm ar lam doas u src A P Rm s tol Eg Es HA HX HP HI Hd Hl H2 ND W Hk Ht) as (eps & He & H).
  destruct (CV eps He) as (N & HN). exists N, eps. split; [exact He|]. intros i env mini st guess o h b r st' h' Hi Ek Ea El HE VG LG HO FM E. destruct (HR i) as (HH & R1).
  apply (H env mini st guess (Rs i) o h b r st' h'); auto.
Qed.

(** an explicit bound for the deterministic (CML) estimator: every true direction a has an estimate near it *)
Lemma chord x y : Cnorm2 (cis x - cis y)%C = (4 * sin ((x - y) / 2) ^ 2)%R.
Proof.
  unfold Cnorm2, cis. cbn. replace ((x - y) / 2)%R with (x / 2 - y / 2)%R by field. set (a := (x / 2)%R). set (b := (y / 2)%R). replace x with (2 * a)%R by (unfold a; field). replace y with (2 * b)%R by (unfold b; field).
  rewrite !cos_2a_sin, !sin_2a, sin_minus. pose proof (sin2_cos2 a) as Ha. pose proof (sin2_cos2 b) as Hb. unfold Rsqr in *. set (sa := sin a) in *. set (ca := cos a) in *. set (sb := sin b) in *. set (cb := cos b) in *.
  assert (ca * ca = 1 - sa * sa)%R by lra. assert (cb * cb = 1 - sb * sb)%R by lra.
  transitivity (4 * ((sb * sb - sa * sa) * (sb * sb - sa * sa) + (sa * sa * (ca * ca) + sb * sb * (cb * cb) - 2 * (sa * ca * sb * cb))))%R; [ring|].
  transitivity (4 * (sa * sa * (cb * cb) + ca * ca * (sb * sb) - 2 * (sa * ca * sb * cb)))%R; [|ring]. rewrite H, H0. ring.
Qed.
Lemma separation_prod d lam u a l : lam <> 0%R -> separation d lam u a l = dist_prod (zof d lam u a) (map (zof d lam u) l).
Proof.
  intros Hl. induction l as [|b l IH]; [reflexivity|]. cbn [separation fold_right map dist_prod]. fold (separation d lam u a l). rewrite IH. fold (dist_prod (zof d lam u a) (map (zof d lam u) l)). f_equal. unfold zof. rewrite chord. do 3 f_equal. field. exact Hl.
Qed.
Theorem C105_cml_bound : forall n d name ar lam doas u src (A P Rm : cmat) s p env mini st guess (Rm' : cmat) eps o h b r st' h',
  mk_ULA (Z.of_nat n) (D0Scalar d) name no_kwargs = Ok ar -> mk_FF1 (vec1 doas) u = Ok src ->
  steering_matrix (gd_array ar) src lam false "all" true = Ok (Flat A, []) -> exact_cov Rm A P s -> (0 <= s)%R -> (0 <= p)%R ->
  (forall x, (p * vnorm2 (List.length doas) x <= Re (qform P x))%R) ->
  (0 < d)%R -> (0 < lam)%R -> NoDup doas -> in_view d 1 lam u doas -> 1 <= List.length doas < n ->
  ml_kind env = CML -> ml_array env = gd_array ar -> ml_lam env = lam -> ml_routines env -> hermitian Rm' -> nr Rm' = n ->
  Forall (valid_angle u) guess -> List.length guess = List.length doas -> orel h o (value_of (FF1 guess u) DFloat) ->
  finds_minimum eps env mini st Rm' (value_of (FF1 guess u) DFloat) ->
  ml_estimate env mini st Rm' o h = (Ok (b, Some r), st', h') ->
  exists l, orel h' r (value_of (FF1 l u) DFloat) /\ List.length l = List.length doas /\
    forall a, In a doas -> (p * separation d lam u a l <= 4 ^ List.length doas * (2 * INR n * distance Rm Rm' + eps))%R.
Proof.
  intros n d nm ar lam doas u src A P Rm s p env mini st guess Rm' eps o h b r st' h' Eg Es HA HX Hs Hp HF Hd Hl ND W Hk Ek Ea El HE HH R1 VG LG HO FM E.
  apply mk_FF1_ok in Es as (_ & K & V & ->). cbn [vec1 nd_data] in *. destruct (ULA_facts _ _ _ _ Eg) as (PL & Pe & I & _ & _).
  pose proof (ula_steering ar n d u doas lam PL Pe I (conj K V) A HA) as EA. apply (exact_cov_eq _ _ _ _ _ EA) in HX.
  destruct (through_heap _ _ _ _ _ _ _ _ _ _ _ HO E) as (v & vst' & EV & OR).
  destruct (ml_best n d nm ar lam doas u Eg K V Hl Hk eps env mini (VSt None (ms_M st)) guess Rm' Ea El HE HH R1 VG LG FM b v vst' EV) as (_ & l & -> & VL & LL & Sz & M & B & B' & y & y' & HM & EB & EB' & N & N' & AG).
  exists l. split; [exact OR|]. split; [exact LL|]. intros a Ia. rewrite separation_prod by lra. unfold nll in N, N'. rewrite Ek, Sz in N, N'. assert (R2 : nc Rm' = n) by (rewrite <- R1; symmetry; apply HH).
  destruct HE as ((Hpi & _) & _). destruct (cml_ok _ n _ _ _ Hpi (meq_nr _ _ EB) R1 R2 N) as (Q & OQ & ->). destruct (cml_ok _ n _ _ _ Hpi (meq_nr _ _ EB') R1 R2 N') as (Q' & OQ' & ->).
  pose proof HX as (P1 & _ & _). cbn [ula_matrix nc] in P1. rewrite map_length in P1.
  pose proof (cml_gap n (map (zof d lam u) doas) (map (zof d lam u) l) Rm Rm' P Q Q' s p eps) as G. rewrite !map_length in G.
  apply G; try assumption; [now apply zof_nodup|lia| |now rewrite P1|exact (op_meq _ _ _ EB OQ)|exact (op_meq _ _ _ EB' OQ')|now apply in_map].
  intros w Iw. apply in_map_iff in Iw as (c & <- & _). apply cis_mod.
Qed.

(** for every guess and every Hermitian covariance matrix (AML: positive definite) there are optimisers that find a minimum, and with them estimate succeeds *)
Theorem C105_attainable : forall n d name ar lam u env st guess (Rm' : cmat) eps,
  mk_ULA (Z.of_nat n) (D0Scalar d) name no_kwargs = Ok ar -> known_unit u -> Forall (valid_angle u) guess -> 1 <= List.length guess < n -> (0 < lam)%R ->
  ml_array env = gd_array ar -> ml_lam env = lam -> ml_routines env -> hermitian Rm' -> nr Rm' = n -> (ml_kind env = AML -> pd Rm') -> (0 < eps)%R ->
  exists mini, finds_minimum eps env mini st Rm' (value_of (FF1 guess u) DFloat) /\
    forall o h, orel h o (value_of (FF1 guess u) DFloat) -> exists r st' h', ml_estimate env mini st Rm' o h = (Ok (true, Some r), st', h').
Proof.
  intros n d nm ar lam u env st guess Rm' eps Eg K VG Hk Hl Ea El HE HH R1 PD He. set (g0 := value_of (FF1 guess u) DFloat).
  destruct (ULA_facts _ _ _ _ Eg) as (PL & _ & _ & _ & _). assert (Sz : ar_size (ml_array env) = n) by (rewrite Ea, (pl_size _ _ _ PL), ULA_indices_length; lia).
  assert (HM : exists M, prepare_M env st Rm' (List.length guess) = Ok M).
  { unfold prepare_M. destruct (ml_kind env); try (eexists; reflexivity). rewrite Sz. destruct HE as (_ & Hg & _). rewrite Sz in Hg. destruct (Hg Rm' HH ltac:(lia)) as (w & E & Ew & OE). pose proof OE as (_ & o2 & o3 & o4 & _).
    destruct (wsf_ok (ml_eigh env) n Rm' (List.length guess) w E Ew ltac:(congruence) ltac:(congruence) ltac:(congruence) Hk) as (M0 & EM & _). rewrite EM. eexists. reflexivity. }
  destruct HM as (M & HM). destruct (ula_bounds n guess u K VG Hk guess eq_refl VG) as (bounds & EB & IB).
  assert (LG0 : List.length (pv_rows g0) = List.length guess) by (unfold g0; apply value_len).
  assert (PT : forall x, in_box bounds x -> exists l A v, place_at g0 x = Ok (src_rows (FF1 l u)) /\ List.length l = List.length guess /\ A ==m ula_matrix n (map (zof d lam u) l) /\
    nll env M A Rm' (List.length guess) = Ok v /\ objective_at env M Rm' g0 (src_rows (FF1 l u)) = Ok v).
  { intros x (BX1 & BX2). destruct (C66_result_valid (FF1 guess u) x bounds (conj K VG) EB BX1 BX2) as (rows & s' & PX & EV & VS & SS). fold g0 in PX, EV.
    assert (X : exists l, s' = FF1 l u). { destruct s' as [l u'|l u'|l]; try (cbn in EV; discriminate EV). exists l. cbn in EV. injection EV as Eu _. now rewrite Eu. }
    destruct X as (l & ->). cbn [src_size] in SS. assert (ER : rows = src_rows (FF1 l u)) by (pose proof (f_equal pv_rows EV) as EE; rewrite value_rows in EE; cbn [pv_rows with_rows] in EE; congruence). subst rows.
    destruct (ula_obj n d nm ar lam guess u Eg K Hl Hk env M Rm' st l g0 Ea El HE HH R1 (proj2 VS) SS eq_refl ltac:(congruence) HM) as (_ & A & v & EA & N & O). exists l, A, v. auto. }
  destruct (nll_below env M st Rm' n (List.length guess) Sz HE HH R1 Hk PD HM) as (L & HL).
  destruct (approx_min (in_box bounds) (fun x => match place_at g0 x with Ok rx => match objective_at env M Rm' g0 rx with Ok v => v | Raise _ => None end | Raise _ => None end) L eps) as (x & IX & MIN).
  - exists guess. exact IB.
  - intros x IX. destruct (PT x IX) as (l & A & v & PX & LL & EA & N & O). rewrite PX, O. apply (HL A (map (zof d lam u) l) v EA); [now rewrite map_length|exact N].
  - exact He.
  - assert (FM : finds_minimum eps env (fun _ _ => ODone true x) st Rm' g0).
    { intros M' bounds' x' last HM' HB' HO. rewrite LG0, HM in HM'. injection HM' as <-. unfold g0 in HB'. rewrite value_rows, EB in HB'. injection HB' as <-. cbn [optimise] in HO. injection HO as <- _. split; [exact IX|].
      intros y rx ry vx vy IY EX EY OX OY. specialize (MIN y IY). now rewrite EX, EY, OX, OY in MIN. }
    exists (fun _ _ => ODone true x). split; [exact FM|]. intros o h HO. destruct (PT x IX) as (l & A & v & PX & LL & EA & N & O).
    destruct (estimate_rel env (fun _ _ => ODone true x) st (VSt None (ms_M st)) Rm' o g0 h HO eq_refl) as (st1 & h1 & E1 & E2 & _ & _ & _ & _ & RES).
    assert (VE : exists vst', v_estimate env (fun _ _ => ODone true x) (VSt None (ms_M st)) Rm' g0 = (Ok (true, Some (with_rows g0 (src_rows (FF1 l u)))), vst')).
    { unfold v_estimate. rewrite LG0, Sz, R1, Nat.eqb_refl. replace (Nat.leb n (List.length guess)) with false by (symmetry; apply Nat.leb_gt; lia). cbn [orb negb]. cbn [vs_M]. rewrite (HM : prepare_M env (MlSt None (ms_M st)) Rm' (List.length guess) = Ok M).
      unfold g0 at 1 2. rewrite value_rows, EB. cbn [optimise]. rewrite PX. eexists. reflexivity. }
    destruct VE as (vst' & VE). rewrite VE in RES. cbn [fst] in RES. destruct RES as (r & RES & _). destruct (ml_estimate env (fun _ _ => ODone true x) st Rm' o h) as ((r1 & st') & h'). cbn [fst] in RES. subst r1. exists r, st', h'. reflexivity.
Qed.

Lemma exact_pd (Rm A P : cmat) s : exact_cov Rm A P s -> psd P -> (0 < s)%R -> pd Rm.
Proof.
  intros (X1 & X2 & ER) HP Hs. eapply pd_eq; [symmetry; exact ER|]. split; [apply (cov_psd A P s); [exact X1|exact HP|lra]|]. intros x (i & Hi & Nx). cbn [madd mmul nr] in Hi.
  rewrite qform_madd by reflexivity. rewrite qform_mscal, qform_mid, <- RtoC_mult, Re_plus. cbn [Re RtoC fst]. assert (PS : psd (A *m P *m mher A)) by (apply psd_congr'; [congruence|assumption]). pose proof (proj2 PS x) as G.
  assert (V : (0 < vnorm2 (nr A) x)%R) by (destruct (vnorm2_nonneg (nr A) x) as [V|V]; [exact V|]; exfalso; apply Nx; symmetry in V; exact (vnorm2_0 (nr A) x V i Hi)). assert (0 < s * vnorm2 (nr A) x)%R by (now apply Rmult_lt_0_compat). lra.
Qed.
(** two sensors, phase factors z and - z *)
Lemma pair_gram z : Cmod z = 1%R -> mher (ula_matrix 2 [z]) *m ula_matrix 2 [z] ==m mscal (RtoC (INR 2)) (mid 1).
Proof.
  intros Hz. apply Cnorm2_one in Hz. split; [reflexivity|]. split; [reflexivity|]. intros i j Hi Hj. cbn in Hi, Hj. assert (i = 0) by lia. assert (j = 0) by lia. subst. destruct z as [x y]. unfold Cnorm2 in Hz. cbn in Hz.
  unfold mmul, mscal, mher, ula_matrix. cbn. unfold RtoC, Cconj, Cmult, Cplus. cbn. f_equal; [|ring]. ring_simplify. lra.
Qed.
Lemma pair_complete z : Cmod z = 1%R -> ula_matrix 2 [z] *m mher (ula_matrix 2 [z]) +m ula_matrix 2 [Copp z] *m mher (ula_matrix 2 [Copp z]) ==m mscal (RtoC (INR 2)) (mid 2).
Proof.
  intros Hz. apply Cnorm2_one in Hz. split; [reflexivity|]. split; [reflexivity|]. intros i j Hi Hj. cbn in Hi, Hj. destruct z as [x y]. unfold Cnorm2 in Hz. cbn in Hz. 
  destruct i as [|[|i]]; destruct j as [|[|j]]; try lia; unfold mmul, madd, mscal, mher, ula_matrix; cbn; unfold RtoC, Cconj, Cmult, Cplus, Copp; cbn; f_equal; ring_simplify; lra.
Qed.
(** *** AML needs more than twice as many sensors as sources: with two sensors and one source the direction a and the direction b with
    sin a - sin b = lambda / (2 d) have the same objective, the smallest of all *)
Theorem C105_aml_ambiguous_defect : forall d name ar lam a b u (A Rm : cmat) p s env st M,
  mk_ULA 2 (D0Scalar d) name no_kwargs = Ok ar -> known_unit u -> valid_angle u a -> valid_angle u b -> (0 < d)%R -> (0 < lam)%R ->
  (sin (to_rad u a) - sin (to_rad u b) = lam / (2 * d))%R ->
  steering_matrix (gd_array ar) (FF1 [a] u) lam false "all" true = Ok (Flat A, []) -> (0 < p)%R -> (0 < s)%R -> exact_cov Rm A (mscal (RtoC p) (mid 1)) s ->
  ml_kind env = AML -> ml_array env = gd_array ar -> ml_lam env = lam -> ml_routines env -> prepare_M env st Rm 1 = Ok M ->
  a <> b /\ exists v, objective_at env M Rm (value_of (FF1 [a] u) DFloat) [[a]] = Ok v /\ objective_at env M Rm (value_of (FF1 [a] u) DFloat) [[b]] = Ok v /\
    forall c, valid_angle u c -> exists w, objective_at env M Rm (value_of (FF1 [a] u) DFloat) [[c]] = Ok w /\ no_larger v w.
Proof.
  intros d nm ar lam a b u A Rm p s env st M Eg K Va Vb Hd Hl HS HA Hp Hs HX Ek Ea El HE HM. change 2%Z with (Z.of_nat 2) in Eg. split; [intros ->; rewrite Rminus_eq_0 in HS; assert (0 < lam / (2 * d))%R by (apply Rdiv_lt_0_compat; lra); lra|].
  destruct (ULA_facts _ _ _ _ Eg) as (PL & Pe & I & _ & _).
  pose proof (ula_steering ar 2 d u [a] lam PL Pe I (conj K (Forall_cons _ Va (Forall_nil _))) A HA) as EA. cbn [map] in EA. apply (exact_cov_eq _ _ _ _ _ EA) in HX.
  assert (PP : psd (mscal (RtoC p) (mid 1))) by (apply pd_psd; apply (pd_eq (mdiag 1 (fun _ => RtoC p))); [|now apply pd_mdiag]; split; [reflexivity|]; split; [reflexivity|]; intros i j Hi Hj; cbn in Hi, Hj; assert (i = 0) by lia; assert (j = 0) by lia; subst; cbn; ring).
  pose proof (exact_pd _ _ _ _ HX PP Hs) as PD. pose proof (proj1 PD) as HH. assert (R1 : nr Rm = 2) by (destruct HX as (_ & _ & ER); exact (meq_nr _ _ ER)).
  set (g0 := value_of (FF1 [a] u) DFloat). set (z := zof d lam u a) in *. assert (Uz : Cmod z = 1%R) by apply cis_mod.
  assert (OPP : zof d lam u b = Copp z).
  { unfold z, zof. replace (2 * PI / lam * d * sin (to_rad u a))%R with (2 * PI / lam * d * sin (to_rad u b) + PI)%R by (replace (sin (to_rad u a)) with (sin (to_rad u b) + lam / (2 * d))%R by lra; field; lra). unfold cis. rewrite neg_cos, neg_sin. unfold Copp. cbn. f_equal; ring. }
  assert (OB : forall c, valid_angle u c -> ar_size (ml_array env) = 2 /\ exists B v, B ==m ula_matrix 2 [zof d lam u c] /\ nll env M B Rm 1 = Ok v /\ objective_at env M Rm g0 [[c]] = Ok v).
  { intros c Vc. exact (ula_obj 2 d nm ar lam [a] u Eg K Hl ltac:(cbn; lia) env M Rm st [c] g0 Ea El HE HH R1 (Forall_cons _ Vc (Forall_nil _)) eq_refl eq_refl eq_refl HM). }
  destruct (OB a Va) as (Sz & B1 & v & EB1 & N1 & O1). destruct (OB b Vb) as (_ & B2 & v' & EB2 & N2 & O2). rewrite OPP in EB2. fold z in EB1.
  assert (IJ : forall y, inj (ula_matrix 2 [y])) by (intros y; apply ula_inj; [repeat constructor; intros []|cbn; lia]).
  pose proof (meq_nr _ _ EB1) as b1. pose proof (meq_nc _ _ EB1) as b2. pose proof (meq_nr _ _ EB2) as b3. pose proof (meq_nc _ _ EB2) as b4. cbn [ula_matrix nr nc List.length] in b1, b2, b3, b4.
  assert (G : forall B w, B ==m ula_matrix 2 [w] -> Cmod w = 1%R -> mher B *m B ==m mscal (RtoC (INR 2)) (mid 1)).
  { intros B w EB Uw. etransitivity; [apply mmul_eq; [reflexivity|apply mher_eq; exact EB|exact EB]|]. now apply pair_gram. }
  assert (G2 : B1 *m mher B1 +m B2 *m mher B2 ==m mscal (RtoC (INR 2)) (mid 2)).
  { etransitivity; [|apply (pair_complete z Uz)]. apply madd_eq; [cbn; congruence|cbn; congruence| |]; apply mmul_eq; try reflexivity; try assumption; now apply mher_eq. }
  assert (Uo : Cmod (Copp z) = 1%R) by now rewrite Cmod_opp.
  destruct (aml_same env M B1 B2 Rm 2 1 p s v v' Ek HE Sz eq_refl (le_n 1) ltac:(lra) Hs b1 b2 b3 b4 (G B1 z EB1 Uz) (G B2 _ EB2 Uo) G2) as (-> & w & E & OE & Ev); try assumption.
  { apply (Base_Lin.inj_eq (ula_matrix 2 [z])); [now symmetry|apply IJ]. }
  { apply (exact_cov_eq Rm (ula_matrix 2 [z])); [now symmetry|exact HX]. }
  exists v. split; [exact O1|]. split; [exact O2|]. intros c Vc. destruct (OB c Vc) as (_ & B3 & w3 & EB3 & N3 & O3). exists w3. split; [exact O3|].
  destruct HE as ((Hpi & _) & _ & Hr & _). rewrite Sz in Hr. pose proof (meq_nr _ _ EB3) as b5. pose proof (meq_nc _ _ EB3) as b6. cbn [ula_matrix nr nc List.length] in b5, b6.
  destruct (C67_aml env Rm B3 1 Hpi ltac:(congruence) ltac:(congruence) M w3 Ek ltac:(rewrite Sz; apply slogdet_regular_ok, Hr) PD ltac:(lia)) as (P & OP & PDc & H); try assumption.
  { apply (Base_Lin.inj_eq (ula_matrix 2 [zof d lam u c])); [now symmetry|apply IJ]. }
  destruct (eigh_ref_ok _ (proj1 PDc)) as (mu & F & _ & OF). destruct (H mu F OF) as (-> & HL). rewrite Ev. cbn [no_larger]. specialize (HL w E OE). now rewrite Sz in *.
Qed.

(** *** examples *)
Lemma off_by_pd x (Rm : cmat) : (0 <= x)%R -> pd Rm -> 0 < nr Rm -> pd (Prop_stable.off_by x Rm).
Proof.
  intros Hx (HH & HP) N. split; [now apply Prop_stable.off_by_herm|]. intros v Hv. specialize (HP v Hv). assert (N2 : nc Rm = nr Rm) by (symmetry; apply HH). set (B := Mat (nr Rm) 1 (fun i _ => if Nat.eqb i 0 then RtoC 1 else RtoC 0)).
  assert (X : mscal (RtoC x) (mid 1) ==m mscal (RtoC x) (mid 1)) by reflexivity.
  assert (PS : psd (B *m mscal (RtoC x) (mid 1) *m mher B)). { apply psd_congr'; [reflexivity|]. split; [split; [reflexivity|]; intros i j Hi Hj; cbn in Hi, Hj; assert (i = 0) by lia; assert (j = 0) by lia; subst; cbn; unfold Cconj, Cmult, RtoC; cbn; f_equal; ring|]. intros y. rewrite qform_mscal, qform_mid, <- RtoC_mult. cbn [Re RtoC fst]. apply Rmult_le_pos; [exact Hx|apply vnorm2_nonneg]. }
  assert (EQ : Prop_stable.off_by x Rm ==m Rm +m B *m mscal (RtoC x) (mid 1) *m mher B).
  { split; [reflexivity|]. split; [cbn; congruence|]. intros i j Hi Hj. unfold B, Prop_stable.off_by, madd, mmul, mscal, mher. cbn. destruct (Nat.eqb i 0); destruct (Nat.eqb j 0); cbn; unfold Cconj, Cmult, Cplus, RtoC; cbn; apply injective_projections; cbn; ring. }
  rewrite (qform_eq _ _ _ EQ). rewrite qform_madd by (cbn; congruence). rewrite Re_plus. pose proof (proj2 PS v). lra.
Qed.
(** three sensors half a wavelength apart, a source at 30 degrees, noise; a covariance matrix off by x; an optimiser that finds minima up to eps *)
Example C105_example : forall kd, exists ar A Rm Rm' x eps mini r st' h' l,
  mk_ULA 3 (D0Scalar 1) None no_kwargs = Ok ar /\ steering_matrix (gd_array ar) (FF1 [30]%R "deg") 2 false "all" true = Ok (Flat A, []) /\ exact_cov Rm A (mid 1) 1 /\
  in_view 1 1 2 "deg" [30]%R /\ identifiable kd 3 1 1 /\ (0 < x < eps)%R /\ hermitian Rm' /\ nr Rm' = 3 /\ distance Rm Rm' = x /\
  ml_routines (ex_env kd (gd_array ar) 2) /\ finds_minimum eps (ex_env kd (gd_array ar) 2) mini ml_init Rm' (value_of (FF1 [20]%R "deg") DFloat) /\
  ml_estimate (ex_env kd (gd_array ar) 2) mini ml_init Rm' ex_guess [[[20]]]%R = (Ok (true, Some r), st', h') /\
  orel h' r (value_of (FF1 l "deg") DFloat) /\ close_to (1 / 100) [30]%R l.
Proof.
  intros kd. pose proof PI_RGT_0 as PP. destruct (Prop_designs.C10_constructible 3 0 0 1 None) as ((g & Eg) & _). destruct (ULA_facts _ _ _ _ Eg) as (PL & X2 & X3 & X4 & _). assert (K : known_unit "deg") by (right; left; reflexivity).
  assert (VA : forall y, (-90 <= y <= 90)%R -> Forall (valid_angle "deg") [y]) by (intros y Hy; apply Forall_cons; [|apply Forall_nil]; right; left; split; [reflexivity|lra]).
  pose proof (VA 30%R ltac:(lra)) as V. pose proof (VA 20%R ltac:(lra)) as VG.
  destruct (steering_defined (gd_array g) (FF1 [30]%R "deg") 2 "all" [] true ltac:(lra) X3 X4) as (A & HA);
    [rewrite (pl_ndim _ _ _ PL); lia | rewrite (pl_size _ _ _ PL), ULA_indices_length; lia | unfold select_perturbations, perturbations; now rewrite X2 | intros ? []|].
  pose proof (ula_steering g 3 1 "deg" [30%R] 2 PL X2 X3 (conj K V) A HA) as EA. set (z := zof 1 2 "deg" 30) in *. cbn [map] in EA. fold z in EA.
  assert (HX0 : exact_cov (Prop_esprit.cov_of (ula_matrix 3 [z])) (ula_matrix 3 [z]) (mid 1) 1) by apply Prop_esprit.cov_of_exact.
  assert (HX : exact_cov (Prop_esprit.cov_of (ula_matrix 3 [z])) A (mid 1) 1) by (apply (exact_cov_eq _ (ula_matrix 3 [z])); [now symmetry|exact HX0]). set (Rm := Prop_esprit.cov_of (ula_matrix 3 [z])) in *.
  assert (Es : mk_FF1 (vec1 [30]%R) "deg" = Ok (FF1 [30]%R "deg")).
  { apply mk_FF1_ok. cbn. split; [lia|]. split; [exact K|]. split; [exact V|reflexivity]. }
  assert (IV : in_view 1 1 2 "deg" [30]%R).
  { intros a [<-|[]]; cbn [to_rad String.eqb Ascii.eqb Bool.eqb]; (split; [lra|]); change (INR 1) with 1%R. replace (30 * (PI / 180))%R with (PI / 6)%R by field. rewrite sin_PI6. lra. }
  assert (P1 : pd (mid 1)) by apply Prop_subspace.pd_mid. assert (ID : identifiable kd 3 1 1) by (destruct kd; cbn; [split; [lra|lia]|lra|lra]).
  destruct (C105_estimate kd 3 1 None g 2 [30]%R "deg" (FF1 [30]%R "deg") A (mid 1) Rm 1 (1 / 100) Eg Es HA HX P1 ID ltac:(lra) ltac:(lra) ltac:(lra)) as (eps & He & H).
  - constructor; [intros []|constructor].
  - exact IV.
  - cbn; lia.
  - lra.
  - assert (PDR : pd Rm) by (apply (exact_pd Rm A (mid 1) 1 HX (pd_psd _ P1)); lra).
    assert (DS : distance Rm (Prop_stable.off_by (eps / 2) Rm) = (eps / 2)%R) by (apply Prop_stable.off_by_distance; [lra|cbn; lia|cbn; lia]).
    pose proof (off_by_pd (eps / 2) Rm ltac:(lra) PDR ltac:(cbn; lia)) as PD'. pose proof (ex_routines kd (gd_array g) 2) as RT.
    destruct (C105_attainable 3 1 None g 2 "deg" (ex_env kd (gd_array g) 2) ml_init [20]%R (Prop_stable.off_by (eps / 2) Rm) eps Eg K VG ltac:(cbn; lia) ltac:(lra) eq_refl eq_refl RT (proj1 PD') eq_refl (fun _ => PD') He) as (mini & FM & SU).
    assert (HO : orel [[[20]]]%R ex_guess (value_of (FF1 [20]%R "deg") DFloat)) by (split; [cbn; lia|repeat split]).
    destruct (SU _ _ HO) as (r & st' & h' & E).
    destruct (H (ex_env kd (gd_array g) 2) mini ml_init [20]%R (Prop_stable.off_by (eps / 2) Rm) ex_guess [[[20]]]%R true r st' h') as (_ & l & OR & CL); try assumption; try reflexivity; [exact (proj1 PD')|rewrite DS; lra|].
    exists g, A, Rm, (Prop_stable.off_by (eps / 2) Rm), (eps / 2)%R, eps, mini, r, st', h', l.
    split; [exact Eg|]. split; [exact HA|]. split; [exact HX|]. split; [exact IV|]. split; [exact ID|]. split; [lra|]. split; [exact (proj1 PD')|]. split; [reflexivity|]. split; [exact DS|]. split; [exact RT|]. split; [exact FM|]. split; [exact E|]. split; [exact OR|exact CL].
Qed.
(** two sensors half a wavelength apart: the AML objective at -30 degrees is that at the true direction 30 degrees *)
Example C105_ambiguous_example : exists ar A, mk_ULA 2 (D0Scalar 1) None no_kwargs = Ok ar /\ steering_matrix (gd_array ar) (FF1 [30]%R "deg") 2 false "all" true = Ok (Flat A, []) /\
  exists v, objective_at (ex_env AML (gd_array ar) 2) None (Prop_esprit.cov_of A) (value_of (FF1 [30]%R "deg") DFloat) [[30]]%R = Ok v /\
    objective_at (ex_env AML (gd_array ar) 2) None (Prop_esprit.cov_of A) (value_of (FF1 [30]%R "deg") DFloat) [[-30]]%R = Ok v.
Proof.
  destruct (Prop_designs.C10_constructible 2 0 0 1 None) as ((g & Eg) & _). destruct (ULA_facts _ _ _ _ Eg) as (PL & X2 & X3 & X4 & _). assert (K : known_unit "deg") by (right; left; reflexivity).
  destruct (steering_defined (gd_array g) (FF1 [30]%R "deg") 2 "all" [] true ltac:(lra) X3 X4) as (A & HA);
    [rewrite (pl_ndim _ _ _ PL); lia | rewrite (pl_size _ _ _ PL), ULA_indices_length; lia | unfold select_perturbations, perturbations; now rewrite X2 | intros ? []|].
  assert (VA : forall y, (-90 <= y <= 90)%R -> valid_angle "deg" y) by (intros y Hy; right; left; split; [reflexivity|lra]).
  pose proof (ula_steering g 2 1 "deg" [30%R] 2 PL X2 X3 (conj K (Forall_cons _ (VA 30%R ltac:(lra)) (Forall_nil _))) A HA) as EA.
  exists g, A. split; [exact Eg|]. split; [exact HA|].
  destruct (C105_aml_ambiguous_defect 1 None g 2 30 (-30) "deg" A (Prop_esprit.cov_of A) 1 1 (ex_env AML (gd_array g) 2) ml_init None Eg K (VA 30%R ltac:(lra)) (VA (-30)%R ltac:(lra)) ltac:(lra) ltac:(lra)) as (_ & v & V1 & V2 & _); try assumption; try reflexivity; try lra.
  - cbn [to_rad String.eqb Ascii.eqb Bool.eqb]. replace (30 * (PI / 180))%R with (PI / 6)%R by field. replace (-30 * (PI / 180))%R with (- (PI / 6))%R by field. rewrite sin_neg, sin_PI6. field.
  - pose proof (meq_nc _ _ EA) as N. cbn in N. pose proof (Prop_esprit.cov_of_exact A) as (q1 & q2 & EC). rewrite N in q1, q2, EC. split; [cbn; congruence|]. split; [cbn; congruence|]. etransitivity; [exact EC|]. apply madd_eq; try (cbn; congruence); [|reflexivity].
    apply mmul_eq_l. apply mmul_eq_r; [cbn; congruence|]. split; [reflexivity|]. split; [reflexivity|]. intros i j _ _. cbn [mscal ent]. ring.
  - apply ex_routines.
  - exists v. auto.
Qed.
Print Assumptions C105_estimate. Print Assumptions C105_consistency. Print Assumptions C105_cml_bound. Print Assumptions C105_attainable. Print Assumptions C105_aml_ambiguous_defect.
