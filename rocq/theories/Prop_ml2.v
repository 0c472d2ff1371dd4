(** C67: the objective functions of the CML, WSF and AML estimators *)
From Coq Require Import Sorting.Permutation.
From Coq Require Classical_Prop.
From Verif Require Import Base_Np Base_Lin M_utils M_sources M_array M_designs M_coarray M_heap M_grid M_core M_ml S_utils S_subspace S_ml P_utils P_subspace P_subspace3 P_eig2 P_gauss P_perf2 P_perf3 P_perf5 Prop_perf3 P_ml3 P_ml4 P_ml5 P_ml6 P_ml7 P_ml8 P_oracles Prop_ml.
Open Scope C_scope.

Section C67.
  Variables (env : mlenv) (Rm B : cmat) (k : nat).
  Let m := ar_size (ml_array env).
  Hypothesis Hpinv : pinv_ok (ml_pinv env).
  Hypothesis HB : nr B = m.
  Hypothesis HRn : nr Rm = m.
  (** what the caller of the objective gets: the trace is real, and it is the returned number *)
  Definition fit_value (S : cmat) (v : option R) (P : cmat) (y : R) : Prop :=
    orth_projector_onto B P /\ v = Some y /\ mtrace ((mid m -m P) *m S) = RtoC y.
  Lemma fit_of S v : psd S -> nr S = m -> cml_value (ml_pinv env) m B S = Ok v ->
    exists P y, fit_value S v P y /\ (0 <= y)%R /\ (y = 0%R <-> forall x, in_span B (mvec S x)).
  Proof.
    intros HS NS H. destruct (cml_ok _ _ _ _ _ Hpinv HB NS (eq_trans (eq_sym (proj1 (proj1 HS))) NS) H) as (P & OP & ->). 
    destruct (resid_nonneg B P OP S HS (eq_trans NS (eq_sym HB))) as (G0 & G1). pose proof (resid_range B P S OP HS (eq_trans NS (eq_sym HB))) as RR. rewrite HB in G0, G1, RR. exists P, (Re (mtrace ((mid m -m P) *m S))). split; [split; [exact OP|]; split; [reflexivity|]; apply injective_projections; [reflexivity | exact G1]|]. split; [exact G0 | exact RR].
  Qed.
  (** CML: the value is tr((I - P_A) R) for the orthogonal projector P_A on the span of the steering vectors; for a positive
      semidefinite R it is non-negative, and zero exactly when the range of R is in that span *)
  Theorem C67_cml : forall M v, ml_kind env = CML -> psd Rm -> nll env M B Rm k = Ok v ->
    exists P y, fit_value Rm v P y /\ (0 <= y)%R /\ (y = 0%R <-> forall x, in_span B (mvec Rm x)).
  Proof. intros M v HK HP H. unfold nll in H. rewrite HK in H. fold m in H. now apply fit_of. Qed.
  Theorem C67_cml_defined : forall M X, ml_kind env = CML -> ml_pinv env B = Ok X -> exists y, nll env M B Rm k = Ok (Some y).
  Proof. intros M X HK HX. unfold nll. rewrite HK. fold m. exact (cml_defined _ m B Rm X Hpinv HX HB HRn). Qed.
  (** CML, exact covariance R = A P A^H + s I: at least (m - k) s, with equality exactly when the candidate directions span
      the steering vectors of the true ones *)
  Theorem C67_cml_exact : forall M v A P0 s, ml_kind env = CML -> exact_cov Rm A P0 s -> nr A = m -> pd P0 -> inj B -> nll env M B Rm k = Ok v ->
    exists y, v = Some y /\ (s * (INR m - INR (nc B)) <= y)%R /\
      (y = (s * (INR m - INR (nc B)))%R <-> forall c, (c < nc A)%nat -> in_span B (col A c)).
  Proof.
    intros M v A P0 s HK HX HA HP0 HI H. unfold nll in H. rewrite HK in H. fold m in H. destruct (ex_dims Rm A P0 s HX) as (D1 & D2). rewrite HA in D1, D2. destruct (cml_ok _ _ _ _ _ Hpinv HB D1 D2 H) as (P & OP & ->).
    pose proof (exact_resid Rm A P0 s B P HX (eq_trans HB (eq_sym HA)) OP HI) as ER. rewrite HA in ER. pose proof HX as (X1 & X2 & _).
    assert (PS : psd (A *m P0 *m mher A)) by (apply psd_congr'; [congruence | now apply pd_psd]).
    destruct (resid_nonneg B P OP _ PS) as (G0 & G1); [cbn [mmul nr]; congruence|]. pose proof (fit_0 B P OP A P0 (eq_trans HA (eq_sym HB)) X1 HP0) as F0. rewrite HB in G0, G1, F0.
    exists (Re (mtrace ((mid m -m P) *m Rm))). split; [reflexivity|]. rewrite ER, Re_plus. change (Re (RtoC (s * (INR m - INR (nc B))))) with (s * (INR m - INR (nc B)))%R. split; [lra|]. rewrite <- F0. split; intros E0; lra.
  Qed.
  (** uniform linear array: the CML objective of an exact covariance of k sources takes its minimum (m - k) s at the true
      directions and at no other k distinct directions *)
  Theorem C67_cml_ula : forall M v zs zs' P0 s, ml_kind env = CML -> NoDup zs -> NoDup zs' -> List.length zs' = List.length zs -> (List.length zs < m)%nat ->
    exact_cov Rm (ula_matrix m zs) P0 s -> pd P0 -> B = ula_matrix m zs' -> nll env M B Rm k = Ok v ->
    exists y, v = Some y /\ (s * (INR m - INR (List.length zs)) <= y)%R /\ (y = (s * (INR m - INR (List.length zs)))%R <-> Permutation zs zs').
  Proof.
    intros M v zs zs' P0 s HK N1 N2 HL Hlt HX HP0 EB H. assert (HI : inj B) by (rewrite EB; apply ula_inj; [exact N2 | lia]).
    destruct (C67_cml_exact M v _ P0 s HK HX eq_refl HP0 HI H) as (y & -> & G & EQ). rewrite EB in G, EQ. cbn [ula_matrix nc] in G, EQ. rewrite HL in G, EQ. exists y. split; [reflexivity|]. split; [exact G|]. rewrite EQ. split.
    - intros SP. apply NoDup_Permutation_bis; [exact N1 | lia |]. intros z Hz. destruct (In_nth zs z (RtoC 0) Hz) as (c & Hc & <-). apply (ula_span m zs' _ N2 ltac:(lia)). exact (SP c Hc).
    - intros PM c Hc. apply (ula_span m zs' (nth c zs (RtoC 0)) N2 ltac:(lia)). apply (Permutation_in _ PM). now apply nth_In.
  Qed.
  (** WSF: the weight matrix is sum_c (l_c - s)^2 / l_c e_c e_c^H over the k largest eigenvalues l_c, where s is the mean of
      the m - k smallest; it is positive semidefinite when these l_c are positive *)
  Theorem C67_wsf_matrix : forall st, ml_kind env = WSF -> eigh_contract m (ml_eigh env) -> hermitian Rm -> (1 <= k < m)%nat ->
    exists w E M, ml_eigh env Rm = Ok (w, E) /\ eigh_ok Rm w E /\ prepare_M env st Rm k = Ok (Some M) /\ M ==m wsf_sum w E m k /\ hermitian M /\
      ((forall c, (c < k)%nat -> (0 < nth (m - k + c) w 0)%R) -> psd M).
  Proof.
    clear Hpinv HB B. intros st HK HC HH Hk. destruct (HC Rm HH ltac:(lia)) as (w & E & EE & OK). pose proof OK as (_ & E1 & E2 & L & _). rewrite HRn in E1, E2, L. destruct (wsf_ok (ml_eigh env) m Rm k w E EE L E1 E2 Hk) as (M & EM & M1 & M2).
    exists w, E, M. split; [exact EE|]. split; [exact OK|]. split; [unfold prepare_M; rewrite HK; fold m; now rewrite EM|]. split; [exact M1|]. set (W := mdiag k _) in M2. assert (WH : hermitian W).
    { split; [reflexivity|]. intros i j Hi Hj. cbn [W mdiag ent nr] in *. rewrite (Nat.eqb_sym j i). destruct (Nat.eqb_spec i j) as [->|]; [now rewrite Cconj_RtoC | now rewrite Cconj_0]. }
    split.
    - assert (MH : mher M ==m M).
      { etransitivity; [|symmetry; exact M2]. assert (Z : mher M ==m mher (Es_of E m k *m W *m mher (Es_of E m k))) by (split; [apply (meq_nc _ _ M2)|]; split; [apply (meq_nr _ _ M2)|]; intros i j Hi Hj; cbn [mher nr nc] in Hi, Hj; change (Cconj (ent M j i) = Cconj (ent (Es_of E m k *m W *m mher (Es_of E m k)) j i)); now rewrite (meq_ent _ _ j i M2)).
        etransitivity; [exact Z|]. etransitivity; [apply mher_mmul; reflexivity|]. etransitivity; [apply mmul_eq_r; [reflexivity|]; apply mher_mmul; reflexivity|]. etransitivity; [symmetry; apply mmul_assoc|].
        apply mmul_eq_l. apply mmul_eq; [reflexivity | apply mher_mher | exact (proj1 (hermitian_mher _) WH)]. }
      now apply hermitian_mher.
    - intros PW. eapply psd_eq; [symmetry; exact M2|]. apply psd_congr'; [reflexivity|]. apply psd_mdiag. intros c Hc. unfold wsf_weight. apply Rmult_le_pos; [apply Rle_0_sqr | left; now apply Rinv_0_lt_compat, PW].
  Qed.
  (** the WSF objective is tr((I - P_A) M) with the M of the last preparation; non-negative for a positive semidefinite M *)
  Theorem C67_wsf : forall M v, ml_kind env = WSF -> psd M -> nr M = m -> nll env (Some M) B Rm k = Ok v ->
    exists P y, fit_value M v P y /\ (0 <= y)%R /\ (y = 0%R <-> forall x, in_span B (mvec M x)).
  Proof. intros M v HK HP HM H. unfold nll in H. rewrite HK in H. fold m in H. now apply fit_of. Qed.
  (** exact covariance of k sources: the WSF objective is non-negative, and zero exactly when the candidate directions span the
      steering vectors of the true ones *)
  Theorem C67_wsf_exact : forall st M v A P0 s, ml_kind env = WSF -> eigh_contract m (ml_eigh env) -> exact_cov Rm A P0 s -> hermitian Rm ->
    nr A = m -> nc A = k -> (1 <= k < m)%nat -> inj A -> pd P0 -> (0 <= s)%R -> prepare_M env st Rm k = Ok M -> nll env M B Rm k = Ok v ->
    exists y, v = Some y /\ (0 <= y)%R /\ (y = 0%R <-> forall c, (c < k)%nat -> in_span B (col A c)).
  Proof.
    intros st M v A P0 s HK HC HX HH HA HAk Hk HIA HP0 Hs HM H. destruct (HC Rm HH ltac:(lia)) as (w & E & EE & OK). pose proof OK as (_ & E1 & E2 & L & _). rewrite HRn in E1, E2, L. destruct (wsf_ok (ml_eigh env) m Rm k w E EE L E1 E2 Hk) as (M' & EM & M1 & M2).
    unfold prepare_M in HM. rewrite HK in HM. fold m in HM. rewrite EM in HM. cbn [bind] in HM. injection HM as <-. unfold nll in H. rewrite HK in H. fold m in H.
    pose proof (noise_mean_exact w m k s ltac:(lia)) as NM. rewrite NM in M2; [|intros j Hj; subst k; rewrite <- HA in Hj; apply (ex_noise_level Rm A P0 s w E HX HP0 OK j Hj)]. clear NM M1.
    set (W := mdiag k _) in M2. set (Es := Es_of E m k) in M2.
    assert (WP : pd W).
    { apply (pd_mdiag k (fun c => wsf_weight s (nth (m - k + c) w 0%R))). intros c Hc. assert (SL : (s < nth (m - k + c) w 0)%R) by (apply (ex_signal_level Rm A P0 s w E HX HIA HP0 OK); rewrite HA, HAk; lia). unfold wsf_weight, Rdiv. apply Rmult_lt_0_compat; [nra | apply Rinv_0_lt_compat; lra]. }
    assert (MP : psd M') by (eapply psd_eq; [symmetry; exact M2|]; apply psd_congr'; [reflexivity | now apply pd_psd]).
    assert (MN : nr M' = m) by (rewrite (meq_nr _ _ M2); reflexivity). assert (MC : nc M' = m) by (rewrite (meq_nc _ _ M2); reflexivity).
    destruct (cml_ok _ _ _ _ _ Hpinv HB MN MC H) as (P & OP & ->). destruct (resid_nonneg B P OP M' MP ltac:(congruence)) as (G0 & _). rewrite HB in G0.
    exists (Re (mtrace ((mid m -m P) *m M'))). split; [reflexivity|]. split; [exact G0|].
    pose proof (fit_0 B P OP Es W (eq_sym HB) eq_refl WP) as F0. rewrite HB in F0. rewrite (mtrace_eq ((mid m -m P) *m M') ((mid m -m P) *m (Es *m W *m mher Es))); [|cbn [mmul msub mid nr nc]; congruence | apply mmul_eq_r; [cbn [msub mid nc]; congruence | exact M2]].
    rewrite F0. destruct (signal_span Rm A P0 s w E HX HIA HP0 OK) as (T1 & T2). rewrite HA, HAk in T1, T2. fold Es in T1, T2. change (nc Es) with k. split.
    - intros T c Hc. apply (in_span_trans Es B); [exact T | symmetry; exact HB |]. now apply T2.
    - intros T j Hj. apply (in_span_trans A B); [rewrite HAk; exact T | congruence |]. now apply T1.
  Qed.
  Theorem C67_wsf_ula : forall st M v zs zs' P0 s, ml_kind env = WSF -> eigh_contract m (ml_eigh env) -> NoDup zs -> NoDup zs' -> List.length zs = k -> List.length zs' = k ->
    (1 <= k < m)%nat -> exact_cov Rm (ula_matrix m zs) P0 s -> hermitian Rm -> pd P0 -> (0 <= s)%R -> B = ula_matrix m zs' -> prepare_M env st Rm k = Ok M -> nll env M B Rm k = Ok v ->
    exists y, v = Some y /\ (0 <= y)%R /\ (y = 0%R <-> Permutation zs zs').
  Proof.
    intros st M v zs zs' P0 s HK HC N1 N2 L1 L2 Hk HX HH HP0 Hs EB HM H.
    destruct (C67_wsf_exact st M v (ula_matrix m zs) P0 s HK HC HX HH eq_refl L1 Hk (ula_inj m zs N1 ltac:(lia)) HP0 Hs HM H) as (y & -> & G & EQ). exists y. split; [reflexivity|]. split; [exact G|]. rewrite EQ, EB. split.
    - intros SP. apply NoDup_Permutation_bis; [exact N1 | lia |]. intros z Hz. destruct (In_nth zs z (RtoC 0) Hz) as (c & Hc & <-). apply (ula_span m zs' _ N2 ltac:(lia)). apply SP. now rewrite <- L1.
    - intros PM c Hc. apply (ula_span m zs' (nth c zs (RtoC 0)) N2 ltac:(lia)). apply (Permutation_in _ PM). apply nth_In. now rewrite L1.
  Qed.
  (** AML: the matrix whose log-determinant is taken is P_A R P_A + tr((I - P_A) R)/(m - k) (I - P_A) (making it Hermitian
      changes nothing); for a positive definite R and k linearly independent steering vectors it is positive definite, and the
      returned value, the sum of the logarithms of its eigenvalues, is at least the log-determinant of R *)
  Theorem C67_aml : forall M v, ml_kind env = AML -> slogdet_ok m (ml_slogdet env) -> pd Rm -> (k < m)%nat -> inj B -> nc B = k -> nll env M B Rm k = Ok v ->
    exists P, orth_projector_onto B P /\ pd (concentrated P Rm m k) /\
      forall mu F, eigh_ok (concentrated P Rm m k) mu F -> v = Some (logdet mu m) /\
        forall w E, eigh_ok Rm w E -> (logdet w m <= logdet mu m)%R.
  Proof.
    intros M v HK HS HPD Hk HI HkB H. unfold nll in H. rewrite HK in H. fold m in H. destruct (aml_matrix _ m k B Rm) as [Hm|] eqn:EH; [|discriminate]. cbn [bind] in H.
    destruct (aml_ok _ m k B Rm Hm Hpinv HB (proj1 HPD) HRn Hk EH) as (P & OP & EQ). exists P. split; [exact OP|]. split; [rewrite (conc_eq B P Rm m k OP HB (proj1 HPD) HRn Hk); apply (conc_pd B P Rm m k OP HB (proj1 HPD) HRn Hk HPD HI HkB)|].
    intros mu F HE. assert (HE' : eigh_ok Hm mu F) by (apply (eigh_ok_eq (concentrated P Rm m k)); [symmetry; exact EQ | exact HE]).
    destruct (aml_value_ok (ml_slogdet env) m Hm mu F P B Rm k HS OP HB HPD HRn Hk HI HkB EQ HE') as (V & _). split; [congruence|].
    intros w E HW. exact (aml_bound B P Rm m k mu F w E OP HB HPD HRn Hk HI HkB HE HW).
  Qed.
  (** exact covariance: the bound is attained at the true directions (any order) *)
  Theorem C67_aml_exact : forall M v A P0 s w E, ml_kind env = AML -> slogdet_ok m (ml_slogdet env) -> pd Rm -> (k < m)%nat -> exact_cov Rm A P0 s -> nr A = m -> nc A = k -> inj A ->
    B = A -> nll env M B Rm k = Ok v -> eigh_ok Rm w E -> v = Some (logdet w m).
  Proof.
    intros M v A P0 s w E HK HS HPD Hk HX HA HAk HI EB H HW. subst A. unfold nll in H. rewrite HK in H. fold m in H. destruct (aml_matrix _ m k B Rm) as [Hm|] eqn:EH; [|discriminate]. cbn [bind] in H.
    destruct (aml_ok _ m k B Rm Hm Hpinv HB (proj1 HPD) HRn Hk EH) as (P & OP & EQ). pose proof (conc_exact Rm B P0 s P HX (proj1 HPD) OP HI ltac:(lia)) as CE. rewrite HA, HAk in CE.
    assert (HE' : eigh_ok Hm w E) by (apply (eigh_ok_eq Rm); [symmetry; etransitivity; [exact EQ | exact CE] | exact HW]).
    destruct (aml_value_ok (ml_slogdet env) m Hm w E P B Rm k HS OP HB HPD HRn Hk HI HAk EQ HE') as (V & _). congruence.
  Qed.
  (** a covariance that is only positive semidefinite (fewer snapshots than sensors, no noise): the AML objective is infinite
      (None) exactly where the matrix is singular, and the sum of the logarithms of its eigenvalues where they are positive *)
  Theorem C67_aml_semidefinite : forall M v, ml_kind env = AML -> slogdet_ok m (ml_slogdet env) -> slogdet_zero m (ml_slogdet env) -> psd Rm -> (k < m)%nat -> nll env M B Rm k = Ok v ->
    exists P, orth_projector_onto B P /\ psd (concentrated P Rm m k) /\ (singular m (concentrated P Rm m k) <-> v = None) /\
      forall mu F, eigh_ok (concentrated P Rm m k) mu F -> (forall i, (i < m)%nat -> (0 < nth i mu 0)%R) -> v = Some (logdet mu m).
  Proof.
    intros M v HK HS HZ HP Hk H. unfold nll in H. rewrite HK in H. fold m in H. destruct (aml_matrix _ m k B Rm) as [Hm|] eqn:EH; [|discriminate]. cbn [bind] in H.
    destruct (aml_ok _ m k B Rm Hm Hpinv HB (proj1 HP) HRn Hk EH) as (P & OP & EQ). exists P. split; [exact OP|]. pose proof (conc_psd B P Rm m k OP HB HP HRn Hk) as CP. split; [exact CP|].
    assert (DM : nr (concentrated P Rm m k) = m /\ nc (concentrated P Rm m k) = m) by (rewrite (conc_eq B P Rm m k OP HB (proj1 HP) HRn Hk); exact (conc_dims B P Rm m k OP HB)). destruct DM as (N1 & N2).
    assert (NH : nr Hm = m) by (rewrite (meq_nr _ _ EQ); exact N1). assert (NC : nc Hm = m) by (rewrite (meq_nc _ _ EQ); exact N2).
    assert (VP : forall mu F, eigh_ok (concentrated P Rm m k) mu F -> (forall i, (i < m)%nat -> (0 < nth i mu 0)%R) -> v = Some (logdet mu m)).
    { intros mu F HE MU. assert (HE' : eigh_ok Hm mu F) by (apply (eigh_ok_eq (concentrated P Rm m k)); [symmetry; exact EQ | exact HE]).
      rewrite (aml_value_pos (ml_slogdet env) m Hm mu F HS NH) in H; [congruence | eapply hermitian_eq; [symmetry; exact EQ | exact (proj1 CP)] | exact HE' | exact MU]. }
    split; [|exact VP]. split.
    - intros X. rewrite (aml_value_singular (ml_slogdet env) m Hm HZ NH ltac:(eapply hermitian_eq; [symmetry; exact EQ | exact (proj1 CP)]) (singular_eq m Hm _ EQ NH X)) in H. congruence.
    - intros ->. destruct (eigh_ref_ok _ (proj1 CP)) as (mu & F & _ & HE).
      destruct (Classical_Prop.classic (exists i, (i < m)%nat /\ nth i mu 0%R = 0%R)) as [(i & Hi & Zi)|N].
      + destruct (eigh_nonzero _ mu F i HE ltac:(lia)) as (NZ & EV). exists (col F i). rewrite N1 in *. split; [exact NZ|]. intros q Hq. rewrite EV by exact Hq. rewrite Zi. ring.
      + exfalso. discriminate (VP mu F HE). intros i Hi. destruct (Rle_lt_or_eq_dec 0 (nth i mu 0%R)) as [L|Z]; [apply (psd_eig_nonneg _ mu F i CP HE); lia | exact L|]. exfalso. apply N. eauto.
  Qed.
  (** without noise the objective is infinite at the true directions: the minimiser cannot return them *)
  Theorem C67_aml_noiseless_defect : forall M v A P0, ml_kind env = AML -> slogdet_zero m (ml_slogdet env) -> exact_cov Rm A P0 0 -> hermitian Rm -> nr A = m -> nc A = k -> (k < m)%nat -> inj A ->
    B = A -> nll env M B Rm k = Ok v -> v = None.
  Proof.
    intros M v A P0 HK HZ HX HH HA HAk Hk HI EB H. subst A. unfold nll in H. rewrite HK in H. fold m in H. destruct (aml_matrix _ m k B Rm) as [Hm|] eqn:EH; [|discriminate]. cbn [bind] in H.
    destruct (aml_ok _ m k B Rm Hm Hpinv HB HH HRn Hk EH) as (P & OP & EQ). pose proof (conc_exact Rm B P0 0 P HX HH OP HI ltac:(lia)) as CE. rewrite HA, HAk in CE.
    destruct HX as (X1 & X2 & X3). rewrite HA in X3. assert (ER : Hm ==m B *m P0 *m mher B +m mscal (RtoC 0) (mid m)) by (etransitivity; [exact EQ|]; etransitivity; [exact CE | exact X3]).
    rewrite (aml_value_singular (ml_slogdet env) m Hm HZ) in H; [congruence | rewrite (meq_nr _ _ ER); exact HA | eapply hermitian_eq; [symmetry; etransitivity; [exact EQ | exact CE] | exact HH]|].
    apply (singular_eq m Hm _ ER); [rewrite (meq_nr _ _ ER); exact HA|]. apply low_rank_singular; congruence || lia.
  Qed.
End C67.

(** The hypotheses are satisfiable: a two-sensor array, one source, pinv through the normal equations, the 2 x 2 eigh, and a
    slogdet that adds the logarithms of the eigenvalues. *)
Lemma pinv0_ok : pinv_ok pinv0.
Proof.
  intros A X H. destruct (proj1 solve0_exact _ _ _ H) as (_ & _ & X1 & X2 & HX). cbn [mmul mher nr nc] in X1, X2. pose proof (normal_eq_projector A X X1 X2 HX) as OP. split; [exact X1|]. split; [exact X2|]. split; [apply (op_fix _ _ OP) | apply (op_herm _ _ OP)].
Qed.
Definition slogdet2 (H : cmat) : res (C * option R) := let! (w, E) := eigh2 H in Ok (RtoC 1, Some (logdet w (nr H))).
Lemma slogdet2_ok : slogdet_ok 2 slogdet2.
Proof.
  intros H w E HN HH HE HP. destruct (eigh2_contract H HH ltac:(lia)) as (w' & E' & EE & OK). unfold slogdet2. rewrite EE. cbn [bind]. do 3 f_equal. apply (logdet_unique H w' E' w E); [|exact OK | exact HE].
  split; [exact HH|]. intros x Hx. rewrite (qform_eig H w E x HH HE). assert (Z : (0 < vnorm2 (nr H) x)%R) by (destruct (Rle_lt_or_eq_dec 0 (vnorm2 (nr H) x) (vnorm2_nonneg _ _)) as [L|Z]; [exact L|]; destruct Hx as (i & Hi & Nx); exfalso; apply Nx; exact (vnorm2_0 _ _ (eq_sym Z) i Hi)).
  rewrite <- (parseval H w E x HH HE) in Z. rewrite HN in *. cbn [rsum] in Z |- *. pose proof (HP 0%nat ltac:(lia)). pose proof (HP 1%nat ltac:(lia)). pose proof (Cnorm2_nonneg (vdot 2 (col E 0) x)). pose proof (Cnorm2_nonneg (vdot 2 (col E 1) x)).
  assert (G : forall a b c d : R, (0 < a -> 0 < b -> 0 <= c -> 0 <= d -> 0 < 0 + c + d -> 0 < 0 + a * c + b * d)%R) by (intros a b c d Ha Hb Hc Hd Hs; destruct (Rle_lt_or_eq_dec 0 c Hc) as [L|<-]; [|assert (0 < d)%R by lra]; nra). now apply G.
Qed.
Definition ex_mlenv (kd : mlkind) : mlenv := MlEnv kd (Array (LArr DFloat (Mat 2 1 (fun i _ => INR i))) "a" ISOTROPIC_SCALAR_SENSOR []) 1 pinv0 eigh2 slogdet2.
Definition ex_A : cmat := ula_matrix 2 [RtoC 1].
Definition ex_R : cmat := ex_A *m mid 1 *m mher ex_A +m mscal (RtoC 1) (mid 2).
Lemma ex_exact : exact_cov ex_R ex_A (mid 1) 1. Proof. split; [reflexivity|]. split; reflexivity. Qed.
Lemma ex_pd1 : pd (mid 1). Proof. apply (pd_mdiag 1 (fun _ => 1%R)). intros; lra. Qed.
Lemma ex_R_pd : pd ex_R.
Proof.
  split. { apply (cov_psd ex_A (mid 1) 1); [reflexivity | apply pd_psd, ex_pd1 | lra]. }
  intros x Hx. unfold ex_R. rewrite qform_madd by reflexivity. rewrite Re_plus. pose proof (proj2 (psd_congr' (mid 1) ex_A eq_refl (pd_psd _ ex_pd1)) x).
  rewrite qform_mscal, qform_mid. assert (Z : (0 < vnorm2 2 x)%R) by (destruct (Rle_lt_or_eq_dec 0 (vnorm2 2 x) (vnorm2_nonneg _ _)) as [L|Z]; [exact L|]; destruct Hx as (i & Hi & Nx); exfalso; apply Nx; exact (vnorm2_0 _ _ (eq_sym Z) i Hi)).
  rewrite <- RtoC_mult. change (Re (RtoC (1 * vnorm2 2 x))) with (1 * vnorm2 2 x)%R. lra.
Qed.
Lemma ex_sing z : NoDup [z : C]. Proof. repeat constructor. intros []. Qed.
Example C67_example : forall z, exists y_cml y_wsf, 
  nll (ex_mlenv CML) None (ula_matrix 2 [z]) ex_R 1 = Ok (Some y_cml) /\ (y_cml = (1 * (INR 2 - INR 1))%R <-> Permutation [RtoC 1] [z]) /\
  (exists M, prepare_M (ex_mlenv WSF) ml_init ex_R 1 = Ok M /\ nll (ex_mlenv WSF) M (ula_matrix 2 [z]) ex_R 1 = Ok (Some y_wsf)) /\ (y_wsf = 0%R <-> Permutation [RtoC 1] [z]) /\
  exists v w E, nll (ex_mlenv AML) None ex_A ex_R 1 = Ok v /\ eigh_ok ex_R w E /\ v = Some (logdet w 2).
Proof.
  intros z. assert (IB : inj (ula_matrix 2 [z])) by (apply ula_inj; [apply ex_sing | cbn; lia]). destruct (pinv0_exact _ IB) as (X & EX & _).
  destruct (C67_cml_defined (ex_mlenv CML) ex_R (ula_matrix 2 [z]) 1 pinv0_ok eq_refl eq_refl None X eq_refl EX) as (y1 & V1).
  destruct (C67_cml_ula (ex_mlenv CML) ex_R (ula_matrix 2 [z]) 1 pinv0_ok eq_refl eq_refl None _ [RtoC 1] [z] (mid 1) 1 eq_refl (ex_sing _) (ex_sing _) eq_refl ltac:(cbn; lia) ex_exact ex_pd1 eq_refl V1) as (y1' & Y1 & _ & Q1). injection Y1 as <-.
  destruct (C67_wsf_matrix (ex_mlenv WSF) ex_R 1 eq_refl ml_init eq_refl eigh2_contract (proj1 ex_R_pd) ltac:(cbn; lia)) as (w & E & M & _ & OK & HM & EM & _).
  destruct (cml_defined pinv0 2 (ula_matrix 2 [z]) M X pinv0_ok EX eq_refl (meq_nr _ _ EM)) as (y2 & V2).
  destruct (C67_wsf_ula (ex_mlenv WSF) ex_R (ula_matrix 2 [z]) 1 pinv0_ok eq_refl eq_refl ml_init (Some M) (Some y2) [RtoC 1] [z] (mid 1) 1 eq_refl eigh2_contract (ex_sing _) (ex_sing _) eq_refl eq_refl ltac:(cbn; lia) ex_exact (proj1 ex_R_pd) ex_pd1 ltac:(lra) eq_refl HM V2) as (y2' & Y2 & _ & Q2). injection Y2 as <-.
  exists y1, y2. split; [exact V1|]. split; [exact Q1|]. split; [exists (Some M); split; [exact HM | exact V2]|]. split; [exact Q2|].
  assert (IA : inj ex_A) by (apply ula_inj; [apply ex_sing | cbn; lia]). destruct (pinv0_exact _ IA) as (X' & EX' & _). destruct (aml_defined pinv0 2 1 ex_A ex_R X' pinv0_ok EX' eq_refl eq_refl eq_refl) as (Hm & EH).
  destruct (aml_ok pinv0 2 1 ex_A ex_R Hm pinv0_ok eq_refl (proj1 ex_R_pd) eq_refl ltac:(lia) EH) as (P & OP & EQ). pose proof (conc_exact ex_R ex_A (mid 1) 1 P ex_exact (proj1 ex_R_pd) OP IA ltac:(cbn; lia)) as CE.
  assert (HE' : eigh_ok Hm w E) by (apply (eigh_ok_eq ex_R); [symmetry; etransitivity; [exact EQ | exact CE] | exact OK]).
  destruct (aml_value_ok slogdet2 2 Hm w E P ex_A ex_R 1 slogdet2_ok OP eq_refl ex_R_pd eq_refl ltac:(lia) IA eq_refl EQ HE') as (V & _).
  assert (N : nll (ex_mlenv AML) None ex_A ex_R 1 = Ok (Some (logdet w 2))) by (unfold nll; cbn [ml_kind ex_mlenv ml_pinv ml_slogdet]; change (ar_size _) with 2%nat; rewrite EH; exact V).
  exists (Some (logdet w 2)), w, E. split; [exact N|]. split; [exact OK|].
  exact (C67_aml_exact (ex_mlenv AML) ex_R ex_A 1 pinv0_ok eq_refl eq_refl None _ ex_A (mid 1) 1 w E eq_refl slogdet2_ok ex_R_pd ltac:(cbn; lia) ex_exact eq_refl eq_refl IA eq_refl N OK).
Qed.
Definition ex_env0 : mlenv := MlEnv AML (Array (LArr DFloat (Mat 2 1 (fun i _ => INR i))) "a" ISOTROPIC_SCALAR_SENSOR []) 1 pinv0 eigh2 slogdet_ref0.
Definition ex_R0 : cmat := ex_A *m mid 1 *m mher ex_A +m mscal (RtoC 0) (mid 2).
Example C67_noiseless_example : psd ex_R0 /\ slogdet_zero 2 slogdet_ref0 /\ slogdet_ok 2 slogdet_ref0 /\ nll ex_env0 None ex_A ex_R0 1 = Ok None.
Proof.
  assert (PR : psd ex_R0) by (apply (cov_psd ex_A (mid 1) 0); [reflexivity | apply pd_psd, ex_pd1 | lra]). destruct (slogdet_ref0_ok 2) as (S1 & S0). repeat (split; [assumption|]).
  assert (IA : inj ex_A) by (apply ula_inj; [apply ex_sing | cbn; lia]). destruct (pinv0_exact _ IA) as (X' & EX' & _). destruct (aml_defined pinv0 2 1 ex_A ex_R0 X' pinv0_ok EX' eq_refl eq_refl eq_refl) as (Hm & EH).
  assert (EX : exact_cov ex_R0 ex_A (mid 1) 0) by (split; [reflexivity|]; split; reflexivity).
  destruct (nll ex_env0 None ex_A ex_R0 1) as [v|e] eqn:E.
  - f_equal. exact (C67_aml_noiseless_defect ex_env0 ex_R0 ex_A 1 pinv0_ok eq_refl eq_refl None v ex_A (mid 1) eq_refl S0 EX (proj1 PR) eq_refl eq_refl ltac:(cbn; lia) IA eq_refl E).
  - exfalso. unfold nll in E. cbn [ml_kind ex_env0 ml_pinv ml_slogdet] in E. change (ar_size _) with 2%nat in E. rewrite EH in E. cbn [bind] in E. unfold aml_value, slogdet_ref0 in E. assert (HH : hermitian Hm).
    { destruct (aml_ok pinv0 2 1 ex_A ex_R0 Hm pinv0_ok eq_refl (proj1 PR) eq_refl ltac:(lia) EH) as (P & OP & EQ). eapply hermitian_eq; [symmetry; exact EQ|]. apply (conc_psd ex_A P ex_R0 2 1 OP eq_refl PR eq_refl ltac:(lia)). }
    destruct (eigh_ref_ok Hm HH) as (w & F & Er & _). rewrite Er in E. cbn [bind] in E. destruct (existsb _ _); cbn [bind] in E; destruct (cle0 _); discriminate.
Qed.
Print Assumptions C67_cml_ula.
Print Assumptions C67_aml_semidefinite.
Print Assumptions C67_aml_noiseless_defect.
Print Assumptions C67_wsf_ula.
Print Assumptions C67_aml.
Print Assumptions C67_aml_exact.
