(** The beamformers with one source: the spectrum is largest exactly at the directions whose steering vector is parallel to the source's. *)
From Coq Require Import Lra Sorted Permutation.
From Verif Require Import Base_Np Base_Trig Base_Lin S_model M_utils S_utils P_utils M_sources S_sources P_sources M_array S_array P_array P_array2 P_array3 M_designs S_designs P_designs
  M_grid S_grid P_grid M_core P_core P_core2 M_subspace S_subspace P_subspace P_subspace2 P_subspace5 M_pipeline S_pipeline Prop_subspace P_pipeline P_pipeline4.
Open Scope C_scope.

Lemma in_span_cs m (A : cmat) b : nr A = m -> nc A = 1%nat -> in_span A b -> Cnorm2 (vdot m (col A 0) b) = (vnorm2 m (col A 0) * vnorm2 m b)%R.
Proof.
  intros A1 A2 (x & Hx). rewrite A1 in Hx. assert (E : forall i, (i < m)%nat -> b i = x 0%nat * col A 0 i) by (intros i Hi; rewrite (Hx i Hi); unfold mvec, col; rewrite A2; cbn [csum]; ring).
  rewrite (vdot_ext m _ (col A 0) _ (fun i => x 0%nat * col A 0 i) (fun _ _ => eq_refl) E), vdot_scal, vdot_self, Cnorm2_mult, (vnorm2_ext m b _ E), vnorm2_scal.
  replace (Cnorm2 (RtoC (vnorm2 m (col A 0)))) with (vnorm2 m (col A 0) * vnorm2 m (col A 0))%R by (unfold Cnorm2, RtoC; cbn; ring). ring.
Qed.
Section One.
  Variables (Rm A P : cmat) (s : R).
  Hypotheses (HX : exact_cov Rm A P s) (H1 : nc A = 1%nat) (HP : pd P) (Hs : (0 <= s)%R).
  Let m := nr A. Let a := col A 0. Let p := Re (ent P 0 0).
  Lemma one_p : ent P 0 0 = RtoC p /\ (0 < p)%R.
  Proof.
    destruct HX as (P1 & P2 & _). rewrite H1 in P1, P2. assert (Hp : (0 < p)%R).
    { pose proof (proj2 HP (fun _ => RtoC 1) ltac:(exists 0%nat; split; [lia | intros Q; injection Q; lra])) as Q. unfold qform in Q. rewrite P1, P2 in Q. cbn [csum] in Q. unfold p. destruct (ent P 0 0) as (x, y). cbn in Q |- *. lra. }
    split; [|exact Hp]. pose proof (proj2 (proj1 HP) 0%nat 0%nat ltac:(lia) ltac:(lia)) as Q. unfold p. destruct (ent P 0 0) as (x, y). injection Q as Q. apply injective_projections; cbn; lra.
  Qed.
  Lemma one_mvec x i : (i < m)%nat -> mvec Rm x i = RtoC p * vdot m a x * a i + RtoC s * x i.
  Proof.
    intros Hi. rewrite (ex_mvec Rm A P s HX x i Hi). f_equal. destruct HX as (P1 & P2 & _). rewrite H1 in P2. unfold mvec at 1. rewrite H1. cbn [csum]. unfold mvec at 1. rewrite P2. cbn [csum]. rewrite (proj1 one_p).
    change (mvec (mher A) x 0) with (vdot m a x). unfold a, col. ring.
  Qed.
  Lemma one_qform b : qform Rm b = RtoC (p * Cnorm2 (vdot m a b) + s * vnorm2 m b)%R.
  Proof.
    destruct (ex_dims Rm A P s HX) as (D1 & D2). rewrite <- bform_qform, bform_vdot, D1. fold m. rewrite (vdot_ext m b b _ (fun i => RtoC p * vdot m a b * a i + RtoC s * b i) (fun _ _ => eq_refl) (one_mvec b)).
    replace (vdot m b (fun i => RtoC p * vdot m a b * a i + RtoC s * b i)) with (RtoC p * vdot m a b * vdot m b a + RtoC s * vdot m b b).
    - rewrite vdot_self, <- (vdot_conj m a b). replace (RtoC p * vdot m a b * Cconj (vdot m a b)) with (RtoC p * (Cconj (vdot m a b) * vdot m a b)) by ring. rewrite Cconj_mult_norm2. rewrite <- !RtoC_mult, <- RtoC_plus. reflexivity.
    - unfold vdot. rewrite <- !csum_scal, <- csum_plus. apply csum_ext. intros i _. ring.
  Qed.
  Lemma one_psd : psd Rm.
  Proof.
    split; [exact (exact_herm _ _ _ _ HX (proj1 HP))|]. intros b. rewrite one_qform. cbn. pose proof (Cnorm2_nonneg (vdot m a b)). pose proof (vnorm2_nonneg m b). pose proof (proj2 one_p). apply Rplus_le_le_0_compat; apply Rmult_le_pos; lra.
  Qed.
  Lemma one_pd : (0 < s)%R -> pd Rm.
  Proof.
    intros Hs'. split; [exact (exact_herm _ _ _ _ HX (proj1 HP))|]. intros b (i & Hi & Ni). destruct (ex_dims Rm A P s HX) as (D1 & D2). rewrite one_qform. cbn. pose proof (Cnorm2_nonneg (vdot m a b)).
    assert (0 < vnorm2 m b)%R by (apply P_spectral.vnorm2_pos; exists i; split; [unfold m; lia | exact Ni]). pose proof (proj2 one_p). apply Rplus_le_lt_0_compat; [apply Rmult_le_pos; lra | now apply Rmult_lt_0_compat].
  Qed.
  (** b^H R^-1 b *)
  Lemma one_inverse b x : (0 < s)%R -> (forall i, (i < m)%nat -> mvec Rm x i = b i) ->
    vdot m b x = RtoC ((vnorm2 m b - p * Cnorm2 (vdot m a b) / (p * vnorm2 m a + s)) / s)%R.
  Proof.
    intros Hs' Hx. pose proof (proj2 one_p) as Hp. pose proof (vnorm2_nonneg m a) as Na. assert (Hd : (0 < p * vnorm2 m a + s)%R) by (pose proof (Rmult_le_pos p _ (Rlt_le _ _ Hp) Na); lra).
    assert (L : forall y, vdot m y b = RtoC p * vdot m a x * vdot m y a + RtoC s * vdot m y x).
    { intros y. rewrite (vdot_ext m y y b (fun i => RtoC p * vdot m a x * a i + RtoC s * x i) (fun _ _ => eq_refl)) by (intros i Hi; rewrite <- (Hx i Hi); now apply one_mvec).
      unfold vdot. rewrite <- !csum_scal, <- csum_plus. apply csum_ext. intros i _. ring. }
    pose proof (L a) as La. pose proof (L b) as Lb. rewrite vdot_self in La, Lb. set (c := vdot m a x) in *.
    assert (Hd' : (RtoC p * RtoC (vnorm2 m a) + RtoC s)%C <> RtoC 0) by (rewrite <- RtoC_mult, <- RtoC_plus; intros Q; apply RtoC_inj in Q; lra).
    assert (Hs2 : RtoC s <> RtoC 0) by (intros Q; apply RtoC_inj in Q; lra).
    assert (Ec : c = vdot m a b / (RtoC p * RtoC (vnorm2 m a) + RtoC s)) by (rewrite La; field; exact Hd').
    assert (Ev : vdot m b x = (RtoC (vnorm2 m b) - RtoC p * c * vdot m b a) / RtoC s) by (rewrite Lb; field; exact Hs2).
    rewrite Ev, Ec, <- (vdot_conj m a b). unfold Rdiv at 1 2. rewrite !RtoC_mult, RtoC_minus, !RtoC_mult, !RtoC_inv, RtoC_plus, RtoC_mult by lra. rewrite <- Cconj_mult_norm2. field. split; assumption.
  Qed.
  Lemma one_bartlett_order B : nr B = m -> (0 < vnorm2 m a)%R -> (forall i j, (i < nc B)%nat -> (j < nc B)%nat -> vnorm2 m (col B i) = vnorm2 m (col B j)) ->
    exists sp, f_bartlett B Rm = Ok sp /\ List.length sp = nc B /\
      forall i j, (i < nc B)%nat -> (j < nc B)%nat -> in_span A (col B i) -> ~ in_span A (col B j) -> (nth j sp 0 < nth i sp 0)%R.
  Proof.
    intros B1 Ha EN. destruct (ex_dims Rm A P s HX) as (D1 & D2). destruct (C60_bartlett B Rm one_psd ltac:(unfold m in *; congruence)) as (sp & E & L & V). exists sp. split; [exact E|]. split; [exact L|].
    intros i j Hi Hj Si Sj. destruct (V i Hi) as (Vi & _). destruct (V j Hj) as (Vj & _). rewrite one_qform in Vi, Vj. apply RtoC_inj in Vi, Vj. rewrite Vi, Vj.
    unfold a. rewrite (in_span_cs m A _ eq_refl H1 Si). pose proof (strict_cs m A _ eq_refl H1 Ha Sj) as Q. rewrite (EN i j Hi Hj). fold a in Q |- *. apply Rplus_lt_compat_r, Rmult_lt_compat_l; [apply one_p | exact Q].
  Qed.
  Lemma one_mvdr_order lstsq B : lstsq_contract lstsq -> (0 < s)%R -> nr B = m -> (0 < vnorm2 m a)%R -> (forall i, (i < nc B)%nat -> vnorm2 m (col B i) = vnorm2 m a) ->
    exists sp, f_mvdr lstsq B Rm = Ok sp /\ List.length sp = nc B /\
      forall i j, (i < nc B)%nat -> (j < nc B)%nat -> in_span A (col B i) -> ~ in_span A (col B j) -> olt_inf (nth j sp None) (nth i sp None).
  Proof.
    intros LC Hs' B1 Ha EN. destruct (ex_dims Rm A P s HX) as (D1 & D2). destruct (C60_mvdr lstsq B Rm LC (one_pd Hs') ltac:(unfold m in *; congruence)) as (sp & E & L & V).
    { intros j Hj. assert (Q : (0 < vnorm2 m (col B j))%R) by (rewrite EN by exact Hj; exact Ha). destruct (Classical_Prop.classic (exists i, (i < nr B)%nat /\ ent B i j <> RtoC 0)) as [Y|N]; [exact Y|]. exfalso.
      assert (vnorm2 m (col B j) = 0%R); [|lra]. unfold vnorm2. apply rsum_0. intros i Hi. apply Cnorm2_0. destruct (P_spectral.C_eq_dec (col B j i) (RtoC 0)) as [Z|Z]; [exact Z|]. exfalso. apply N. exists i. split; [lia | exact Z]. }
    exists sp. split; [exact E|]. split; [exact L|]. intros i j Hi Hj Si Sj. destruct (V i Hi) as (xi & vi & X1 & -> & Pi & Wi & _). destruct (V j Hj) as (xj & vj & Y1 & -> & Pj & Wj & _). cbn.
    rewrite B1 in X1, Y1, Wi, Wj. rewrite (one_inverse (col B i) xi Hs' X1) in Wi. rewrite (one_inverse (col B j) xj Hs' Y1) in Wj. apply RtoC_inj in Wi, Wj.
    rewrite <- (Rinv_inv vi), <- (Rinv_inv vj) by lra. rewrite Wi, Wj.
    pose proof (proj2 one_p) as Hp. assert (Hd : (0 < p * vnorm2 m a + s)%R) by (pose proof (Rmult_lt_0_compat p _ Hp Ha); lra).
    assert (PI' : (0 < / vi)%R) by (now apply Rinv_0_lt_compat). rewrite Wi in PI'.
    assert (LT : ((vnorm2 m (col B i) - p * Cnorm2 (vdot m a (col B i)) / (p * vnorm2 m a + s)) / s < (vnorm2 m (col B j) - p * Cnorm2 (vdot m a (col B j)) / (p * vnorm2 m a + s)) / s)%R).
    { unfold a. rewrite (in_span_cs m A _ eq_refl H1 Si). pose proof (strict_cs m A _ eq_refl H1 Ha Sj) as Q. rewrite (EN i Hi), (EN j Hj) in *. fold a in Q |- *.
      apply Rmult_lt_compat_r; [now apply Rinv_0_lt_compat|]. apply Rplus_lt_compat_l, Ropp_lt_contravar. apply Rmult_lt_compat_r; [now apply Rinv_0_lt_compat|]. now apply Rmult_lt_compat_l. }
    apply Rinv_lt_contravar; [|exact LT]. apply Rmult_lt_0_compat; [exact PI'|]. apply Rlt_trans with (1 := PI'). exact LT.
  Qed.
End One.
Lemma ula_norm m zs j (M : cmat) : M ==m ula_matrix m zs -> (forall z, In z zs -> Cmod z = 1%R) -> (j < List.length zs)%nat -> vnorm2 m (col M j) = INR m.
Proof.
  intros (M1 & M2 & M3) U Hj. cbn [ula_matrix nr nc] in M1, M2, M3. unfold vnorm2. rewrite (rsum_ext _ _ (fun _ => 1%R)); [rewrite rsum_const; ring|]. intros i Hi. unfold col. rewrite M3 by lia. cbn [ula_matrix ent].
  specialize (U _ (nth_In _ (RtoC 0) Hj)). assert (Q : Cnorm2 (nth j zs (RtoC 0)) = 1%R) by (rewrite <- Cmod_norm2, U; ring). clear Hi. induction i as [|i IH]; [unfold Cnorm2; cbn; ring|]. rewrite cpow_S, Cnorm2_mult, IH, Q. ring.
Qed.
Section Ula.
  Variables (fp : list R -> list nat) (asort : list R -> list nat) (v : gdesign) (m : nat) (d lam : R) (u : string) (angles : list R) (dt : dtype) (c : bool) (h0 h1 h : lheap) (e0 e : estimator cmat) (t : nat) (A P : cmat) (s : R) (Rm : cmat) (o : options).
  Hypotheses (PL : places_1d v (ULA_indices (Z.of_nat m)) d) (Pe : ar_perts (gd_array v) = []) (Iso : scalar_isotropic (gd_array v)) (DT : la_dt (ar_loc (gd_array v)) = DFloat)
    (Hd : (0 < d)%R) (Hl : (0 < lam)%R) (K : known_unit u) (V : Forall (valid_angle u) angles) (U : unambiguous d lam u angles)
    (HN : new_estimator (gd_array v) lam (SGrid G1D [vec1 angles] u dt) (find_peaks_simple fp) asort c h0 = Ok (e0, h1))
    (FP : scipy_find_peaks fp) (AS : forall x, is_argsort x (asort x)) (Ht : (0 < t /\ S t < List.length angles)%nat) (Hm : (1 < m)%nat)
    (HA : steering_matrix (gd_array v) (FF1 [nth t angles 0%R] u) lam false "all" true = Ok (Flat A, []))
    (HX : exact_cov Rm A P s) (HP : pd P) (Hr : o_refine o = false).
  Lemma one_sep : separated (List.length angles) [t]. Proof. split; [repeat constructor|]. constructor; [exact Ht | constructor]. Qed.
  Lemma bartlett_ula : (0 <= s)%R -> reach (bartlett_estimate m) e0 h1 e h ->
    exists sp est e' h', bartlett_estimate m e h Rm 1 o = (Ok (Outcome true (Some est) (if o_spectrum o then Some sp else None)), e', h') /\ buf h' est = [[nth t angles 0%R]].
  Proof.
    intros Hs HR. destruct (dominant_ula fp asort v m d lam u angles dt c h0 e0 h1 e h [t] A o (bartlett_estimate m)) as (B & EA & NZ & LZ & EB & H); try assumption; [apply bartlett_forwards | apply one_sep | cbn; lia|]. cbv zeta in *.
    destruct (ex_dims Rm A P s HX) as (D1 & D2). pose proof EA as (A1 & A2 & _). pose proof EB as (B1 & B2 & _). cbn [ula_matrix nr nc] in A1, A2, B1, B2. rewrite LZ in A2. cbn in A2.
    rewrite (proj1 (C60_estimate_uses_spectrum m e h Rm 1 o (fun _ _ => Raise ValueError) ltac:(congruence))).
    destruct (one_bartlett_order Rm A P s HX A2 HP Hs B) as (sp & E & L & O).
    - congruence.
    - rewrite A1, (ula_norm m _ 0 A EA (zof_mod d lam u _)) by (rewrite LZ; cbn; lia). apply lt_0_INR. lia.
    - intros i j Hi Hj. rewrite A1. rewrite !(ula_norm m _ _ B EB (zof_mod d lam u _)) by lia. reflexivity.
    - exists sp. destruct (H (fun A0 => f_bartlett A0 Rm) sp E L O) as (est & e' & h' & R1 & R2). exists est, e', h'. split; [exact R1 | exact R2].
  Qed.
  Lemma mvdr_ula lstsq : lstsq_contract lstsq -> (0 < s)%R -> reach (mvdr_estimate lstsq m) e0 h1 e h ->
    exists sp est e' h', mvdr_estimate lstsq m e h Rm 1 o = (Ok (Outcome true (Some est) (if o_spectrum o then Some sp else None)), e', h') /\ buf h' est = [[nth t angles 0%R]].
  Proof.
    intros LC Hs HR. destruct (dominant_ula fp asort v m d lam u angles dt c h0 e0 h1 e h [t] A o (mvdr_estimate lstsq m)) as (B & EA & NZ & LZ & EB & H); try assumption; [apply mvdr_forwards | apply one_sep | cbn; lia|]. cbv zeta in *.
    destruct (ex_dims Rm A P s HX) as (D1 & D2). pose proof EA as (A1 & A2 & _). pose proof EB as (B1 & B2 & _). cbn [ula_matrix nr nc] in A1, A2, B1, B2. rewrite LZ in A2. cbn in A2.
    rewrite (proj2 (C60_estimate_uses_spectrum m e h Rm 1 o lstsq ltac:(congruence))).
    destruct (one_mvdr_order Rm A P s HX A2 HP lstsq B LC Hs) as (sp & E & L & O).
    - congruence.
    - rewrite A1, (ula_norm m _ 0 A EA (zof_mod d lam u _)) by (rewrite LZ; cbn; lia). apply lt_0_INR. lia.
    - intros i Hi. rewrite A1. rewrite (ula_norm m _ i B EB (zof_mod d lam u _)), (ula_norm m _ 0 A EA (zof_mod d lam u _)) by (lia || (rewrite LZ; cbn; lia)). reflexivity.
    - exists (embed_inf sp). destruct (H (fun A0 => let! l := f_mvdr lstsq A0 Rm in Ok (embed_inf l)) (embed_inf sp)) as (est & e' & h' & R1 & R2).
      + now rewrite E.
      + now rewrite embed_length.
      + intros i j Hi Hj Si Sj. apply embed_order; [lia | lia|]. now apply O.
      + exists est, e', h'. split; [exact R1 | exact R2].
  Qed.
End Ula.
