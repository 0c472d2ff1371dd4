(** Exact recovery for estimators whose spectrum separates the true grid points from the others: Min-Norm, and the beamformers with one source. *)
From Coq Require Import Lra Sorted Permutation.
From Coq Require Classical_Prop.
From Verif Require Import Base_Np Base_Trig Base_Lin S_model M_utils S_utils P_utils M_sources S_sources P_sources M_array S_array P_array P_array2 P_array3 M_designs S_designs P_designs M_coarray S_coarray P_coarray P_coarray2 P_model
  M_grid S_grid P_grid M_core P_core P_core2 M_sparse M_subspace S_subspace P_subspace P_subspace2 P_subspace5 M_pipeline S_pipeline Prop_subspace P_pipeline P_minnorm.
Open Scope nat_scope.

(** *** histories *)
Definition forwards (method : estimator cmat -> lheap -> cmat -> Z -> options -> est_result) : Prop :=
  forall e h Rm k o, (exists x, method e h Rm k o = (Raise x, e, h)) \/ (exists f, method e h Rm k o = estimate e h f k o).
Lemma reach_ok method e0 h0 e h : forwards method -> est_ok e0 h0 -> reach method e0 h0 e h ->
  est_ok e h /\ e_grid e = e_grid e0 /\ e_atom e = e_atom e0 /\ e_pf e = e_pf e0 /\ e_argsort e = e_argsort e0.
Proof.
  intros F H0 R. induction R as [|e h Rm k o r e' h' R IH H]; [repeat (split; [assumption || reflexivity|]); reflexivity|].
  destruct IH as (I1 & I2 & I3 & I4 & I5). destruct (F e h Rm k o) as [(x & E)|(f & E)]; rewrite E in H.
  - injection H as _ <- <-. auto.
  - destruct (estimate_keeps _ _ _ _ _ _ _ _ I1 H) as (J1 & J2 & J3 & J4 & J5). repeat split; try congruence; apply J1.
Qed.
Lemma min_norm_forwards eigh m : forwards (min_norm_estimate eigh m).
Proof.
  intros e h Rm k o. unfold min_norm_estimate. match goal with |- context [match ?t with _ => _ end] => destruct t as [(n, [d|])|x] end; [right | left | left]; eauto.
Qed.
Lemma bartlett_forwards m : forwards (bartlett_estimate m).
Proof. intros e h Rm k o. unfold bartlett_estimate. match goal with |- context [match ?t with _ => _ end] => destruct t as [n|x] end; [right | left]; eauto. Qed.
Lemma mvdr_forwards lstsq m : forwards (mvdr_estimate lstsq m).
Proof. intros e h Rm k o. unfold mvdr_estimate. match goal with |- context [match ?t with _ => _ end] => destruct t as [n|x] end; [right | left]; eauto. Qed.

(** *** any grid *)
Lemma dominant_recovery (e : estimator cmat) h f B sp truth o :
  let g := e_grid e in let shape := sg_shape g in let k := List.length truth in
  est_ok e h -> e_atom e g = Ok B -> f B = Ok sp -> List.length sp = sg_size g -> 1 <= k -> NoDup truth -> (forall p, In p truth -> in_shape shape p) ->
  (forall p q, In p truth -> in_shape shape q -> ~ In q truth -> (at_idx shape sp q < at_idx shape sp p)%R) ->
  (forall p q, In p truth -> In q truth -> adjacent p q -> p = q) ->
  finds (e_pf e) shape truth -> (forall sp p, List.length sp = prod_list shape -> In p (e_pf e shape sp) -> in_shape shape p) -> (forall sp, NoDup (e_pf e shape sp)) ->
  (forall v, is_argsort v (e_argsort e v)) -> o_refine o = false ->
  exists est chosen e' h', estimate e h f (Z.of_nat k) o = (Ok (Outcome true (Some est) (if o_spectrum o then Some sp else None)), e', h') /\
    Permutation chosen truth /\ StronglySorted le (map (ravel shape) chosen) /\ buf h' est = map (grid_point g) chosen.
Proof.
  intros g shape k HO HB FB SL Hk ND TS ORD TA PF PS PN HS Hr.
  set (peaks := e_pf e shape sp). assert (TP : forall p, In p truth -> In p peaks).
  { apply PF; [exact SL|]. intros p q Ip Iq Aq Nq. apply ORD; [exact Ip | exact Iq|]. intros Itq. apply Nq. symmetry. now apply TA. }
  destruct (Prop_grid.C46_k_largest_peaks cmat e h f B sp k o HO HB FB SL (fun p Hp => PS sp p SL Hp) (HS _) ltac:(lia) Hr) as (e' & _ & H).
  assert (KL : (k <= List.length peaks)%nat) by (apply NoDup_incl_length; [exact ND | exact TP]).
  destruct (H KL) as (est & h' & chosen & rest & E1 & PM & LC & BF & SO & _ & _ & MX). exists est, chosen, e', h'. split; [exact E1|]. split; [|split; [exact SO | exact BF]].
  assert (NP : NoDup (chosen ++ rest)) by (apply (Permutation_NoDup (Permutation_sym PM)), PN).
  assert (NC : NoDup chosen) by (exact (NoDup_app_l' _ _ NP)).
  assert (TC : incl truth chosen).
  { intros p Ip. destruct (in_dec (list_eq_dec Nat.eq_dec) p chosen) as [I|N]; [exact I|]. exfalso.
    assert (Ir : In p rest) by (pose proof (TP p Ip) as X; apply (Permutation_in _ (Permutation_sym PM)) in X; apply in_app_or in X as [X|X]; [contradiction | exact X]).
    assert (CT : incl chosen truth).
    { intros q Iq. destruct (in_dec (list_eq_dec Nat.eq_dec) q truth) as [I|N']; [exact I|]. exfalso. specialize (MX q p Iq Ir).
      assert (Sq : in_shape shape q) by (apply (PS sp); [exact SL|]; apply (Permutation_in _ PM), in_or_app; now left). pose proof (ORD p q Ip Sq N') as L. apply (Rlt_irrefl (at_idx shape sp q)). eapply Rlt_le_trans; [exact L | exact MX]. }
    assert (CT2 : incl (p :: chosen) truth) by (intros q [<-|Iq]; [exact Ip | now apply CT]). pose proof (NoDup_incl_length (NoDup_cons p N NC) CT2) as X. cbn [List.length] in X. unfold k in *. lia. }
  apply Permutation_sym, NoDup_Permutation_bis; [exact ND | unfold k in *; lia | exact TC].
Qed.

(** *** uniform linear arrays *)
Lemma dominant_ula fp asort v m d lam u angles dt c h0 e0 h1 e h truth A o method :
  places_1d v (ULA_indices (Z.of_nat m)) d -> ar_perts (gd_array v) = [] -> scalar_isotropic (gd_array v) -> la_dt (ar_loc (gd_array v)) = DFloat ->
  (0 < d)%R -> (0 < lam)%R -> known_unit u -> Forall (valid_angle u) angles -> unambiguous d lam u angles ->
  new_estimator (gd_array v) lam (SGrid G1D [vec1 angles] u dt) (find_peaks_simple fp) asort c h0 = Ok (e0, h1) -> forwards method -> reach method e0 h1 e h ->
  scipy_find_peaks fp -> (forall x, is_argsort x (asort x)) -> separated (List.length angles) truth -> 1 <= List.length truth < m ->
  steering_matrix (gd_array v) (FF1 (at_positions angles truth) u) lam false "all" true = Ok (Flat A, []) -> o_refine o = false ->
  exists B, let zs := map (zof d lam u) (at_positions angles truth) in
    A ==m ula_matrix m zs /\ NoDup zs /\ List.length zs = List.length truth /\ B ==m ula_matrix m (map (zof d lam u) angles) /\
    forall f sp, f B = Ok sp -> List.length sp = nc B ->
      (forall i j, i < nc B -> j < nc B -> in_span A (col B i) -> ~ in_span A (col B j) -> (nth j sp 0 < nth i sp 0)%R) ->
      exists est e' h', estimate e h f (Z.of_nat (List.length truth)) o = (Ok (Outcome true (Some est) (if o_spectrum o then Some sp else None)), e', h') /\
        buf h' est = map (fun a => [a]) (at_positions angles truth).
Proof.
  intros PL Pe Iso DT Hd Hl K V U HN FW HR FP AS SEP Hk HA Hr.
  assert (PG : plain_grid (SGrid G1D [vec1 angles] u dt)) by (split; [intros a [<-|[]]; reflexivity | reflexivity]).
  destruct (new_estimator_ok _ _ _ _ _ _ _ _ _ PG HN) as (O0 & G0 & T0 & F0 & S0). destruct (reach_ok _ _ _ _ _ FW O0 HR) as (HO & G1 & T1 & F1 & S1).
  rewrite G0 in G1. rewrite T0 in T1. rewrite F0 in F1. rewrite S0 in S1.
  destruct (ula_grid_atoms v m d lam u angles dt (Rgt_not_eq _ _ Hl) PL Pe Iso DT ltac:(lia) K V) as (B & EB & HB).
  pose proof (sep_lt _ _ SEP) as (SL & ND).
  assert (IB : forall i, In i truth -> i < List.length angles) by (destruct SEP as (_ & F); rewrite Forall_forall in F; intros i Hi; apply F in Hi; lia).
  assert (VT : Forall (valid_angle u) (at_positions angles truth)).
  { apply Forall_forall. intros a Ia. apply in_map_iff in Ia as (i & <- & Hi). rewrite Forall_forall in V. apply V, nth_In. now apply IB. }
  pose proof (ula_steering v m d u (at_positions angles truth) lam PL Pe Iso (conj K VT) A HA) as EA.
  set (z := zof d lam u) in *.
  assert (zi : forall i j, i < List.length angles -> j < List.length angles -> z (nth i angles 0%R) = z (nth j angles 0%R) -> i = j).
  { intros i j Hi Hj E. apply (zof_inj d lam u angles) in E; try assumption; [|now apply nth_In|now apply nth_In]. destruct U as (UN & _). apply (proj1 (NoDup_nth angles 0%R) UN); assumption. }
  exists B. set (zs := map z (at_positions angles truth)) in *. cbv zeta.
  assert (NZ : NoDup zs).
  { unfold zs, at_positions. rewrite map_map. apply NoDup_map_in; [exact ND|]. intros i j Hi Hj. apply zi; now apply IB. }
  assert (LZ : List.length zs = List.length truth) by (unfold zs, at_positions; now rewrite !map_length).
  pose proof EA as (EA1 & EA2 & _). cbn [ula_matrix nr nc] in EA1, EA2. rewrite LZ in EA2.
  pose proof HB as (HB1 & HB2 & HB3). cbn [ula_matrix nr nc] in HB1, HB2, HB3. rewrite map_length in HB2.
  split; [exact EA|]. split; [exact NZ|]. split; [exact LZ|]. split; [exact HB|]. intros f sp FB SPL ORD.
  assert (HSh : sg_shape (e_grid e) = [List.length angles]) by (rewrite G1; reflexivity).
  assert (SI : forall i, i < List.length angles -> (in_span A (col B i) <-> In i truth)).
  { intros i Hi. rewrite (in_span_meq A (ula_matrix m zs)) by exact EA.
    assert (EQ : in_span (ula_matrix m zs) (col B i) <-> in_span (ula_matrix m zs) (fun r => cpow (z (nth i angles 0%R)) r)).
    { assert (X : forall r, r < m -> col B i r = cpow (z (nth i angles 0%R)) r).
      { intros r Hrr. unfold col. rewrite HB3 by lia. cbn [ula_matrix ent]. rewrite (nth_indep _ _ (z 0%R)) by (rewrite map_length; exact Hi). now rewrite map_nth. }
      split; intros (x & Hx); exists x; intros r Hrr; cbn [ula_matrix nr] in Hrr; [rewrite <- X by exact Hrr | rewrite X by exact Hrr]; apply Hx; exact Hrr. }
    rewrite EQ. rewrite ula_span by (exact NZ || lia). unfold zs, at_positions. rewrite map_map, in_map_iff. split.
    + intros (j & Ej & Hj). apply zi in Ej; [subst j; exact Hj | now apply IB | exact Hi].
    + intros Ii. exists i. auto. }
  destruct (dominant_recovery e h f B sp (map (fun i => [i]) truth) o) as (est & chosen & e' & h' & R1 & R2 & R3 & R4).
  - exact HO.
  - rewrite T1, G1. exact EB.
  - exact FB.
  - rewrite SPL, HB2. unfold sg_size. rewrite HSh. cbn. lia.
  - rewrite map_length. lia.
  - apply NoDup_map_in; [exact ND|]. intros a b _ _ X. congruence.
  - rewrite HSh. intros p Ip. apply in_map_iff in Ip as (i & <- & Hi). cbn. split; [now apply IB | exact I].
  - rewrite HSh. intros p q Ip Iq Nq. apply in_map_iff in Ip as (i & <- & Hi). cbn in Iq. destruct q as [|j [|]]; try tauto. destruct Iq as (Hj & _). unfold at_idx. cbn [ravel prod_list fold_right]. rewrite !Nat.mul_1_r, !Nat.add_0_r.
    pose proof (IB i Hi). apply ORD; [lia | lia | now apply SI|]. rewrite SI by exact Hj. intros Ij. apply Nq, in_map_iff. eauto.
  - intros p q Ip Iq Ad. apply in_map_iff in Ip as (i & <- & Hi). apply in_map_iff in Iq as (j & <- & Hj). f_equal. specialize (Ad 0). cbn in Ad. apply (sep_gap _ _ i j SEP Hi Hj); lia.
  - rewrite HSh, F1. now apply default_finder_1d.
  - intros x p. rewrite F1, HSh. unfold find_peaks_simple. cbn [List.length Nat.eqb]. intros Lx Ip. apply in_map_iff in Ip as (i & <- & Hi). apply (FP x) in Hi. cbn in Lx |- *. lia.
  - intros x. rewrite F1, HSh. unfold find_peaks_simple. cbn [List.length Nat.eqb]. apply NoDup_map_in; [apply (FP x)|]. intros a b _ _ X. congruence.
  - intros x. rewrite S1. apply AS.
  - exact Hr.
  - rewrite map_length in R1. exists est, e', h'. split; [exact R1|]. rewrite R4.
    assert (CE : chosen = map (fun i => [i]) truth).
    { assert (X : map (ravel [List.length angles]) chosen = truth).
      { apply sorted_perm_eq; [|rewrite <- HSh; exact R3 | exact SL]. rewrite (Permutation_map _ R2). rewrite map_map. rewrite (map_ext _ (fun i => i)); [now rewrite map_id|]. intros i. cbn. lia. }
      rewrite <- X, map_map. rewrite <- (map_id chosen) at 1. apply map_ext_in. intros p Ip. apply (Permutation_in _ R2) in Ip. apply in_map_iff in Ip as (i & <- & _). cbn. f_equal. lia. }
    rewrite CE. unfold at_positions. rewrite !map_map. apply map_ext. intros i. rewrite G1. reflexivity.
Qed.

(** *** Min-Norm *)
Lemma ula_dot m d z : csum m (fun i => (d i * cpow z i)%C) = poly m d z.
Proof. reflexivity. Qed.
Lemma recip_None x : recip x = None <-> x = 0%R.
Proof. unfold recip. destruct (Req_EM_T x 0); split; intros H; congruence. Qed.
Lemma abs_squared_0 c : abs_squared c = 0%R <-> c = RtoC 0.
Proof. apply Cnorm2_0. Qed.
Lemma perp_in_noise (eigh : cmat -> res (list R * cmat)) Rm A P s w E En v : exact_cov Rm A P s -> inj A -> pd P -> 1 <= nc A -> eigh Rm = Ok (w, E) -> eigh_ok Rm w E ->
  get_noise_subspace eigh Rm (Z.of_nat (nc A)) = Ok En -> (forall j, j < nc A -> vdot (nr A) (col A j) v = RtoC 0) -> in_span En v.
Proof.
  intros HX HA HP Hk HE OE EN Hv. destruct (ex_dims Rm A P s HX) as (D1 & D2). pose proof (inj_wide A HA) as W. pose proof OE as (O1 & O2 & O3 & _).
  destruct (noise_value eigh Rm (nc A) w E (nr A) HE ltac:(congruence) ltac:(congruence) ltac:(lia)) as (En' & EN' & N1 & N2 & N3). rewrite EN in EN'. injection EN' as <-.
  exists (fun j => vdot (nr A) (col E j) v). intros i Hi. rewrite N1 in Hi. rewrite (eigh_expand Rm w E v i OE) by lia. rewrite D1. unfold mvec. rewrite N2.
  replace (nr A) with ((nr A - nc A) + nc A) at 1 by lia. rewrite csum_app. rewrite (csum_0 (nc A)).
  - rewrite Cplus_0_r. apply csum_ext. intros j Hj. rewrite N3. apply Cmult_comm.
  - intros j Hj. destruct (ex_signal_span Rm A P s w E HX HA HP OE (nr A - nc A + j) ltac:(lia)) as (y & Hy).
    replace (vdot (nr A) (col E (nr A - nc A + j)) v) with (RtoC 0); [ring|]. symmetry. rewrite (vdot_ext _ _ (mvec A y) _ v) by (intros; try apply Hy; reflexivity || assumption).
    rewrite <- vdot_conj. assert (Z : vdot (nr A) v (mvec A y) = RtoC 0).
    { rewrite vdot_mvec_her. unfold vdot. apply csum_0. intros q Hq. replace (mvec (mher A) v q) with (vdot (nr A) (col A q) v); [rewrite Hv by exact Hq; rewrite Cconj_0; ring|]. reflexivity. }
    rewrite Z. apply Cconj_0.
Qed.
(** the Min-Norm spectrum of an exact covariance on a uniform linear array is infinite exactly at the sources *)
Lemma min_norm_ula_poles eigh Rm m A zs P s w E B ws : A ==m ula_matrix m zs -> B ==m ula_matrix m ws -> (forall z, In z zs -> Cmod z = 1%R) -> (forall z, In z ws -> Cmod z = 1%R) ->
  exact_cov Rm A P s -> pd P -> NoDup zs -> 1 <= List.length zs < m -> eigh Rm = Ok (w, E) -> eigh_ok Rm w E ->
  exists En d sp, get_noise_subspace eigh Rm (Z.of_nat (List.length zs)) = Ok En /\ min_norm_vector En = Ok (Some d) /\ f_min_norm (nr En) d B = Ok sp /\ List.length sp = nc B /\
    forall j, j < nc B -> (nth j sp None = None <-> in_span A (col B j)).
Proof.
  intros EA EB U1 U2 HX HP ND Hk HE OE. pose proof EA as (A1 & A2 & A3). pose proof EB as (B1 & B2 & B3). cbn [ula_matrix nr nc] in A1, A2, B1, B2, A3, B3.
  assert (HA : inj A) by (apply (Base_Lin.inj_eq (ula_matrix m zs)); [now symmetry|]; apply ula_inj; [exact ND | lia]).
  assert (Z0 : ~ In (RtoC 0) zs) by (intros I0; apply U1 in I0; rewrite Cmod_0 in I0; lra).
  assert (NE0 : ~ in_span A (unit_vec 0)) by (rewrite (in_span_meq _ _ _ EA); apply ula_no_e0; [exact ND | lia | exact Z0]).
  destruct (C59_exact_poles eigh Rm A P s w E A HX HA HP ltac:(lia) HE OE eq_refl) as (En & EN & _ & X). destruct (X NE0) as (d & spA & Ed & EsA & PA).
  destruct (C59_exact_poles eigh Rm A P s w E B HX HA HP ltac:(lia) HE OE ltac:(lia)) as (En' & EN' & _ & X'). rewrite EN in EN'. injection EN' as <-. destruct (X' NE0) as (d' & sp & Ed' & Es & PB).
  rewrite Ed in Ed'. injection Ed' as <-. clear X X'.
  destruct (exact_noise eigh Rm A P s w E HX HA HP ltac:(lia) HE OE) as (En' & EN' & N1 & N2 & ON & PW). rewrite EN in EN'. injection EN' as <-.
  exists En, d, sp. rewrite <- A2. split; [exact EN|]. split; [exact Ed|]. split; [exact Es|].
  rewrite (C59_spectrum (nr En) d B ltac:(congruence)) in Es. injection Es as <-. rewrite map_length, seq_length. split; [reflexivity|].
  rewrite (C59_spectrum (nr En) d A ltac:(congruence)) in EsA. injection EsA as <-.
  assert (CV : forall (M : cmat) xs j, M ==m ula_matrix m xs -> j < List.length xs -> vdot (nr En) (fun i => Cconj (d i)) (col M j) = poly m d (nth j xs (RtoC 0))).
  { intros M xs j (M1 & M2 & M3) Hj. cbn [ula_matrix nr nc] in M1, M2, M3. unfold vdot, poly. rewrite N1, A1. apply csum_ext. intros i Hi. rewrite Cconj_conj. unfold col. rewrite M3 by lia. reflexivity. }
  assert (DZ : forall z, In z zs -> poly m d z = RtoC 0).
  { intros z Iz. destruct (In_nth _ _ (RtoC 0) Iz) as (j & Hj & <-). rewrite <- (CV A zs j EA Hj). assert (IS : in_span A (col A j)) by (exists (fun q => if Nat.eqb q j then RtoC 1 else RtoC 0); intros i Hi; unfold mvec, col; rewrite (csum_single (nc A) _ j); [|lia|intros q Hq Nq; destruct (Nat.eqb_spec q j); [contradiction | ring]]; rewrite Nat.eqb_refl; ring).
    specialize (PA j ltac:(lia) IS). rewrite nth_map_seq in PA by lia. rewrite recip_None in PA. now apply Cnorm2_0. }
  assert (R0 : exists j, j < nc En /\ ent En 0 j <> RtoC 0).
  { destruct (Classical_Prop.classic (exists j, j < nc En /\ ent En 0 j <> RtoC 0)) as [Y|N]; [exact Y|]. exfalso. unfold min_norm_vector in Ed. rewrite N1, A1 in Ed. destruct (Nat.eqb_spec m 0); [lia|]. destruct (Req_EM_T _ 0) as [Q|Q]; [discriminate|]. apply Q.
    apply rsum_0. intros j Hj. destruct (P_spectral.C_eq_dec (ent En 0 j) (RtoC 0)) as [->|NQ]; [rewrite Cmod_0; ring|]. exfalso. apply N. eauto. }
  destruct (C59_min_norm_vector En ltac:(lia) ON R0) as (d' & Ed' & D0 & DS & DM). rewrite Ed in Ed'. injection Ed' as <-.
  intros j Hj. rewrite nth_map_seq by exact Hj. rewrite recip_None. rewrite Cnorm2_0. rewrite (CV B ws j EB ltac:(lia)). set (z := nth j ws (RtoC 0)).
  assert (SB : in_span A (col B j) <-> In z zs).
  { rewrite (in_span_meq _ _ _ EA). rewrite <- (ula_span m zs z ND ltac:(lia)). assert (Y : forall r, r < m -> col B j r = cpow z r) by (intros r Hr; unfold col; rewrite B3 by lia; reflexivity).
    split; intros (x & Hx); exists x; intros r Hrr; cbn [ula_matrix nr] in Hrr; [rewrite <- Y by exact Hrr | rewrite Y by exact Hrr]; apply Hx; exact Hrr. }
  rewrite SB. split; [|apply DZ]. apply (min_norm_zeros m zs d z ltac:(lia) D0 DZ).
  - intros v V0 VZ. rewrite N1, A1 in DM. specialize (DM (fun i => Cconj (v i))). rewrite vnorm2_conj in DM. apply DM; [|rewrite V0; apply injective_projections; cbn; ring].
    apply (perp_in_noise eigh Rm A P s w E En _ HX HA HP ltac:(lia) HE OE EN). intros q Hq. rewrite <- vdot_conj. replace (vdot (nr A) (fun i => Cconj (v i)) (col A q)) with (poly m v (nth q zs (RtoC 0))).
    + rewrite VZ by (apply nth_In; lia). apply Cconj_0.
    + unfold poly, vdot. rewrite A1. apply csum_ext. intros i Hi. rewrite Cconj_conj. unfold col. rewrite A3 by lia. reflexivity.
  - apply U2, nth_In. lia.
Qed.
Lemma zof_mod d lam u l z : In z (map (zof d lam u) l) -> Cmod z = 1%R.
Proof. intros H. apply in_map_iff in H as (a & <- & _). apply cis_mod. Qed.
Lemma min_norm_ula eigh fp asort v m d lam u angles dt c h0 e0 h1 e h truth A P s Rm o :
  places_1d v (ULA_indices (Z.of_nat m)) d -> ar_perts (gd_array v) = [] -> scalar_isotropic (gd_array v) -> la_dt (ar_loc (gd_array v)) = DFloat ->
  (0 < d)%R -> (0 < lam)%R -> known_unit u -> Forall (valid_angle u) angles -> unambiguous d lam u angles ->
  new_estimator (gd_array v) lam (SGrid G1D [vec1 angles] u dt) (find_peaks_simple fp) asort c h0 = Ok (e0, h1) -> reach (min_norm_estimate eigh m) e0 h1 e h ->
  eigh_contract m eigh -> scipy_find_peaks fp -> (forall x, is_argsort x (asort x)) -> separated (List.length angles) truth -> 1 <= List.length truth < m ->
  steering_matrix (gd_array v) (FF1 (at_positions angles truth) u) lam false "all" true = Ok (Flat A, []) ->
  exact_cov Rm A P s -> pd P -> o_refine o = false ->
  exists sp est e' h', min_norm_estimate eigh m e h Rm (Z.of_nat (List.length truth)) o = (Ok (Outcome true (Some est) (if o_spectrum o then Some sp else None)), e', h') /\
    buf h' est = map (fun a => [a]) (at_positions angles truth).
Proof.
  intros PL Pe Iso DT Hd Hl K V U HN HR EC FP AS SEP Hk HA HX HP Hr.
  destruct (dominant_ula fp asort v m d lam u angles dt c h0 e0 h1 e h truth A o (min_norm_estimate eigh m)) as (B & EA & NZ & LZ & EB & H); try assumption; [apply min_norm_forwards|]. cbv zeta in *.
  destruct (ex_dims Rm A P s HX) as (D1 & D2). pose proof EA as (A1 & A2 & _). cbn [ula_matrix nr nc] in A1, A2.
  destruct (EC Rm (exact_herm _ _ _ _ HX (proj1 HP)) ltac:(lia)) as (w & E & EE & OE).
  destruct (min_norm_ula_poles eigh Rm m A _ P s w E B _ EA EB (zof_mod d lam u _) (zof_mod d lam u _) HX HP NZ ltac:(lia) EE OE) as (En & dv & sp & EN & Ed & Es & SL & SP). rewrite LZ in EN.
  rewrite (C59_estimate_uses_spectrum eigh m e h Rm (Z.of_nat (List.length truth)) o En dv ltac:(congruence) ltac:(lia) EN Ed).
  exists (embed_inf sp). apply H.
  - rewrite Es. reflexivity.
  - rewrite embed_length. exact SL.
  - intros i j Hi Hj Si Sj. apply embed_order; [lia | lia|]. apply (SP i Hi) in Si. rewrite Si. destruct (nth j sp None) as [x|] eqn:Ej; [exact I|]. exfalso. apply Sj, (SP j Hj), Ej.
Qed.

(** *** Bartlett and MVDR with one source *)
Lemma strict_cs m (A : cmat) b : nr A = m -> nc A = 1 -> (0 < vnorm2 m (col A 0))%R -> ~ in_span A b -> (Cnorm2 (vdot m (col A 0) b) < vnorm2 m (col A 0) * vnorm2 m b)%R.
Proof.
  intros A1 A2 Hp Nb. set (a := col A 0) in *. destruct (vdot_cs m a b) as [L|E]; [exact L|]. exfalso. apply Nb. set (t := (vdot m a b / RtoC (vnorm2 m a))%C).
  exists (fun _ => t). intros i Hi. rewrite A1 in Hi. unfold mvec. rewrite A2. cbn [csum]. rewrite Cplus_0_l. change (ent A i 0) with (a i).
  assert (Z : vnorm2 m (fun i => (b i - t * a i)%C) = 0%R).
  { apply RtoC_inj. rewrite <- vdot_self.
    assert (X : vdot m (fun i => (b i - t * a i)%C) (fun i => (b i - t * a i)%C) = (vdot m b b - t * vdot m b a - Cconj t * vdot m a b + Cconj t * t * vdot m a a)%C).
    { unfold vdot. rewrite <- !csum_scal, <- !csum_minus, <- csum_plus. apply csum_ext. intros q _. rewrite Cminus_conj, Cmult_conj. ring. }
    rewrite X, !vdot_self. assert (Na : RtoC (vnorm2 m a) <> RtoC 0) by (intros Q; apply RtoC_inj in Q; lra).
    assert (T1 : (t * RtoC (vnorm2 m a))%C = vdot m a b) by (unfold t; field; exact Na).
    replace (Cconj t * t * RtoC (vnorm2 m a))%C with (Cconj t * (t * RtoC (vnorm2 m a)))%C by ring. rewrite T1. rewrite <- (vdot_conj m a b).
    assert (T2 : (t * Cconj (vdot m a b))%C = RtoC (vnorm2 m b)).
    { unfold t. replace (vdot m a b / RtoC (vnorm2 m a) * Cconj (vdot m a b))%C with (Cconj (vdot m a b) * vdot m a b / RtoC (vnorm2 m a))%C by (field; exact Na). rewrite Cconj_mult_norm2, E, RtoC_mult. field. exact Na. }
    rewrite T2. ring. }
  pose proof (vnorm2_0 _ _ Z i Hi) as Q. cbv beta in Q. replace (b i) with ((b i - t * a i) + t * a i)%C by ring. rewrite Q. ring.
Qed.
