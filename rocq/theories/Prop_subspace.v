(** Properties of MUSIC, Min-Norm and the beamformers (C58-C60). *)
From Coq Require Import Sorting.Sorted Sorting.Permutation.
From Verif Require Import Base_Np Base_Mem Base_Lin Base_Trig M_utils P_utils M_sources M_array S_sources M_grid S_grid M_coarray M_heap M_core P_grid P_core P_core2 M_subspace S_subspace P_subspace P_subspace2.
From Verif Require Prop_grid.
Open Scope C_scope.

(** C58: the spectrum at a column a of the steering matrix is 1 / (a^H En En^H a) (None: division by 0 gives +inf). *)
Theorem C58_spectrum : forall (A En : cmat), nr A = nr En ->
  f_music A En = Ok (map (fun j => recip (proj_power En (col A j))) (seq 0 (nc A))) /\
  forall a, RtoC (proj_power En a) = qform (En *m mher En) a /\ (0 <= proj_power En a)%R /\
    (proj_power En a = 0%R <-> forall j, (j < nc En)%nat -> vdot (nr En) (col En j) a = RtoC 0).
Proof.
  intros A En H. split; [now apply f_music_value|]. intros a. split; [apply proj_power_qform|]. split; [apply proj_power_nonneg | apply proj_power_0].
Qed.
Theorem C58_size_mismatch : forall A En, nr A <> nr En -> f_music A En = Raise ValueError.
Proof. intros A En H. unfold f_music, matmul. cbn [mher nc]. destruct (Nat.eqb_spec (nr En) (nr A)); [congruence | reflexivity]. Qed.
(** it does not depend on the orthonormal basis of the noise subspace: En' = En U for a unitary U *)
Theorem C58_basis_independent : forall A En U, nr U = nc En -> U *m mher U ==m mid (nc En) -> nr A = nr En ->
  f_music A (En *m U) = f_music A En.
Proof.
  intros A En U HU UU HA. rewrite !f_music_value by (cbn [mmul nr]; exact HA). f_equal. apply map_ext. intros j. f_equal.
  assert (Q : RtoC (proj_power (En *m U) (col A j)) = RtoC (proj_power En (col A j))); [|now injection Q]. rewrite !proj_power_qform. apply qform_eq.
  assert (X : mher (En *m U) ==m mher U *m mher En) by (apply mher_mmul; now symmetry).
  rewrite (mmul_eq (En *m U) (En *m U) (mher (En *m U)) _ eq_refl ltac:(reflexivity) X). rewrite mmul_assoc. apply mmul_eq_r; [cbn [mmul nr]; now symmetry|].
  rewrite <- mmul_assoc. rewrite (mmul_eq_l _ _ (mher En) UU). apply mmul_id_l. reflexivity.
Qed.
(** exact covariance of k < m independent sources: the poles are exactly the candidates in the span of the source steering vectors *)
Lemma noise_value eigh Rm k w E M : eigh Rm = Ok (w, E) -> nr E = M -> nc E = M -> (1 <= k <= M)%nat ->
  exists En, get_noise_subspace eigh Rm (Z.of_nat k) = Ok En /\ nr En = M /\ nc En = (M - k)%nat /\ forall i j, ent En i j = ent E i j.
Proof.
  intros H Hr Hc Hk. unfold get_noise_subspace. rewrite H. cbn [bind]. eexists. split; [reflexivity|]. unfold col_slice, slice_bounds. rewrite Hc, clip_neg by lia. cbn [nr nc ent]. split; [exact Hr|]. split; [lia|]. intros. f_equal.
Qed.
Lemma exact_noise eigh Rm A P s w E : exact_cov Rm A P s -> inj A -> pd P -> (1 <= nc A)%nat -> eigh Rm = Ok (w, E) -> eigh_ok Rm w E ->
  exists En, get_noise_subspace eigh Rm (Z.of_nat (nc A)) = Ok En /\ nr En = nr A /\ nc En = (nr A - nc A)%nat /\ orthonormal En /\
    forall a, proj_power En a = 0%R <-> in_span A a.
Proof.
  intros HX HA HP Hk HE OE. destruct (ex_dims Rm A P s HX) as [D1 D2]. pose proof (inj_wide A HA) as W. pose proof OE as (O1 & O2 & O3 & O4 & O5 & O6 & O7).
  destruct (noise_value eigh Rm (nc A) w E (nr A) HE ltac:(congruence) ltac:(congruence) ltac:(lia)) as (En & EN & N1 & N2 & N3).
  exists En. split; [exact EN|]. split; [exact N1|]. split; [exact N2|]. split.
  - split; [reflexivity|]. split; [reflexivity|]. intros i j Hi Hj. cbn [mmul mher nr nc] in Hi, Hj. rewrite N2 in Hi, Hj. pose proof (eigh_orth Rm w E i j OE ltac:(lia) ltac:(lia)) as O. rewrite D1 in O.
    cbn [mmul mher ent nc mid]. rewrite N1. rewrite <- O. apply csum_ext. intros r Hr. now rewrite !N3.
  - intros a. rewrite proj_power_0, N1, N2. rewrite <- (ex_span_iff Rm A P s w E HX HA HP OE a). split; intros H j Hj; rewrite <- (H j Hj); unfold vdot, col; apply csum_ext; intros r Hr; now rewrite N3.
Qed.
Theorem C58_exact_poles : forall eigh Rm A P s w E B, exact_cov Rm A P s -> inj A -> pd P -> (1 <= nc A)%nat -> eigh Rm = Ok (w, E) -> eigh_ok Rm w E -> nr B = nr A ->
  exists En sp, get_noise_subspace eigh Rm (Z.of_nat (nc A)) = Ok En /\ f_music B En = Ok sp /\ List.length sp = nc B /\
    forall j, (j < nc B)%nat -> match nth j sp None with None => in_span A (col B j) | Some v => (0 < v)%R /\ ~ in_span A (col B j) end.
Proof.
  intros eigh Rm A P s w E B HX HA HP Hk HE OE HB. destruct (exact_noise eigh Rm A P s w E HX HA HP Hk HE OE) as (En & EN & N1 & N2 & N3 & N4).
  exists En. eexists. split; [exact EN|]. split; [apply f_music_value; congruence|]. split; [now rewrite map_length, seq_length|]. intros j Hj.
  rewrite (nth_indep _ None (recip (proj_power En (col B 0)))) by (now rewrite map_length, seq_length). rewrite (map_nth (fun j => recip (proj_power En (col B j)))), seq_nth by exact Hj. cbn [Nat.add].
  unfold recip. destruct (Req_EM_T _ _) as [Z|Z]; [now apply N4|]. split; [|intros X; apply Z; now apply N4]. apply Rinv_0_lt_compat. destruct (proj_power_nonneg En (col B j)) as [L|L]; [exact L | exfalso; apply Z; now symmetry].
Qed.
(** uniform linear array, k < m distinct sources: the candidate z is a pole iff it is a source *)
Theorem C58_ula_poles : forall eigh Rm P s w E zs cs m, NoDup zs -> (1 <= List.length zs < m)%nat -> pd P ->
  exact_cov Rm (ula_matrix m zs) P s -> eigh Rm = Ok (w, E) -> eigh_ok Rm w E ->
  exists En sp, get_noise_subspace eigh Rm (Z.of_nat (List.length zs)) = Ok En /\ f_music (ula_matrix m cs) En = Ok sp /\
    forall j, (j < List.length cs)%nat -> (nth j sp (Some 0%R) = None <-> In (nth j cs (RtoC 0)) zs).
Proof.
  intros eigh Rm P s w E zs cs m HD Hk HP HX HE OE.
  destruct (C58_exact_poles eigh Rm (ula_matrix m zs) P s w E (ula_matrix m cs) HX (ula_inj m zs HD ltac:(lia)) HP ltac:(cbn; lia) HE OE eq_refl) as (En & sp & EN & ES & L & H).
  exists En, sp. split; [exact EN|]. split; [exact ES|]. intros j Hj. specialize (H j Hj). cbn [ula_matrix nc] in L. rewrite (nth_indep sp (Some 0%R) None) by lia.
  pose proof (ula_span m zs (nth j cs (RtoC 0)) HD ltac:(lia)) as SP. change (fun i => cpow (nth j cs (RtoC 0)) i) with (col (ula_matrix m cs) j) in SP. rewrite <- SP.
  destruct (nth j sp None) as [v|]; split; intros X; try easy.
Qed.

(** MUSIC.estimate: argument checks leave the estimator and all arrays unchanged *)
Theorem C58_estimate_checks : forall eigh m e h Rm k o, nr Rm <> m \/ (k >= Z.of_nat m)%Z ->
  music_estimate eigh m e h Rm k o = (Raise ValueError, e, h).
Proof.
  intros eigh m e h Rm k o H. unfold music_estimate, ensure_covariance_size. cbn [List.length Nat.eqb negb nth]. destruct (Nat.eqb_spec (nr Rm) m) as [D|D]; cbn [negb orb bind]; [|reflexivity].
  unfold ensure_n_resolvable_sources. rewrite Z.gtb_ltb. destruct (Z.ltb_spec (Z.of_nat m - 1) k); [reflexivity|]. exfalso. destruct H as [H|H]; lia.
Qed.
Theorem C58_estimate_uses_spectrum : forall eigh m e h Rm k o w E, nr Rm = m -> (1 <= k < m)%nat -> eigh Rm = Ok (w, E) -> nr E = m -> nc E = m ->
  exists En, get_noise_subspace eigh Rm (Z.of_nat k) = Ok En /\
    music_estimate eigh m e h Rm (Z.of_nat k) o = estimate e h (fun A => let! l := f_music A En in Ok (embed_inf l)) (Z.of_nat k) o.
Proof.
  intros eigh m e h Rm k o w E H Hk HE E1 E2. destruct (noise_value eigh Rm k w E m HE E1 E2 ltac:(lia)) as (En & EN & _). exists En. split; [exact EN|].
  unfold music_estimate, ensure_covariance_size. cbn [List.length Nat.eqb negb nth]. rewrite H, Nat.eqb_refl. cbn [negb orb bind].
  unfold ensure_n_resolvable_sources. rewrite Z.gtb_ltb. destruct (Z.ltb_spec (Z.of_nat m - 1) (Z.of_nat k)); [lia|]. cbn [bind]. now rewrite EN.
Qed.
(** ranking by the model's finite stand-in for +inf is ranking with +inf above every number *)
Theorem C58_infinite_values_rank_highest : forall l i j, (i < List.length l)%nat -> (j < List.length l)%nat ->
  ((nth i (embed_inf l) 0 < nth j (embed_inf l) 0)%R <->
   match nth i l None, nth j l None with Some u, Some v => (u < v)%R | Some _, None => True | None, _ => False end).
Proof. intros l i j Hi Hj. exact (embed_order l i j Hi Hj). Qed.

(** End to end: exact covariance, sources on the grid ([truth]), no two of them adjacent, and a peak finder that reports these
    points whenever they exceed their neighbours.  Then MUSIC is resolved and returns exactly the true grid points, in grid order. *)
Definition finds (pf : list nat -> list R -> list (list nat)) (shape : list nat) (truth : list (list nat)) : Prop :=
  forall sp, List.length sp = prod_list shape ->
    (forall p q, In p truth -> in_shape shape q -> adjacent p q -> q <> p -> (at_idx shape sp q < at_idx shape sp p)%R) ->
    forall p, In p truth -> In p (pf shape sp).
Lemma NoDup_app_l' {A} (l1 l2 : list A) : NoDup (l1 ++ l2) -> NoDup l1.
Proof. induction l1 as [|a l1 IH]; intros H; [constructor|]. cbn in H. apply NoDup_cons_iff in H as (H1 & H2). constructor; [|now apply IH]. intros I. apply H1, in_or_app. now left. Qed.
Theorem C58_exact_recovery : forall eigh (e : estimator cmat) (h : lheap) (Rm A B P : cmat) (s : R) (w : list R) (E : cmat) (truth : list (list nat)) (o : options),
  let g := e_grid e in let shape := sg_shape g in let k := nc A in
  est_ok e h -> e_atom e g = Ok B -> nr B = nr A -> nc B = sg_size g ->
  exact_cov Rm A P s -> inj A -> pd P -> (1 <= k < nr A)%nat -> eigh Rm = Ok (w, E) -> eigh_ok Rm w E ->
  NoDup truth -> List.length truth = k -> (forall p, In p truth -> in_shape shape p) ->
  (forall p, in_shape shape p -> (in_span A (col B (ravel shape p)) <-> In p truth)) ->
  (forall p q, In p truth -> In q truth -> adjacent p q -> p = q) ->
  finds (e_pf e) shape truth -> (forall sp p, List.length sp = prod_list shape -> In p (e_pf e shape sp) -> in_shape shape p) -> (forall sp, NoDup (e_pf e shape sp)) ->
  (forall v, is_argsort v (e_argsort e v)) -> o_refine o = false ->
  exists sp est chosen e' h',
    music_estimate eigh (nr A) e h Rm (Z.of_nat k) o = (Ok (Outcome true (Some est) (if o_spectrum o then Some sp else None)), e', h') /\
    Permutation chosen truth /\ StronglySorted le (map (ravel shape) chosen) /\ buf h' est = map (grid_point g) chosen.
Proof.
  intros eigh e h Rm A B P s w E truth o g shape k HO HB B1 B2 HX HA HP Hk HE OE ND TL TS TI TA PF PS PN HS Hr.
  destruct (C58_exact_poles eigh Rm A P s w E B HX HA HP ltac:(lia) HE OE B1) as (En & sp & EN & ES & SL & SP).
  destruct (ex_dims Rm A P s HX) as [D1 D2]. pose proof OE as (O1 & O2 & O3 & _).
  destruct (C58_estimate_uses_spectrum eigh (nr A) e h Rm k o w E D1 Hk HE ltac:(congruence) ltac:(congruence)) as (En' & EN' & EST).
  assert (En' = En) by (unfold k in EN'; rewrite EN in EN'; now injection EN'). subst En'. rewrite EST. clear EST EN'.
  set (f := fun A0 : cmat => let! l := f_music A0 En in Ok (embed_inf l)). set (sp' := embed_inf sp).
  assert (FB : f B = Ok sp') by (unfold f; rewrite ES; reflexivity). assert (SL' : List.length sp' = sg_size g) by (unfold sp'; rewrite embed_length; congruence).
  assert (PV : forall p, in_shape shape p -> (ravel shape p < List.length sp)%nat) by (intros p Hp; rewrite SL, B2; unfold g; now apply ravel_lt).
  assert (ORD : forall p q, In p truth -> in_shape shape q -> ~ In q truth -> (at_idx shape sp' q < at_idx shape sp' p)%R).
  { intros p q Ip Iq Nq. unfold at_idx, sp'. apply embed_order; [now apply PV | apply PV, TS, Ip |]. pose proof (SP _ ltac:(rewrite <- SL; apply PV, TS, Ip)) as Xp. pose proof (SP _ ltac:(rewrite <- SL; apply PV, Iq)) as Xq.
    destruct (nth (ravel shape p) sp None) as [v|]; [exfalso; apply (proj2 Xp), (TI p (TS p Ip)), Ip|]. destruct (nth (ravel shape q) sp None) as [u|]; [exact I | exfalso; apply Nq, (TI q Iq), Xq]. }
  set (peaks := e_pf e shape sp'). assert (TP : forall p, In p truth -> In p peaks).
  { apply PF; [exact SL'|]. intros p q Ip Iq Aq Nq. apply ORD; [exact Ip | exact Iq|]. intros Itq. apply Nq. symmetry. now apply TA. }
  destruct (Prop_grid.C46_k_largest_peaks cmat e h f B sp' k o HO HB FB SL' (fun p Hp => PS sp' p SL' Hp) (HS _) ltac:(lia) Hr) as (e' & _ & H).
  assert (KL : (k <= List.length peaks)%nat) by (rewrite <- TL; apply NoDup_incl_length; [exact ND | exact TP]).
  destruct (H KL) as (est & h' & chosen & rest & E1 & PM & LC & BF & SO & _ & _ & MX). exists sp', est, chosen, e', h'. split; [exact E1|]. split; [|split; [exact SO | exact BF]].
  assert (NP : NoDup (chosen ++ rest)) by (apply (Permutation_NoDup (Permutation_sym PM)), PN).
  assert (NC : NoDup chosen) by (exact (NoDup_app_l' _ _ NP)).
  (* every true point is chosen *)
  assert (TC : incl truth chosen).
  { intros p Ip. destruct (in_dec (list_eq_dec Nat.eq_dec) p chosen) as [I|N]; [exact I|]. exfalso.
    assert (Ir : In p rest) by (pose proof (TP p Ip) as X; apply (Permutation_in _ (Permutation_sym PM)) in X; apply in_app_or in X as [X|X]; [contradiction | exact X]).
    assert (CT : incl chosen truth).
    { intros q Iq. destruct (in_dec (list_eq_dec Nat.eq_dec) q truth) as [I|N']; [exact I|]. exfalso. specialize (MX q p Iq Ir).
      assert (Sq : in_shape shape q) by (apply (PS sp'); [exact SL'|]; apply (Permutation_in _ PM), in_or_app; now left). pose proof (ORD p q Ip Sq N') as L. apply (Rlt_irrefl (at_idx shape sp' q)). eapply Rlt_le_trans; [exact L | exact MX]. }
    assert (CT2 : incl (p :: chosen) truth) by (intros q [<-|Iq]; [exact Ip | now apply CT]). pose proof (NoDup_incl_length (NoDup_cons p N NC) CT2) as X. cbn [List.length] in X. lia. }
  apply Permutation_sym, NoDup_Permutation_bis; [exact ND | lia | exact TC].
Qed.
(** the default multi-dimensional peak finder reports such points *)
Theorem C58_default_finder_2d : forall find_peaks shape truth, (2 <= List.length shape)%nat -> (forall p, In p truth -> in_shape shape p) ->
  finds (find_peaks_simple find_peaks) shape truth /\ (forall sp p, In p (find_peaks_simple find_peaks shape sp) -> in_shape shape p) /\ (forall sp, NoDup (find_peaks_simple find_peaks shape sp)).
Proof.
  intros fp shape truth HL TS. split; [|split].
  - intros sp _ H p Ip. destruct (Prop_grid.C47_local_maxima fp shape sp HL) as (X & _). apply X. split; [now apply TS|]. intros q Iq Aq. destruct (list_eq_dec Nat.eq_dec q p) as [->|N]; [right; reflexivity|]. left. now apply H.
  - intros sp p Ip. destruct (Prop_grid.C47_local_maxima fp shape sp HL) as (X & _). now apply X.
  - intros sp. destruct (Prop_grid.C47_local_maxima fp shape sp HL) as (_ & X & _). apply StronglySorted_Sorted in X. set (pk := find_peaks_simple fp shape sp) in *.
    assert (ND : NoDup (map (ravel shape) pk)).
    { apply Sorted_StronglySorted in X; [|intros a b c; lia]. induction X as [|a l SS IH FA]; constructor; [|exact IH]. intros I. rewrite Forall_forall in FA. specialize (FA a I). lia. }
    now apply NoDup_map_inv in ND.
Qed.

(** C59: the Min-Norm vector d (used as d^T a) is the conjugate of the least-norm vector of the noise subspace with first entry 1. *)
Theorem C59_min_norm_vector : forall En, (0 < nr En)%nat -> orthonormal En -> (exists j, (j < nc En)%nat /\ ent En 0 j <> RtoC 0) ->
  exists d, min_norm_vector En = Ok (Some d) /\ d 0%nat = RtoC 1 /\ in_span En (fun i => Cconj (d i)) /\
    forall v, in_span En v -> v 0%nat = RtoC 1 -> (vnorm2 (nr En) d <= vnorm2 (nr En) v)%R.
Proof.
  intros En Hr HO (j & Hj & Nj). destruct (min_norm_spec En Hr HO) as (_ & H).
  destruct H as (d & E & H0 & (y & Hy) & HM).
  { intros Z. apply Nj. exact (vnorm2_0 _ _ Z j Hj). }
  exists d. split; [exact E|]. split; [exact H0|]. split; [exists y; exact Hy|]. intros v (x & Hx) Hv. rewrite (vnorm2_ext _ v (mvec En x)) by exact Hx. apply HM. rewrite <- Hx by exact Hr. exact Hv.
Qed.
(** the spectrum at column a is 1/|v^H a|^2 with v = conj(d) *)
Theorem C59_spectrum : forall m d A, nr A = m ->
  f_min_norm m d A = Ok (map (fun j => recip (Cnorm2 (vdot m (fun i => Cconj (d i)) (col A j)))) (seq 0 (nc A))).
Proof.
  intros m d A H. unfold f_min_norm. rewrite H, Nat.eqb_refl. cbn [negb]. f_equal. apply map_ext. intros j. f_equal. unfold abs_squared. unfold vdot. 
  rewrite (csum_ext m (fun i => Cconj (Cconj (d i)) * col A j i) (fun i => d i * ent A i j)) by (intros; now rewrite Cconj_conj). unfold Cnorm2. try rewrite <- Cmod_norm2; try reflexivity; ring.
Qed.
(** every candidate in the span of the source steering vectors of an exact covariance is a pole; NaN only if e_0 itself is in that span,
    which never happens for a uniform linear array *)
Theorem C59_exact_poles : forall eigh Rm A P s w E B, exact_cov Rm A P s -> inj A -> pd P -> (1 <= nc A)%nat -> eigh Rm = Ok (w, E) -> eigh_ok Rm w E -> nr B = nr A ->
  exists En, get_noise_subspace eigh Rm (Z.of_nat (nc A)) = Ok En /\
    (in_span A (unit_vec 0) -> min_norm_vector En = Ok None) /\
    (~ in_span A (unit_vec 0) -> exists d sp, min_norm_vector En = Ok (Some d) /\ f_min_norm (nr En) d B = Ok sp /\
       forall j, (j < nc B)%nat -> in_span A (col B j) -> nth j sp (Some 0%R) = None).
Proof.
  intros eigh Rm A P s w E B HX HA HP Hk HE OE HB. destruct (exact_noise eigh Rm A P s w E HX HA HP Hk HE OE) as (En & EN & N1 & N2 & N3 & N4).
  pose proof (inj_wide A HA) as W. assert (R0 : (0 < nr En)%nat) by lia. destruct (min_norm_spec En R0 N3) as (M1 & M2).
  assert (Z : vnorm2 (nc En) (fun j => ent En 0 j) = 0%R <-> in_span A (unit_vec 0)).
  { rewrite <- N4, proj_power_0.
    assert (Q : forall j, vdot (nr En) (col En j) (unit_vec 0) = Cconj (ent En 0 j)).
    { intros j. unfold vdot, col, unit_vec. rewrite (csum_single (nr En) _ 0%nat R0); [cbn [Nat.eqb]; ring|]. intros i Hi Ni. destruct (Nat.eqb_spec i 0); [contradiction | ring]. }
    split.
    - intros Hz j Hj. rewrite Q. rewrite (vnorm2_0 _ _ Hz j Hj). apply Cconj_RtoC.
    - intros Hz. apply rsum_0. intros j Hj. apply Cnorm2_0. apply Cconj_eq_0. rewrite <- Q. now apply Hz. }
  exists En. split; [exact EN|]. split.
  - intros I. apply M1. now apply Z.
  - intros NI. destruct M2 as (d & ED & _ & (y & Hy) & _); [intros X; apply NI; now apply Z|]. exists d. eexists. split; [exact ED|]. split; [apply C59_spectrum; congruence|]. intros j Hj IS.
    rewrite (nth_indep _ (Some 0%R) (recip (Cnorm2 (vdot (nr En) (fun i => Cconj (d i)) (col B 0))))) by (now rewrite map_length, seq_length).
    rewrite (map_nth (fun j => recip (Cnorm2 (vdot (nr En) (fun i => Cconj (d i)) (col B j))))), seq_nth by exact Hj. cbn [Nat.add].
    assert (V0 : vdot (nr En) (fun i => Cconj (d i)) (col B j) = RtoC 0).
    { rewrite (vdot_ext (nr En) _ (mvec En y) _ (col B j)) by (auto; exact Hy). apply N4 in IS. rewrite proj_power_0 in IS.
      rewrite <- vdot_conj. rewrite (vdot_ext (nr En) _ (col B j) _ (fun r => csum (nc En) (fun q => y q * col En q r))) by (auto; intros; unfold mvec, col; apply csum_ext; intros; ring).
      rewrite (vdot_sum (nc En) (nr En) y (fun q => col En q)). rewrite csum_0; [apply Cconj_RtoC|]. intros q Hq. rewrite <- vdot_conj, (IS q Hq), Cconj_RtoC. ring. }
    rewrite V0. unfold recip. replace (Cnorm2 (RtoC 0)) with 0%R by (symmetry; now apply Cnorm2_0). destruct (Req_EM_T 0 0); [reflexivity | contradiction].
Qed.
Theorem C59_ula_never_nan : forall m zs, NoDup zs -> (List.length zs < m)%nat -> ~ In (RtoC 0) zs -> ~ in_span (ula_matrix m zs) (unit_vec 0).
Proof. exact ula_no_e0. Qed.
Theorem C59_estimate_checks : forall eigh m e h Rm k o, nr Rm <> m \/ (k >= Z.of_nat m)%Z -> min_norm_estimate eigh m e h Rm k o = (Raise ValueError, e, h).
Proof.
  intros eigh m e h Rm k o H. unfold min_norm_estimate, ensure_covariance_size. cbn [List.length Nat.eqb negb nth]. destruct (Nat.eqb_spec (nr Rm) m) as [D|D]; cbn [negb orb bind]; [|reflexivity].
  unfold ensure_n_resolvable_sources. rewrite Z.gtb_ltb. destruct (Z.ltb_spec (Z.of_nat m - 1) k); [reflexivity|]. exfalso. destruct H as [H|H]; lia.
Qed.
Theorem C59_estimate_uses_spectrum : forall eigh m e h Rm k o En d, nr Rm = m -> (k < Z.of_nat m)%Z -> get_noise_subspace eigh Rm k = Ok En -> min_norm_vector En = Ok (Some d) ->
  min_norm_estimate eigh m e h Rm k o = estimate e h (fun A => let! l := f_min_norm (nr En) d A in Ok (embed_inf l)) k o.
Proof.
  intros eigh m e h Rm k o En d H Hk HE HD. unfold min_norm_estimate, ensure_covariance_size. cbn [List.length Nat.eqb negb nth]. rewrite H, Nat.eqb_refl. cbn [negb orb bind].
  unfold ensure_n_resolvable_sources. rewrite Z.gtb_ltb. destruct (Z.ltb_spec (Z.of_nat m - 1) k); [lia|]. cbn [bind]. rewrite HE. cbn [bind]. now rewrite HD.
Qed.

(** C60: beamformer spectra. *)
Theorem C60_bartlett : forall A Rm, psd Rm -> nr A = nr Rm ->
  exists sp, f_bartlett A Rm = Ok sp /\ List.length sp = nc A /\
    forall j, (j < nc A)%nat -> RtoC (nth j sp 0%R) = qform Rm (col A j) /\ (0 <= nth j sp 0)%R.
Proof.
  intros A Rm HP HA. pose proof HP as (HH & HQ). pose proof HH as (SQ & _). unfold f_bartlett, matmul. rewrite <- SQ, HA, Nat.eqb_refl. cbn [bind mmul nr]. rewrite Nat.eqb_refl. cbn [negb].
  eexists. split; [reflexivity|]. split; [now rewrite map_length, seq_length|]. intros j Hj.
  assert (V : nth j (map (fun j0 => Re (csum (nr Rm) (fun i => Cconj (ent A i j0) * ent (Rm *m A) i j0))) (seq 0 (nc A))) 0%R = Re (qform Rm (col A j))).
  { rewrite (nth_indep _ 0%R (Re (csum (nr Rm) (fun i => Cconj (ent A i 0) * ent (Rm *m A) i 0)))) by (now rewrite map_length, seq_length).
    rewrite (map_nth (fun j0 => Re (csum (nr Rm) (fun i => Cconj (ent A i j0) * ent (Rm *m A) i j0)))), seq_nth by exact Hj. cbn [Nat.add]. f_equal. rewrite <- bform_qform, bform_vdot. reflexivity. }
  rewrite V. split; [symmetry; now apply qform_real | apply HQ].
Qed.
Definition lstsq_contract (lstsq : cmat -> cmat -> res cmat) : Prop :=
  forall G B, nr G = nc G -> inj G -> nr B = nr G -> exists X, lstsq G B = Ok X /\ nr X = nr G /\ nc X = nc B /\ G *m X ==m B.
(** f_mvdr at a column a is 1/(a^H R^-1 a): with x the solution of R x = a it is 1/(a^H x), a^H x = x^H R x > 0; and it is at most the
    Bartlett value over |a|^4 *)
Theorem C60_mvdr : forall lstsq A Rm, lstsq_contract lstsq -> pd Rm -> nr A = nr Rm -> (forall j, (j < nc A)%nat -> exists i, (i < nr A)%nat /\ ent A i j <> RtoC 0) ->
  exists sp, f_mvdr lstsq A Rm = Ok sp /\ List.length sp = nc A /\ forall j, (j < nc A)%nat ->
    exists x v, (forall i, (i < nr A)%nat -> mvec Rm x i = ent A i j) /\ nth j sp None = Some v /\
      (0 < v)%R /\ RtoC (/ v) = vdot (nr A) (col A j) x /\
      (v <= Re (qform Rm (col A j)) / (vnorm2 (nr A) (col A j) * vnorm2 (nr A) (col A j)))%R.
Proof.
  intros lstsq A Rm HL HP HA HN. pose proof HP as (HH & HQ). pose proof HH as (SQ & _). destruct (HL Rm A SQ (pd_inj Rm HP) HA) as (X & EX & X1 & X2 & X3).
  unfold f_mvdr. rewrite EX. cbn [bind]. rewrite X1, HA, Nat.eqb_refl. cbn [negb]. eexists. split; [reflexivity|]. split; [now rewrite map_length, seq_length|]. intros j Hj.
  set (x := col X j). set (a := col A j). assert (RX : forall i, (i < nr Rm)%nat -> mvec Rm x i = a i) by (intros i Hi; exact (meq_ent _ _ i j X3 Hi ltac:(cbn [mmul nc]; lia))).
  assert (Q : vdot (nr Rm) a x = qform Rm x).
  { rewrite <- (qform_conj Rm x HH). rewrite <- bform_qform, bform_vdot, vdot_conj. apply vdot_ext; [intros; symmetry; now apply RX | auto]. }
  destruct (HN j Hj) as (i0 & Hi0 & N0). assert (NX : exists i, (i < nr Rm)%nat /\ x i <> RtoC 0).
  { destruct (nonzero_dec (nr Rm) x) as [Z|Y]; [|exact Y]. exfalso. apply N0. change (ent A i0 j) with (a i0). rewrite <- RX by lia. apply mvec_0. intros; apply Z; lia. }
  pose proof (HQ x NX) as PX. set (q := Re (qform Rm x)) in *.
  exists x, (/ q)%R. split; [intros i Hi; apply RX; lia|]. split; [|split; [now apply Rinv_0_lt_compat | split]].
  - rewrite (nth_indep _ None (recip (Re (csum (nr Rm) (fun i => Cconj (ent A i 0) * ent X i 0))))) by (now rewrite map_length, seq_length).
    rewrite (map_nth (fun j0 => recip (Re (csum (nr Rm) (fun i => Cconj (ent A i j0) * ent X i j0))))), seq_nth by exact Hj. cbn [Nat.add].
    change (csum (nr Rm) (fun i => Cconj (ent A i j) * ent X i j)) with (vdot (nr Rm) a x). rewrite Q. fold q. unfold recip. destruct (Req_EM_T q 0) as [Z|_]; [rewrite Z in PX; lra | reflexivity].
  - rewrite Rinv_inv, Q. unfold q. now rewrite <- qform_real.
  - assert (NA : (0 < vnorm2 (nr Rm) a)%R).
    { destruct (vnorm2_nonneg (nr Rm) a) as [L|L]; [exact L|]. exfalso. apply N0. apply (vnorm2_0 (nr Rm) a); [now symmetry | lia]. }
    assert (PS : psd Rm) by (split; [exact HH|]; intros y; destruct (nonzero_dec (nr Rm) y) as [Z|Y]; [right; unfold qform; rewrite csum_0; [reflexivity|]; intros i Hi; apply csum_0; intros r Hr; rewrite (Z i Hi), Cconj_RtoC; ring | left; now apply HQ]).
    pose proof (cauchy_schwarz Rm x a PS) as CS. fold q in CS.
    assert (B : bform Rm x a = RtoC (vnorm2 (nr Rm) a)).
    { rewrite bform_vdot. rewrite <- vdot_conj. rewrite <- vdot_self. 
      rewrite (vdot_conj (nr Rm) (mvec Rm a) x). replace (vdot (nr Rm) x (mvec Rm a)) with (vdot (nr Rm) (mvec Rm x) a).
      - apply vdot_ext; [exact RX | auto].
      - rewrite vdot_mvec_her. rewrite <- SQ. apply vdot_ext; [|auto]. intros i Hi. apply mvec_eq; [|exact Hi]. apply (proj1 (hermitian_mher Rm)) in HH. now symmetry. }
    rewrite B in CS. replace (Cnorm2 (RtoC (vnorm2 (nr Rm) a))) with (vnorm2 (nr Rm) a * vnorm2 (nr Rm) a)%R in CS by (unfold Cnorm2; cbn; ring).
    set (n := vnorm2 (nr Rm) a) in *. set (b := Re (qform Rm a)) in *. fold a. fold b. fold n.
    apply (Rmult_le_reg_l (q * (n * n))); [apply Rmult_lt_0_compat; [exact PX | nra]|]. replace (q * (n * n) * / q)%R with (n * n)%R by (field; lra). replace (q * (n * n) * (b / (n * n)))%R with (q * b)%R by (field; lra). exact CS.
Qed.
Theorem C60_size_checks : forall m e h Rm k o lstsq, nr Rm <> m ->
  bartlett_estimate m e h Rm k o = (Raise ValueError, e, h) /\ mvdr_estimate lstsq m e h Rm k o = (Raise ValueError, e, h).
Proof. intros m e h Rm k o ls H. unfold bartlett_estimate, mvdr_estimate, ensure_covariance_size. cbn [List.length Nat.eqb negb nth]. destruct (Nat.eqb_spec (nr Rm) m); [contradiction|]. split; reflexivity. Qed.
Theorem C60_estimate_uses_spectrum : forall m e h Rm k o lstsq, nr Rm = m ->
  bartlett_estimate m e h Rm k o = estimate e h (fun A => f_bartlett A Rm) k o /\
  mvdr_estimate lstsq m e h Rm k o = estimate e h (fun A => let! l := f_mvdr lstsq A Rm in Ok (embed_inf l)) k o.
Proof. intros m e h Rm k o ls H. unfold bartlett_estimate, mvdr_estimate, ensure_covariance_size. cbn [List.length Nat.eqb negb nth]. rewrite H, Nat.eqb_refl. split; reflexivity. Qed.

(** *** a concrete case: two sensors, one broadside source of power 1, noise power 1 *)
Definition ex_R : cmat := Mat 2 2 (fun i j => if Nat.eqb i j then RtoC 2 else RtoC 1).
Definition ex_A : cmat := ula_matrix 2 [RtoC 1].
Definition ex_P : cmat := mid 1.
Definition ex_E : cmat := Mat 2 2 (fun i j => RtoC (match i, j with 1, 0 => - / sqrt 2 | _, _ => / sqrt 2 end)%R).
Definition ex_w : list R := [1; 3]%R.
Definition ex_eigh (A : cmat) : res (list R * cmat) := Ok (ex_w, ex_E).
Lemma r2_sq : (/ sqrt 2 * / sqrt 2 = / 2)%R.
Proof. rewrite <- Rinv_mult, sqrt_sqrt by lra. reflexivity. Qed.
Lemma ex_exact : exact_cov ex_R ex_A ex_P 1.
Proof.
  split; [reflexivity|]. split; [reflexivity|]. split; [reflexivity|]. split; [reflexivity|]. intros [|[|i]] [|[|j]] Hi Hj; cbn in Hi, Hj; try lia; apply C_eq; cbn; ring.
Qed.
Lemma pd_mid n : pd (mid n).
Proof.
  split; [apply hermitian_mid|]. intros x (i & Hi & N). rewrite qform_mid, Re_RtoC. destruct (vnorm2_nonneg n x) as [L|L]; [exact L|]. exfalso. apply N. apply (vnorm2_0 n x); [now symmetry | exact Hi].
Qed.
Lemma ex_inj : inj ex_A. Proof. apply ula_inj; [repeat constructor; intros [] | cbn; lia]. Qed.
Lemma ex_eig : eigh_ok ex_R ex_w ex_E.
Proof.
  pose proof r2_sq as Q. split; [reflexivity|]. split; [reflexivity|]. split; [reflexivity|]. split; [reflexivity|]. split; [repeat constructor; lra|]. split; (split; [reflexivity|]; split; [reflexivity|]); intros [|[|i]] [|[|j]] Hi Hj; cbn in Hi, Hj; try lia; apply C_eq; cbn -[sqrt]; nra.
Qed.
Example C58_example : exists En sp, get_noise_subspace ex_eigh ex_R 1 = Ok En /\ f_music (ula_matrix 2 [Ci; RtoC 1]) En = Ok sp /\
  (nth 0 sp (Some 0%R) = None <-> In Ci [RtoC 1]) /\ (nth 1 sp (Some 0%R) = None <-> In (RtoC 1) [RtoC 1]).
Proof.
  destruct (C58_ula_poles ex_eigh ex_R ex_P 1 ex_w ex_E [RtoC 1] [Ci; RtoC 1] 2) as (En & sp & E1 & E2 & H); [repeat constructor; intros [] | cbn; lia | apply pd_mid | exact ex_exact | reflexivity | exact ex_eig |].
  exists En, sp. split; [exact E1|]. split; [exact E2|]. split; [exact (H 0%nat ltac:(cbn; lia)) | exact (H 1%nat ltac:(cbn; lia))].
Qed.
Definition argsort_R (v : list R) : list nat := sort_by (fun a b => Rleb (nth a v 0%R) (nth b v 0%R)) (seq 0 (List.length v)).
Lemma argsort_R_ok v : is_argsort v (argsort_R v).
Proof.
  split; [apply sort_by_perm|]. unfold argsort_R. set (le := fun a b => Rleb (nth a v 0%R) (nth b v 0%R)).
  assert (S : StronglySorted (fun x y => le x y = true) (sort_by le (seq 0 (List.length v)))).
  { apply sort_by_sorted; unfold le, Rleb; intros; repeat match goal with |- context[Rle_dec ?a ?b] => destruct (Rle_dec a b) | H : context[Rle_dec ?a ?b] |- _ => destruct (Rle_dec a b) end; try discriminate; try reflexivity; exfalso; lra. }
  revert S. generalize (sort_by le (seq 0 (List.length v))). intros l S. induction S as [|a l S IH F]; constructor; [exact IH|].
  eapply Forall_impl; [|exact F]. intros b Hb. unfold le, Rleb in Hb. destruct (Rle_dec _ _); [assumption | discriminate].
Qed.
Definition ex_est : estimator cmat :=
  Est (SGrid G1D [vec1 [0; 1; 2]%R] "deg" DFloat) (Placement "FarField1DSourcePlacement" ["deg"%string] 0) (fun _ => Ok (ula_matrix 2 [Ci; RtoC 1; - RtoC 1]))
    (fun _ _ => [[1%nat]]) argsort_R false None.
Lemma ex_est_ok : est_ok ex_est [[[0]; [1]; [2]]]%R.
Proof.
  destruct Prop_grid.k0_valid as (V & _). split; [exact V|]. split; [cbn; lia|]. split; [reflexivity | now left].
Qed.
Example C58_recovery_example : exists sp est chosen e' h', music_estimate ex_eigh 2 ex_est [[[0]; [1]; [2]]]%R ex_R 1 (Opts false false 10 3) = (Ok (Outcome true (Some est) sp), e', h') /\
  Permutation chosen [[1%nat]] /\ buf h' est = map (grid_point (e_grid ex_est)) chosen.
Proof.
  destruct (C58_exact_recovery ex_eigh ex_est [[[0]; [1]; [2]]]%R ex_R ex_A (ula_matrix 2 [Ci; RtoC 1; - RtoC 1]) ex_P 1 ex_w ex_E [[1%nat]] (Opts false false 10 3)) as (sp & est & chosen & e' & h' & E & PM & _ & BF).
  - exact ex_est_ok.
  - reflexivity.
  - reflexivity.
  - reflexivity.
  - exact ex_exact.
  - exact ex_inj.
  - apply pd_mid.
  - cbn; lia.
  - reflexivity.
  - exact ex_eig.
  - repeat constructor. intros [].
  - reflexivity.
  - intros p [<-|[]]. cbn. lia.
  - intros p Hp. assert (Q : exists i, p = [i] /\ (i < 3)%nat) by (cbn in Hp; destruct p as [|i [|]]; try tauto; exists i; split; [reflexivity | tauto]). destruct Q as (i & -> & Hi). clear Hp.
    pose proof (ula_span 2 [RtoC 1] (nth i [Ci; RtoC 1; - RtoC 1] (RtoC 0)) ltac:(repeat constructor; intros []) ltac:(cbn; lia)) as SP.
    assert (RV : ravel (sg_shape (e_grid ex_est)) [i] = i) by (cbn; lia). rewrite RV. change (col (ula_matrix 2 [Ci; RtoC 1; - RtoC 1]) i) with (fun q => cpow (nth i [Ci; RtoC 1; - RtoC 1] (RtoC 0)) q). unfold ex_A. rewrite SP. clear SP RV.
    destruct i as [|[|[|i]]]; [| | |lia]; cbn [nth In]; split; intros [X|[]]; try (injection X; intros; lra || lia); try discriminate; try (now left); exfalso; apply (f_equal Re) in X; cbn in X; lra.
  - intros p q [<-|[]] [<-|[]] _. reflexivity.
  - intros v _ _ p [<-|[]]. now left.
  - intros v p _ [<-|[]]. cbn. lia.
  - intros v. repeat constructor. intros [].
  - exact argsort_R_ok.
  - reflexivity.
  - exists None, est, chosen, e', h'. split; [exact E|]. split; [exact PM | exact BF].
Qed.
Example C59_example : exists En, get_noise_subspace ex_eigh ex_R 1 = Ok En /\ exists d sp, min_norm_vector En = Ok (Some d) /\ f_min_norm (nr En) d (ula_matrix 2 [RtoC 1]) = Ok sp /\ nth 0 sp (Some 0%R) = None.
Proof.
  destruct (C59_exact_poles ex_eigh ex_R ex_A ex_P 1 ex_w ex_E (ula_matrix 2 [RtoC 1]) ex_exact ex_inj (pd_mid 1) ltac:(cbn; lia) eq_refl ex_eig eq_refl) as (En & E & _ & H).
  exists En. split; [exact E|]. destruct H as (d & sp & H1 & H2 & H3).
  - apply C59_ula_never_nan; [repeat constructor; intros [] | cbn; lia|]. intros [X|[]]. apply (f_equal Re) in X. cbn in X. lra.
  - exists d, sp. split; [exact H1|]. split; [exact H2|]. apply (H3 0%nat ltac:(cbn; lia)). exists (unit_vec 0). intros i Hi. rewrite mvec_unit by (cbn; lia). reflexivity.
Qed.
Example C60_example : pd (mid 2) /\ (exists sp, f_bartlett (ula_matrix 2 [RtoC 1]) (mid 2) = Ok sp /\ RtoC (nth 0 sp 0%R) = qform (mid 2) (col (ula_matrix 2 [RtoC 1]) 0)) /\
  exists sp v, f_mvdr (fun _ B => Ok B) (ula_matrix 2 [RtoC 1]) (mid 2) = Ok sp /\ nth 0 sp None = Some v /\ v = (/ 2)%R.
Proof.
  split; [apply pd_mid|]. split.
  - destruct (C60_bartlett (ula_matrix 2 [RtoC 1]) (mid 2) (psd_mid 2) eq_refl) as (sp & E & _ & H). exists sp. split; [exact E|]. apply (H 0%nat). cbn. lia.
  - eexists. exists (/ 2)%R. split; [reflexivity|]. split; [|reflexivity]. cbn -[Rinv]. unfold recip. match goal with |- context[Req_EM_T ?x 0] => replace x with 2%R by ring end. destruct (Req_EM_T 2 0); [lra | reflexivity].
Qed.
Print Assumptions C58_exact_recovery.
Print Assumptions C58_ula_poles.
Print Assumptions C58_basis_independent.
Print Assumptions C59_min_norm_vector.
Print Assumptions C59_exact_poles.
Print Assumptions C60_bartlett.
Print Assumptions C60_mvdr.
