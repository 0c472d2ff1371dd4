(** C94: spectrum-based estimates depend on the physical scene only. *)
From Coq Require Import Sorting.Sorted Sorting.Permutation.
From Verif Require Import Base_Np Base_Lin M_utils M_sources S_sources M_array S_array M_coarray M_grid M_core M_sparse M_subspace S_subspace P_subspace Prop_subspace S_invar P_invar P_invar2 P_invar3.
Open Scope nat_scope.

(** ** Changes of coordinates of the array output *)
Lemma map_embed (r r' : res (list (option R))) : r = r' -> (let! l := r in Ok (embed_inf l)) = (let! l := r' in Ok (embed_inf l)).
Proof. now intros ->. Qed.
Lemma size_ok (Rm : cmat) m : nr Rm = m -> ensure_covariance_size [nr Rm; nc Rm] m = Ok tt.
Proof. intros <-. unfold ensure_covariance_size. cbn [nth List.length Nat.eqb negb]. now rewrite Nat.eqb_refl. Qed.
(** MUSIC: the same error, or exactly the same outcome, spectrum included *)
Theorem C94_music : forall eigh eigh' m U c d Rm Rm' w E w' E' k e e' h o,
  unitary m U -> nr Rm = m -> hermitian Rm -> (0 < c)%R -> recorded_cov m U c d Rm Rm' -> recorded_estimators m U e e' ->
  eigh Rm = Ok (w, E) -> eigh_ok Rm w E -> eigh' Rm' = Ok (w', E') -> eigh_ok Rm' w' E' -> 1 <= k < m -> gap k w ->
  same_results eq (music_estimate eigh m e h Rm (Z.of_nat k) o) (music_estimate eigh' m e' h Rm' (Z.of_nat k) o).
Proof.
  intros eigh eigh' m U c d Rm Rm' w E w' E' k e e' h o HU R1 HH Hc HR ((S1 & S2 & S3 & S4 & K1 & K2) & HA) HE OE HE' OE' Hk Gap.
  assert (Lw : List.length w = m) by (rewrite <- R1; apply OE). unfold gap in Gap. rewrite Lw in Gap.
  destruct (rec_sizes _ _ _ _ _ _ HU HR) as (Z1 & Z2).
  pose proof OE as (_ & e1 & e2 & _). pose proof OE' as (_ & e1' & e2' & _).
  destruct (C58_estimate_uses_spectrum eigh m e h Rm k o w E R1 Hk HE ltac:(congruence) ltac:(congruence)) as (En & N1 & ->).
  destruct (C58_estimate_uses_spectrum eigh' m e' h Rm' k o w' E' Z1 Hk HE' ltac:(congruence) ltac:(congruence)) as (En' & N1' & ->).
  apply estimate_twin; [exact K1|exact K2|]. apply twin_eq; try assumption. intros g Hg. specialize (HA g Hg).
  destruct (e_atom e g) as [A|x], (e_atom e' g) as [A'|x']; try contradiction; cbn [bind]; [|now subst].
  destruct (rec_music eigh eigh' m U c d Rm Rm' w E w' E' k A A' HU R1 HH Hc HR HE OE HE' OE' Hk Gap HA) as (X & X' & x1 & x2 & x3).
  rewrite N1 in x1. injection x1 as <-. rewrite N1' in x2. injection x2 as <-. apply map_embed. now symmetry.
Qed.
(** Min-Norm singles out the first sensor: it has to stay the first one *)
Theorem C94_min_norm : forall eigh eigh' m U c d Rm Rm' w E w' E' k e e' h o,
  unitary m U -> (forall j, 0 < j < m -> ent U 0 j = RtoC 0) -> nr Rm = m -> hermitian Rm -> (0 < c)%R -> recorded_cov m U c d Rm Rm' -> recorded_estimators m U e e' ->
  eigh Rm = Ok (w, E) -> eigh_ok Rm w E -> eigh' Rm' = Ok (w', E') -> eigh_ok Rm' w' E' -> 1 <= k < m -> gap k w ->
  same_results eq (min_norm_estimate eigh m e h Rm (Z.of_nat k) o) (min_norm_estimate eigh' m e' h Rm' (Z.of_nat k) o).
Proof.
  intros eigh eigh' m U c d Rm Rm' w E w' E' k e e' h o HU KF R1 HH Hc HR ((S1 & S2 & S3 & S4 & K1 & K2) & HA) HE OE HE' OE' Hk Gap.
  assert (Lw : List.length w = m) by (rewrite <- R1; apply OE). unfold gap in Gap. rewrite Lw in Gap.
  destruct (rec_sizes _ _ _ _ _ _ HU HR) as (Z1 & Z2).
  destruct (rec_noise eigh eigh' m U c d Rm Rm' w E w' E' k HU R1 HH Hc HR HE OE HE' OE' Hk Gap) as (En & En' & G & N & N' & n1 & n2 & n1' & n2' & g1 & g2 & g3 & g4).
  destruct (rec_minnorm m U En En' G HU ltac:(lia) KF n1 n1' ltac:(congruence) ltac:(now rewrite n2) g4) as (od & od' & D1 & D2 & D3).
  unfold min_norm_estimate. rewrite (size_ok Rm m R1), (size_ok Rm' m Z1). cbn [bind]. unfold ensure_n_resolvable_sources. replace (Z.of_nat k >? Z.of_nat m - 1)%Z with false by (symmetry; rewrite Z.gtb_ltb; apply Z.ltb_ge; lia).
  cbn [bind]. rewrite N, N'. cbn [bind]. rewrite D1, D2. cbn [bind]. destruct od as [dv|], od' as [dv'|]; try contradiction.
  - apply estimate_twin; [exact K1|exact K2|]. apply twin_eq; try assumption. intros g Hg. specialize (HA g Hg).
    destruct (e_atom e g) as [A|x], (e_atom e' g) as [A'|x']; try contradiction; cbn [bind]; [|now subst]. rewrite n1, n1'. apply map_embed. symmetry. now apply D3.
  - split; reflexivity.
Qed.
(** Bartlett: the spectrum is scaled and shifted, so peaks and estimates are the same *)
Theorem C94_bartlett : forall m U c d Rm Rm' k e e' h o,
  unitary m U -> nr Rm = m -> nc Rm = m -> (0 < c)%R -> recorded_cov m U c d Rm Rm' -> recorded_estimators m U e e' -> d = 0%R \/ equal_norms e ->
  compares_peaks (e_pf e) -> compares_only (e_argsort e) ->
  same_results same_order (bartlett_estimate m e h Rm k o) (bartlett_estimate m e' h Rm' k o).
Proof.
  intros m U c d Rm Rm' k e e' h o HU R1 R2 Hc HR ((S1 & S2 & S3 & S4 & K1 & K2) & HA) Hd C1 C2.
  destruct (rec_sizes _ _ _ _ _ _ HU HR) as (Z1 & Z2). 
  unfold bartlett_estimate. rewrite (size_ok Rm m R1), (size_ok Rm' m Z1).
  apply estimate_twin; [exact K1|exact K2|]. apply twin_order; try assumption. intros g Hg. specialize (HA g Hg).
  destruct (e_atom e g) as [A|x] eqn:EA, (e_atom e' g) as [A'|x']; try contradiction; cbn [bind]; [|exact HA].
  destruct (rec_bartlett m U c d Rm Rm' A A' HU R1 R2 HR HA) as (sp & sp' & -> & -> & L & L' & V). cbn [res_rel]. split; [congruence|]. rewrite L. intros i j Hi Hj. rewrite !V by assumption.
  assert (Q : (d * vnorm2 m (col A i) = d * vnorm2 m (col A j))%R). { destruct Hd as [-> | Hd]; [ring|]. f_equal. destruct HA as (a1 & _). rewrite <- a1. exact (Hd g A EA i j Hi Hj). }
  rewrite Q. split; intros X; nra.
Qed.
(** MVDR: the spectrum is scaled *)
Theorem C94_mvdr : forall lstsq lstsq' m U c Rm Rm' k e e' h o,
  lstsq_contract lstsq -> lstsq_contract lstsq' -> unitary m U -> nr Rm = m -> nc Rm = m -> inj Rm -> (0 < c)%R -> recorded_cov m U c 0 Rm Rm' -> recorded_estimators m U e e' ->
  compares_peaks (e_pf e) -> compares_only (e_argsort e) ->
  same_results same_order (mvdr_estimate lstsq m e h Rm k o) (mvdr_estimate lstsq' m e' h Rm' k o).
Proof.
  intros lstsq lstsq' m U c Rm Rm' k e e' h o HL HL' HU R1 R2 HI Hc HR ((S1 & S2 & S3 & S4 & K1 & K2) & HA) C1 C2.
  destruct (rec_sizes _ _ _ _ _ _ HU HR) as (Z1 & Z2).
  unfold mvdr_estimate. rewrite (size_ok Rm m R1), (size_ok Rm' m Z1).
  apply estimate_twin; [exact K1|exact K2|]. apply twin_order; try assumption. intros g Hg. specialize (HA g Hg).
  destruct (e_atom e g) as [A|x] eqn:EA, (e_atom e' g) as [A'|x']; try contradiction; cbn [bind]; [|exact HA].
  destruct (rec_mvdr lstsq lstsq' m U c Rm Rm' A A' HL HL' HU R1 R2 HI Hc HR HA) as (sp & sp' & -> & -> & L & ->). cbn [bind res_rel].
  apply embed_order; [now rewrite map_length|]. intros i j Hi Hj.
  set (f := fun o : option R => match o with Some v => Some (c * v)%R | None => None end).
  assert (Mn : forall q, nth q (map f sp) None = f (nth q sp None)) by (intros q; exact (map_nth f sp None q)).
  change (map (fun o => match o with Some v => Some (c * v)%R | None => None end) sp) with (map f sp). rewrite !Mn. unfold f. destruct (nth i sp None), (nth j sp None); try exact I. split; intros; nra.
Qed.

(** the result does not depend on which eigenvectors the eigenvalue routine returns, nor on the amplitude scale or the noise floor *)
Lemma unitary_mid m : unitary m (mid m).
Proof. split; [reflexivity|]. split; [reflexivity|]. rewrite (mmul_eq_l _ _ (mid m) (mher_mid m)). now apply mmul_id_l. Qed.
Lemma recorded_self m e : cache_valid e -> (forall g A, e_atom e g = Ok A -> nr A = m) -> recorded_estimators m (mid m) e e.
Proof.
  intros K H. split; [repeat (split; [reflexivity|]); now split|]. intros g _. destruct (e_atom e g) as [A|x] eqn:EA; [|reflexivity]. pose proof (H g A EA) as a1.
  split; [exact a1|]. split; [exact a1|]. split; [reflexivity|]. exists (fun _ => RtoC 1). split; [intros; rewrite Cmod_R; apply Rabs_R1|]. intros i j Hi Hj.
  rewrite (meq_ent _ _ i j (mmul_id_l A m (eq_sym a1))) by (cbn; lia). now rewrite Cmult_1_l.
Qed.
Lemma recorded_scaled m c d (Rm Rm' : cmat) : nr Rm = m -> nc Rm = m -> Rm' ==m mscal (RtoC c) Rm +m mscal (RtoC d) (mid m) -> recorded_cov m (mid m) c d Rm Rm'.
Proof.
  intros R1 R2 H. unfold recorded_cov. rewrite H. apply madd_eq; try assumption; [|reflexivity].
  assert (Q : mid m *m Rm *m mher (mid m) ==m Rm).
  { rewrite (mmul_eq_l _ _ (mher (mid m)) (mmul_id_l Rm m (eq_sym R1))). rewrite (mmul_eq_r Rm (mher (mid m)) (mid m) ltac:(cbn; congruence) (mher_mid m)). apply mmul_id_r. congruence. }
  destruct Q as (q1 & q2 & q3). split; [exact R1|]. split; [exact R2|]. intros i j Hi Hj. cbn [mscal nr nc ent] in *. f_equal. symmetry. apply q3; cbn; lia.
Qed.
Theorem C94_scale_and_loading : forall m c d (Rm Rm' : cmat) e h k o, nr Rm = m -> nc Rm = m -> (0 < c)%R ->
  Rm' ==m mscal (RtoC c) Rm +m mscal (RtoC d) (mid m) -> cache_valid e -> (forall g A, e_atom e g = Ok A -> nr A = m) ->
  (forall eigh eigh' w E w' E', hermitian Rm -> eigh Rm = Ok (w, E) -> eigh_ok Rm w E -> eigh' Rm' = Ok (w', E') -> eigh_ok Rm' w' E' -> 1 <= k < m -> gap k w ->
    same_results eq (music_estimate eigh m e h Rm (Z.of_nat k) o) (music_estimate eigh' m e h Rm' (Z.of_nat k) o) /\
    same_results eq (min_norm_estimate eigh m e h Rm (Z.of_nat k) o) (min_norm_estimate eigh' m e h Rm' (Z.of_nat k) o)) /\
  (compares_peaks (e_pf e) -> compares_only (e_argsort e) ->
    (d = 0%R \/ equal_norms e -> same_results same_order (bartlett_estimate m e h Rm (Z.of_nat k) o) (bartlett_estimate m e h Rm' (Z.of_nat k) o)) /\
    (forall lstsq lstsq', lstsq_contract lstsq -> lstsq_contract lstsq' -> inj Rm -> d = 0%R ->
      same_results same_order (mvdr_estimate lstsq m e h Rm (Z.of_nat k) o) (mvdr_estimate lstsq' m e h Rm' (Z.of_nat k) o))).
Proof.
  intros m c d Rm Rm' e h k o R1 R2 Hc HR K HA. pose proof (recorded_scaled m c d Rm Rm' R1 R2 HR) as HR'. pose proof (recorded_self m e K HA) as HA'. split.
  - intros eigh eigh' w E w' E' HH HE OE HE' OE' Hk Gap. split.
    + exact (C94_music eigh eigh' m (mid m) c d Rm Rm' w E w' E' k e e h o (unitary_mid m) R1 HH Hc HR' HA' HE OE HE' OE' Hk Gap).
    + refine (C94_min_norm eigh eigh' m (mid m) c d Rm Rm' w E w' E' k e e h o (unitary_mid m) _ R1 HH Hc HR' HA' HE OE HE' OE' Hk Gap).
      intros j Hj. cbn [mid ent]. destruct (Nat.eqb_spec 0 j); [lia|reflexivity].
  - intros C1 C2. split.
    + intros Hd. exact (C94_bartlett m (mid m) c d Rm Rm' _ e e h o (unitary_mid m) R1 R2 Hc HR' HA' Hd C1 C2).
    + intros lstsq lstsq' HL HL' HI ->. exact (C94_mvdr lstsq lstsq' m (mid m) c Rm Rm' _ e e h o HL HL' (unitary_mid m) R1 R2 HI Hc HR' HA' C1 C2).
Qed.
(** ** The same sensors described differently *)
Theorem C94_same_sensors : forall a lam a' lam' idx v m c d (Rm Rm' : cmat) e e' h k o,
  m = ar_size a -> same_sensors a lam a' lam' idx v -> same_search e e' -> sg_class (e_grid e) <> GNF ->
  e_atom e = default_atom a lam -> e_atom e' = default_atom a' lam' ->
  nr Rm = m -> nc Rm = m -> (0 < c)%R -> same_measurements m idx c d Rm Rm' ->
  (forall eigh eigh' w E w' E', hermitian Rm -> eigh Rm = Ok (w, E) -> eigh_ok Rm w E -> eigh' Rm' = Ok (w', E') -> eigh_ok Rm' w' E' -> 1 <= k < m -> gap k w ->
    same_results eq (music_estimate eigh m e h Rm (Z.of_nat k) o) (music_estimate eigh' m e' h Rm' (Z.of_nat k) o) /\
    (nth 0 idx 0 = 0 -> same_results eq (min_norm_estimate eigh m e h Rm (Z.of_nat k) o) (min_norm_estimate eigh' m e' h Rm' (Z.of_nat k) o))) /\
  (compares_peaks (e_pf e) -> compares_only (e_argsort e) ->
    (d = 0%R \/ (exists ps, select_perturbations a "known" = Ok ps /\ known_responses ps = []) ->
      same_results same_order (bartlett_estimate m e h Rm (Z.of_nat k) o) (bartlett_estimate m e' h Rm' (Z.of_nat k) o)) /\
    (forall lstsq lstsq', lstsq_contract lstsq -> lstsq_contract lstsq' -> inj Rm -> d = 0%R ->
      same_results same_order (mvdr_estimate lstsq m e h Rm (Z.of_nat k) o) (mvdr_estimate lstsq' m e' h Rm' (Z.of_nat k) o))).
Proof.
  intros a lam a' lam' idx v m c d Rm Rm' e e' h k o -> HS SS HG A1 A2 R1 R2 Hc HM.
  pose proof (proj1 (ss_order _ _ _ _ _ _ HS)) as Pm. pose proof (perm_unitary _ _ Pm) as HU. pose proof (perm_cov _ _ _ _ _ _ Pm R1 R2 HM) as HR.
  assert (HA : recorded_estimators (ar_size a) (perm_matrix (ar_size a) idx) e e').
  { split; [exact SS|]. intros g Hg. rewrite A1, A2. apply (same_sensors_default a lam a' lam' idx v g HS). congruence. }
  split.
  - intros eigh eigh' w E w' E' HH HE OE HE' OE' Hk Gap. split.
    + exact (C94_music eigh eigh' _ _ c d Rm Rm' w E w' E' k e e' h o HU R1 HH Hc HR HA HE OE HE' OE' Hk Gap).
    + intros H0. exact (C94_min_norm eigh eigh' _ _ c d Rm Rm' w E w' E' k e e' h o HU (perm_first _ _ Pm H0) R1 HH Hc HR HA HE OE HE' OE' Hk Gap).
  - intros C1 C2. split.
    + intros Hd. apply (C94_bartlett _ _ c d Rm Rm' _ e e' h o HU R1 R2 Hc HR HA); try assumption. destruct Hd as [Hd|(ps & E1 & HK)]; [now left|right].
      intros g A EA i j Hi Hj. rewrite A1 in EA. destruct (unit_columns a lam g A ps (proj1 (ss_usable _ _ _ _ _ _ HS)) E1 HK EA) as (_ & Q). now rewrite !Q.
    + intros lstsq lstsq' HL HL' HI ->. exact (C94_mvdr lstsq lstsq' _ _ c Rm Rm' _ e e' h o HL HL' HU R1 R2 HI Hc HR HA C1 C2).
Qed.
(** the default peak finder and comparison sorts only compare *)
Theorem C94_default_finder : forall find_peaks, compares_only find_peaks -> compares_peaks (find_peaks_simple find_peaks).
Proof. exact find_peaks_simple_compares. Qed.
(** without an eigenvalue gap the spectrum depends on the eigenvectors returned: white noise, two sensors, two correct eigenvalue decompositions *)
Definition ex_swap : cmat := Mat 2 2 (fun i j => if Nat.eqb (i + j) 1 then RtoC 1 else RtoC 0).
Theorem C94_gap_needed : exists E E' w, eigh_ok (mid 2) w E /\ eigh_ok (mid 2) w E' /\ ~ gap 1 w /\
  exists En En' A, get_noise_subspace (fun _ => Ok (w, E)) (mid 2) 1 = Ok En /\ get_noise_subspace (fun _ => Ok (w, E')) (mid 2) 1 = Ok En' /\
    f_music A En = Ok [Some 1%R] /\ f_music A En' = Ok [None].
Proof.
  exists (mid 2), ex_swap, [1%R; 1%R].
  assert (S : StronglySorted Rle [1%R; 1%R]) by (constructor; [constructor; [constructor|constructor]|constructor; [lra|constructor]]).
  split. { split; [reflexivity|]. split; [reflexivity|]. split; [reflexivity|]. split; [reflexivity|]. split; [exact S|]. split; (split; [reflexivity|]; split; [reflexivity|]); intros [|[|i]] [|[|j]] Hi Hj; cbn in Hi, Hj; try lia; cbn; apply injective_projections; cbn; ring. }
  split. { split; [reflexivity|]. split; [reflexivity|]. split; [reflexivity|]. split; [reflexivity|]. split; [exact S|]. split; (split; [reflexivity|]; split; [reflexivity|]); intros [|[|i]] [|[|j]] Hi Hj; cbn in Hi, Hj; try lia; cbn; apply injective_projections; cbn; ring. }
  split; [unfold gap; cbn; lra|].
  destruct (noise_value (fun _ => Ok ([1%R; 1%R], mid 2)) (mid 2) 1 _ _ 2 eq_refl eq_refl eq_refl ltac:(lia)) as (En & N1 & N2 & N3 & N4).
  destruct (noise_value (fun _ => Ok ([1%R; 1%R], ex_swap)) (mid 2) 1 _ _ 2 eq_refl eq_refl eq_refl ltac:(lia)) as (En' & N1' & N2' & N3' & N4').
  exists En, En', (Mat 2 1 (fun i _ => if Nat.eqb i 0 then RtoC 1 else RtoC 0) : cmat). split; [exact N1|]. split; [exact N1'|].
  split; (rewrite f_music_value by (cbn [nr]; congruence)); cbn [nc seq map]; unfold proj_power, recip.
  - rewrite N2, N3. unfold vdot, col. cbn [rsum csum Nat.sub]. rewrite !N4. cbn [mid ent Nat.eqb]. unfold Cnorm2. cbn.
    match goal with |- context[Req_EM_T ?x 0] => replace x with 1%R by ring end. destruct (Req_EM_T 1 0); [lra|]. now rewrite Rinv_1.
  - rewrite N2', N3'. unfold vdot, col. cbn [rsum csum Nat.sub]. rewrite !N4'. cbn [ex_swap ent Nat.eqb Nat.add]. unfold Cnorm2. cbn.
    match goal with |- context[Req_EM_T ?x 0] => replace x with 0%R by ring end. destruct (Req_EM_T 0 0); [reflexivity|lra].
Qed.

(** ** Concrete cases *)
(** MUSIC on the case of C58: three times the power, noise floor raised by 5, eigenvectors with the opposite sign *)
Definition ex_R2 : cmat := mscal (RtoC 3) ex_R +m mscal (RtoC 5) (mid 2).
Definition ex_eigh2 (A : cmat) : res (list R * cmat) := Ok ([8; 14]%R, mscal (RtoC (-1)) ex_E).
Lemma ex_eig2 : eigh_ok ex_R2 [8; 14]%R (mscal (RtoC (-1)) ex_E).
Proof.
  pose proof r2_sq as Q. split; [reflexivity|]. split; [reflexivity|]. split; [reflexivity|]. split; [reflexivity|]. split; [repeat constructor; lra|]. split; (split; [reflexivity|]; split; [reflexivity|]); intros [|[|i]] [|[|j]] Hi Hj; cbn in Hi, Hj; try lia; apply injective_projections; cbn -[sqrt]; nra.
Qed.
Lemma ex_R_herm : hermitian ex_R.
Proof. split; [reflexivity|]. intros [|[|i]] [|[|j]] Hi Hj; cbn in Hi, Hj; try lia; apply injective_projections; cbn; ring. Qed.
Example C94_example : exists est sp e1 h', music_estimate ex_eigh 2 ex_est [[[0]; [1]; [2]]]%R ex_R 1 (Opts false false 10 3) = (Ok (Outcome true (Some est) sp), e1, h') /\
  exists sp2 e2, music_estimate ex_eigh2 2 ex_est [[[0]; [1]; [2]]]%R ex_R2 1 (Opts false false 10 3) = (Ok (Outcome true (Some est) sp2), e2, h').
Proof.
  destruct C58_recovery_example as (sp & est & ch & e1 & h' & E & _). exists est, sp, e1, h'. split; [exact E|].
  destruct (C94_scale_and_loading 2 3 5 ex_R ex_R2 ex_est [[[0]; [1]; [2]]]%R 1 (Opts false false 10 3) eq_refl eq_refl ltac:(lra) ltac:(reflexivity) ltac:(now left)) as (H & _).
  { intros g A EA. injection EA as <-. reflexivity. }
  destruct (H ex_eigh ex_eigh2 ex_w ex_E _ _ ex_R_herm eq_refl ex_eig eq_refl ex_eig2 ltac:(lia) ltac:(unfold gap; cbn; lra)) as ((S1 & S2) & _).
  change (Z.of_nat 1) with 1%Z in *. rewrite E in S1, S2. destruct (music_estimate ex_eigh2 _ _ _ _ _ _) as (([oc|x], e2), h2); cbn [fst snd same_outcome] in S1, S2; [|contradiction].
  subst h2. destruct oc as [r es s2]. destruct S1 as (r1 & r2 & _). cbn in r1, r2. subst. eauto.
Qed.
(** two sensors half a wavelength apart; and the same sensors in the opposite order, measured in half the unit of length from another origin, on a plane *)
Definition ex_a : array := Array (LArr DFloat (Mat 2 1 (fun i _ => INR i / 2)%R)) "x" ISOTROPIC_SCALAR_SENSOR [].
Definition ex_a' : array := Array (LArr DFloat (Mat 2 2 (fun i c => if Nat.eqb c 0 then 4 - INR i else 7)%R)) "y" ISOTROPIC_SCALAR_SENSOR [].
Lemma ex_same : same_sensors ex_a 1 ex_a' 2 [1; 0] (fun c => match c with 0 => 3 | 1 => 7 | _ => 0 end)%R.
Proof.
  assert (W : forall l nm, wf_array (Array l nm ISOTROPIC_SCALAR_SENSOR [])) by (intros; split; [constructor|intros ? ? []|intros ? ? []]).
  split.
  - split; (split; [lra|]; split; [apply W|]; split; [split; reflexivity|]; split; [reflexivity|]; split; [cbn; lia|]; split; [cbn; lia|]; exists []; split; [reflexivity|intros ? []]).
  - split; [apply perm_swap|reflexivity].
  - exists [], [], (ar_loc ex_a), (ar_loc ex_a'), 2%R. do 4 (split; [reflexivity|]). split; [lra|]. split; [lra|]. split; [|split; [reflexivity|now left]].
    intros [|[|i]] [|[|[|c]]] Hi Hc; cbn in Hi; try lia; cbn; lra.
Qed.
Example C94_sensors_example : forall h eigh eigh' w E w' E', eigh ex_R = Ok (w, E) -> eigh_ok ex_R w E -> eigh' ex_R2 = Ok (w', E') -> eigh_ok ex_R2 w' E' ->
  let search a lam := Est (SGrid G1D [vec1 [-1; - / 2; 0; / 2; 1]%R] "rad" DFloat) (Placement "FarField1DSourcePlacement" ["rad"%string] 0) (default_atom a lam) (find_peaks_simple Prop_pipeline.peaks_ref) argsort_R true None in
  same_results eq (music_estimate eigh 2 (search ex_a 1%R) h ex_R 1 (Opts true true 10 3)) (music_estimate eigh' 2 (search ex_a' 2%R) h ex_R2 1 (Opts true true 10 3)) /\
  same_results same_order (bartlett_estimate 2 (search ex_a 1%R) h ex_R 1 (Opts true true 10 3)) (bartlett_estimate 2 (search ex_a' 2%R) h ex_R2 1 (Opts true true 10 3)).
Proof.
  intros h eigh eigh' w E w' E' HE OE HE' OE' search.
  destruct (C94_same_sensors ex_a 1 ex_a' 2 _ _ 2 3 5 ex_R ex_R2 (search ex_a 1%R) (search ex_a' 2%R) h 1 (Opts true true 10 3) eq_refl ex_same) as (H1 & H2); try reflexivity; try lra.
  - do 4 (split; [reflexivity|]). split; now left.
  - discriminate.
  - split; [reflexivity|]. split; [reflexivity|]. intros [|[|i]] [|[|j]] Hi Hj; cbn in Hi, Hj; try lia; apply injective_projections; cbn; ring.
  - split.
    + apply (H1 eigh eigh' w E w' E' ex_R_herm HE OE HE' OE' ltac:(lia)).
      assert (Ew : w = ex_w) by exact (P_courant.eig_unique ex_R w E ex_w ex_E ex_R_herm OE ex_eig).
      subst w. unfold gap. cbn. lra.
    + apply H2; [apply find_peaks_simple_compares, peaks_ref_compares | apply argsort_R_compares |]. right. exists []. split; reflexivity.
Qed.
Print Assumptions C94_music. Print Assumptions C94_min_norm. Print Assumptions C94_bartlett. Print Assumptions C94_mvdr. Print Assumptions C94_scale_and_loading. Print Assumptions C94_same_sensors. Print Assumptions C94_default_finder. Print Assumptions C94_gap_needed.
