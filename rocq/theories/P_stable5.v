(** The coarray transforms do not amplify small errors. *)
From Coq Require Import Lra Sorted Permutation.
From Verif Require Import Base_Np Base_Trig Base_Lin S_model M_utils S_utils P_utils M_sources S_sources P_sources M_array S_array P_array P_array2 P_array3 M_designs S_designs P_designs M_coarray S_coarray P_coarray P_coarray2 P_model
  M_grid S_grid P_grid M_core P_core P_core2 M_sparse M_subspace S_subspace P_subspace P_subspace2 P_subspace5 P_spectral M_pipeline S_pipeline Prop_subspace P_pipeline P_perf5 P_pipeline2 P_pipeline4 S_stable P_stable P_stable2 P_stable3 P_stable4.
From Verif Require Prop_coarray Prop_coarray2 Prop_pipeline.
Open Scope nat_scope.

Lemma entry_distance (A B : cmat) i j : i < nr A -> j < nc A -> (Cmod (ent A i j - ent B i j)%C <= distance A B)%R.
Proof.
  intros Hi Hj. apply sq_le_len; [apply distance_nonneg|]. unfold distance. rewrite sqrt_sqrt by (apply rsum_nonneg; intros; apply rsum_nonneg; intros; apply Cnorm2_nonneg). rewrite Cmod_norm2.
  eapply Rle_trans; [|apply (rsum_ge (nr A) (fun i => rsum (nc A) (fun j => Cnorm2 (ent A i j - ent B i j)%C)) i Hi); intros; apply rsum_nonneg; intros; apply Cnorm2_nonneg].
  apply (rsum_ge (nc A) (fun j => Cnorm2 (ent A i j - ent B i j)%C) j Hj). intros; apply Cnorm2_nonneg.
Qed.
Lemma distance_entries (A B : cmat) n t : nr A = n -> nc A = n -> (0 <= t)%R -> (forall i j, i < n -> j < n -> (Cmod (ent A i j - ent B i j)%C <= t)%R) -> (distance A B <= INR n * t)%R.
Proof.
  intros N1 N2 Ht H. unfold distance. rewrite N1, N2. rewrite <- (sqrt_Rsqr (INR n * t)) by (apply Rmult_le_pos; [apply pos_INR | exact Ht]). apply sqrt_le_1_alt.
  apply Rle_trans with (rsum n (fun _ => rsum n (fun _ => t * t)))%R.
  - apply rsum_le. intros i Hi. apply rsum_le. intros j Hj. rewrite <- Cmod_norm2. pose proof (H i j Hi Hj). pose proof (Cmod_ge_0 (ent A i j - ent B i j)%C). apply Rmult_le_compat; assumption.
  - assert (RC : forall q c, rsum q (fun _ => c) = (INR q * c)%R). { induction q as [|q IH]; intros c; [cbn; ring|]. cbn [rsum]. rewrite IH, S_INR. ring. }
    rewrite !RC. unfold Rsqr. right. ring.
Qed.
Lemma lag_sum_close g l w (A B : cmat) d t : grid_1d g l -> mk_WeightFunction1D g = Ok w -> is_lag l d -> (0 <= t)%R ->
  (forall i j, i < List.length l -> j < List.length l -> (Cmod (ent A i j - ent B i j)%C <= t)%R) -> (Cmod (lag_mean l A d - lag_mean l B d)%C <= t)%R.
Proof.
  intros Hg Hw HL Ht H. set (M := List.length l) in *. pose proof (lag_count_pos l d HL) as CP. assert (CR : (0 < INR (lag_count l d))%R) by (apply lt_0_INR; exact CP).
  assert (N : RtoC (INR (lag_count l d)) <> RtoC 0) by (apply RtoC_neq_0; lra).
  assert (E1 : lag_mean l (Mat M M (fun _ _ => RtoC t)) d = RtoC t) by (apply (lag_mean_const g l w Hg Hw _ (fun _ => RtoC t)); [exact HL | reflexivity]).
  assert (E2 : lag_sum l (Mat M M (fun _ _ => RtoC t)) d = (RtoC t * RtoC (INR (lag_count l d)))%C). { unfold lag_mean in E1. set (X := lag_sum l (Mat M M (fun _ _ => RtoC t)) d) in *. clearbody X. replace X with (X / RtoC (INR (lag_count l d)) * RtoC (INR (lag_count l d)))%C by (field; exact N). rewrite E1. reflexivity. }
  assert (E3 : (lag_mean l A d - lag_mean l B d)%C = (csum M (fun i => csum M (fun j => if Z.eqb (nth i l 0 - nth j l 0)%Z d then (ent A i j - ent B i j)%C else RtoC 0)) * / RtoC (INR (lag_count l d)))%C).
  { unfold lag_mean, lag_sum. fold M. unfold Cdiv. replace (csum M (fun i => csum M (fun j => if Z.eqb (nth i l 0 - nth j l 0)%Z d then (ent A i j - ent B i j)%C else RtoC 0)))
      with (csum M (fun i => csum M (fun j => if Z.eqb (nth i l 0 - nth j l 0)%Z d then ent A i j else RtoC 0)) - csum M (fun i => csum M (fun j => if Z.eqb (nth i l 0 - nth j l 0)%Z d then ent B i j else RtoC 0)))%C; [ring|].
    rewrite <- csum_minus. apply csum_ext. intros i Hi. rewrite <- csum_minus. apply csum_ext. intros j Hj. destruct (Z.eqb _ _); ring. }
  rewrite E3, Cmod_mult, Cmod_inv by exact N. rewrite Cmod_R, Rabs_pos_eq by lra. apply (Rmult_le_reg_r (INR (lag_count l d))); [exact CR|]. rewrite Rmult_assoc, Rinv_l, Rmult_1_r by lra.
  assert (E4 : rsum M (fun i => rsum M (fun j => if Z.eqb (nth i l 0 - nth j l 0)%Z d then t else 0%R)) = (t * INR (lag_count l d))%R).
  { apply RtoC_inj. rewrite RtoC_mult, <- E2. unfold lag_sum. fold M. rewrite <- csum_RtoC. apply csum_ext. intros i Hi. rewrite <- csum_RtoC. apply csum_ext. intros j Hj. cbn [ent]. destruct (Z.eqb _ _); reflexivity. }
  rewrite <- E4. eapply Rle_trans; [apply Cmod_csum|]. apply rsum_le. intros i Hi. eapply Rle_trans; [apply Cmod_csum|]. apply rsum_le. intros j Hj. destruct (Z.eqb _ _); [now apply H | rewrite Cmod_0; lra].
Qed.
Lemma lag_neg l d : is_lag l d -> is_lag l (- d).
Proof. intros (a & b & Ha & Hb & E). exists b, a. repeat split; try assumption. lia. Qed.
Lemma hole_lag l h d : first_hole l h -> (- h < d < h)%Z -> is_lag l d.
Proof. intros (H0 & _ & H) Hd. destruct (Z_le_gt_dec 0 d) as [P|P]; [apply H; lia|]. replace d with (- (- d))%Z by lia. apply lag_neg, H. lia. Qed.
Lemma da_close g l w0 calls (R1 R2 D1 D2 : cmat) h : grid_1d g l -> mk_WeightFunction1D g = Ok w0 -> l <> [] -> first_hole l h ->
  nr R1 = List.length l -> nc R1 = List.length l -> nr R2 = List.length l -> nc R2 = List.length l ->
  transform (Acm g (after w0 calls)) R1 "da" = Ok D1 -> transform (Acm g (after w0 calls)) R2 "da" = Ok D2 ->
  nr D1 = Z.to_nat h /\ nc D1 = Z.to_nat h /\ nr D2 = Z.to_nat h /\ nc D2 = Z.to_nat h /\
  (forall r c, r < nr D1 -> c < nc D1 -> (Cmod (ent D1 r c - ent D2 r c)%C <= distance R1 R2)%R) /\ (distance D1 D2 <= IZR h * distance R1 R2)%R.
Proof.
  intros Hg Hw Nl FH N1 N2 N3 N4 T1 T2. pose proof FH as (H0 & _).
  destruct (Prop_coarray.C39_da g l _ w0 calls R1 h Hg Hw eq_refl Nl FH N1 N2) as (X & EX & X1 & X2 & X3). rewrite T1 in EX. injection EX as <-.
  destruct (Prop_coarray.C39_da g l _ w0 calls R2 h Hg Hw eq_refl Nl FH N3 N4) as (X & EX & Y1 & Y2 & Y3). rewrite T2 in EX. injection EX as <-.
  repeat (split; [assumption|]). assert (CL : forall r c, r < nr D1 -> c < nc D1 -> (Cmod (ent D1 r c - ent D2 r c)%C <= distance R1 R2)%R).
  { intros r c Hr Hc. rewrite X3, Y3 by lia. apply (lag_sum_close g l w0); [exact Hg | exact Hw | apply (hole_lag l h); [exact FH | lia] | apply distance_nonneg|]. intros i j Hi Hj. apply entry_distance; lia. }
  split; [exact CL|]. replace (IZR h) with (INR (Z.to_nat h)) by (rewrite INR_IZR_INZ; f_equal; lia). apply distance_entries; [exact X1 | exact X2 | apply distance_nonneg|]. intros i j Hi Hj. apply CL; lia.
Qed.
(** Gram matrices of close matrices are close *)
Lemma gram_close (D1 D2 S1 S2 : cmat) n c L t : nr D1 = n -> nc D1 = n -> nr D2 = n -> nc D2 = n -> (0 < c)%R -> (0 <= t)%R ->
  S1 ==m mscal (RtoC c) (D1 *m mher D1) -> S2 ==m mscal (RtoC c) (D2 *m mher D2) ->
  (forall i j, i < n -> j < n -> (Cmod (ent D1 i j) <= L)%R) -> (forall i j, i < n -> j < n -> (Cmod (ent D1 i j - ent D2 i j)%C <= t)%R) ->
  (distance S1 S2 <= INR n * (c * (INR n * (t * (2 * L + t)))))%R.
Proof.
  intros N1 N2 N3 N4 Hc Ht E1 E2 HL HT. pose proof E1 as (a1 & a2 & a3). pose proof E2 as (b1 & b2 & b3). cbn [mscal mmul mher nr nc] in a1, a2, b1, b2.
  assert (RC : forall q (x : R), rsum q (fun _ => x) = (INR q * x)%R). { induction q as [|q IH]; intros x; [cbn; ring|]. cbn [rsum]. rewrite IH, S_INR. ring. }
  destruct (Nat.eq_dec n 0) as [Z|NZ]. { subst n. unfold distance. rewrite a1, Z. cbn. rewrite sqrt_0. lra. }
  assert (L0 : (0 <= L)%R) by (eapply Rle_trans; [apply Cmod_ge_0 | apply (HL 0 0); lia]).
  apply distance_entries; [congruence | congruence | repeat (apply Rmult_le_pos; [try apply pos_INR; lra|]); lra|].
  intros i j Hi Hj. rewrite a3, b3 by congruence. cbn [mscal mmul mher ent nr nc].
  replace (RtoC c * csum (nc D1) (fun k => ent D1 i k * Cconj (ent D1 j k)) - RtoC c * csum (nc D2) (fun k => ent D2 i k * Cconj (ent D2 j k)))%C
    with (RtoC c * csum n (fun k => (ent D1 i k - ent D2 i k) * Cconj (ent D1 j k) + ent D2 i k * Cconj (ent D1 j k - ent D2 j k)))%C.
  2:{ rewrite N2, N4. rewrite <- !csum_scal, <- csum_minus. apply csum_ext. intros k Hk. rewrite Cminus_conj. ring. }
  rewrite Cmod_mult, Cmod_R, Rabs_pos_eq by lra. apply Rmult_le_compat_l; [lra|]. eapply Rle_trans; [apply Cmod_csum|]. rewrite <- RC. apply rsum_le. intros k Hk. eapply Rle_trans; [apply Cmod_triangle|]. rewrite !Cmod_mult, !Cmod_conj.
  assert (B2 : (Cmod (ent D2 i k) <= L + t)%R).
  { replace (ent D2 i k) with (ent D1 i k + - (ent D1 i k - ent D2 i k))%C by ring. eapply Rle_trans; [apply Cmod_triangle|]. rewrite Cmod_opp. pose proof (HL i k Hi Hk). pose proof (HT i k Hi Hk). lra. }
  replace (t * (2 * L + t))%R with (t * L + (L + t) * t)%R by ring. apply Rplus_le_compat; apply Rmult_le_compat; try apply Cmod_ge_0; auto.
Qed.
Lemma small_quadratic K L tau : (0 <= K)%R -> (0 <= L)%R -> (0 < tau)%R -> exists eps0, (0 < eps0)%R /\ forall t, (0 <= t < eps0)%R -> (K * (t * (2 * L + t)) < tau)%R.
Proof.
  intros HK HL Ht. set (q := ((K + 1) * (2 * L + 1))%R). assert (Q : (0 < q)%R) by (unfold q; apply Rmult_lt_0_compat; lra).
  exists (Rmin 1 (tau / q)). split; [apply Rmin_pos; [lra | now apply Rdiv_lt_0_compat]|]. intros t (T0 & T1). pose proof (Rlt_le_trans _ _ _ T1 (Rmin_l _ _)) as T2. pose proof (Rlt_le_trans _ _ _ T1 (Rmin_r _ _)) as T3.
  apply Rle_lt_trans with (q * t)%R.
  - unfold q. replace (K * (t * (2 * L + t)))%R with ((K * (2 * L + t)) * t)%R by ring. apply Rmult_le_compat_r; [exact T0|]. apply Rmult_le_compat; lra.
  - apply Rlt_le_trans with (q * (tau / q))%R; [now apply Rmult_lt_compat_l|]. right. field. lra.
Qed.
(** *** coarray MUSIC *)
Lemma coarray_music_stable find_peaks argsort g l d w0 calls name m v lam u angles dt caching h0 e0 h1 truth (A Rm : cmat) p sigma method :
  places_1d g l d -> gd_d0 g = [d] -> NoDup l -> ar_perts (gd_array g) = [] -> scalar_isotropic (gd_array g) ->
  mk_WeightFunction1D g = Ok w0 -> first_hole l (Z.of_nat m) -> get_virtual_ula (Acm g (after w0 calls)) name = Ok v ->
  new_estimator (gd_array v) lam (SGrid G1D [vec1 angles] u dt) (find_peaks_simple find_peaks) argsort caching h0 = Ok (e0, h1) ->
  scipy_find_peaks find_peaks -> (forall x, is_argsort x (argsort x)) ->
  (0 < d)%R -> (0 < lam)%R -> unambiguous d lam u angles ->
  separated (List.length angles) truth -> 1 <= List.length truth < m ->
  steering_matrix (gd_array g) (FF1 (at_positions angles truth) u) lam false "all" true = Ok (Flat A, []) ->
  Rm ==m model_cov A p sigma -> (forall k, k < List.length truth -> (0 < p k)%R) -> (0 <= sigma)%R ->
  method = "da"%string \/ method = "ss"%string ->
  exists eps0, (0 < eps0)%R /\ forall eigh e h Rm' o, eigh_contract m eigh -> music_reach eigh m e0 h1 e h -> hermitian Rm' -> nr Rm' = List.length l -> (distance Rm Rm' < eps0)%R -> o_refine o = false ->
    exists D sp est e' h', transform (Acm g (after w0 calls)) Rm' method = Ok D /\
      music_estimate eigh m e h D (Z.of_nat (List.length truth)) o = (Ok (Outcome true (Some est) (if o_spectrum o then Some sp else None)), e', h') /\
      buf h' est = map (fun a => [a]) (at_positions angles truth).
Proof.
  intros PL D0 ND Pe Iso Hw FH Ev HN FP AS Hd Hl U SEP Hk HA HRm Hp Hs HM.
  destruct (Prop_pipeline.estimator_valid _ _ _ _ _ _ _ _ _ _ _ HN) as (K & V).
  assert (Nl : l <> []). { intros ->. destruct FH as (_ & _ & X). specialize (X 0%Z ltac:(lia)). destruct X as (? & ? & [] & _). }
  pose proof (places_grid_1d g l d PL) as Hg.
  assert (Em : Z.of_nat m = Z.of_nat (mv0 g)) by exact (Prop_coarray.C37_first_hole_unique l _ _ FH (mv0_hole g l Hg)).
  assert (IB : forall i, In i truth -> i < List.length angles) by (destruct SEP as (_ & F); rewrite Forall_forall in F; intros i Hi; apply F in Hi; lia).
  assert (VT : valid_sources (FF1 (at_positions angles truth) u)).
  { split; [exact K|]. apply Forall_forall. intros a Ia. apply in_map_iff in Ia as (i & <- & Hi). rewrite Forall_forall in V. apply V, nth_In. now apply IB. }
  destruct (Prop_coarray2.C40_exact g l d w0 calls _ lam p sigma name A Rm PL D0 Hw Nl ND Pe Iso VT eq_refl HA HRm) as (v' & Av & D & Ev' & HAv & ED & HD). rewrite Ev in Ev'. injection Ev' as <-.
  assert (VF : places_1d v (ULA_indices (Z.of_nat m)) d /\ ar_perts (gd_array v) = [] /\ scalar_isotropic (gd_array v) /\ la_dt (ar_loc (gd_array v)) = DFloat).
  { unfold get_virtual_ula in Ev. cbn [acm_array] in Ev. rewrite D0 in Ev. assert (Eo : acm_output_size (Acm g (after w0 calls)) = Z.of_nat (mv0 g)) by exact (central_ula g l Hg w0 Hw calls true). rewrite Eo, <- Em in Ev.
    destruct (ULA_virtual (Z.of_nat m) d (Some (name_or name ("Virtual ULA of " ++ ar_name (gd_array g))))) as (v2 & E2 & X1 & X2 & X3). rewrite Ev in E2. injection E2 as <-. repeat (split; [assumption|]).
    unfold mk_ULA, mk_Grid in Ev. cbn in Ev. injection Ev as <-. reflexivity. }
  destruct VF as (PV & PeV & IsoV & DTV). pose proof (ula_steering v m d u _ lam PV PeV IsoV VT Av HAv) as EA. pose proof EA as (A1 & A2 & _). cbn [ula_matrix nr nc] in A1, A2. unfold at_positions in A2. rewrite !map_length in A2.
  assert (X0 : exact_cov D Av (mdiag (nc Av) (fun k => RtoC (p k))) sigma) by (split; [reflexivity|]; split; [reflexivity|]; exact HD).
  assert (PP : pd (mdiag (nc Av) (fun k => RtoC (p k)))) by (apply pd_mdiag; intros k Hk'; apply Hp; lia).
  pose proof HRm as (R1 & R2 & _). cbn in R1, R2. destruct (response_1d g l d _ lam A PL Pe Iso VT eq_refl HA) as (A3 & _).
  assert (Mp : (0 < IZR (Z.of_nat m))%R) by (apply IZR_lt; lia).
  destruct HM as [-> | ->].
  - destruct (music_ula_stable find_peaks argsort v m d lam u angles dt caching h0 e0 h1 truth Av _ sigma D PV PeV IsoV DTV Hd Hl K V U HN FP AS SEP Hk HAv X0 PP) as (eps0 & He & ST).
    exists (eps0 / IZR (Z.of_nat m))%R. split; [now apply Rdiv_lt_0_compat|]. intros eigh e h Rm' o EC HR HH N DS Hr. pose proof HH as (SQ & _).
    destruct (Prop_coarray.C39_da g l _ w0 calls Rm' (Z.of_nat m) Hg Hw eq_refl Nl FH N ltac:(congruence)) as (D' & ED' & N1 & N2 & _). rewrite Nat2Z.id in N1, N2.
    destruct (da_close g l w0 calls Rm Rm' D D' (Z.of_nat m) Hg Hw Nl FH ltac:(congruence) ltac:(congruence) N ltac:(congruence) ED ED') as (_ & _ & _ & _ & _ & CL).
    destruct (ST eigh e h D' o EC HR) as (sp & est & e' & h' & Q1 & Q2).
    + exact (Prop_coarray.C39_hermitian g l w0 calls Rm' D' Hg Hw Nl N HH ED').
    + exact N1.
    + eapply Rle_lt_trans; [exact CL|]. apply Rlt_le_trans with (IZR (Z.of_nat m) * (eps0 / IZR (Z.of_nat m)))%R; [now apply Rmult_lt_compat_l|]. right. field. lra.
    + exact Hr.
    + exists D', sp, est, e', h'. auto.
  - assert (IA : inj Av).
    { apply (Base_Lin.inj_eq (ula_matrix m (map (zof d lam u) (at_positions angles truth)))); [now symmetry|]. apply ula_inj; [|rewrite map_length; unfold at_positions; rewrite map_length; lia].
      unfold at_positions. rewrite map_map. pose proof (sep_lt _ _ SEP) as (_ & NT). apply NoDup_map_in; [exact NT|]. intros i j Hi Hj E. destruct U as (UN & UU). apply (zof_inj d lam u angles) in E; try assumption; [|split; assumption | now apply nth_In, IB | now apply nth_In, IB].
      apply (proj1 (NoDup_nth angles 0%R) UN); auto. }
    destruct (Prop_coarray.C39_ss g l w0 calls Rm (Z.of_nat m) Hg Hw Nl FH ltac:(congruence) ltac:(congruence)) as (D' & Sm & ED' & ES & EG & _). rewrite ED in ED'. injection ED' as <-.
    destruct (gram_exact D Sm Av _ sigma (/ IZR (Z.of_nat m)) X0 IA PP Hs ltac:(apply Rinv_0_lt_compat, IZR_lt; lia) EG) as (P' & X1 & PP').
    destruct (music_ula_stable find_peaks argsort v m d lam u angles dt caching h0 e0 h1 truth Av P' _ Sm PV PeV IsoV DTV Hd Hl K V U HN FP AS SEP Hk HAv X1 PP') as (eps0 & He & ST).
    destruct (upper_bound m (fun i => rsum m (fun j => Cmod (ent D i j)))) as (L & HL & UB).
    assert (K0 : (0 <= INR m * (/ IZR (Z.of_nat m) * INR m))%R) by (apply Rmult_le_pos; [apply pos_INR | apply Rmult_le_pos; [left; now apply Rinv_0_lt_compat | apply pos_INR]]).
    destruct (small_quadratic _ L eps0 K0 (Rlt_le _ _ HL) He) as (eps1 & He1 & SM).
    exists eps1. split; [exact He1|]. intros eigh e h Rm' o EC HR HH N DS Hr. pose proof HH as (SQ & _).
    destruct (Prop_coarray.C39_ss g l w0 calls Rm' (Z.of_nat m) Hg Hw Nl FH N ltac:(congruence)) as (D' & Sm' & ED' & ES' & EG' & HS' & _).
    destruct (da_close g l w0 calls Rm Rm' D D' (Z.of_nat m) Hg Hw Nl FH ltac:(congruence) ltac:(congruence) N ltac:(congruence) ED ED') as (N1 & N2 & N3 & N4 & CL & _). rewrite Nat2Z.id in N1, N2, N3, N4.
    destruct (ST eigh e h Sm' o EC HR HS') as (sp & est & e' & h' & Q1 & Q2).
    + destruct EG' as (G1 & _). cbn [mscal mmul nr] in G1. congruence.
    + eapply Rle_lt_trans; [apply (gram_close D D' Sm Sm' m (/ IZR (Z.of_nat m)) L (distance Rm Rm') N1 N2 N3 N4); [now apply Rinv_0_lt_compat | apply distance_nonneg | exact EG | exact EG' | | intros i j Hi Hj; apply CL; lia]|].
      * intros i j Hi Hj. eapply Rle_trans; [|apply (UB i Hi)]. apply (rsum_ge m (fun j => Cmod (ent D i j)) j Hj). intros; apply Cmod_ge_0.
      * replace (INR m * (/ IZR (Z.of_nat m) * (INR m * (distance Rm Rm' * (2 * L + distance Rm Rm')))))%R with ((INR m * (/ IZR (Z.of_nat m) * INR m)) * (distance Rm Rm' * (2 * L + distance Rm Rm')))%R by ring.
        apply SM. split; [apply distance_nonneg | exact DS].
    + exact Hr.
    + exists Sm', sp, est, e', h'. auto.
Qed.
