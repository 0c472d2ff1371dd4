(** Estimates made from an inexact covariance matrix are those made from the exact one. *)
From Coq Require Import Lra Sorted Permutation.
From Verif Require Import Base_Np Base_Trig Base_Lin S_model M_utils S_utils P_utils M_sources S_sources P_sources M_array S_array P_array P_array2 P_array3 M_designs S_designs P_designs M_coarray S_coarray P_coarray P_coarray2 P_model
  M_grid S_grid P_grid M_core P_core P_core2 M_sparse M_subspace S_subspace P_subspace P_subspace2 P_subspace5 M_pipeline S_pipeline Prop_subspace P_pipeline P_pipeline4 P_beam S_stable P_stable P_stable2 P_stable3.
From Verif Require P_oracles P_gauss.
Open Scope nat_scope.

Lemma music_forwards eigh m : forwards (music_estimate eigh m).
Proof. intros e h Rm k o. unfold music_estimate. match goal with |- context [match ?t with _ => _ end] => destruct t as [n|x] end; [right | left]; eauto. Qed.
Lemma music_reaches eigh m e0 h0 e h : music_reach eigh m e0 h0 e h -> reach (music_estimate eigh m) e0 h0 e h.
Proof. intros R. induction R as [|e h Rm k o r e' h' R IH H]; [constructor | econstructor; eassumption]. Qed.
Lemma above_olt l i j : above l i j <-> olt_inf (nth j l None) (nth i l None).
Proof. unfold above, olt_inf. destruct (nth i l None), (nth j l None); tauto. Qed.
(** the noise eigenvalues of an exact covariance lie below the signal eigenvalues *)
Lemma exact_gap Rm A P s w E : exact_cov Rm A P s -> inj A -> pd P -> eigh_ok Rm w E -> 1 <= nc A < nr A -> (nth (nr Rm - nc A - 1) w 0 < nth (nr Rm - nc A) w 0)%R.
Proof.
  intros HX HA HP OE Hk. destruct (ex_dims Rm A P s HX) as (D1 & D2). destruct (floor_exists Rm A P s w E HX HA HP OE Hk) as (F1 & F2).
  pose proof (floor_gap Rm A P s w E HX HA HP OE Hk _ F1) as G. rewrite D1. lra.
Qed.

(** *** MUSIC *)
Lemma music_ula_stable fp asort v m d lam u angles dt c h0 e0 h1 truth A P s Rm :
  places_1d v (ULA_indices (Z.of_nat m)) d -> ar_perts (gd_array v) = [] -> scalar_isotropic (gd_array v) -> la_dt (ar_loc (gd_array v)) = DFloat ->
  (0 < d)%R -> (0 < lam)%R -> known_unit u -> Forall (valid_angle u) angles -> unambiguous d lam u angles ->
  new_estimator (gd_array v) lam (SGrid G1D [vec1 angles] u dt) (find_peaks_simple fp) asort c h0 = Ok (e0, h1) ->
  scipy_find_peaks fp -> (forall x, is_argsort x (asort x)) -> separated (List.length angles) truth -> 1 <= List.length truth < m ->
  steering_matrix (gd_array v) (FF1 (at_positions angles truth) u) lam false "all" true = Ok (Flat A, []) ->
  exact_cov Rm A P s -> pd P ->
  exists eps0, (0 < eps0)%R /\ forall eigh e h Rm' o, eigh_contract m eigh -> music_reach eigh m e0 h1 e h -> hermitian Rm' -> nr Rm' = m -> (distance Rm Rm' < eps0)%R -> o_refine o = false ->
    exists sp est e' h', music_estimate eigh m e h Rm' (Z.of_nat (List.length truth)) o = (Ok (Outcome true (Some est) (if o_spectrum o then Some sp else None)), e', h') /\
      buf h' est = map (fun a => [a]) (at_positions angles truth).
Proof.
  intros PL Pe Iso DT Hd Hl K V U HN FP AS SEP Hk HA HX HP. destruct (ex_dims Rm A P s HX) as (D1 & D2).
  assert (FACT : A ==m ula_matrix m (map (zof d lam u) (at_positions angles truth)) /\ NoDup (map (zof d lam u) (at_positions angles truth)) /\ List.length (map (zof d lam u) (at_positions angles truth)) = List.length truth).
  { destruct (dominant_ula fp asort v m d lam u angles dt c h0 e0 h1 e0 h1 truth A (Opts false false 10 3) (fun e h _ _ _ => (Raise ValueError, e, h))) as (B & EA & NZ & LZ & _); try assumption; try reflexivity; [|constructor | auto]. intros e h Q k o. left. eauto. }
  destruct FACT as (EA & NZ & LZ). pose proof EA as (A1 & A2 & _). cbn [ula_matrix nr nc] in A1, A2. rewrite LZ in A2.
  assert (IA : inj A) by (apply (Base_Lin.inj_eq (ula_matrix m (map (zof d lam u) (at_positions angles truth)))); [now symmetry|]; apply ula_inj; [exact NZ | lia]).
  destruct (P_oracles.eigh_ref_contract (nr Rm) Rm (exact_herm _ _ _ _ HX (proj1 HP)) (le_n _)) as (w & E & _ & OE).
  pose proof (exact_gap Rm A P s w E HX IA HP OE ltac:(lia)) as G.
  destruct (music_stable Rm (ula_matrix m (map (zof d lam u) angles)) (nc A) w E (exact_herm _ _ _ _ HX (proj1 HP))) as (eps0 & He & ST); [cbn [ula_matrix nr]; congruence | lia | exact OE | exact G|].
  exists eps0. split; [exact He|]. intros eigh e h Rm' o EC HR HH N D Hr.
  destruct (dominant_ula fp asort v m d lam u angles dt c h0 e0 h1 e h truth A o (music_estimate eigh m)) as (B & _ & _ & _ & EB & H); try assumption; [apply music_forwards | now apply music_reaches|]. cbv zeta in H.
  assert (EM : m = nr Rm) by congruence.
  destruct (ST eigh Rm' B EB) as (En & En' & sp & sp' & X1 & X2 & X3 & X4 & X5 & X6 & X7); [now rewrite <- EM | exact HH | congruence | exact D|].
  pose proof EC as EC'. destruct (EC' Rm (exact_herm _ _ _ _ HX (proj1 HP)) ltac:(lia)) as (w1 & E1 & EE1 & OE1). pose proof EB as (B1 & B2 & _). cbn [ula_matrix nr nc] in B1, B2.
  destruct (C58_exact_poles eigh Rm A P s w1 E1 B HX IA HP ltac:(lia) EE1 OE1 ltac:(congruence)) as (En0 & sp0 & Y1 & Y2 & Y3 & Y4). rewrite X1 in Y1. injection Y1 as <-. rewrite X3 in Y2. injection Y2 as <-.
  destruct (EC Rm' HH ltac:(lia)) as (w2 & E2 & EE2 & OE2). pose proof OE2 as (_ & Z1 & Z2 & _).
  destruct (C58_estimate_uses_spectrum eigh m e h Rm' (nc A) o w2 E2 N ltac:(lia) EE2 ltac:(congruence) ltac:(congruence)) as (En2 & W1 & W2). rewrite X2 in W1. injection W1 as <-. rewrite A2 in W2. rewrite W2.
  exists (embed_inf sp'). apply H.
  - now rewrite X4.
  - now rewrite embed_length.
  - intros i j Hi Hj Si Sj. apply embed_order; [lia | lia|]. apply above_olt. apply X7; [exact Hi | exact Hj|]. apply above_olt. pose proof (Y4 i Hi) as Yi. pose proof (Y4 j Hj) as Yj. destruct (nth i sp None); [tauto|]. destruct (nth j sp None); [exact I | contradiction].
Qed.

(** *** one source: the beamformers *)
Section Beam.
Variables (fp : list R -> list nat) (asort : list R -> list nat) (v : gdesign) (m : nat) (d lam : R) (u : string) (angles : list R) (dt : dtype) (c : bool) (h0 h1 : lheap) (e0 : estimator cmat) (t : nat) (A P : cmat) (s : R) (Rm : cmat).
Hypotheses (PL : places_1d v (ULA_indices (Z.of_nat m)) d) (Pe : ar_perts (gd_array v) = []) (Iso : scalar_isotropic (gd_array v)) (DT : la_dt (ar_loc (gd_array v)) = DFloat)
  (Hd : (0 < d)%R) (Hl : (0 < lam)%R) (K : known_unit u) (V : Forall (valid_angle u) angles) (U : unambiguous d lam u angles)
  (HN : new_estimator (gd_array v) lam (SGrid G1D [vec1 angles] u dt) (find_peaks_simple fp) asort c h0 = Ok (e0, h1))
  (FP : scipy_find_peaks fp) (AS : forall x, is_argsort x (asort x)) (Ht : 0 < t /\ S t < List.length angles) (Hm : 1 < m)
  (HA : steering_matrix (gd_array v) (FF1 [nth t angles 0%R] u) lam false "all" true = Ok (Flat A, []))
  (HX : exact_cov Rm A P s) (HP : pd P).
Let Um := ula_matrix m (map (zof d lam u) angles).
Lemma beam_A : A ==m ula_matrix m [zof d lam u (nth t angles 0%R)].
Proof.
  destruct (dominant_ula fp asort v m d lam u angles dt c h0 e0 h1 e0 h1 [t] A (Opts false false 10 3) (fun e h _ _ _ => (Raise ValueError, e, h))) as (B & EA & NZ & LZ & _); try assumption; try reflexivity; [|constructor | apply one_sep; assumption | cbn; lia].
  intros e h Q k o. left. eauto.
Qed.
Lemma bartlett_ula_stable : (0 <= s)%R ->
  exists eps0, (0 < eps0)%R /\ forall e h Rm' o, reach (bartlett_estimate m) e0 h1 e h -> nr Rm' = m -> nc Rm' = m -> (distance Rm Rm' < eps0)%R -> o_refine o = false ->
    exists sp est e' h', bartlett_estimate m e h Rm' 1 o = (Ok (Outcome true (Some est) (if o_spectrum o then Some sp else None)), e', h') /\ buf h' est = [[nth t angles 0%R]].
Proof.
  intros Hs. destruct (ex_dims Rm A P s HX) as (D1 & D2). pose proof beam_A as EA. pose proof EA as (A1 & A2 & _). cbn [ula_matrix nr nc] in A1, A2. cbn in A2.
  destruct (bartlett_stable Rm Um ltac:(congruence)) as (eps0 & He & ST); [cbn [Um ula_matrix nr]; congruence|].
  exists eps0. split; [exact He|]. intros e h Rm' o HR N1 N2 D Hr.
  destruct (dominant_ula fp asort v m d lam u angles dt c h0 e0 h1 e h [t] A o (bartlett_estimate m)) as (B & _ & _ & LZ & EB & H); try assumption; [apply bartlett_forwards | apply one_sep; assumption | cbn; lia|]. cbv zeta in *.
  pose proof EB as (B1 & B2 & _). cbn [ula_matrix nr nc] in B1, B2.
  destruct (ST Rm' B EB ltac:(congruence) ltac:(congruence) D) as (sp & sp' & X1 & X2 & X3 & X4 & X5).
  rewrite (proj1 (C60_estimate_uses_spectrum m e h Rm' 1 o (fun _ _ => Raise ValueError) N1)).
  destruct (one_bartlett_order Rm A P s HX A2 HP Hs B) as (sp0 & E & L & O).
  - congruence.
  - rewrite A1, (ula_norm m _ 0 A EA) by ((cbn; lia) || (intros z [<-|[]]; apply (zof_mod d lam u [nth t angles 0%R]); now left)). apply lt_0_INR. lia.
  - intros i j Hi Hj. rewrite A1. rewrite !(ula_norm m _ _ B EB (zof_mod d lam u _)) by lia. reflexivity.
  - rewrite X1 in E. injection E as <-. exists sp'. apply (H (fun A0 => f_bartlett A0 Rm') sp' X2 X4). intros i j Hi Hj Si Sj. apply X5; auto.
Qed.
Lemma mvdr_ula_stable : (0 < s)%R ->
  exists eps0, (0 < eps0)%R /\ forall lstsq e h Rm' o, lstsq_contract lstsq -> reach (mvdr_estimate lstsq m) e0 h1 e h -> hermitian Rm' -> nr Rm' = m -> (distance Rm Rm' < eps0)%R -> o_refine o = false ->
    exists sp est e' h', mvdr_estimate lstsq m e h Rm' 1 o = (Ok (Outcome true (Some est) (if o_spectrum o then Some sp else None)), e', h') /\ buf h' est = [[nth t angles 0%R]].
Proof.
  intros Hs. destruct (ex_dims Rm A P s HX) as (D1 & D2). pose proof beam_A as EA. pose proof EA as (A1 & A2 & _). cbn [ula_matrix nr nc] in A1, A2. cbn in A2.
  assert (PR : pd Rm) by (apply (one_pd Rm A P s); try assumption; lra).
  destruct (mvdr_stable Rm Um PR) as (eps0 & He & ST); [cbn [Um ula_matrix nr]; congruence | |].
  { intros j Hj. exists 0. cbn [Um ula_matrix nr ent cpow] in *. split; [lia|]. cbn. intros X. apply (f_equal Re) in X. cbn in X. lra. }
  exists eps0. split; [exact He|]. intros lstsq e h Rm' o LC HR HH N D Hr.
  destruct (dominant_ula fp asort v m d lam u angles dt c h0 e0 h1 e h [t] A o (mvdr_estimate lstsq m)) as (B & _ & _ & LZ & EB & H); try assumption; [apply mvdr_forwards | apply one_sep; assumption | cbn; lia|]. cbv zeta in *.
  pose proof EB as (B1 & B2 & _). cbn [ula_matrix nr nc] in B1, B2.
  destruct (ST lstsq Rm' B EB LC HH ltac:(congruence) D) as (sp & sp' & X1 & X2 & X3 & X4 & _ & X5).
  rewrite (proj2 (C60_estimate_uses_spectrum m e h Rm' 1 o lstsq N)).
  destruct (one_mvdr_order Rm A P s HX A2 HP lstsq B LC Hs) as (sp0 & E & L & O).
  - congruence.
  - rewrite A1, (ula_norm m _ 0 A EA) by ((cbn; lia) || (intros z [<-|[]]; apply (zof_mod d lam u [nth t angles 0%R]); now left)). apply lt_0_INR. lia.
  - intros i Hi. rewrite A1. rewrite (ula_norm m _ i B EB (zof_mod d lam u _)) by lia. rewrite (ula_norm m _ 0 A EA) by ((cbn; lia) || (intros z [<-|[]]; apply (zof_mod d lam u [nth t angles 0%R]); now left)). reflexivity.
  - rewrite X1 in E. injection E as <-. exists (embed_inf sp'). apply (H (fun A0 => let! l := f_mvdr lstsq A0 Rm' in Ok (embed_inf l)) (embed_inf sp')).
    + now rewrite X2.
    + now rewrite embed_length.
    + intros i j Hi Hj Si Sj. apply embed_order; [lia | lia|]. apply above_olt. apply X5; [exact Hi | exact Hj|]. apply above_olt. now apply O.
Qed.
End Beam.
