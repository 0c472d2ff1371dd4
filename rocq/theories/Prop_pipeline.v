(** End-to-end properties: complete programs that design an array, create a search grid and an estimator, and estimate
    directions from an exact covariance matrix (C83, C84). *)
From Coq Require Import Lra Sorted Permutation.
From Verif Require Import Base_Np Base_Trig Base_Lin S_model M_utils S_utils P_utils M_sources S_sources P_sources M_array S_array P_array P_array2 P_array3 M_designs S_designs P_designs M_coarray S_coarray P_coarray P_coarray2 P_model
  M_grid S_grid P_grid M_core P_core P_core2 M_sparse M_subspace S_subspace P_subspace P_subspace5 P_perf5 M_pipeline S_pipeline P_pipeline P_pipeline2.
From Verif Require P_oracles Prop_subspace Prop_designs Prop_grid Prop_coarray Prop_coarray2 Prop_perf3.
Open Scope nat_scope.

Lemma grid_axes_inv angles dt u sg : mk_grid_axes G1D [angles] dt u = Ok sg -> sg = SGrid G1D [vec1 angles] u dt.
Proof. unfold mk_grid_axes. cbn. intros H. now injection H as <-. Qed.
Lemma estimator_valid arr lam angles u dt pf asort c h e h' : new_estimator arr lam (SGrid G1D [vec1 angles] u dt) pf asort c h = Ok (e, h') -> known_unit u /\ Forall (valid_angle u) angles.
Proof.
  intros H. assert (PG : plain_grid (SGrid G1D [vec1 angles] u dt)) by (split; [intros a [<-|[]]; reflexivity | reflexivity]).
  destruct (new_estimator_ok _ _ _ _ _ _ _ _ _ PG H) as (((_ & K & V) & _) & G & _). rewrite G in K, V. split; [exact K|]. apply Forall_forall. intros a Ha. apply (In_nth _ _ 0%R) in Ha as (i & Hi & <-).
  specialize (V [i]). cbn in V. apply V. auto.
Qed.
Lemma ULA_facts n d nm g : mk_ULA n (D0Scalar d) nm no_kwargs = Ok g -> places_1d g (ULA_indices n) d /\ ar_perts (gd_array g) = [] /\ scalar_isotropic (gd_array g) /\ la_dt (ar_loc (gd_array g)) = DFloat /\ gd_d0 g = [d].
Proof.
  intros E. destruct (Prop_perf3.ULA_scalar n d nm) as (v & Ev & P & Pe & I). rewrite E in Ev. injection Ev as <-. repeat (split; [assumption|]). unfold mk_ULA, mk_Grid in E. cbn in E. injection E as <-. split; reflexivity.
Qed.

(** C83: design a uniform linear array, create a search grid of given angles and a MUSIC estimator with the default peak finder.
    Whatever calls were made before, for a covariance matrix A P A^H + s I of fewer sources than sensors, at grid positions
    that are neither neighbours nor at the border, the estimator is resolved and returns exactly the source directions,
    in grid order. *)
Theorem C83_music_on_ula : forall eigh find_peaks argsort n d name lam u angles dt caching h0 g sg e0 h1 e h truth (A P Rm : cmat) s o,
  mk_ULA (Z.of_nat n) (D0Scalar d) name no_kwargs = Ok g -> mk_grid_axes G1D [angles] dt u = Ok sg ->
  new_estimator (gd_array g) lam sg (find_peaks_simple find_peaks) argsort caching h0 = Ok (e0, h1) -> music_reach eigh n e0 h1 e h ->
  eigh_contract n eigh -> scipy_find_peaks find_peaks -> (forall x, is_argsort x (argsort x)) ->
  (0 < d)%R -> (0 < lam)%R -> unambiguous d lam u angles ->
  separated (List.length angles) truth -> 1 <= List.length truth < n ->
  steering_matrix (gd_array g) (FF1 (at_positions angles truth) u) lam false "all" true = Ok (Flat A, []) ->
  exact_cov Rm A P s -> pd P -> o_refine o = false ->
  exists sp est e' h', music_estimate eigh n e h Rm (Z.of_nat (List.length truth)) o = (Ok (Outcome true (Some est) (if o_spectrum o then Some sp else None)), e', h') /\
    buf h' est = map (fun a => [a]) (at_positions angles truth).
Proof.
  intros eigh fp asort n d nm lam u angles dt c h0 g sg e0 h1 e h truth A P Rm s o Eg Es HN HR EC FP AS Hd Hl U SEP Hk HA HX HP Hr.
  apply grid_axes_inv in Es. subst sg. destruct (estimator_valid _ _ _ _ _ _ _ _ _ _ _ HN) as (K & V). destruct (ULA_facts _ _ _ _ Eg) as (PL & Pe & I & DT & _).
  apply (music_ula eigh fp asort g n d lam u angles dt c h0 e0 h1 e h truth A P s Rm o); assumption.
Qed.
(** C83 with the default grid of the library (open at its upper end) and any spacing up to half a wavelength *)
Lemma default_unambiguous d lam u size l : known_unit u -> (0 < d <= lam / 2)%R -> mk_grid1d None None (Z.of_nat size) u = Ok (SGrid G1D [vec1 l] u DFloat) -> List.length l = size /\ unambiguous d lam u l.
Proof.
  intros K Hd E. destruct (Prop_grid.C43_uniform_1d None None size u) as (X & _). destruct (X K) as (l' & E' & L & H). rewrite E in E'. injection E' as _ E'. subst l'. cbv zeta in H. clear X E. pose proof PI_RGT_0 as PP.
  assert (W : (of_rad u (- (PI / 2)) < of_rad u (PI / 2))%R).
  { destruct K as [-> | [-> | ->]]; cbn; [lra | | rewrite sin_neg, sin_PI2; lra]. apply Rmult_lt_compat_r; [apply Rdiv_lt_0_compat; lra | lra]. }
  split; [exact L|]. split.
  - apply (proj2 (NoDup_nth l 0%R)). intros i j Hi Hj Eij. rewrite L in Hi, Hj. rewrite !H in Eij by assumption. assert (0 < INR size)%R by (apply lt_0_INR; lia).
    apply INR_eq. apply Rplus_eq_reg_l in Eij. apply Rmult_eq_reg_r in Eij; [exact Eij|]. apply Rgt_not_eq, Rdiv_lt_0_compat; lra.
  - assert (B : forall a, In a l -> (-1 <= sin (to_rad u a) < 1)%R).
    { intros a Ha. split; [apply SIN_bound|]. apply (In_nth _ _ 0%R) in Ha as (i & Hi & <-). rewrite L in Hi. rewrite H by exact Hi. clear H.
      assert (S0 : (0 < INR size)%R) by (apply lt_0_INR; lia). assert (S1 : (INR i < INR size)%R) by (now apply lt_INR). pose proof (pos_INR i) as S2.
      set (lo := of_rad u (- (PI / 2))) in *. set (hi := of_rad u (PI / 2)) in *. set (a := (lo + INR i * ((hi - lo) / INR size))%R).
      assert (Q : (lo <= a < hi)%R).
      { replace a with (lo + (INR i / INR size) * (hi - lo))%R by (unfold a; field; lra). assert (0 <= INR i / INR size)%R by (apply Rmult_le_pos; [lra | left; apply Rinv_0_lt_compat; lra]).
        assert (INR i / INR size < 1)%R by (apply (Rmult_lt_reg_r (INR size)); [lra|]; unfold Rdiv; rewrite Rmult_assoc, Rinv_l by lra; lra). split; nra. }
      clearbody a. unfold lo, hi in *. clear lo hi.
      destruct K as [-> | [-> | ->]]; cbn in Q |- *.
      - rewrite <- sin_PI2. apply sin_increasing_1; lra.
      - rewrite <- sin_PI2. assert (Q' : (-90 <= a < 90)%R). { replace (- (PI / 2) * (180 / PI))%R with (-90)%R in Q by (field; lra). replace (PI / 2 * (180 / PI))%R with 90%R in Q by (field; lra). exact Q. }
        replace (a * (PI / 180))%R with (a / 90 * (PI / 2))%R by field. apply sin_increasing_1; nra.
      - rewrite sin_neg, sin_PI2 in Q. rewrite sin_asin by lra. lra. }
    intros a b Ha Hb. pose proof (B a Ha). pose proof (B b Hb). nra.
Qed.
Theorem C83_default_grid : forall eigh find_peaks argsort n d name lam u size caching h0 g sg e0 h1 e h truth (A P Rm : cmat) s o,
  mk_ULA (Z.of_nat n) (D0Scalar d) name no_kwargs = Ok g -> (0 < d <= lam / 2)%R ->
  known_unit u -> mk_grid1d None None (Z.of_nat size) u = Ok sg ->
  new_estimator (gd_array g) lam sg (find_peaks_simple find_peaks) argsort caching h0 = Ok (e0, h1) -> music_reach eigh n e0 h1 e h ->
  eigh_contract n eigh -> scipy_find_peaks find_peaks -> (forall x, is_argsort x (argsort x)) ->
  separated size truth -> 1 <= List.length truth < n ->
  let doas := at_positions (axis sg 0) truth in
  steering_matrix (gd_array g) (FF1 doas u) lam false "all" true = Ok (Flat A, []) ->
  exact_cov Rm A P s -> pd P -> o_refine o = false ->
  exists sp est e' h', music_estimate eigh n e h Rm (Z.of_nat (List.length truth)) o = (Ok (Outcome true (Some est) (if o_spectrum o then Some sp else None)), e', h') /\
    buf h' est = map (fun a => [a]) doas.
Proof.
  intros eigh fp asort n d nm lam u size c h0 g sg e0 h1 e h truth A P Rm s o Eg Hd K Es HN HR EC FP AS SEP Hk doas HA HX HP Hr.
  destruct (Prop_grid.C43_uniform_1d None None size u) as (X & _). destruct (X K) as (l & E & L & _). rewrite Es in E. injection E as ->. clear X.
  destruct (default_unambiguous d lam u size l K Hd Es) as (_ & U). rewrite <- L in SEP. unfold doas in *. cbn [axis sg_axes nth vec1 nd_data] in *.
  apply (C83_music_on_ula eigh fp asort n d nm lam u l DFloat c h0 g (SGrid G1D [vec1 l] u DFloat) e0 h1 e h truth A P Rm s o); try assumption; try reflexivity; lra.
Qed.

(** C84: coarray MUSIC.  For a linear array whose sensors sit at the distinct grid positions l (times the spacing d), whose
    difference coarray has its first hole at lag m: transforming the covariance of uncorrelated sources into the augmented
    covariance ('da' or 'ss') and running MUSIC on the virtual array returns exactly the source directions as long as there
    are fewer than m sources, which may be more than there are sensors. *)
Theorem C84_coarray_music : forall eigh find_peaks argsort g l d w0 calls name m v lam u angles dt caching h0 sg e0 h1 e h truth (A Rm : cmat) p sigma method o,
  places_1d g l d -> gd_d0 g = [d] -> NoDup l -> ar_perts (gd_array g) = [] -> scalar_isotropic (gd_array g) ->
  mk_WeightFunction1D g = Ok w0 -> first_hole l (Z.of_nat m) -> get_virtual_ula (Acm g (after w0 calls)) name = Ok v ->
  mk_grid_axes G1D [angles] dt u = Ok sg ->
  new_estimator (gd_array v) lam sg (find_peaks_simple find_peaks) argsort caching h0 = Ok (e0, h1) -> music_reach eigh m e0 h1 e h ->
  eigh_contract m eigh -> scipy_find_peaks find_peaks -> (forall x, is_argsort x (argsort x)) ->
  (0 < d)%R -> (0 < lam)%R -> unambiguous d lam u angles ->
  separated (List.length angles) truth -> 1 <= List.length truth < m ->
  steering_matrix (gd_array g) (FF1 (at_positions angles truth) u) lam false "all" true = Ok (Flat A, []) ->
  Rm ==m model_cov A p sigma -> (forall k, k < List.length truth -> (0 < p k)%R) -> (0 <= sigma)%R ->
  method = "da"%string \/ method = "ss"%string -> o_refine o = false ->
  exists D sp est e' h', transform (Acm g (after w0 calls)) Rm method = Ok D /\
    music_estimate eigh m e h D (Z.of_nat (List.length truth)) o = (Ok (Outcome true (Some est) (if o_spectrum o then Some sp else None)), e', h') /\
    buf h' est = map (fun a => [a]) (at_positions angles truth).
Proof.
  intros eigh fp asort g l d w0 calls nm m v lam u angles dt c h0 sg e0 h1 e h truth A Rm p sigma method o PL D0 ND Pe Iso Hw FH Ev Es HN HR EC FP AS Hd Hl U SEP Hk HA HRm Hp Hs HM Hr.
  apply grid_axes_inv in Es. subst sg. destruct (estimator_valid _ _ _ _ _ _ _ _ _ _ _ HN) as (K & V).
  assert (Nl : l <> []). { intros ->. destruct FH as (_ & _ & X). specialize (X 0%Z ltac:(lia)). destruct X as (? & ? & [] & _). }
  pose proof (places_grid_1d g l d PL) as Hg.
  assert (Em : Z.of_nat m = Z.of_nat (mv0 g)) by exact (Prop_coarray.C37_first_hole_unique l _ _ FH (mv0_hole g l Hg)).
  assert (IB : forall i, In i truth -> i < List.length angles) by (destruct SEP as (_ & F); rewrite Forall_forall in F; intros i Hi; apply F in Hi; lia).
  assert (VT : valid_sources (FF1 (at_positions angles truth) u)).
  { split; [exact K|]. apply Forall_forall. intros a Ia. apply in_map_iff in Ia as (i & <- & Hi). rewrite Forall_forall in V. apply V, nth_In. now apply IB. }
  destruct (Prop_coarray2.C40_exact g l d w0 calls _ lam p sigma nm A Rm PL D0 Hw Nl ND Pe Iso VT eq_refl HA HRm) as (v' & Av & D & Ev' & HAv & ED & HD). rewrite Ev in Ev'. injection Ev' as <-.
  assert (VF : places_1d v (ULA_indices (Z.of_nat m)) d /\ ar_perts (gd_array v) = [] /\ scalar_isotropic (gd_array v) /\ la_dt (ar_loc (gd_array v)) = DFloat).
  { unfold get_virtual_ula in Ev. cbn [acm_array] in Ev. rewrite D0 in Ev. assert (Eo : acm_output_size (Acm g (after w0 calls)) = Z.of_nat (mv0 g)) by exact (central_ula g l Hg w0 Hw calls true). rewrite Eo, <- Em in Ev.
    destruct (ULA_virtual (Z.of_nat m) d (Some (name_or nm ("Virtual ULA of " ++ ar_name (gd_array g))))) as (v2 & E2 & X1 & X2 & X3). rewrite Ev in E2. injection E2 as <-. repeat (split; [assumption|]).
    unfold mk_ULA, mk_Grid in Ev. cbn in Ev. injection Ev as <-. reflexivity. }
  destruct VF as (PV & PeV & IsoV & DTV). pose proof (ula_steering v m d u _ lam PV PeV IsoV VT Av HAv) as EA. pose proof EA as (A1 & A2 & _). cbn [ula_matrix nr nc] in A1, A2. unfold at_positions in A2. rewrite !map_length in A2.
  assert (X0 : exact_cov D Av (mdiag (nc Av) (fun k => RtoC (p k))) sigma) by (split; [reflexivity|]; split; [reflexivity|]; exact HD).
  assert (PP : pd (mdiag (nc Av) (fun k => RtoC (p k)))) by (apply pd_mdiag; intros k Hk'; apply Hp; lia).
  destruct HM as [-> | ->].
  - destruct (music_ula eigh fp asort v m d lam u angles dt c h0 e0 h1 e h truth Av _ sigma D o PV PeV IsoV DTV Hd Hl K V U HN HR EC FP AS SEP Hk HAv X0 PP Hr) as (sp & est & e' & h' & R1 & R2). exists D, sp, est, e', h'. auto.
  - assert (IA : inj Av).
    { apply (Base_Lin.inj_eq (ula_matrix m (map (zof d lam u) (at_positions angles truth)))); [now symmetry|]. apply ula_inj; [|rewrite map_length; unfold at_positions; rewrite map_length; lia].
      unfold at_positions. rewrite map_map. pose proof (sep_lt _ _ SEP) as (_ & NT). apply NoDup_map_in; [exact NT|]. intros i j Hi Hj E. destruct U as (UN & UU). apply (zof_inj d lam u angles) in E; try assumption; [|split; assumption | now apply nth_In, IB | now apply nth_In, IB].
      apply (proj1 (NoDup_nth angles 0%R) UN); auto. }
    pose proof HRm as (R1 & R2 & _). cbn in R1, R2. destruct (response_1d g l d _ lam A PL Pe Iso VT eq_refl HA) as (A3 & _).
    destruct (Prop_coarray.C39_ss g l w0 calls Rm (Z.of_nat m) Hg Hw Nl FH ltac:(congruence) ltac:(congruence)) as (D' & Sm & ED' & ES & EG & _). rewrite ED in ED'. injection ED' as <-.
    destruct (gram_exact D Sm Av _ sigma (/ IZR (Z.of_nat m)) X0 IA PP Hs ltac:(apply Rinv_0_lt_compat, IZR_lt; lia) EG) as (P' & X1 & PP').
    destruct (music_ula eigh fp asort v m d lam u angles dt c h0 e0 h1 e h truth Av P' _ Sm o PV PeV IsoV DTV Hd Hl K V U HN HR EC FP AS SEP Hk HAv X1 PP' Hr) as (sp & est & e' & h' & Q1 & Q2). exists Sm, sp, est, e', h'. auto.
Qed.
(** in particular for nested arrays: n1 + n2 sensors locate up to n2 (n1 + 1) - 1 sources *)
Lemma places_unique g l l' d d' : places_1d g l d -> places_1d g l' d' -> l = l'.
Proof.
  intros P P'. assert (L : List.length l = List.length l') by (rewrite <- (pl_size _ _ _ P), <- (pl_size _ _ _ P'); reflexivity).
  apply (nth_ext _ _ 0%Z 0%Z L). intros i Hi. rewrite <- (pl_index _ _ _ P i Hi). apply (pl_index _ _ _ P' i). lia.
Qed.
Theorem C84_nested : forall eigh find_peaks argsort n1 n2 d gname g w0 calls name v lam u angles dt caching h0 sg e0 h1 e h truth (A Rm : cmat) p sigma method o,
  1 <= n1 -> 1 <= n2 -> mk_Nested (Z.of_nat n1) (Z.of_nat n2) (D0Scalar d) gname no_kwargs = Ok g ->
  mk_WeightFunction1D g = Ok w0 -> get_virtual_ula (Acm g (after w0 calls)) name = Ok v ->
  mk_grid_axes G1D [angles] dt u = Ok sg -> let m := n2 * (n1 + 1) in
  new_estimator (gd_array v) lam sg (find_peaks_simple find_peaks) argsort caching h0 = Ok (e0, h1) -> music_reach eigh m e0 h1 e h ->
  eigh_contract m eigh -> scipy_find_peaks find_peaks -> (forall x, is_argsort x (argsort x)) ->
  (0 < d)%R -> (0 < lam)%R -> unambiguous d lam u angles ->
  separated (List.length angles) truth -> 1 <= List.length truth < m ->
  steering_matrix (gd_array g) (FF1 (at_positions angles truth) u) lam false "all" true = Ok (Flat A, []) ->
  Rm ==m model_cov A p sigma -> (forall k, k < List.length truth -> (0 < p k)%R) -> (0 <= sigma)%R ->
  method = "da"%string \/ method = "ss"%string -> o_refine o = false ->
  exists D sp est e' h', transform (Acm g (after w0 calls)) Rm method = Ok D /\
    music_estimate eigh m e h D (Z.of_nat (List.length truth)) o = (Ok (Outcome true (Some est) (if o_spectrum o then Some sp else None)), e', h') /\
    buf h' est = map (fun a => [a]) (at_positions angles truth).
Proof.
  intros eigh fp asort n1 n2 d gn g w0 calls nm v lam u angles dt c h0 sg e0 h1 e h truth A Rm p sigma method o H1 H2 Eg Hw Ev Es m HN HR EC FP AS Hd Hl U SEP Hk HA HRm Hp Hs HM Hr.
  destruct (Prop_designs.C10_Nested _ _ _ _ _ _ (Zle_0_nat n1) (Zle_0_nat n2) Eg) as (l & PL & LL & SI & _).
  destruct (Prop_designs.C14_nested_hole_free _ _ _ _ _ _ (Zle_0_nat n1) (inj_le 1 n2 H2) Eg) as (l' & PL' & HF). pose proof (places_unique _ _ _ _ _ PL PL') as <-.
  assert (FH : first_hole l (Z.of_nat m)).
  { split; [lia|]. unfold m. rewrite Nat2Z.inj_mul, Nat2Z.inj_add. change (Z.of_nat 1) with 1%Z. split; [intros X; apply HF in X; lia|]. intros q Hq. apply HF. lia. }
  assert (X : gd_d0 g = [d] /\ ar_perts (gd_array g) = [] /\ scalar_isotropic (gd_array g)).
  { unfold mk_Nested, mk_Grid in Eg. cbn in Eg. injection Eg as <-. repeat split. }
  destruct X as (X1 & X2 & X3).
  assert (ND : NoDup l).
  { apply (proj2 (NoDup_nth l 0%Z)). intros i j Hi Hj E. destruct (Nat.lt_trichotomy i j) as [L|[L|L]]; [|exact L|]; [specialize (SI i j L Hj) | specialize (SI j i L Hi)]; lia. }
  apply (C84_coarray_music eigh fp asort g l d w0 calls nm m v lam u angles dt c h0 sg e0 h1 e h truth A Rm p sigma method o); assumption.
Qed.

(** ** Non-vacuity *)
(** a peak finder, an eigenvalue routine and a sort routine meeting the contracts exist *)
Definition peaks_ref (x : list R) : list nat := filter (fun i => Nat.ltb 0 i && Nat.ltb (S i) (List.length x) && Rltb (nth (i - 1) x 0%R) (nth i x 0%R) && Rltb (nth (S i) x 0%R) (nth i x 0%R)) (seq 0 (List.length x)).
Lemma peaks_ref_ok : scipy_find_peaks peaks_ref.
Proof.
  intros x. unfold peaks_ref. split; [apply NoDup_filter, seq_NoDup|]. split.
  - intros i H. apply filter_In in H as (H & _). apply in_seq in H. lia.
  - intros i H1 H2 H3 H4. apply filter_In. split; [apply in_seq; lia|]. unfold Rltb. destruct (Nat.ltb_spec 0 i); [|lia]. destruct (Nat.ltb_spec (S i) (List.length x)); [|lia]. destruct (Rlt_dec _ _); [|contradiction]. destruct (Rlt_dec _ _); [reflexivity | contradiction].
Qed.
(** four sensors, five sources: nested array (2, 2), half-wavelength spacing, the default grid of 12 points in sine units *)
Example C84_example : exists g w0 v l e0 h1 (A Rm D : cmat) sp est e' h',
  mk_Nested 2 2 (D0Scalar 1) None no_kwargs = Ok g /\ ar_size (gd_array g) = 4 /\ mk_WeightFunction1D g = Ok w0 /\ get_virtual_ula (Acm g w0) None = Ok v /\
  mk_grid1d None None 12 "sin" = Ok (SGrid G1D [vec1 l] "sin" DFloat) /\
  new_estimator (gd_array v) 2 (SGrid G1D [vec1 l] "sin" DFloat) (find_peaks_simple peaks_ref) Prop_subspace.argsort_R true [] = Ok (e0, h1) /\
  steering_matrix (gd_array g) (FF1 (at_positions l [1; 3; 5; 7; 9]) "sin") 2 false "all" true = Ok (Flat A, []) /\ Rm ==m model_cov A (fun _ => 1%R) 1 /\
  transform (Acm g w0) Rm "ss" = Ok D /\
  music_estimate P_oracles.eigh_ref 6 e0 h1 D 5 (Opts false false 10 3) = (Ok (Outcome true (Some est) sp), e', h') /\
  buf h' est = map (fun a => [a]) (at_positions l [1; 3; 5; 7; 9]).
Proof.
  destruct (Prop_designs.C10_constructible 0 2 2 1 None) as (_ & (g & Eg) & _).
  destruct (Prop_designs.C10_Nested 2 2 1 None no_kwargs g ltac:(lia) ltac:(lia) Eg) as (lp & PL & LL & SI & _). change (Z.to_nat (2 + 2)) with 4 in LL.
  destruct (proj2 (Prop_coarray.C36_constructor g) (pl_ndim _ _ _ PL)) as (w0 & Hw).
  assert (X : gd_d0 g = [1%R] /\ ar_perts (gd_array g) = [] /\ scalar_isotropic (gd_array g) /\ la_dt (ar_loc (gd_array g)) = DFloat).
  { unfold mk_Nested, mk_Grid in Eg. cbn in Eg. injection Eg as <-. repeat split. }
  destruct X as (X1 & X2 & X3 & X4).
  assert (K : known_unit "sin") by (right; right; reflexivity).
  destruct (Prop_grid.C43_uniform_1d None None 12 "sin") as (Y & _). destruct (Y K) as (l & El & Ll & Hl). clear Y. cbv zeta in Hl. cbn [of_rad String.eqb Ascii.eqb Bool.eqb] in Hl.
  destruct (default_unambiguous 1 2 "sin" 12 l K ltac:(lra) El) as (_ & U).
  assert (V : Forall (valid_angle "sin") l).
  { apply Forall_forall. intros a Ha. apply (In_nth _ _ 0%R) in Ha as (i & Hi & <-). rewrite Ll in Hi. rewrite Hl by exact Hi. rewrite sin_neg, sin_PI2. right. right. split; [reflexivity|].
    assert (0 <= INR i <= 12)%R by (split; [apply pos_INR | replace 12%R with (INR 12) by (cbn [INR]; lra); apply le_INR; lia]). cbn [INR]. lra. }
  destruct (Prop_coarray2.C40_virtual_ula g lp 1 w0 [] None 6 PL X1 Hw) as (v & q & Ev & Pv & _).
  { destruct (Prop_designs.C14_nested_hole_free 2 2 1 None no_kwargs g ltac:(lia) ltac:(lia) Eg) as (l' & PL' & HF). pose proof (places_unique _ _ _ _ _ PL PL') as <-. split; [lia|]. split; [intros Z; apply HF in Z; lia|]. intros z Hz. apply HF. lia. }
  set (sg := SGrid G1D [vec1 l] "sin" DFloat) in *.
  assert (VG : exists e0 h1, new_estimator (gd_array v) 2 sg (find_peaks_simple peaks_ref) Prop_subspace.argsort_R true [] = Ok (e0, h1)).
  { assert (PG : plain_grid sg) by (split; [intros a [<-|[]]; reflexivity | reflexivity]).
    assert (VG : valid_grid sg). { split; [exact PG|]. split; [exact K|]. intros idx Hi. cbn in Hi. destruct idx as [|i [|]]; try tauto. destruct Hi as (Hi & _). rewrite Forall_forall in V. unfold sg. cbn [valid_pt sg_class sg_unit grid_point sg_ndim sg_axes List.length seq map nth]. apply V, nth_In. exact Hi. }
    destruct (proj1 (proj1 (placement_spec sg PG)) VG) as (s & Hs). unfold new_estimator. rewrite Hs. eexists _, _. reflexivity. }
  destruct VG as (e0 & h1 & HN).
  set (truth := [1; 3; 5; 7; 9]).
  destruct (steering_defined (gd_array g) (FF1 (at_positions l truth) "sin") 2 "all" [] true ltac:(lra) X3 X4) as (A & HA);
    [rewrite (pl_ndim _ _ _ PL); lia | rewrite (pl_size _ _ _ PL); lia | unfold select_perturbations, perturbations; now rewrite X2 | intros ? []|].
  destruct (C84_nested P_oracles.eigh_ref peaks_ref Prop_subspace.argsort_R 2 2 1 None g w0 [] None v 2 "sin" l DFloat true [] sg e0 h1 e0 h1 truth A (model_cov A (fun _ => 1%R) 1) (fun _ => 1%R) 1 "ss" (Opts false false 10 3)) as (D & sp & est & e' & h' & R1 & R2 & R3);
    try assumption; try reflexivity; try lra; try lia.
  - constructor.
  - apply P_oracles.eigh_ref_contract.
  - exact peaks_ref_ok.
  - exact Prop_subspace.argsort_R_ok.
  - rewrite Ll. split; [repeat (constructor; [|repeat (constructor; [lia|]); constructor]); constructor | repeat (constructor; [lia|]); constructor].
  - cbn; lia.
  - intros; lra.
  - now right.
  - exists g, w0, v, l, e0, h1, A, (model_cov A (fun _ => 1%R) 1), D, None, est, e', h'. repeat (split; [assumption || (rewrite (pl_size _ _ _ PL); exact LL) || reflexivity|]). exact R3.
Qed.
(** three sensors, two correlated sources on the default grid of 180 points (one degree apart) *)
Lemma default_grid_estimator arr lam u size pf asort c h : known_unit u -> exists l e0 h1, mk_grid1d None None (Z.of_nat size) u = Ok (SGrid G1D [vec1 l] u DFloat) /\ List.length l = size /\
  new_estimator arr lam (SGrid G1D [vec1 l] u DFloat) pf asort c h = Ok (e0, h1).
Proof.
  intros K. destruct (Prop_grid.C43_uniform_1d None None size u) as (Y & _). destruct (Y K) as (l & El & Ll & Hl). clear Y. cbv zeta in Hl. set (sg := SGrid G1D [vec1 l] u DFloat) in *. pose proof PI_RGT_0 as PP.
  assert (PG : plain_grid sg) by (split; [intros a [<-|[]]; reflexivity | reflexivity]).
  assert (VG : valid_grid sg).
  { split; [exact PG|]. split; [exact K|]. intros idx Hi. cbn in Hi. destruct idx as [|i [|]]; try tauto. destruct Hi as (Hi & _). unfold sg. cbn [valid_pt sg_class sg_unit grid_point sg_ndim sg_axes List.length seq map nth].
    change (axis {| sg_class := G1D; sg_axes := [vec1 l]; sg_unit := u; sg_dt := DFloat |} 0) with l. rewrite Ll in Hi. rewrite Hl by exact Hi.
    assert (S0 : (0 < INR size)%R) by (apply lt_0_INR; lia). assert (S1 : (INR i < INR size)%R) by (now apply lt_INR). pose proof (pos_INR i) as S2.
    set (lo := of_rad u (- (PI / 2))) in *. set (hi := of_rad u (PI / 2)) in *.
    assert (T : (0 <= INR i / INR size < 1)%R) by (split; [apply Rmult_le_pos; [lra | left; apply Rinv_0_lt_compat; lra] | apply (Rmult_lt_reg_r (INR size)); [lra|]; unfold Rdiv; rewrite Rmult_assoc, Rinv_l by lra; lra]).
    replace (lo + INR i * ((hi - lo) / INR size))%R with (lo + (INR i / INR size) * (hi - lo))%R by (field; lra). set (t := (INR i / INR size)%R) in *. clearbody t. unfold lo, hi, valid_angle. clear - K T PP.
    destruct K as [-> | [-> | ->]]; cbn [of_rad String.eqb Ascii.eqb Bool.eqb].
    - left. split; [reflexivity | nra].
    - right. left. split; [reflexivity|]. replace (- (PI / 2) * (180 / PI))%R with (-90)%R by (field; lra). replace (PI / 2 * (180 / PI))%R with 90%R by (field; lra). nra.
    - right. right. split; [reflexivity|]. rewrite sin_neg, sin_PI2. nra. }
  destruct (proj1 (proj1 (placement_spec sg PG)) VG) as (s & Hs). exists l. fold sg. unfold new_estimator. rewrite Hs. eexists _, _. split; [exact El|]. split; [exact Ll | reflexivity].
Qed.
Example C83_example : exists g l e0 h1 (A P Rm : cmat) sp est e' h',
  mk_ULA 3 (D0Scalar 1) None no_kwargs = Ok g /\ mk_grid1d None None 180 "deg" = Ok (SGrid G1D [vec1 l] "deg" DFloat) /\
  new_estimator (gd_array g) 2 (SGrid G1D [vec1 l] "deg" DFloat) (find_peaks_simple peaks_ref) Prop_subspace.argsort_R true [] = Ok (e0, h1) /\
  steering_matrix (gd_array g) (FF1 (at_positions l [30; 100]) "deg") 2 false "all" true = Ok (Flat A, []) /\ pd P /\ ent P 0 1 <> RtoC 0 /\ exact_cov Rm A P 1 /\
  music_estimate P_oracles.eigh_ref 3 e0 h1 Rm 2 (Opts false false 10 3) = (Ok (Outcome true (Some est) sp), e', h') /\
  buf h' est = map (fun a => [a]) (at_positions l [30; 100]).
Proof.
  destruct (Prop_designs.C10_constructible 3 0 0 1 None) as ((g & Eg) & _). destruct (ULA_facts _ _ _ _ Eg) as (PL & X2 & X3 & X4 & _).
  assert (K : known_unit "deg") by (right; left; reflexivity).
  destruct (default_grid_estimator (gd_array g) 2 "deg" 180 (find_peaks_simple peaks_ref) Prop_subspace.argsort_R true [] K) as (l & e0 & h1 & El & Ll & HN).
  destruct (steering_defined (gd_array g) (FF1 (at_positions l [30; 100]) "deg") 2 "all" [] true ltac:(lra) X3 X4) as (A & HA);
    [rewrite (pl_ndim _ _ _ PL); lia | rewrite (pl_size _ _ _ PL), ULA_indices_length; lia | unfold select_perturbations, perturbations; now rewrite X2 | intros ? []|].
  set (P := (Mat 2 2 (fun i j => if Nat.eqb i j then RtoC 2 else RtoC 1) : cmat)).
  assert (HP : pd P).
  { split; [split; [reflexivity|]; intros i j _ _; cbn [P ent]; rewrite (Nat.eqb_sym j i); destruct (Nat.eqb i j); now rewrite Cconj_RtoC|].
    intros x (i & Hi & Nx). cbn [P nr] in Hi. assert (E : qform P x = RtoC (Cnorm2 (x 0%nat) + Cnorm2 (x 1%nat) + Cnorm2 (x 0%nat + x 1%nat)%C)%R).
    { unfold qform. cbn [P nr nc ent csum Nat.eqb]. unfold Cnorm2. destruct (x 0) as [a b], (x 1) as [a' b']. unfold Cconj, Cmult, Cplus, RtoC. cbn. f_equal; ring. }
    rewrite E. cbn [Re fst RtoC]. pose proof (Cnorm2_nonneg (x 0)). pose proof (Cnorm2_nonneg (x 1)). pose proof (Cnorm2_nonneg (x 0%nat + x 1%nat)%C).
    assert (0 < Cnorm2 (x i))%R. { destruct (Cnorm2_nonneg (x i)) as [L|L]; [exact L|]. exfalso. apply Nx. apply Cnorm2_0. now symmetry. }
    destruct i as [|[|]]; [| |lia]; lra. }
  assert (L2 : nc A = 2).
  { destruct (estimator_valid _ _ _ _ _ _ _ _ _ _ _ HN) as (_ & V). rewrite Forall_forall in V.
    assert (VT : valid_sources (FF1 (at_positions l [30; 100]) "deg")) by (split; [exact K|]; repeat (constructor; [apply V, nth_In; lia|]); constructor).
    destruct (response_1d g _ 1 _ 2 A PL X2 X3 VT eq_refl HA) as (_ & N & _). exact N. }
  destruct (C83_default_grid P_oracles.eigh_ref peaks_ref Prop_subspace.argsort_R 3 1 None 2 "deg" 180 true [] g _ e0 h1 e0 h1 [30; 100] A P (model_cov_P A P 1) 1 (Opts false false 10 3) Eg ltac:(lra) K El HN) as (sp & est & e' & h' & R1 & R2);
    try assumption; try lia.
  - constructor.
  - apply P_oracles.eigh_ref_contract.
  - exact peaks_ref_ok.
  - exact Prop_subspace.argsort_R_ok.
  - split; [repeat (constructor; [|repeat (constructor; [lia|]); constructor]); constructor | repeat (constructor; [lia|]); constructor].
  - cbn; lia.
  - split; [|split; [|reflexivity]]; cbn; congruence.
  - reflexivity.
  - exists g, l, e0, h1, A, P, (model_cov_P A P 1), None, est, e', h'. repeat (split; [assumption|]). split; [cbn; intros X; apply (f_equal Re) in X; cbn in X; lra|]. split; [split; [|split; [|reflexivity]]; cbn; congruence|]. split; [exact R1 | exact R2].
Qed.

Print Assumptions C83_music_on_ula.
Print Assumptions C83_default_grid.
Print Assumptions C84_coarray_music.
Print Assumptions C84_nested.
