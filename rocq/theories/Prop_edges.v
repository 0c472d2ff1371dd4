(** C111: what searches on one-dimensional grids cannot return: end points of the grid, adjacent grid points, and k sources on fewer than 2 k + 1 points. *)
From Coq Require Import Lra Lia Sorted Permutation.
From Verif Require Import Base_Np M_utils S_utils M_sources S_sources M_array M_designs M_grid S_grid P_grid M_core P_core0 P_core M_sparse M_subspace S_sparse S_offgrid Prop_grid.
From Verif Require Prop_subspace Prop_offgrid.
Open Scope nat_scope.

(** *** local maxima *)
Lemma local_max_inside x i : local_max x i -> 0 < i /\ S i < List.length x.
Proof. intros (l & r & H1 & H2 & -> & _). assert (l <= (l + r) / 2) by (apply Nat.div_le_lower_bound; lia). assert ((l + r) / 2 <= r) by (apply Nat.div_le_upper_bound; lia). lia. Qed.
Lemma local_max_apart x i j : local_max x i -> local_max x j -> i < j -> i + 2 <= j.
Proof.
  intros (l & r & H1 & H2 & Ei & H3 & H4 & H5) (l' & r' & H1' & H2' & Ej & H3' & H4' & H5') Hij. destruct (Nat.eq_dec j (S i)) as [E|]; [exfalso|lia].
  assert (L1 : l <= i) by (subst i; apply Nat.div_le_lower_bound; lia). assert (L2 : i <= r) by (subst i; apply Nat.div_le_upper_bound; lia).
  assert (L3 : l' <= j) by (subst j; apply Nat.div_le_lower_bound; lia). assert (L4 : j <= r') by (rewrite Ej; apply Nat.div_le_upper_bound; lia).
  destruct (Nat.eq_dec i r) as [Er|Nr].
  - (* j is the sample after the first plateau *)
    assert (A : (nth j x 0 < nth i x 0)%R) by (rewrite (H3 i) by lia; replace j with (S r) by lia; exact H5).
    destruct (Nat.eq_dec l' j) as [El|Nl]; [rewrite El in H4'; replace (j - 1) with i in H4' by lia; lra|].
    rewrite (H3' i), (H3' j) in A by lia. lra.
  - (* both lie on the first plateau *)
    assert (EV : nth l x 0%R = nth l' x 0%R) by (rewrite <- (H3 j), <- (H3' j) by lia; reflexivity).
    assert (El : l = l').
    { destruct (Nat.lt_trichotomy l l') as [L|[L|L]]; [exfalso|exact L|exfalso].
      - rewrite (H3 (l' - 1)) in H4' by lia. lra.
      - rewrite (H3' (l - 1)) in H4 by lia. lra. }
    assert (Er : r = r').
    { destruct (Nat.lt_trichotomy r r') as [L|[L|L]]; [exfalso|exact L|exfalso].
      - rewrite (H3' (S r)) in H5 by lia. lra.
      - rewrite (H3 (S r')) in H5' by lia. lra. }
    subst l' r'. lia.
Qed.
Lemma local_max_half x i j : local_max x i -> local_max x j -> (i - 1) / 2 = (j - 1) / 2 -> i = j.
Proof.
  intros Hi Hj E. pose proof (local_max_inside _ _ Hi). pose proof (local_max_inside _ _ Hj).
  pose proof (Nat.div_mod (i - 1) 2 ltac:(lia)). pose proof (Nat.div_mod (j - 1) 2 ltac:(lia)). pose proof (Nat.mod_upper_bound (i - 1) 2 ltac:(lia)). pose proof (Nat.mod_upper_bound (j - 1) 2 ltac:(lia)).
  destruct (Nat.lt_trichotomy i j) as [L|[L|L]]; [|exact L|]; [pose proof (local_max_apart _ _ _ Hi Hj L) | pose proof (local_max_apart _ _ _ Hj Hi L)]; lia.
Qed.
Lemma NoDup_map_in {X Y} (f : X -> Y) l : NoDup l -> (forall a b, In a l -> In b l -> f a = f b -> a = b) -> NoDup (map f l).
Proof.
  induction 1 as [|a l Na Nl IH]; intros HI; cbn [map]; constructor.
  - intros X0. apply in_map_iff in X0 as (b & E & Hb). apply HI in E; [subst; contradiction | now right | now left].
  - apply IH. intros b c Hb Hc. apply HI; now right.
Qed.
Lemma peaks_few fp x : scipy_local_maxima fp -> 0 < List.length x -> 2 * List.length (fp x) + 1 <= List.length x.
Proof.
  intros F Z. destruct (F x) as (ND & HF).
  assert (N : NoDup (map (fun i => (i - 1) / 2) (fp x))) by (apply NoDup_map_in; [exact ND|]; intros a b Ha Hb; apply local_max_half with x; now apply HF).
  pose proof (NoDup_incl_length N (l' := seq 0 ((List.length x - 1) / 2))) as L. rewrite map_length, seq_length in L.
  assert (2 * ((List.length x - 1) / 2) <= List.length x - 1) by (apply Nat.mul_div_le; lia).
  assert (List.length (fp x) <= (List.length x - 1) / 2); [|lia]. apply L. intros q Hq. apply in_map_iff in Hq as (i & <- & Hi). apply HF, local_max_inside in Hi. apply in_seq. split; [lia|]. cbn [Nat.add].
  assert (M : (i - 1) / 2 <= (List.length x - 3) / 2) by (apply Nat.div_le_mono; lia). replace (List.length x - 1) with (List.length x - 3 + 1 * 2) by lia. rewrite Nat.div_add by lia. lia.
Qed.

(** *** the estimates *)
(** Without refinement, whatever the spectrum: the k returned directions are grid points at ascending positions, no two of them adjacent, and neither the first nor the last grid point is among them *)
Theorem C111_inside_and_apart : forall (T : Type) (e : estimator T) h f (A : T) (sp : list R) k o find_peaks angles u dt est ret e' h',
  est_ok e h -> e_grid e = SGrid G1D [vec1 angles] u dt -> e_pf e = find_peaks_simple find_peaks -> scipy_local_maxima find_peaks -> (forall x, is_argsort x (e_argsort e x)) ->
  e_atom e (e_grid e) = Ok A -> f A = Ok sp -> List.length sp = List.length angles -> 1 <= k -> o_refine o = false ->
  estimate e h f (Z.of_nat k) o = (Ok (Outcome true (Some est) ret), e', h') ->
  exists idx, buf h' est = map (fun i => [nth i angles 0%R]) idx /\ List.length idx = k /\ StronglySorted (fun i j => i + 2 <= j) idx /\
    Forall (fun i => local_max sp i /\ 0 < i /\ S i < List.length angles) idx.
Proof.
  intros T e h f A sp k o fp angles u dt est ret e' h' HE Eg Ep F AS HA Hf HL Hk Ho ES.
  assert (SH : sg_shape (e_grid e) = [List.length angles]) by (rewrite Eg; reflexivity).
  assert (PK : e_pf e (sg_shape (e_grid e)) sp = map (fun i => [i]) (fp sp)) by (rewrite Ep, SH; reflexivity).
  destruct (F sp) as (ND & HF).
  destruct (C46_k_largest_peaks T e h f A sp k o HE HA Hf) as (e1 & U & V); try assumption.
  - unfold sg_size. rewrite SH. cbn. lia.
  - intros p Hp. rewrite PK in Hp. apply in_map_iff in Hp as (i & <- & Hi). apply HF, local_max_inside in Hi. rewrite SH. cbn. lia.
  - apply AS.
  - destruct (Nat.lt_ge_cases (List.length (e_pf e (sg_shape (e_grid e)) sp)) k) as [L|L]; [rewrite (U L) in ES; discriminate|].
    destruct (V L) as (est1 & h1 & ch & rest & E1 & P1 & P2 & P3 & P4 & _). rewrite E1 in ES. injection ES as -> _ _ ->. clear U V L E1.
    rewrite PK in P1. apply Permutation_sym in P1.
    assert (CH : forall a, In a ch -> exists i, a = [i] /\ In i (fp sp)).
    { intros a Ha. assert (I : In a (map (fun i => [i]) (fp sp))) by (apply (Permutation_in _ (Permutation_sym P1)); apply in_or_app; now left). apply in_map_iff in I as (i & <- & Hi). now exists i. }
    assert (EC : ch = map (fun i => [i]) (map (ravel [List.length angles]) ch)).
    { rewrite map_map. rewrite <- (map_id ch) at 1. apply map_ext_in. intros a Ha. destruct (CH a Ha) as (i & -> & _). cbn. f_equal. lia. }
    set (idx := map (ravel [List.length angles]) ch) in *. exists idx.
    assert (IN : forall i, In i idx -> local_max sp i).
    { intros i Hi. apply HF. destruct (CH [i]) as (i' & E & Hi'); [rewrite EC; exact (in_map (fun i => [i]) idx i Hi)|]. injection E as ->. exact Hi'. }
    assert (NC : NoDup idx).
    { assert (N1 : NoDup (ch ++ rest)) by (apply (Permutation_NoDup P1); apply NoDup_map_in; [exact ND|]; intros a b _ _ E; now injection E).
      apply (NoDup_map_inv (fun i => [i])). rewrite <- EC. clear -N1. induction ch as [|a ch IH]; [constructor|]. cbn in N1. inversion N1; subst. constructor; [|now apply IH]. intros X. apply H1. apply in_or_app. now left. }
    split; [|split; [unfold idx; rewrite map_length; exact P2 | split]].
    + rewrite P3, EC at 1. rewrite map_map. apply map_ext. intros i. rewrite Eg. reflexivity.
    + rewrite SH in P4. fold idx in P4. clear -IN NC P4. induction P4 as [|a l S1 IH S2]; constructor.
      * apply IH; [intros; apply IN; now right | now inversion NC].
      * rewrite Forall_forall in *. intros b Hb. apply (local_max_apart sp); [apply IN; now left | apply IN; now right|]. specialize (S2 b Hb). inversion NC; subst. assert (a <> b) by (intros ->; contradiction). lia.
    + apply Forall_forall. intros i Hi. apply IN in Hi. split; [exact Hi|]. apply local_max_inside in Hi. rewrite HL in Hi. exact Hi.
Qed.
(** k sources on fewer than 2 k + 1 grid points are never resolved, with or without refinement, whatever the spectrum and the state of the estimator *)
Theorem C111_too_few_points : forall (T : Type) (e : estimator T) h f k o find_peaks angles u dt oc e' h',
  e_grid e = SGrid G1D [vec1 angles] u dt -> e_pf e = find_peaks_simple find_peaks -> scipy_local_maxima find_peaks -> 1 <= k -> List.length angles < 2 * k + 1 ->
  estimate e h f (Z.of_nat k) o = (Ok oc, e', h') -> oc_resolved oc = false /\ oc_estimates oc = None /\ h' = h.
Proof.
  intros T e h f k o fp angles u dt oc e' h' Eg Ep F Hk Hn ES. unfold estimate in ES.
  destruct (get_atom_matrix e None) as [[A|x] e1] eqn:EA; [|discriminate].
  assert (G1 : e_grid e1 = e_grid e /\ e_pf e1 = e_pf e).
  { unfold get_atom_matrix in EA. destruct (e_cache e); [injection EA as _ <-; now split|]. destruct (e_atom e (e_grid e)); [|discriminate]. injection EA as _ <-. destruct (e_caching e); now split. }
  destruct G1 as (G1 & G2). unfold do_estimate_from in ES. rewrite G1, G2, Ep, Eg in ES. cbn [sg_shape sg_axes map vec1 nd_shape hd] in ES.
  destruct (f A) as [sp|x]; [|discriminate]. unfold find_peaks_simple in ES. cbn in ES.
  match type of ES with context [negb (Nat.eqb (List.length sp) ?n)] => replace n with (List.length angles) in ES by lia end.
  destruct (Nat.eqb_spec (List.length sp) (List.length angles)) as [E|E]; cbn [negb] in ES; [|discriminate].
  rewrite map_length in ES.
  assert (L : List.length (fp sp) < k).
  { destruct (Nat.lt_ge_cases 0 (List.length sp)) as [P|P]; [pose proof (peaks_few fp sp F P); lia|].
    destruct (fp sp) as [|q qs] eqn:EF; [cbn; lia|]. assert (I : local_max sp q) by (apply (proj2 (F sp)); rewrite EF; now left). apply local_max_inside in I. lia. }
  destruct (Z.ltb_spec (Z.of_nat (List.length (fp sp))) (Z.of_nat k)); [|lia]. injection ES as <- _ <-. repeat split.
Qed.
(** in particular by MUSIC, Min-Norm and the beamformers, whatever the covariance matrix and the linear algebra *)
Theorem C111_methods : forall (e : estimator cmat) h (Rm : cmat) k o find_peaks angles u dt eigh lstsq m,
  e_grid e = SGrid G1D [vec1 angles] u dt -> e_pf e = find_peaks_simple find_peaks -> scipy_local_maxima find_peaks -> 1 <= k -> List.length angles < 2 * k + 1 ->
  forall method, In method [music_estimate eigh m; min_norm_estimate eigh m; bartlett_estimate m; mvdr_estimate lstsq m] ->
    forall oc e' h', method e h Rm (Z.of_nat k) o = (Ok oc, e', h') -> oc_resolved oc = false /\ oc_estimates oc = None.
Proof.
  intros e h Rm k o fp angles u dt eigh lstsq m Eg Ep F Hk Hn method HM oc e' h' E.
  assert (G : forall f, estimate e h f (Z.of_nat k) o = (Ok oc, e', h') -> oc_resolved oc = false /\ oc_estimates oc = None).
  { intros f Ef. destruct (C111_too_few_points cmat e h f k o fp angles u dt oc e' h' Eg Ep F Hk Hn Ef) as (H1 & H2 & _). now split. }
  destruct HM as [<-|[<-|[<-|[<-|[]]]]]; [unfold music_estimate in E | unfold min_norm_estimate in E | unfold bartlett_estimate in E | unfold mvdr_estimate in E];
    match type of E with context [match ?X with Ok _ => _ | Raise _ => _ end] => destruct X as [En|x]; [|discriminate] end;
    try (destruct En as (? & [|]); [|discriminate]); eapply G; exact E.
Qed.
(** nor by the sparse estimators, which read their estimates from the solution of the optimisation problem in the same way *)
Theorem C111_sparse : forall pl find_peaks argsort h sp k ret_sp angles u dt oc h',
  scipy_local_maxima find_peaks -> 1 <= k -> List.length angles < 2 * k + 1 ->
  from_spectrum (SGrid G1D [vec1 angles] u dt) pl (find_peaks_simple find_peaks) argsort h sp (Z.of_nat k) ret_sp = (Ok oc, h') -> oc_resolved oc = false /\ oc_estimates oc = None.
Proof.
  intros pl fp argsort h sp k rs angles u dt oc h' F Hk Hn E. unfold from_spectrum in E.
  destruct (estimate _ h (fun _ => Ok sp) (Z.of_nat k) (Opts rs false 10 3)) as [[r e2] h2] eqn:ES. injection E as -> ->.
  eapply C111_too_few_points in ES; [|reflexivity|reflexivity|exact F|exact Hk|exact Hn]. destruct ES as (H1 & H2 & _). now split.
Qed.
(** and a spectrum that rises (or falls) over the whole grid, as with a source at one of its ends, has no peak at all *)
Theorem C111_monotone : forall (T : Type) (e : estimator T) h f (A : T) (sp : list R) k o find_peaks angles u dt,
  est_ok e h -> e_grid e = SGrid G1D [vec1 angles] u dt -> e_pf e = find_peaks_simple find_peaks -> scipy_local_maxima find_peaks ->
  e_atom e (e_grid e) = Ok A -> f A = Ok sp -> List.length sp = List.length angles -> 1 <= k -> StronglySorted Rle sp \/ StronglySorted Rge sp ->
  exists e', estimate e h f (Z.of_nat k) o = (Ok (Outcome false None (if o_spectrum o then Some sp else None)), e', h).
Proof.
  intros T e h f A sp k o fp angles u dt HE Eg Ep F HA Hf HL Hk HM.
  destruct (estimate_ok e h A f (Z.of_nat k) o HE HA) as (e' & He' & Eq). exists e'. rewrite Eq. clear Eq.
  assert (N : fp sp = []).
  { destruct (fp sp) as [|q qs] eqn:E; [reflexivity | exfalso]. assert (I : local_max sp q) by (apply (proj2 (F sp)); rewrite E; now left). destruct I as (l & r & H1 & H2 & _ & H3 & H4 & H5).
    assert (M : forall (Q : R -> R -> Prop), StronglySorted Q sp -> forall i j, i < j -> j < List.length sp -> Q (nth i sp 0%R) (nth j sp 0%R)).
    { clear. intros Q HS. induction HS as [|a s HS IH HF]; intros i j L J; [cbn in J; lia|]. destruct j as [|j]; [lia|]. cbn [List.length] in J. destruct i as [|i]; cbn [nth].
      - rewrite Forall_forall in HF. apply HF, nth_In. lia.
      - apply IH; lia. }
    destruct HM as [HM|HM]; pose proof (M _ HM) as X.
    - specialize (X r (S r) ltac:(lia) H2). rewrite (H3 r) in X by lia. lra.
    - specialize (X (l - 1) l ltac:(lia) ltac:(lia)). lra. }
  unfold estimate_from. rewrite Hf. cbn [bind]. rewrite Ep, Eg. cbn [sg_shape sg_axes map]. unfold find_peaks_simple. cbn. rewrite N. cbn.
  match goal with |- context [Nat.eqb (List.length sp) ?n] => replace n with (List.length angles) by lia end. rewrite HL, Nat.eqb_refl. cbn [negb].
  destruct (Z.ltb_spec 0 (Z.of_nat k)); [reflexivity | lia].
Qed.

(** ** The hypotheses can be met *)
(** three points suffice for one source inside the grid (the middle one is returned, as long as the spectrum peaks there), but not for a source at an end *)
Definition edge_est : estimator unit :=
  Est (SGrid G1D [vec1 [0; 1; 2]%R] "deg" DFloat) (Placement "FarField1DSourcePlacement" ["deg"%string] 0) (fun _ => Ok tt) (find_peaks_simple Prop_offgrid.local_maxima_ref) Prop_subspace.argsort_R false None.
Example C111_example : est_ok edge_est [[[0]; [1]; [2]]]%R /\ scipy_local_maxima Prop_offgrid.local_maxima_ref /\ (forall x, is_argsort x (Prop_subspace.argsort_R x)) /\
  (exists est e' h', estimate edge_est [[[0]; [1]; [2]]]%R (fun _ => Ok [0; 1; 0]%R) 1 (Opts false false 10 3) = (Ok (Outcome true (Some est) None), e', h') /\ buf h' est = [[1]]%R) /\
  (exists e', estimate edge_est [[[0]; [1]; [2]]]%R (fun _ => Ok [0; 1; 2]%R) 1 (Opts false true 10 3) = (Ok (Outcome false None None), e', [[[0]; [1]; [2]]]%R)) /\
  (exists e' oc, estimate edge_est [[[0]; [1]; [2]]]%R (fun _ => Ok [0; 1; 0]%R) 2 (Opts false false 10 3) = (Ok oc, e', [[[0]; [1]; [2]]]%R) /\ oc_resolved oc = false).
Proof.
  assert (HE : est_ok edge_est [[[0]; [1]; [2]]]%R).
  { destruct k0_valid as (H1 & H2 & H3 & _). split; [exact H1|]. split; [exact H2|]. split; [exact H3 | now left]. }
  pose proof Prop_offgrid.local_maxima_ref_ok as F. split; [exact HE|]. split; [exact F|]. split; [exact Prop_subspace.argsort_R_ok|]. split; [|split].
  - set (sp := [0; 1; 0]%R). assert (M1 : local_max sp 1) by (exists 1, 1; cbn; repeat split; try lia; try lra; intros j Hj; replace j with 1 by lia; reflexivity).
    destruct (C46_k_largest_peaks unit edge_est [[[0]; [1]; [2]]]%R (fun _ => Ok sp) tt sp 1 (Opts false false 10 3) HE eq_refl eq_refl eq_refl) as (e' & _ & H).
    + intros p Hp. cbn [edge_est e_pf e_grid sg_shape sg_axes map vec1 nd_shape hd] in Hp. unfold find_peaks_simple in Hp. cbn [Nat.eqb List.length] in Hp. apply in_map_iff in Hp as (i & <- & Hi). apply F, local_max_inside in Hi. cbn in *. lia.
    + apply Prop_subspace.argsort_R_ok.
    + lia.
    + reflexivity.
    + destruct H as (est & h' & ch & rest & E & _).
      { cbn [edge_est e_pf e_grid sg_shape sg_axes map vec1 nd_shape hd]. unfold find_peaks_simple. cbn [Nat.eqb List.length]. rewrite map_length. apply (proj2 (F sp)) in M1. destruct (Prop_offgrid.local_maxima_ref sp); [destruct M1 | cbn; lia]. }
      exists est, e', h'. split; [exact E|].
      destruct (C111_inside_and_apart unit edge_est _ _ tt sp 1 (Opts false false 10 3) Prop_offgrid.local_maxima_ref [0; 1; 2]%R "deg"%string DFloat est None e' h' HE eq_refl eq_refl F Prop_subspace.argsort_R_ok eq_refl eq_refl eq_refl (le_n _) eq_refl E) as (idx & B & L & _ & I).
      destruct idx as [|i [|]]; try discriminate L. inversion I as [|? ? (_ & I1 & I2) _]; subst. cbn [List.length] in I2. rewrite B. replace i with 1 by lia. reflexivity.
  - apply (C111_monotone unit edge_est [[[0]; [1]; [2]]]%R (fun _ => Ok [0; 1; 2]%R) tt [0; 1; 2]%R 1 (Opts false true 10 3) Prop_offgrid.local_maxima_ref [0; 1; 2]%R "deg"%string DFloat HE eq_refl eq_refl F eq_refl eq_refl eq_refl (le_n _)).
    left. repeat (constructor; [|repeat (constructor; try lra)]). constructor.
  - set (sp := [0; 1; 0]%R).
    destruct (C46_k_largest_peaks unit edge_est [[[0]; [1]; [2]]]%R (fun _ => Ok sp) tt sp 2 (Opts false false 10 3) HE eq_refl eq_refl eq_refl) as (e' & H & _).
    + intros p Hp. cbn [edge_est e_pf e_grid sg_shape sg_axes map vec1 nd_shape hd] in Hp. unfold find_peaks_simple in Hp. cbn [Nat.eqb List.length] in Hp. apply in_map_iff in Hp as (i & <- & Hi). apply F, local_max_inside in Hi. cbn in *. lia.
    + apply Prop_subspace.argsort_R_ok.
    + lia.
    + reflexivity.
    + eexists e', _. split; [apply H | reflexivity]. cbn [edge_est e_pf e_grid sg_shape sg_axes map vec1 nd_shape hd]. unfold find_peaks_simple. cbn [Nat.eqb List.length]. rewrite map_length.
      pose proof (peaks_few _ sp F ltac:(cbn; lia)) as X. cbn [sp List.length] in X. lia.
Qed.
Print Assumptions C111_inside_and_apart. Print Assumptions C111_too_few_points. Print Assumptions C111_methods. Print Assumptions C111_sparse. Print Assumptions C111_monotone.
