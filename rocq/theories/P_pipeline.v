(** Facts about complete programs. *)
From Coq Require Import Lra Sorted Permutation.
From Verif Require Import Base_Np Base_Trig Base_Lin S_model M_utils S_utils P_utils M_sources S_sources P_sources M_array S_array P_array P_array2 P_array3 M_designs S_designs P_designs M_coarray S_coarray P_coarray P_coarray2 P_model
  M_grid S_grid P_grid M_core P_core P_core2 M_sparse M_subspace S_subspace P_subspace P_subspace5 M_pipeline S_pipeline Prop_subspace.
Open Scope nat_scope.

Lemma sorted_perm_eq l' : forall l, Permutation l l' -> StronglySorted le l -> StronglySorted lt l' -> l = l'.
Proof.
  induction l' as [|b l' IH]; intros l P S S'; [now apply Permutation_sym, Permutation_nil in P|].
  destruct l as [|a l]; [apply Permutation_nil in P; discriminate|]. apply StronglySorted_inv in S as (S & FA). apply StronglySorted_inv in S' as (S' & FB). rewrite Forall_forall in FA, FB.
  assert (E : a = b).
  { assert (Ia : In a (b :: l')) by (apply (Permutation_in _ P); now left). assert (Ib : In b (a :: l)) by (apply (Permutation_in _ (Permutation_sym P)); now left).
    destruct Ia as [|Ia]; [congruence|]. destruct Ib as [|Ib]; [congruence|]. apply FA in Ib. apply FB in Ia. lia. }
  subst b. f_equal. apply IH; [now apply Permutation_cons_inv in P | exact S | exact S'].
Qed.

(** *** the estimator object *)
Lemma new_estimator_ok arr lam g pf asort c h e h' : plain_grid g -> new_estimator arr lam g pf asort c h = Ok (e, h') ->
  est_ok e h' /\ e_grid e = g /\ e_atom e = default_atom arr lam /\ e_pf e = pf /\ e_argsort e = asort.
Proof.
  intros PG H. unfold new_estimator in H. apply bind_Ok_inv in H as (s & Hs & H). injection H as <- <-. cbn [e_grid e_pl e_atom e_pf e_argsort e_cache p_addr].
  destruct (placement_spec g PG) as (X & Y). split; [|repeat split]. split; [apply X; eauto|]. cbn [e_grid e_pl e_cache p_addr]. split; [rewrite app_length; cbn; lia|]. split; [|now left].
  unfold buf. cbn [p_addr]. rewrite app_nth2, Nat.sub_diag by lia. cbn [nth]. now apply Y.
Qed.
Lemma estimate_keeps {T} (e : estimator T) h f k o r e' h' : est_ok e h -> estimate e h f k o = (r, e', h') ->
  est_ok e' h' /\ e_grid e' = e_grid e /\ e_atom e' = e_atom e /\ e_pf e' = e_pf e /\ e_argsort e' = e_argsort e.
Proof.
  intros HO H. pose proof (estimate_heap e h f k o r e' h' H) as ((X1 & X2) & _).
  assert (E : (e' = e) \/ exists A, e' = set_cache e (Some A) /\ e_atom e (e_grid e) = Ok A).
  { rewrite estimate_eq in H. unfold get_atom_matrix in H. destruct HO as (_ & _ & _ & [Hc|(A & Hc & HA)]); rewrite Hc in H.
    - destruct (e_atom e (e_grid e)) as [A|x] eqn:EA.
      + destruct (e_caching e).
        * right. exists A. split; [|reflexivity]. destruct (estimate_from (set_cache e (Some A)) A h f k o) as [(oc, h2)|]; injection H as _ <- _; reflexivity.
        * left. destruct (estimate_from e A h f k o) as [(oc, h2)|]; injection H as _ <- _; reflexivity.
      + left. injection H as _ <- _. reflexivity.
    - left. destruct (estimate_from e A h f k o) as [(oc, h2)|]; injection H as _ <- _; reflexivity. }
  destruct HO as (V & Ha & Hb & Hc). destruct E as [->|(A & -> & HA)].
  - split; [|repeat split]. split; [exact V|]. split; [lia|]. split; [|exact Hc]. rewrite <- Hb. unfold buf. apply X2. exact Ha.
  - split; [|repeat split]. split; [exact V|]. cbn [set_cache e_pl e_grid e_cache e_atom]. split; [lia|]. split; [|right; eauto]. rewrite <- Hb. unfold buf. apply X2. exact Ha.
Qed.
Lemma music_reach_ok eigh m e0 h0 e h : est_ok e0 h0 -> music_reach eigh m e0 h0 e h ->
  est_ok e h /\ e_grid e = e_grid e0 /\ e_atom e = e_atom e0 /\ e_pf e = e_pf e0 /\ e_argsort e = e_argsort e0.
Proof.
  intros H0 R. induction R as [|e h Rm k o r e' h' R IH H]; [repeat (split; [assumption || reflexivity|]); reflexivity|].
  destruct IH as (I1 & I2 & I3 & I4 & I5). unfold music_estimate in H.
  match type of H with match ?t with _ => _ end = _ => destruct t as [En|x] end.
  - destruct (estimate_keeps _ _ _ _ _ _ _ _ I1 H) as (J1 & J2 & J3 & J4 & J5). repeat split; try congruence; apply J1.
  - injection H as _ <- <-. auto.
Qed.

(** *** steering matrices of uniform linear arrays *)
Definition zof (d lam : R) (u : string) (a : R) : C := cis (2 * PI / lam * d * sin (to_rad u a))%R.
Lemma ula_steering v m d u l lam : places_1d v (ULA_indices (Z.of_nat m)) d -> ar_perts (gd_array v) = [] -> scalar_isotropic (gd_array v) -> valid_sources (FF1 l u) -> 
  forall A, steering_matrix (gd_array v) (FF1 l u) lam false "all" true = Ok (Flat A, []) -> A ==m ula_matrix m (map (zof d lam u) l).
Proof.
  intros P Pe I V A H. destruct (response_1d _ _ _ _ _ _ P Pe I V eq_refl H) as (A1 & A2 & A3). rewrite ULA_indices_length, Nat2Z.id in A1, A3. cbn [src_size] in A2, A3.
  split; [exact A1|]. split; [cbn [ula_matrix nc]; rewrite map_length; exact A2|]. intros i j Hi Hj. rewrite A1 in Hi. rewrite A2 in Hj. rewrite A3 by assumption. cbn [ula_matrix ent direction fst].
  rewrite (nth_indep _ _ (zof d lam u 0)) by (rewrite map_length; exact Hj). rewrite map_nth. unfold zof. rewrite cpow_cis. f_equal. rewrite ULA_indices_nth by lia. rewrite <- INR_IZR_INZ. ring.
Qed.
Lemma steering_known a s lam : ar_perts a = [] -> steering_matrix a s lam false "known" true = steering_matrix a s lam false "all" true.
Proof. intros E. unfold steering_matrix, select_perturbations, perturbations. rewrite E. reflexivity. Qed.
Lemma zof_inj d lam u angles a b : (0 < d)%R -> (0 < lam)%R -> known_unit u -> Forall (valid_angle u) angles -> unambiguous d lam u angles -> In a angles -> In b angles ->
  zof d lam u a = zof d lam u b -> a = b.
Proof.
  intros Hd Hl K V (_ & U) Ia Ib E. rewrite Forall_forall in V. pose proof (to_rad_range _ _ (V a Ia)) as Ra. pose proof (to_rad_range _ _ (V b Ib)) as Rb. pose proof PI_RGT_0 as PP.
  assert (S : sin (to_rad u a) = sin (to_rad u b)).
  { set (x := sin (to_rad u a)) in *. set (y := sin (to_rad u b)) in *.
    assert (E' : cis (2 * PI / lam * d * (x - y))%R = RtoC 1).
    { replace (2 * PI / lam * d * (x - y))%R with (2 * PI / lam * d * x + - (2 * PI / lam * d * y))%R by ring. rewrite cis_plus, cis_opp. unfold zof in E. fold x y in E. rewrite E. rewrite <- cis_opp, <- cis_plus, Rplus_opp_r. apply cis_0. }
    assert (B : (Rabs (d * (x - y)) < lam)%R). { pose proof (U a b Ia Ib). pose proof (U b a Ib Ia). fold x y in H, H0. apply Rabs_def1; lra. }
    assert (C0 : cos (2 * PI / lam * d * (x - y)) = 1%R) by (apply (f_equal fst) in E'; exact E').
    set (t := (2 * PI / lam * d * (x - y))%R) in *.
    assert (T : (- (2 * PI) < t < 2 * PI)%R).
    { apply Rabs_def2 in B as (B1 & B2). replace t with ((2 * PI) * ((d * (x - y)) / lam))%R by (unfold t; field; lra).
      assert ((d * (x - y)) / lam < 1)%R by (apply (Rmult_lt_reg_r lam); [lra|]; unfold Rdiv; rewrite Rmult_assoc, Rinv_l by lra; lra).
      assert (-1 < (d * (x - y)) / lam)%R by (apply (Rmult_lt_reg_r lam); [lra|]; unfold Rdiv; rewrite Rmult_assoc, Rinv_l by lra; lra).
      split; nra. }
    assert (t = 0)%R.
    { replace t with (2 * (t / 2))%R in C0 by field. rewrite cos_2a_sin in C0. assert (Z : sin (t / 2) = 0%R) by nra.
      destruct (Rtotal_order t 0) as [L|[L|L]]; [|exact L|]; exfalso.
      - assert (0 < sin (- (t / 2)))%R by (apply sin_gt_0; lra). rewrite sin_neg in H. lra.
      - assert (0 < sin (t / 2))%R by (apply sin_gt_0; lra). lra. }
    unfold t in H. apply Rmult_integral in H as [H|H]; [|lra]. exfalso. assert (0 < 2 * PI / lam * d)%R; [|lra]. apply Rmult_lt_0_compat; [|exact Hd]. apply Rdiv_lt_0_compat; lra. }
  assert (T : to_rad u a = to_rad u b).
  { rewrite <- (asin_sin (to_rad u a)), <- (asin_sin (to_rad u b)) by lra. now rewrite S. }
  rewrite <- (of_to_rad u a), <- (of_to_rad u b) by (now apply V). now rewrite T.
Qed.

(** *** MUSIC on a uniform linear array *)
Lemma NoDup_map_in {A B} (f : A -> B) l : NoDup l -> (forall a b, In a l -> In b l -> f a = f b -> a = b) -> NoDup (map f l).
Proof.
  induction l as [|a l IH]; intros N H; [constructor|]. apply NoDup_cons_iff in N as (N1 & N2). cbn. constructor.
  - intros I. apply in_map_iff in I as (b & E & Ib). apply N1. rewrite <- (H b a); [exact Ib | now right | now left | exact E].
  - apply IH; [exact N2|]. intros; apply H; [now right | now right | assumption].
Qed.
Lemma sep_lt n truth : separated n truth -> StronglySorted lt truth /\ NoDup truth.
Proof.
  intros (S & _). induction S as [|a l S IH F]; [repeat constructor|]. destruct IH as (I1 & I2). rewrite Forall_forall in F. split.
  - constructor; [exact I1|]. apply Forall_forall. intros b Hb. apply F in Hb. lia.
  - constructor; [|exact I2]. intros H. apply F in H. lia.
Qed.
Lemma sep_gap n truth i j : separated n truth -> In i truth -> In j truth -> i <= j + 1 -> j <= i + 1 -> i = j.
Proof.
  intros (S & _). induction S as [|a l S IH F]; [intros []|]. rewrite Forall_forall in F. intros [<-|Hi] [<-|Hj] L1 L2; try reflexivity; [apply F in Hj; lia | apply F in Hi; lia | now apply IH].
Qed.
Lemma in_span_meq A B a : A ==m B -> (in_span A a <-> in_span B a).
Proof.
  intros E. assert (X : forall A B, A ==m B -> in_span A a -> in_span B a); [|split; apply X; [exact E | now symmetry]].
  clear. intros A B (E1 & E2 & E3) (x & Hx). exists x. intros i Hi. rewrite <- E1 in Hi. rewrite (Hx i Hi). unfold mvec. rewrite <- E2. apply csum_ext. intros j Hj. now rewrite E3.
Qed.

Lemma mk_FF1_is l u s : mk_FF1 (vec1 l) u = Ok s -> s = FF1 l u.
Proof.
  unfold mk_FF1. destruct (Nat.ltb 1 (nd_ndim (vec1 l))); [discriminate|]. destruct (dget String.eqb VALID_RANGES_1D u) as [(lb, ub)|]; [|discriminate].
  match goal with |- (if ?b then _ else _) = _ -> _ => destruct b; [discriminate|] end. intros H. injection H as <-. reflexivity.
Qed.
Lemma ula_grid_atoms v m d lam u angles dt : lam <> 0%R -> places_1d v (ULA_indices (Z.of_nat m)) d -> ar_perts (gd_array v) = [] -> scalar_isotropic (gd_array v) -> la_dt (ar_loc (gd_array v)) = DFloat -> 0 < m ->
  known_unit u -> Forall (valid_angle u) angles ->
  exists B, default_atom (gd_array v) lam (SGrid G1D [vec1 angles] u dt) = Ok B /\ B ==m ula_matrix m (map (zof d lam u) angles).
Proof.
  intros NZ P Pe I D Hm K V.
  assert (VG : valid_grid (SGrid G1D [vec1 angles] u dt)).
  { split; [split; [intros a [<-|[]]; reflexivity | reflexivity]|]. split; [exact K|]. intros idx Hi. cbn in Hi. destruct idx as [|i [|]]; try tauto. destruct Hi as (Hi & _). cbn [valid_pt sg_class sg_unit grid_point sg_ndim sg_axes List.length seq map nth].
    rewrite Forall_forall in V. apply V, nth_In. exact Hi. }
  assert (ES : create_source_placement (SGrid G1D [vec1 angles] u dt) = Ok (FF1 angles u)).
  { pose proof VG as (PG & _). destruct (placement_spec _ PG) as (X & _). destruct (proj1 X VG) as (s & Hs). rewrite Hs. f_equal. cbn [create_source_placement sg_class sg_axes sg_unit] in Hs. now apply mk_FF1_is in Hs. }
  destruct (steering_defined (gd_array v) (FF1 angles u) lam "all" [] true NZ I D) as (B & HB).
  - rewrite (pl_ndim _ _ _ P). lia.
  - rewrite (pl_size _ _ _ P), ULA_indices_length. lia.
  - unfold select_perturbations, perturbations. now rewrite Pe.
  - intros q [].
  - exists B. split; [unfold default_atom; rewrite ES; cbn [bind]; rewrite steering_known by exact Pe; rewrite HB; reflexivity|]. apply (ula_steering v m d u angles lam P Pe I (conj K V) B HB).
Qed.

Lemma exact_herm Rm A P s : exact_cov Rm A P s -> hermitian P -> hermitian Rm.
Proof.
  intros (E1 & E2 & E) HP. eapply hermitian_eq; [symmetry; exact E|]. apply hermitian_madd; [reflexivity| |apply hermitian_mscal, hermitian_mid].
  eapply hermitian_eq; [apply mmul_eq_l, mmul_eq_l, mher_mher|]. apply hermitian_congr; [|exact HP]. cbn. lia.
Qed.
Lemma default_finder_1d fp n truth : scipy_find_peaks fp -> separated n truth ->
  finds (find_peaks_simple fp) [n] (map (fun i => [i]) truth).
Proof.
  intros F (S & B) sp L H p Ip. cbn in L. rewrite Nat.mul_1_r in L. apply in_map_iff in Ip as (i & <- & Ii). rewrite Forall_forall in B. destruct (B i Ii) as (B1 & B2). destruct (F sp) as (_ & _ & X).
  unfold find_peaks_simple. cbn [List.length Nat.eqb]. apply in_map_iff. exists i. split; [reflexivity|].
  assert (Y : forall q, q < n -> i <= q + 1 -> q <= i + 1 -> q <> i -> (nth q sp 0 < nth i sp 0)%R).
  { intros q Q1 Q2 Q3 Q4. specialize (H [i] [q]). unfold at_idx in H. cbn [ravel prod_list fold_right] in H. rewrite !Nat.mul_1_r, !Nat.add_0_r in H. apply H.
    - apply in_map_iff. eauto.
    - cbn. auto.
    - intros [|[|j]]; cbn; lia.
    - congruence. }
  apply X; [lia | lia | apply Y; lia | apply Y; lia].
Qed.
Lemma music_ula eigh fp asort v m d lam u angles dt c h0 e0 h1 e h truth A P s Rm o :
  places_1d v (ULA_indices (Z.of_nat m)) d -> ar_perts (gd_array v) = [] -> scalar_isotropic (gd_array v) -> la_dt (ar_loc (gd_array v)) = DFloat ->
  (0 < d)%R -> (0 < lam)%R -> known_unit u -> Forall (valid_angle u) angles -> unambiguous d lam u angles ->
  new_estimator (gd_array v) lam (SGrid G1D [vec1 angles] u dt) (find_peaks_simple fp) asort c h0 = Ok (e0, h1) -> music_reach eigh m e0 h1 e h ->
  eigh_contract m eigh -> scipy_find_peaks fp -> (forall x, is_argsort x (asort x)) -> separated (List.length angles) truth -> 1 <= List.length truth < m ->
  steering_matrix (gd_array v) (FF1 (at_positions angles truth) u) lam false "all" true = Ok (Flat A, []) ->
  exact_cov Rm A P s -> pd P -> o_refine o = false ->
  exists sp est e' h', music_estimate eigh m e h Rm (Z.of_nat (List.length truth)) o = (Ok (Outcome true (Some est) (if o_spectrum o then Some sp else None)), e', h') /\
    buf h' est = map (fun a => [a]) (at_positions angles truth).
Proof.
  intros PL Pe Iso DT Hd Hl K V U HN HR EC FP AS SEP Hk HA HX HP Hr.
  assert (PG : plain_grid (SGrid G1D [vec1 angles] u dt)) by (split; [intros a [<-|[]]; reflexivity | reflexivity]).
  destruct (new_estimator_ok _ _ _ _ _ _ _ _ _ PG HN) as (O0 & G0 & T0 & F0 & S0). destruct (music_reach_ok _ _ _ _ _ _ O0 HR) as (HO & G1 & T1 & F1 & S1).
  rewrite G0 in G1. rewrite T0 in T1. rewrite F0 in F1. rewrite S0 in S1.
  destruct (ula_grid_atoms v m d lam u angles dt (Rgt_not_eq _ _ Hl) PL Pe Iso DT ltac:(lia) K V) as (B & EB & HB).
  pose proof (sep_lt _ _ SEP) as (SL & ND).
  assert (IB : forall i, In i truth -> i < List.length angles) by (destruct SEP as (_ & F); rewrite Forall_forall in F; intros i Hi; apply F in Hi; lia).
  assert (VT : Forall (valid_angle u) (at_positions angles truth)).
  { apply Forall_forall. intros a Ia. apply in_map_iff in Ia as (i & <- & Hi). rewrite Forall_forall in V. apply V, nth_In. now apply IB. }
  pose proof (ula_steering v m d u (at_positions angles truth) lam PL Pe Iso (conj K VT) A HA) as EA.
  set (z := zof d lam u) in *.
  assert (zi : forall i j, i < List.length angles -> j < List.length angles -> z (nth i angles 0%R) = z (nth j angles 0%R) -> i = j).
  { intros i j Hi Hj E. apply (zof_inj d lam u angles) in E; try assumption; [|now apply nth_In|now apply nth_In]. destruct U as (UN & _). apply (proj1 (NoDup_nth angles 0%R) UN); assumption. }
  set (zs := map z (at_positions angles truth)) in *.
  assert (NZ : NoDup zs).
  { unfold zs, at_positions. rewrite map_map. apply NoDup_map_in; [exact ND|]. intros i j Hi Hj. apply zi; now apply IB. }
  assert (LZ : List.length zs = List.length truth) by (unfold zs, at_positions; now rewrite !map_length).
  pose proof EA as (EA1 & EA2 & _). cbn [ula_matrix nr nc] in EA1, EA2. rewrite LZ in EA2.
  pose proof HB as (HB1 & HB2 & HB3). cbn [ula_matrix nr nc] in HB1, HB2, HB3. rewrite map_length in HB2.
  destruct (ex_dims Rm A P s HX) as (D1 & D2).
  destruct (EC Rm (exact_herm _ _ _ _ HX (proj1 HP)) ltac:(lia)) as (w & E & EE & OE).
  assert (HSh : sg_shape (e_grid e) = [List.length angles]) by (rewrite G1; reflexivity).
  destruct (C58_exact_recovery eigh e h Rm A B P s w E (map (fun i => [i]) truth) o) as (sp & est & chosen & e' & h' & R1 & R2 & R3 & R4).
  - exact HO.
  - rewrite T1, G1. exact EB.
  - congruence.
  - rewrite HB2. unfold sg_size. rewrite HSh. cbn. lia.
  - exact HX.
  - apply (Base_Lin.inj_eq (ula_matrix m zs)); [now symmetry|]. apply ula_inj; [exact NZ | lia].
  - exact HP.
  - lia.
  - exact EE.
  - exact OE.
  - apply NoDup_map_in; [exact ND|]. intros a b _ _ X. congruence.
  - rewrite map_length. congruence.
  - rewrite HSh. intros p Ip. apply in_map_iff in Ip as (i & <- & Hi). cbn. split; [now apply IB | exact I].
  - rewrite HSh. intros p Ip. cbn in Ip. destruct p as [|i [|]]; try tauto. destruct Ip as (Hi & _). cbn [ravel prod_list fold_right]. rewrite Nat.mul_1_r, Nat.add_0_r.
    rewrite (in_span_meq A (ula_matrix m zs)) by exact EA.
    assert (EQ : in_span (ula_matrix m zs) (col B i) <-> in_span (ula_matrix m zs) (fun r => cpow (z (nth i angles 0%R)) r)).
    { assert (X : forall r, r < m -> col B i r = cpow (z (nth i angles 0%R)) r).
      { intros r Hrr. unfold col. rewrite HB3 by lia. cbn [ula_matrix ent]. rewrite (nth_indep _ _ (z 0%R)) by (rewrite map_length; exact Hi). now rewrite map_nth. }
      split; intros (x & Hx); exists x; intros r Hrr; cbn [ula_matrix nr] in Hrr; [rewrite <- X by exact Hrr | rewrite X by exact Hrr]; apply Hx; exact Hrr. }
    rewrite EQ. rewrite ula_span by (exact NZ || lia). unfold zs, at_positions. rewrite map_map, !in_map_iff. split.
    + intros (j & Ej & Hj). exists j. split; [|exact Hj]. f_equal. apply zi in Ej; [exact Ej | now apply IB | exact Hi].
    + intros (j & Ej & Hj). injection Ej as ->. exists i. auto.
  - intros p q Ip Iq Ad. apply in_map_iff in Ip as (i & <- & Hi). apply in_map_iff in Iq as (j & <- & Hj). f_equal. specialize (Ad 0). cbn in Ad. apply (sep_gap _ _ i j SEP Hi Hj); lia.
  - rewrite HSh, F1. now apply default_finder_1d.
  - intros x p. rewrite F1, HSh. unfold find_peaks_simple. cbn [List.length Nat.eqb]. intros Lx Ip. apply in_map_iff in Ip as (i & <- & Hi). apply (FP x) in Hi. cbn in Lx |- *. lia.
  - intros x. rewrite F1, HSh. unfold find_peaks_simple. cbn [List.length Nat.eqb]. apply NoDup_map_in; [apply (FP x)|]. intros a b _ _ X. congruence.
  - intros x. rewrite S1. apply AS.
  - exact Hr.
  - rewrite EA1, EA2 in R1. exists sp, est, e', h'. split; [exact R1|]. rewrite R4.
    assert (CE : chosen = map (fun i => [i]) truth).
    { assert (X : map (ravel [List.length angles]) chosen = truth).
      { apply sorted_perm_eq; [|rewrite <- HSh; exact R3 | exact SL]. rewrite (Permutation_map _ R2). rewrite map_map. rewrite (map_ext _ (fun i => i)); [now rewrite map_id|]. intros i. cbn. lia. }
      rewrite <- X, map_map. rewrite <- (map_id chosen) at 1. apply map_ext_in. intros p Ip. apply (Permutation_in _ R2) in Ip. apply in_map_iff in Ip as (i & <- & _). cbn. f_equal. lia. }
    rewrite CE. unfold at_positions. rewrite !map_map. apply map_ext. intros i. rewrite G1. reflexivity.
Qed.
