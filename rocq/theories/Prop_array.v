(** Properties C18-C29 (perturbations and steering matrices). *)
From Coq Require Import Lra.
From Verif Require Import Base_Np Base_Trig M_utils S_utils P_utils M_sources S_sources P_sources P_sources2 M_array S_array P_array P_array2 P_array3
  M_designs S_designs P_designs P_designs2 M_heap S_heap P_heap.
Open Scope nat_scope.

(** C18 *)
Lemma applicable_fits p a : is_applicable_to p a = Ok true <-> fits p a.
Proof.
  destruct p; simpl; unfold is_scalar; split; intros H; try discriminate H; try contradiction H;
    try (injection H as H; try (apply andb_true_iff in H as (H & H1); apply Nat.eqb_eq in H, H1; auto); apply Nat.eqb_eq in H; auto);
    try (rewrite H, Nat.eqb_refl; reflexivity); destruct H as (-> & ->); now rewrite !Nat.eqb_refl.
Qed.
Theorem C18_construction : forall dt (m : ndarr R) name ps el, no_base ps ->
  (exists n d, nd_shape m = [n; d] /\ d <= 3) ->
  match mk_ArrayDesign dt m name (PList ps) el with
  | Ok a => NoDup (map class_of ps) /\ (forall p, In p ps -> fits p a) /\ perturbations a = ps /\
            ar_name a = name /\ ar_elem a = el /\ la_m (ar_loc a) = nd_mat 0%R m /\ wf_array a
  | Raise e => e = RuntimeError /\ ~ (NoDup (map class_of ps) /\ forall p, In p ps -> fits p (Array (LArr dt (nd_mat 0%R m)) name el []))
  end.
Proof.
  intros dt m name ps el B (n & d & E & Hd). unfold mk_ArrayDesign. rewrite E. destruct (Nat.ltb_spec 3 d); [lia|]. cbn [bind parse_input_perturbations].
  set (a0 := Array _ name el []). destruct (add_perturbation_from_list a0 ps true) as [a|e] eqn:H0.
  - pose proof (add_pert_frame _ _ _ _ H0) as F. pose proof (add_pert_strict _ _ _ H0) as (S1 & S2 & S3 & S4).
    destruct F as (F1 & F2 & F3). split; [exact S4|]. split.
    { intros p Hp. apply applicable_fits. rewrite <- (S2 p Hp). apply applicable_ext; auto. }
    split; [unfold perturbations; rewrite S1; cbn; unfold dvals; rewrite map_map; apply map_id|]. rewrite F1, F2, F3. repeat (split; [reflexivity|]).
    exact (add_pert_wf _ _ _ _ (wf_empty _ _ _) H0).
  - split; [exact (add_pert_error _ _ _ _ B H0)|]. intros (N & Fi). destruct (add_pert_complete ps a0) as (b & Hb); [| |exact N|congruence].
    + intros p Hp. now apply applicable_fits, Fi.
    + reflexivity.
Qed.
(** after any chain of copies: at most one per type, each applicable *)
Theorem C18_chain : forall a b, wf_array a -> derived a b -> wf_array b /\ ar_loc b = ar_loc a /\ ar_elem b = ar_elem a /\
  NoDup (map class_of (perturbations b)) /\ forall p, In p (perturbations b) -> fits p b.
Proof.
  intros a b W D.
  assert (G : wf_array b /\ ar_loc b = ar_loc a /\ ar_elem b = ar_elem a).
  { induction D as [|b nm D (W1 & E1 & E2)|b ps nm c D (W1 & E1 & E2) H].
    - auto.
    - split; [apply wf_empty | auto].
    - unfold get_perturbed_copy in H. apply bind_Ok_inv in H as (l & _ & H). pose proof (add_pert_frame _ _ _ _ H) as (F1 & F2 & F3).
      cbn in F1, F3. split; [|split; congruence]. refine (add_pert_wf _ _ _ _ _ H). destruct W1 as [K1 K2 K3]. constructor; [exact K1 | exact K2|].
      intros c0 p Hp. rewrite <- (K3 c0 p Hp). now apply applicable_ext. }
  destruct G as (W1 & E1 & E2). split; [exact W1|]. split; [exact E1|]. split; [exact E2|]. destruct W1 as [K1 K2 K3]. split.
  - replace (map class_of (perturbations b)) with (dkeys (ar_perts b)); [exact K1|]. unfold perturbations, dkeys, dvals. rewrite map_map. apply map_ext_in.
    intros (c, p) Hp. symmetry. exact (K2 c p Hp).
  - intros p Hp. apply applicable_fits. unfold perturbations, dvals in Hp. apply in_map_iff in Hp as ((c, q) & <- & Hq). exact (K3 c q Hq).
Qed.
(** the new perturbation of each type wins, the others are kept *)
Theorem C18_override : forall a ps nm b c, get_perturbed_copy a (PList ps) nm = Ok b ->
  dget pclass_eqb (ar_perts b) c = match last_of ps c with Some p => Some p | None => dget pclass_eqb (ar_perts a) c end.
Proof. intros a ps nm b c H. unfold get_perturbed_copy in H. cbn [parse_input_perturbations bind] in H. exact (add_pert_dget _ _ _ _ c H). Qed.
(** perturbations given as a dictionary of (parameters, known): the same as the list of the perturbations the keys stand for *)
Inductive dict_entry : string * (dtype * arglike C * bool) -> pert -> Prop :=
| DE_loc dt v n d kn : nd_shape (arg_arr v) = [n; d] -> 1 <= d <= 3 -> dict_entry ("location_errors"%string, (dt, v, kn)) (LocErr (LArr dt (Mat n d (fun i j => nth (i * d + j) (map Re (nd_data (arg_arr v))) 0%R))) kn)
| DE_gain dt x n kn : nd_shape x = [n] -> dict_entry ("gain_errors"%string, (dt, NdArray x, kn)) (GainErr (map Re (nd_data x)) kn)
| DE_phase dt x n kn : nd_shape x = [n] -> dict_entry ("phase_errors"%string, (dt, NdArray x, kn)) (PhaseErr (map Re (nd_data x)) kn)
| DE_coup dt v n kn : nd_shape (arg_arr v) = [n; n] -> dict_entry ("mutual_coupling"%string, (dt, v, kn)) (Coupling (arg_arr v) kn).
Theorem C18_dictionary : forall d ps, Forall2 dict_entry d ps ->
  (forall dt m name el, mk_ArrayDesign dt m name (PDict d) el = mk_ArrayDesign dt m name (PList ps) el) /\
  (forall a nm, get_perturbed_copy a (PDict d) nm = get_perturbed_copy a (PList ps) nm).
Proof.
  intros d ps H. assert (E : parse_input_perturbations (PDict d) = parse_input_perturbations (PList ps)).
  { cbn [parse_input_perturbations]. induction H as [|kv p d ps H F IH]; [reflexivity|]. cbn [mapM]. rewrite IH.
    assert (Q : parse_one kv = Ok p).
    { destruct H as [dt v n dd kn Hs Hd | dt x n kn Hs | dt x n kn Hs | dt v n kn Hs]; cbn [parse_one String.eqb Ascii.eqb Bool.eqb].
      - unfold mk_LocationErrors. assert (S1 : nd_shape (arg_arr (re_arg v)) = [n; dd]) by (destruct v; exact Hs). assert (S2 : nd_data (arg_arr (re_arg v)) = map Re (nd_data (arg_arr v))) by (destruct v; reflexivity).
        unfold nd_ndim, nd_mat. rewrite S1, S2. cbn [List.length Nat.eqb negb nth]. destruct (Nat.ltb_spec dd 1); [lia|]. destruct (Nat.ltb_spec 3 dd); [lia|]. reflexivity.
      - unfold mk_GainErrors, nd_ndim. cbn [re_arg is_ndarray arg_arr nd_shape nd_data negb]. rewrite Hs. reflexivity.
      - unfold mk_PhaseErrors, nd_ndim. cbn [re_arg is_ndarray arg_arr nd_shape nd_data negb]. rewrite Hs. reflexivity.
      - unfold mk_MutualCoupling, nd_ndim. rewrite Hs. reflexivity. }
    rewrite Q. reflexivity. }
  split; intros; [unfold mk_ArrayDesign | unfold get_perturbed_copy]; rewrite E; reflexivity.
Qed.
Example C18_dictionary_example : Forall2 dict_entry [("gain_errors"%string, (DFloat, NdArray (Nd [2] [RtoC 1; RtoC 2]), true))] [GainErr [1; 2]%R true].
Proof. constructor; [exact (DE_gain DFloat (Nd [2] [RtoC 1; RtoC 2]) 2 true eq_refl) | constructor]. Qed.
(** the queries: has_perturbation tells whether there is a perturbation of the class, is_perturbation_known returns its flag and raises KeyError when there is none *)
Theorem C18_queries : forall a c, wf_array a ->
  (has_perturbation a c = true <-> exists p, In p (perturbations a) /\ class_of p = c) /\
  (forall p, In p (perturbations a) -> class_of p = c -> is_perturbation_known a c = Ok (is_known p)) /\
  ((forall p, In p (perturbations a) -> class_of p <> c) -> is_perturbation_known a c = Raise KeyError).
Proof.
  intros a c [WK WC _]. assert (SP : forall x y : pclass, pclass_eqb x y = true <-> x = y) by (intros [] []; cbn; split; congruence).
  assert (IN : forall p, In p (perturbations a) -> In (class_of p, p) (ar_perts a)).
  { intros p Hp. unfold perturbations, dvals in Hp. apply in_map_iff in Hp as ((c', q) & E & Hq). cbn in E. subst q. rewrite (WC _ _ Hq). exact Hq. }
  assert (GET : forall p, In (c, p) (ar_perts a) -> dget pclass_eqb (ar_perts a) c = Some p).
  { clear WC IN. revert WK. generalize (ar_perts a). induction l as [|(k, v) l IH]; intros ND p Hp; [destruct Hp|]. cbn [dget]. inversion ND as [|? ? N1 N2]; subst. destruct Hp as [E|Hp].
    - injection E as -> ->. rewrite (proj2 (SP c c) eq_refl). reflexivity.
    - destruct (pclass_eqb c k) eqn:E; [|exact (IH N2 p Hp)]. apply SP in E. subst k. exfalso. apply N1. unfold dkeys. apply in_map_iff. exists (c, p). auto. }
  assert (NONE : (forall p, In p (perturbations a) -> class_of p <> c) -> dget pclass_eqb (ar_perts a) c = None).
  { intros H. destruct (dget pclass_eqb (ar_perts a) c) as [p|] eqn:E; [|reflexivity]. exfalso. apply (dget_In pclass_eqb SP) in E. apply (H p); [|exact (WC _ _ E)]. unfold perturbations, dvals. apply in_map_iff. exists (c, p). auto. }
  split; [|split].
  - unfold has_perturbation, dmem. split.
    + destruct (dget pclass_eqb (ar_perts a) c) as [p|] eqn:E; [|discriminate]. intros _. apply (dget_In pclass_eqb SP) in E. exists p. split; [|exact (WC _ _ E)]. unfold perturbations, dvals. apply in_map_iff. exists (c, p). auto.
    + intros (p & Hp & <-). rewrite (GET p (IN p Hp)). reflexivity.
  - intros p Hp <-. unfold is_perturbation_known. rewrite (GET p (IN p Hp)). reflexivity.
  - intros H. unfold is_perturbation_known. rewrite (NONE H). reflexivity.
Qed.
Theorem C18_copy_decision : forall a ps nm, no_base ps ->
  match get_perturbed_copy a (PList ps) nm with
  | Ok b => (forall p, In p ps -> fits p a) /\ ar_name b = match nm with Some n => n | None => ar_name a end
  | Raise e => e = RuntimeError /\ ~ forall p, In p ps -> fits p a
  end.
Proof.
  intros a ps nm B. unfold get_perturbed_copy. cbn [parse_input_perturbations bind]. set (a0 := set_perts _ _).
  destruct (add_perturbation_from_list a0 ps false) as [b|e] eqn:H0.
  - pose proof (add_pert_frame _ _ _ _ H0) as (F1 & F2 & F3). split; [|rewrite F2; unfold a0; destruct nm; reflexivity].
    assert (G : forall q x y, add_perturbation_from_list x q false = Ok y -> forall p, In p q -> fits p x).
    { induction q as [|p0 q IH]; intros x y Hq p Hp; [destruct Hp|]. cbn [add_perturbation_from_list] in Hq. apply bind_Ok_inv in Hq as (ap & Ha & Hq).
      destruct ap; [|discriminate]. cbn [negb] in Hq. rewrite andb_false_r in Hq. destruct Hp as [<-|Hp]; [now apply applicable_fits|].
      apply applicable_fits. rewrite <- (proj2 (applicable_fits _ _) (IH _ _ Hq p Hp)). now apply applicable_ext. }
    intros p Hp. pose proof (G _ _ _ H0 p Hp) as Fp. apply applicable_fits. rewrite <- (proj2 (applicable_fits _ _) Fp). now apply applicable_ext.
  - split; [exact (add_pert_error _ _ _ _ B H0)|]. intros Fi. destruct (add_pert_override ps a0 B) as (b & Hb); [|congruence].
    intros p Hp. rewrite <- (proj2 (applicable_fits _ _) (Fi p Hp)). now apply applicable_ext.
Qed.
(** the public abstract class cannot be used as a perturbation: is_applicable_to does not return a pair *)
Theorem C18_base_class_defect : exists dt m name el k, mk_ArrayDesign dt m name (PList [BasePert k]) el = Raise TypeError.
Proof. exists DFloat, (Nd [1; 1] [0%R]), "x"%string, ISOTROPIC_SCALAR_SENSOR, true. reflexivity. Qed.
Example C18_example : exists a b, mk_ArrayDesign DFloat (Nd [2; 1] [0; 1]%R) "x" (PList [GainErr [0; 0.1]%R true; PhaseErr [0; 0.2]%R false]) ISOTROPIC_SCALAR_SENSOR = Ok a /\
  get_perturbed_copy a (PList [GainErr [0; 0.3]%R false]) None = Ok b /\ perturbations b = [GainErr [0; 0.3]%R false; PhaseErr [0; 0.2]%R false].
Proof. eexists _, _. split; [reflexivity|]. split; reflexivity. Qed.
Print Assumptions C18_chain.

(** C19: what an array reports never changes, whatever later actions do, as long as nobody writes into the very
    location array it was built from *)
Theorem C19_original_unchanged : forall acts h n o a, wf_heap h -> nth_error (h_objs h) n = Some o -> obs h n = Some a ->
  ~ writes_to acts (o_loc o) -> obs (snd (run h acts)) n = Some a.
Proof. intros acts h n o a W E O N. apply (run_obs acts h n o a W E O). now intros b ->. Qed.
Theorem C19_copies : forall h n a, wf_heap h -> obs h n = Some a ->
  (forall ps nm r h', step h (APerturbedCopy n ps nm) = (r, h') ->
     match get_perturbed_copy a (PList ps) nm with
     | Ok b => exists n', r = RObj n' /\ n' <> n /\ obs h' n' = Some b
     | Raise e => r = RErr e
     end) /\
  (forall nm r h', step h (AFreeCopy n nm) = (r, h') ->
     exists n', r = RObj n' /\ n' <> n /\ obs h' n' = Some (get_perturbation_free_copy a nm)).
Proof. intros h n a W O. split; intros; [eapply perturbed_copy_obs; eauto | eapply free_copy_obs; eauto]. Qed.
Theorem C19_reachable : forall acts, wf_heap (snd (run (Heap [] [] []) acts)).
Proof. intros acts. apply run_wf. split; cbn; [intros ? []|intros ? ? []|intros ? []|apply NoDup_nil]. Qed.
Example C19_example : exists h,
  h = snd (run (Heap [] [] []) [AAlloc (LArr DFloat (Mat 2 1 (fun i _ => INR i))); ANew 0 None "x" [GainErr [0; 1]%R true] ISOTROPIC_SCALAR_SENSOR;
       APerturbedCopy 0 [PhaseErr [0; 1]%R true] None; AFreeCopy 1 (Some "y"%string)]) /\
  option_map perturbations (obs h 0) = Some [GainErr [0; 1]%R true] /\
  option_map perturbations (obs h 1) = Some [GainErr [0; 1]%R true; PhaseErr [0; 1]%R true] /\
  option_map perturbations (obs h 2) = Some [].
Proof. eexists. split; [reflexivity|]. repeat split. Qed.
Print Assumptions C19_original_unchanged.

(** C20 *)
Theorem C20_reads_are_copies : forall acts h, wf_heap h -> reads_and_writes h [] acts ->
  forall n a, obs h n = Some a -> obs (snd (run h acts)) n = Some a /\ obs_indices (snd (run h acts)) n = obs_indices h n.
Proof. intros acts h W D. apply (reads_writes_safe acts h [] W); [|exact D]. split; [intros b []|intros b o []]. Qed.
Theorem C20_values : forall h n a r h', wf_heap h -> obs h n = Some a ->
  (step h (AReadLocations n) = (r, h') -> exists b, r = RBuf b /\ get_buf h' b = ar_loc a) /\
  (step h (AReadActual n) = (r, h') -> match actual_element_locations a with Ok l => exists b, r = RBuf b /\ get_buf h' b = l | Raise e => r = RErr e end).
Proof. exact reads_obs. Qed.
(** without location errors actual_element_locations hands out the internal array *)
Theorem C20_actual_locations_aliased_defect : exists h a b i j x,
  wf_heap h /\ obs h 0 = Some a /\ fst (step h (AReadActual 0)) = RBuf b /\
  obs (snd (run h [AReadActual 0; AWrite b i j x])) 0 <> Some a.
Proof.
  set (l := LArr DFloat (Mat 1 1 (fun _ _ => 0%R))).
  exists (snd (run (Heap [] [] []) [AAlloc l; ANew 0 None "x" [] ISOTROPIC_SCALAR_SENSOR])), (Array l "x" ISOTROPIC_SCALAR_SENSOR []), 0, 0, 0, 1%R.
  split; [apply C19_reachable|]. split; [reflexivity|]. split; [reflexivity|]. cbn. intros H. injection H as H.
  apply (f_equal (fun f => f 0 0)) in H. cbn in H. lra.
Qed.
Example C20_example : exists h, h = snd (run (Heap [] [] []) [AAlloc (LArr DFloat (Mat 1 1 (fun _ _ => 0%R)));
     ANew 0 None "x" [LocErr (LArr DFloat (Mat 1 1 (fun _ _ => 1%R))) true] ISOTROPIC_SCALAR_SENSOR]) /\ wf_heap h /\
  reads_and_writes h [] [AReadLocations 0; AReadActual 0; AWrite 1 0 0 5%R; AWrite 2 0 0 7%R].
Proof.
  eexists. split; [reflexivity|]. split; [apply C19_reachable|]. cbn. split; [exact I|]. split; [|split; [auto|split; [auto | exact I]]].
  eexists _, _, _. split; [reflexivity|]. cbn. left. reflexivity.
Qed.
Print Assumptions C20_reads_are_copies.

(** C21 *)
Definition keep_perts (f : pert -> bool) (a : array) : array :=
  set_perts a (filter (fun cp => f (snd cp)) (ar_perts a)).
Theorem C21_known : forall a s lam der fl, steering_matrix a s lam der "known" fl = steering_matrix (keep_perts is_known a) s lam der "all" fl.
Proof.
  intros a s lam der fl. unfold steering_matrix, select_perturbations. cbn [String.eqb Ascii.eqb Bool.eqb bind].
  assert (E : filter is_known (perturbations a) = perturbations (keep_perts is_known a)).
  { unfold perturbations, keep_perts, dvals. cbn [set_perts ar_perts]. induction (ar_perts a) as [|(c, p) q IH]; [reflexivity|].
    cbn. destruct (is_known p); cbn; now rewrite IH. }
  rewrite E. reflexivity.
Qed.
Theorem C21_none : forall a s lam der fl nm sel, sel = "all"%string \/ sel = "known"%string \/ sel = "none"%string ->
  steering_matrix a s lam der "none" fl = steering_matrix (get_perturbation_free_copy a nm) s lam der sel fl.
Proof. intros a s lam der fl nm sel [->|[->| ->]]; reflexivity. Qed.
Theorem C21_other : forall a s lam der fl sel, sel <> "all"%string -> sel <> "known"%string -> sel <> "none"%string ->
  steering_matrix a s lam der sel fl = Raise ValueError.
Proof.
  intros a s lam der fl sel H1 H2 H3. unfold steering_matrix, select_perturbations.
  apply String.eqb_neq in H1, H2, H3. now rewrite H1, H2, H3.
Qed.
Theorem C21_all_known : forall a s lam der fl, (forall p, In p (perturbations a) -> is_known p = true) ->
  steering_matrix a s lam der "known" fl = steering_matrix a s lam der "all" fl.
Proof.
  intros a s lam der fl H. unfold steering_matrix, select_perturbations. cbn [String.eqb Ascii.eqb Bool.eqb bind].
  replace (filter is_known (perturbations a)) with (perturbations a); [reflexivity|]. symmetry.
  induction (perturbations a) as [|p q IH]; [reflexivity|]. cbn. rewrite H by now left. f_equal. apply IH. intros x Hx. apply H. now right.
Qed.
(** together with C22, 'all' applies every registered perturbation *)
Theorem C21_selection : forall a, select_perturbations a "all" = Ok (perturbations a) /\
  (exists ps, select_perturbations a "known" = Ok ps /\ forall p, In p ps <-> In p (perturbations a) /\ is_known p = true) /\
  select_perturbations a "none" = Ok [].
Proof.
  intros a. split; [reflexivity|]. split; [|reflexivity]. eexists. split; [reflexivity|]. intros p. apply filter_In.
Qed.
Print Assumptions C21_known.

(** C22 *)
Theorem C22_formula : forall a s lam der sel fl St DA, wf_array a -> scalar_isotropic a -> valid_sources s ->
  steering_matrix a s lam der sel fl = Ok (St, DA) ->
  exists ps L A, select_perturbations a sel = Ok ps /\ moved ps (la_m (ar_loc a)) L /\
    St = Flat A /\ A ==m perturbed ps (response s lam L).
Proof.
  intros a s lam der sel fl St DA W Iso V H.
  destruct (steering_scalar_inv a s lam der sel fl St DA W Iso H) as (ps & L & T & DT & A & H1 & H2 & H3 & H4 & H5 & H6 & H7 & H8 & _).
  exists ps, (la_m L), A. split; [exact H1|]. split; [exact H3|]. split; [exact H7|].
  etransitivity; [exact H8|]. pose proof (mmap_cis_response _ _ _ _ _ _ V H4) as E.
  apply perturbed_ext; [exact E|]. cbn [mmap nr]. rewrite H5, (mv_rows _ _ _ H3). intros p Hp. destruct (H6 p Hp). auto.
Qed.
Theorem C22_defined : forall a s lam sel ps fl, lam <> 0%R -> scalar_isotropic a -> la_dt (ar_loc a) = DFloat -> 1 <= ar_ndim a <= 3 -> 0 < ar_size a ->
  select_perturbations a sel = Ok ps -> (forall p, In p ps -> proper_pert (ar_size a) p) ->
  exists A, steering_matrix a s lam false sel fl = Ok (Flat A, []).
Proof. exact steering_defined. Qed.
(** a zero wavelength is rejected, whatever the array and the sources *)
Theorem C22_zero_wavelength : forall a s der sel fl, exists e, steering_matrix a s 0%R der sel fl = Raise e.
Proof. intros a s der sel fl. destruct (steering_matrix a s 0%R der sel fl) as [r|e] eqn:E; [|now exists e]. exfalso. exact (steering_nonzero _ _ _ _ _ _ _ E eq_refl). Qed.
Theorem C22_unit_modulus : forall a s lam der fl St DA, wf_array a -> scalar_isotropic a -> valid_sources s ->
  steering_matrix a s lam der "none" fl = Ok (St, DA) ->
  exists A, St = Flat A /\ nr A = ar_size a /\ nc A = src_size s /\
    (forall i k, i < ar_size a -> k < src_size s -> Cmod (ent A i k) = 1%R) /\
    forall k, 0 < ar_size a -> k < src_size s -> (forall c, coord (la_m (ar_loc a)) 0 c = 0%R) -> ent A 0 k = RtoC 1.
Proof.
  intros a s lam der fl St DA W Iso V H.
  destruct (C22_formula _ _ _ _ _ _ _ _ W Iso V H) as (ps & L & A & H1 & H2 & H3 & H4). injection H1 as <-. exists A. split; [exact H3|].
  cbn in H4. destruct H4 as (E1 & E2 & E3). cbn in E1, E2. rewrite (mv_rows _ _ _ H2) in E1. fold (ar_size a) in E1.
  split; [exact E1|]. split; [exact E2|]. split.
  - intros i k Hi Hk. rewrite E3 by (rewrite ?E1, ?E2; assumption). apply cis_mod.
  - intros k Hi Hk Z. rewrite E3 by (rewrite ?E1, ?E2; assumption). cbn.
    assert (Z' : forall c, coord L 0 c = 0%R) by (intros c; rewrite (mv_coord _ _ _ H2 0 c Hi), Z; cbn; ring).
    rewrite <- cis_0. f_equal. unfold source_phase. destruct s; unfold plane_phase; [destruct (direction _ _) as ((x, y), z)|destruct (direction _ _) as ((x, y), z)|]; rewrite ?Z'; ring.
Qed.
Example C22_example : exists a A, mk_ArrayDesign DFloat (Nd [2; 1] [0; 1]%R) "x" (PList [GainErr [0; 0.1]%R true; Coupling (Nd [2; 2] [RtoC 1; Ci; Ci; RtoC 1]) false]) ISOTROPIC_SCALAR_SENSOR = Ok a /\
  wf_array a /\ scalar_isotropic a /\ steering_matrix a (FF1 [0.1]%R "rad") 1 false "all" true = Ok (Flat A, []).
Proof.
  pose proof (C18_construction DFloat (Nd [2; 1] [0; 1]%R) "x" [GainErr [0; 0.1]%R true; Coupling (Nd [2; 2] [RtoC 1; Ci; Ci; RtoC 1]) false] ISOTROPIC_SCALAR_SENSOR) as H.
  destruct (mk_ArrayDesign DFloat (Nd [2; 1] [0; 1]%R) "x" _ _) as [a|e] eqn:E in H; [|discriminate E].
  destruct H as (_ & _ & Hp & _ & He & Hl & W); [intros k [X|[X|[]]]; discriminate X | exists 2, 1; cbn; split; [reflexivity | lia]|].
  injection E as E.
  assert (I : scalar_isotropic a) by (subst a; split; reflexivity).
  destruct (C22_defined a (FF1 [0.1]%R "rad") 1 "all" (perturbations a) true R1_neq_R0 I) as (A & HA);
    [subst a; reflexivity | subst a; cbn; lia | subst a; cbn; lia | reflexivity | rewrite Hp; intros p [<-|[<-|[]]]; subst a; reflexivity|].
  exists a, A. split; [now rewrite <- E|]. auto.
Qed.
(** scalar sensors whose response depends on the direction: the response of every sensor to every source, at the spherical coordinates of the source seen from
    the sensor (far field: of its direction), multiplies the propagation term before the perturbations act *)
Theorem C22_nonisotropic : forall a s lam sel fl St DA, wf_array a -> el_output_size (ar_elem a) = 1 -> el_isotropic (ar_elem a) = false -> valid_sources s ->
  steering_matrix a s lam false sel fl = Ok (St, DA) ->
  exists ps L r az el Sr, select_perturbations a sel = Ok ps /\ moved ps (la_m (ar_loc a)) L /\ element_coords s L = Ok (r, az, el) /\ el_response (ar_elem a) r az el = Ok Sr /\ DA = [] /\
    forall Sm, Sr = RMat Sm -> (nr Sm = ar_size a \/ nr Sm = 1) /\ nc Sm = src_size s /\ exists A, St = Flat A /\
      A ==m perturbed ps (Mat (ar_size a) (src_size s) (fun i k => (ent Sm (if Nat.eqb (nr Sm) 1 then 0 else i) k * cis (source_phase s lam L i k))%C)).
Proof.
  intros a s lam sel fl St DA W N1 NI V H. unfold steering_matrix in H. apply bind_Ok_inv in H as (ps & Hs & H).
  assert (RQ : negb (el_isotropic (ar_elem a)) || negb (is_scalar (ar_elem a)) = true) by (rewrite NI; reflexivity).
  rewrite RQ in H. cbn [andb bind] in H. apply bind_Ok_inv in H as (L & HL & H). apply bind_Ok_inv in H as ((T, DT) & HT & H).
  apply bind_Ok_inv in H as (A1 & HA & H). apply bind_Ok_inv in HA as (((r, az), el) & HC & HA). apply bind_Ok_inv in HA as (Sr & HR & HA).
  apply bind_Ok_inv in H as ((A2, DA2) & HP & H). injection H as E1 E2.
  pose proof (perturb_locations_spec _ _ _ HL) as M. destruct (phase_general s (la_m L) lam false T DT V HT) as (P1 & P2 & P3).
  assert (ED : DT = []) by (unfold phase_delay_matrix in HT; destruct (_ || _)%bool; [discriminate|]; destruct s as [l u|l u|l]; (destruct (Reqb lam 0); [discriminate|]); [destruct (if String.eqb u "sin" then _ else _); injection HT; auto | injection HT; auto | apply bind_Ok_inv in HT as (D & _ & HT); injection HT; auto]).
  assert (NR : nr (la_m L) = ar_size a) by exact (mv_rows _ _ _ M).
  exists ps, (la_m L), r, az, el, Sr. split; [exact Hs|]. split; [exact M|]. split; [unfold element_coords; destruct (is_far_field s); exact HC|]. split; [exact HR|].
  assert (PD : forall ps A q B, perturb_steering ps A [] = Ok (B, q) -> q = []).
  { clear. induction ps as [|p ps IH]; intros A q B H; simpl in H; [injection H as _ <-; reflexivity|]. apply bind_Ok_inv in H as (A' & _ & H). eapply IH. exact H. }
  subst DT. cbn [map] in HP. split; [rewrite <- E2; exact (PD _ _ _ _ HP)|].
  intros Sm ->. cbn [apply_response] in HA. apply bind_Ok_inv in HA as (B & HB & HA). injection HA as <-.
  apply bc_mul_spec in HB as (Q1 & Q2 & Q3 & Q4 & Q5). cbn [nr nc mmap ent] in *. rewrite P1, NR in *. rewrite P2 in *.
  split; [exact Q3|]. split; [exact Q4|].
  apply (perturb_flat ps (ar_size a)) in HP; [|intros p Hp; apply applicable_scalar, wf_pert_applicable; [exact W|]; exact (sel_subset a sel ps p Hs Hp) | exact Q1 | intros D []].
  destruct HP as (R1 & (B' & -> & R2) & _). exists B'. split; [rewrite <- E1; reflexivity|].
  etransitivity; [exact R2|]. apply perturbed_ext; [|rewrite Q1; intros p Hp; destruct (R1 p Hp); auto].
  split; [rewrite Q1; reflexivity|]. split; [rewrite Q2; reflexivity|]. intros i k Hi Hk. rewrite Q1 in Hi. rewrite Q2 in Hk. rewrite Q5. cbn [ent]. rewrite P3 by assumption. reflexivity.
Qed.
(** and such sensors have no derivatives *)
Theorem C22_nonisotropic_derivatives : forall a s lam sel fl, el_isotropic (ar_elem a) = false \/ el_output_size (ar_elem a) <> 1 -> In sel ["all"; "known"; "none"]%string ->
  steering_matrix a s lam true sel fl = Raise RuntimeError.
Proof.
  intros a s lam sel fl H Hsel. unfold steering_matrix. assert (Q : exists ps, select_perturbations a sel = Ok ps) by (destruct Hsel as [<-|[<-|[<-|[]]]]; eexists; reflexivity). destruct Q as (ps & ->). cbn [bind].
  assert (RQ : negb (el_isotropic (ar_elem a)) || negb (is_scalar (ar_elem a)) = true).
  { destruct H as [->|H]; [reflexivity|]. unfold is_scalar. apply Nat.eqb_neq in H. rewrite H. apply orb_true_r. }
  rewrite RQ. reflexivity.
Qed.
Example C22_nonisotropic_example : exists a St, wf_array a /\ el_output_size (ar_elem a) = 1 /\ el_isotropic (ar_elem a) = false /\
  (exists r az el, el_response (ar_elem a) r az el = Ok (RMat (Mat (nr r) (nc r) (fun i k => RtoC (sin (ent az i k)))))) /\ steering_matrix a (FF1 [0%R] "rad") 1 false "all" true = Ok (St, []).
Proof.
  eexists (Array (LArr DFloat (Mat 2 1 (fun i _ => INR i))) "x" (CustomNonisotropicSensor (fun r az _ => Ok (RMat (Mat (nr r) (nc r) (fun i k => RtoC (sin (ent az i k)))))) 1 false) []), _.
  split; [apply wf_empty|]. split; [reflexivity|]. split; [reflexivity|]. split; [exists (Mat 1 1 (fun _ _ => Some 0%R)), (Mat 1 1 (fun _ _ => 0%R)), (Mat 1 1 (fun _ _ => 0%R)); reflexivity | unfold steering_matrix, phase_delay_matrix; rewrite (P_sources.Reqb_neq 1 0 R1_neq_R0); reflexivity].
Qed.
Print Assumptions C22_formula.

(** C23 *)
Theorem C23_columns : forall a s lam der sel fl St DA idx, wf_array a -> scalar_isotropic a -> (forall i, In i idx -> i < src_size s) ->
  steering_matrix a s lam der sel fl = Ok (St, DA) ->
  exists A A' DA', St = Flat A /\ steering_matrix a (select_sources s idx) lam der sel fl = Ok (Flat A', DA') /\ cols_of A A' idx /\
    Forall2 (fun D D' => cols_of D D' idx) DA DA'.
Proof. exact steering_select. Qed.
Print Assumptions C23_columns.

(** C24: source k moves (parameter t), everything else stays *)
Theorem C24_derivative : forall a l u lam sel fl k St DA, wf_array a -> scalar_isotropic a -> k < List.length l ->
  steering_matrix a (FF1 l u) lam true sel fl = Ok (St, DA) ->
  exists A D : R -> cmat, (forall t, steering_matrix a (FF1 (upd l k t) u) lam true sel fl = Ok (Flat (A t), [D t])) /\
    forall x i, i < ar_size a -> (u = "sin"%string -> ar_ndim a = 1 \/ (-1 < x < 1)%R) ->
      (u = "sin"%string -> (forall e kn, ~ In (LocErr e kn) (perturbations a)) \/ (-1 < x < 1)%R) ->
      cderiv (fun t => ent (A t) i k) x (ent (D x) i k).
Proof. exact steering_deriv. Qed.
Theorem C24_only_1d : forall a s lam sel fl, (match s with FF1 _ _ => False | _ => True end) -> exists e, steering_matrix a s lam true sel fl = Raise e.
Proof.
  intros a s lam sel fl Hs. unfold steering_matrix. destruct (select_perturbations a sel) as [ps|e]; [|eexists; reflexivity]. cbn [bind].
  destruct (_ && _); [eexists; reflexivity|]. destruct (perturb_locations ps (ar_loc a)) as [L|e]; [|eexists; reflexivity]. cbn [bind].
  unfold phase_delay_matrix. destruct (_ || _); [eexists; reflexivity|]. destruct s as [l u|l u|l]; [destruct Hs| |]; eexists; reflexivity.
Qed.
Print Assumptions C24_derivative.

(** C25 *)
Theorem C25_location_errors : forall e k l l', perturb_sensor_locations (LocErr e k) l = Ok l' ->
  nr (la_m l') = nr (la_m l) /\ nc (la_m l') = Nat.max (nc (la_m l)) (nc (la_m e)) /\
  forall i c, i < nr (la_m l) -> coord (la_m l') i c = (coord (la_m l) i c + coord (la_m e) i c)%R.
Proof.
  intros e k l l' H. destruct (perturb_sensor_spec _ _ _ H) as [M1 M2 M3]. cbn in M2, M3. split; [exact M1|]. split; [exact M2|].
  intros i c Hi. rewrite M3 by exact Hi. ring.
Qed.
Theorem C25_defined : forall e k l, nr (la_m e) = nr (la_m l) -> la_dt l = la_dt e \/ la_dt l = DFloat /\ nc (la_m e) <= nc (la_m l) ->
  exists l', perturb_sensor_locations (LocErr e k) l = Ok l'.
Proof.
  intros e k l N H. cbn [perturb_sensor_locations]. unfold iadd_leading. rewrite N, Nat.eqb_refl. cbn [negb].
  destruct (Nat.leb_spec (nc (la_m e)) (nc (la_m l))).
  - destruct H as [H|(H & _)]; rewrite H; destruct (la_dt e); cbn; eauto.
  - destruct H as [H|(_ & H)]; [rewrite H; destruct (la_dt e); cbn; eauto | lia].
Qed.
(** float errors on integer locations raise instead of moving the sensors *)
Theorem C25_integer_locations_defect : exists e k l, nr (la_m e) = nr (la_m l) /\ perturb_sensor_locations (LocErr e k) l = Raise TypeError.
Proof. exists (LArr DFloat (Mat 1 1 (fun _ _ => 0.5%R))), true, (LArr DInt (Mat 1 1 (fun _ _ => 1%R))). split; reflexivity. Qed.
Theorem C25_others_do_not_move : forall p l, (forall e k, p <> LocErr e k) -> perturb_sensor_locations p l = Ok l.
Proof. intros p l H. destruct p; try reflexivity. exfalso. eapply H. reflexivity. Qed.
Theorem C25_actual_locations : forall a l, actual_element_locations a = Ok l -> moved (perturbations a) (la_m (ar_loc a)) (la_m l).
Proof. intros a l H. apply perturb_locations_spec. exact H. Qed.
Example C25_example : perturb_sensor_locations (LocErr (LArr DFloat (Mat 2 1 (fun _ _ => 1%R))) true) (LArr DFloat (Mat 2 3 (fun i _ => INR i))) <> Raise TypeError.
Proof. discriminate. Qed.
Print Assumptions C25_location_errors.

(** C26 *)
Theorem C26_location_errors : forall dt x k,
  (forall m d, nd_shape (arg_arr x) = [m; d] -> 1 <= d <= 3 -> mk_LocationErrors dt x k = Ok (LocErr (LArr dt (nd_mat 0%R (arg_arr x))) k)) /\
  ((~ exists m d, nd_shape (arg_arr x) = [m; d] /\ 1 <= d <= 3) -> mk_LocationErrors dt x k = Raise ValueError).
Proof.
  intros dt x k. unfold mk_LocationErrors, nd_ndim. split.
  - intros m d E H. rewrite E. cbn [List.length Nat.eqb negb nth]. destruct (Nat.ltb_spec d 1), (Nat.ltb_spec 3 d); try lia. reflexivity.
  - intros N. destruct (nd_shape (arg_arr x)) as [|m [|d [|? ?]]]; try reflexivity. cbn [List.length Nat.eqb negb nth].
    destruct (Nat.ltb_spec d 1); [reflexivity|]. destruct (Nat.ltb_spec 3 d); [reflexivity|]. exfalso. apply N. exists m, d. split; [reflexivity | lia].
Qed.
Theorem C26_gain_phase : forall (x : ndarr R) k,
  (forall m, nd_shape x = [m] -> mk_GainErrors (NdArray x) k = Ok (GainErr (nd_data x) k) /\ mk_PhaseErrors (NdArray x) k = Ok (PhaseErr (nd_data x) k)) /\
  ((~ exists m, nd_shape x = [m]) -> mk_GainErrors (NdArray x) k = Raise ValueError /\ mk_PhaseErrors (NdArray x) k = Raise ValueError).
Proof.
  intros x k. unfold mk_GainErrors, mk_PhaseErrors, nd_ndim. cbn [is_ndarray negb arg_arr]. split.
  - intros m ->. split; reflexivity.
  - intros N. destruct (nd_shape x) as [|m [|? ?]]; cbn; try (split; reflexivity). exfalso. apply N. now exists m.
Qed.
Theorem C26_coupling_square : forall x k m, nd_shape (arg_arr x) = [m; m] -> mk_MutualCoupling x k = Ok (Coupling (arg_arr x) k).
Proof. intros x k m E. unfold mk_MutualCoupling, nd_ndim. rewrite E. reflexivity. Qed.
(** lists are not converted *)
Theorem C26_list_defect : forall x k, mk_GainErrors (PyList x) k = Raise AttributeError /\ mk_PhaseErrors (PyList x) k = Raise AttributeError.
Proof. intros x k. split; reflexivity. Qed.
(** every matrix is accepted as a coupling, square or not *)
Theorem C26_coupling_rectangular_defect : forall x k m n, nd_shape (arg_arr x) = [m; n] -> mk_MutualCoupling x k = Ok (Coupling (arg_arr x) k).
Proof. intros x k m n E. unfold mk_MutualCoupling, nd_ndim. rewrite E. reflexivity. Qed.
Theorem C26_coupling_vector_defect : forall x k m, nd_shape (arg_arr x) = [m] -> mk_MutualCoupling x k = Raise IndexError.
Proof. intros x k m E. unfold mk_MutualCoupling, nd_ndim. rewrite E. reflexivity. Qed.
Theorem C26_coupling_3d_defect : forall x k m n r, nd_shape (arg_arr x) = m :: m :: n :: r -> mk_MutualCoupling x k = Ok (Coupling (arg_arr x) k).
Proof. intros x k m n r E. unfold mk_MutualCoupling, nd_ndim. rewrite E. cbn. now rewrite Nat.eqb_refl. Qed.
(** and nothing else: the complete list of outcomes *)
Theorem C26_coupling_shapes : forall x k, mk_MutualCoupling x k =
  match nd_shape (arg_arr x) with
  | [] | [_] => Raise IndexError
  | [_; _] => Ok (Coupling (arg_arr x) k)
  | m :: n :: _ => if Nat.eq_dec m n then Ok (Coupling (arg_arr x) k) else Raise ValueError
  end.
Proof.
  intros x k. unfold mk_MutualCoupling, nd_ndim. destruct (nd_shape (arg_arr x)) as [|m [|n [|q r]]]; try reflexivity. cbn [List.length Nat.eqb negb].
  destruct (Nat.eq_dec m n) as [->|N]; [now rewrite Nat.eqb_refl | apply Nat.eqb_neq in N; now rewrite N].
Qed.
(** dictionary form: unknown names are rejected *)
Theorem C26_dict_keys : forall k v, k <> "location_errors"%string -> k <> "gain_errors"%string -> k <> "phase_errors"%string -> k <> "mutual_coupling"%string ->
  parse_one (k, v) = Raise KeyError.
Proof.
  intros k ((dt, v), kn) H1 H2 H3 H4. unfold parse_one. apply String.eqb_neq in H1, H2, H3, H4. now rewrite H1, H2, H3, H4.
Qed.
Print Assumptions C26_location_errors.

(** C27 *)
Lemma init_kw m name kw a ps : init_with_matrix m name kw = Ok a -> kw_perts kw = PList ps -> perturbations a = ps /\ ar_elem a = kw_elem kw /\ ar_name a = name.
Proof.
  intros H E. unfold init_with_matrix in H. destruct (Nat.ltb _ _); [discriminate|]. rewrite E in H. cbn [parse_input_perturbations bind] in H.
  pose proof (add_pert_frame _ _ _ _ H) as (F1 & F2 & F3). pose proof (add_pert_strict _ _ _ H) as (S1 & _).
  split; [unfold perturbations, dvals; rewrite S1; cbn; rewrite map_map; apply map_id|]. rewrite F2, F3. auto.
Qed.
Lemma grid_kw idx d0 name B kw g ps : mk_Grid idx d0 name B kw = Ok g -> kw_perts kw = PList ps ->
  perturbations (gd_array g) = ps /\ ar_elem (gd_array g) = kw_elem kw /\ ar_name (gd_array g) = name.
Proof.
  intros H E. unfold mk_Grid in H. destruct B as [B|].
  - destruct (negb _); [discriminate|]. destruct (init_with_matrix _ _ _) as [a|e] eqn:H1 in H; [|discriminate]. cbn [bind] in H. injection H as <-. exact (init_kw _ _ _ _ _ H1 E).
  - apply bind_Ok_inv in H as ((v, nan) & _ & H). destruct (Nat.ltb _ _); [discriminate|]. destruct (negb _); [discriminate|].
    destruct (init_with_matrix _ _ _) as [a|e] eqn:H1 in H; [|discriminate]. cbn [bind] in H. injection H as <-. exact (init_kw _ _ _ _ _ H1 E).
Qed.
Theorem C27_grid_designs : forall kw ps, kw_perts kw = PList ps ->
  (forall idx d0 name B g, mk_Grid idx d0 name B kw = Ok g -> perturbations (gd_array g) = ps /\ ar_elem (gd_array g) = kw_elem kw) /\
  (forall n d0 name g, mk_ULA n d0 name kw = Ok g -> perturbations (gd_array g) = ps /\ ar_elem (gd_array g) = kw_elem kw) /\
  (forall n1 n2 d0 name g, mk_Nested n1 n2 d0 name kw = Ok g -> perturbations (gd_array g) = ps /\ ar_elem (gd_array g) = kw_elem kw) /\
  (forall m n d0 mode name c, mk_CoPrime m n d0 mode name kw = Ok c -> perturbations (gd_array (cp_design c)) = ps /\ ar_elem (gd_array (cp_design c)) = kw_elem kw) /\
  (forall n d0 name g, mk_MRLA n d0 name kw = Ok g -> perturbations (gd_array g) = ps /\ ar_elem (gd_array g) = kw_elem kw) /\
  (forall m n d0 name g, mk_URA m n d0 name kw = Ok g -> perturbations (gd_array g) = ps /\ ar_elem (gd_array g) = kw_elem kw).
Proof.
  intros kw ps E.
  assert (G : forall idx d0 name B g, mk_Grid idx d0 name B kw = Ok g -> perturbations (gd_array g) = ps /\ ar_elem (gd_array g) = kw_elem kw).
  { intros idx d0 name B g H. destruct (grid_kw _ _ _ _ _ _ _ H E) as (P1 & P2 & _). auto. }
  split; [exact G|]. split; [intros n d0 name g; apply G|]. split; [intros n1 n2 d0 name g; apply G|]. split; [|split].
  - intros m n d0 mode name c H. unfold mk_CoPrime in H. destruct (m >? n)%Z; (destruct (negb _); [discriminate|]);
      apply bind_Ok_inv in H as (idx & _ & H); apply bind_Ok_inv in H as (g & Hg & H); injection H as <-; exact (G _ _ _ _ _ Hg).
  - intros n d0 name g H. unfold mk_MRLA in H. destruct (_ || _)%bool; [discriminate|]. exact (G _ _ _ _ _ H).
  - intros m n d0 name g H. unfold mk_URA in H. apply bind_Ok_inv in H as (rows & _ & H). exact (G _ _ _ _ _ H).
Qed.
(** UniformCircularArray silently ignores its keyword arguments *)
Theorem C27_UCA_ignores_kwargs_defect : forall n r name kw, mk_UCA n r name kw = mk_UCA n r name no_kwargs.
Proof. reflexivity. Qed.
Theorem C27_UCA_defect : exists n r name kw a, kw_perts kw = PList [GainErr [0%R] true] /\ mk_UCA n r name kw = Ok a /\ perturbations a = [].
Proof. exists 1%Z, 1%R, None, (Kw (Some (PList [GainErr [0%R] true])) None). eexists. split; [reflexivity|]. split; reflexivity. Qed.
Example C27_example : exists g, mk_ULA 2 (D0Scalar 1) None (Kw (Some (PList [GainErr [0; 0.5]%R true])) None) = Ok g /\ perturbations (gd_array g) = [GainErr [0; 0.5]%R true].
Proof. eexists. split; reflexivity. Qed.
Print Assumptions C27_grid_designs.

(** C28: slice l of the tensor is output l of every sensor; flattening stacks the slices *)
Theorem C28_tensor : forall a s lam sel fl St DA, wf_array a -> el_output_size (ar_elem a) <> 1 -> valid_sources s ->
  steering_matrix a s lam false sel fl = Ok (St, DA) ->
  exists ps L r az el Sr, select_perturbations a sel = Ok ps /\ moved ps (la_m (ar_loc a)) L /\
    element_coords s L = Ok (r, az, el) /\ el_response (ar_elem a) r az el = Ok Sr /\ DA = [] /\
    forall Ss, Sr = RTen Ss ->
      exists As, Forall2 (fun Sm A => nr A = ar_size a /\ nc A = src_size s /\ (nr Sm = ar_size a \/ nr Sm = 1) /\ nc Sm = src_size s /\
          forall i k, i < ar_size a -> k < src_size s ->
            ent A i k = (ent Sm (if Nat.eqb (nr Sm) 1 then 0 else i) k * cis (source_phase s lam L i k))%C) Ss As /\
        (fl = false -> St = Stack As) /\
        (fl = true -> exists A, St = Flat A /\ (As <> [] -> nr A = List.length As * ar_size a) /\ nc A = src_size s /\
           forall l i k, l < List.length As -> i < ar_size a -> k < src_size s ->
             ent A (l * ar_size a + i) k = ent (nth l As (mid 0)) i k).
Proof.
  intros a s lam sel fl St DA W N V H.
  destruct (steering_vector a s lam sel fl St DA W N V H) as (ps & L & r & az & el & Sr & H1 & H2 & H3 & H4 & H5 & H6 & H7).
  exists ps, (la_m L), r, az, el, Sr. do 5 (split; [assumption|]). intros Ss E. destruct (H7 Ss E) as (As & F & ->). exists As. split; [exact F|].
  assert (R0 : forall A, In A As -> nr A = ar_size a). { clear -F. induction F as [|x y l l' Hxy F IH]; intros A HA; [destruct HA|]. destruct HA as [<-|HA]; [apply Hxy | auto]. }
  destruct fl; (split; [intros X; try discriminate X|intros X; try discriminate X]); [|reflexivity]. eexists. split; [reflexivity|]. split.
  - intros Ne. cbn. destruct As as [|A0 As]; [contradiction|]. f_equal. apply R0. now left.
  - split; [reflexivity|]. intros l i k Hl Hi Hk. rewrite (flatten_entry _ _ (ar_size a)) by assumption. f_equal. apply nth_indep. exact Hl.
Qed.
(** output_size ignores the outputs of the elements *)
Theorem C28_output_size_defect : forall a, el_output_size (ar_elem a) <> 1 -> 0 < ar_size a -> output_size a <> ar_size a * el_output_size (ar_elem a).
Proof. intros a H1 H2 E. unfold output_size in E. nia. Qed.
Theorem C28_output_size_scalar : forall a, el_output_size (ar_elem a) = 1 -> output_size a = ar_size a * el_output_size (ar_elem a).
Proof. intros a ->. unfold output_size. lia. Qed.
Example C28_example : exists a St, wf_array a /\ el_output_size (ar_elem a) = 2 /\ steering_matrix a (FF1 [0%R] "rad") 1 false "all" true = Ok (St, []).
Proof.
  eexists (Array (LArr DFloat (Mat 2 1 (fun i _ => INR i))) "x" (CustomNonisotropicSensor (fun r _ _ => Ok (RTen [Mat (nr r) (nc r) (fun _ _ => RtoC 1); Mat (nr r) (nc r) (fun _ _ => Ci)])) 2 false) []), _.
  split; [apply wf_empty|]. split; [reflexivity|]. (unfold steering_matrix, phase_delay_matrix; rewrite (P_sources.Reqb_neq 1 0 R1_neq_R0); reflexivity).
Qed.
Print Assumptions C28_tensor.

(** C29 *)
Theorem C29_validation : forall A pol (impl : ndarr R -> ndarr R -> ndarr R -> option (ndarr R) -> res A) r az el p,
  let bad := nd_shape az <> nd_shape r \/ nd_shape el <> nd_shape r \/
             exists q, p = Some q /\ (pol = false \/ nd_shape q <> [] /\ nd_shape r <> removelast (nd_shape q)) in
  (bad -> calc_spatial_response pol impl r az el p = Raise ValueError) /\
  (~ bad -> (forall q, p = Some q -> nd_shape q <> []) -> calc_spatial_response pol impl r az el p = impl r az el p).
Proof.
  intros A pol impl r az el p bad. unfold calc_spatial_response, calc_spatial_response_check.
  assert (LR : forall s : list nat, s <> [] -> forall q, q ++ [last s 0] = s <-> q = removelast s).
  { intros s Hs q. split; intros H; [|subst; symmetry; now apply app_removelast_last]. rewrite <- H at 1. now rewrite removelast_app, app_nil_r by discriminate. }
  destruct (list_eq_dec Nat.eq_dec (nd_shape az) (nd_shape r)) as [E1|E1]; cbn [negb orb].
  2: { split; [reflexivity|]. intros N. exfalso. apply N. now left. }
  destruct (list_eq_dec Nat.eq_dec (nd_shape el) (nd_shape r)) as [E2|E2]; cbn [negb orb].
  2: { split; [reflexivity|]. intros N. exfalso. apply N. right; now left. }
  destruct p as [q|]; cbn [option_map].
  2: { split; [intros [B|[B|(q & B & _)]]; [contradiction|contradiction|discriminate] | reflexivity]. }
  destruct pol; cbn [negb].
  2: { split; [reflexivity|]. intros N. exfalso. apply N. right; right. exists q. auto. }
  destruct (nd_shape q) as [|n0 s] eqn:Eq.
  - cbn. split; [|intros _ Hq; exfalso; exact (Hq q eq_refl Eq)]. intros [B|[B|(q' & B & [B'|(B' & _)])]]; try contradiction; [discriminate|]. injection B as <-. contradiction.
  - cbn [List.length Nat.eqb]. destruct (list_eq_dec Nat.eq_dec (nd_shape r ++ [last (n0 :: s) 0]) (n0 :: s)) as [E3|E3]; cbn [negb].
    + split; [|reflexivity]. intros [B|[B|(q' & B & [B'|(B' & B'')])]]; try contradiction; [discriminate|]. injection B as <-. exfalso. apply B''. rewrite Eq. apply LR; [discriminate | exact E3].
    + split; [reflexivity|]. intros N. exfalso. apply N. right; right. exists q. split; [reflexivity|]. right. rewrite Eq. split; [discriminate|]. intros B. apply E3. apply LR; [discriminate | exact B].
Qed.
(** a 0-d polarization array raises IndexError instead of ValueError *)
Theorem C29_scalar_polarization_defect : forall A (impl : ndarr R -> ndarr R -> ndarr R -> option (ndarr R) -> res A) x,
  calc_spatial_response true impl (Nd [] [x]) (Nd [] [x]) (Nd [] [x]) (Some (Nd [] [x])) = Raise IndexError.
Proof. reflexivity. Qed.
(** the built-in sensor: a scalar output, the same response in all directions, no polarization *)
Theorem C29_isotropic_sensor : el_output_size ISOTROPIC_SCALAR_SENSOR = 1 /\ el_isotropic ISOTROPIC_SCALAR_SENSOR = true /\ is_scalar ISOTROPIC_SCALAR_SENSOR = true /\
  el_polarized ISOTROPIC_SCALAR_SENSOR = false /\
  (forall r az el, exists Sm, el_response ISOTROPIC_SCALAR_SENSOR r az el = Ok (RMat Sm) /\ nr Sm = nr r /\ nc Sm = nc r /\ forall i k, ent Sm i k = RtoC 1) /\
  (forall A (impl : ndarr R -> ndarr R -> ndarr R -> option (ndarr R) -> res A) r az el q, calc_spatial_response (el_polarized ISOTROPIC_SCALAR_SENSOR) impl r az el (Some q) = Raise ValueError).
Proof.
  do 4 (split; [reflexivity|]). split; [intros; eexists; split; [reflexivity|]; repeat split|]. intros A impl r az el q. apply (proj1 (C29_validation A _ impl r az el (Some q))). right. right. exists q. auto.
Qed.
(** a custom sensor is what it was constructed with, and counts as direction dependent *)
Theorem C29_custom_sensor : forall f n pol, let e := CustomNonisotropicSensor f n pol in
  el_output_size e = n /\ el_isotropic e = false /\ el_polarized e = pol /\ el_response e = f /\ (is_scalar e = true <-> n = 1).
Proof. intros f n pol e. do 4 (split; [reflexivity|]). apply Nat.eqb_eq. Qed.
Print Assumptions C29_validation.
