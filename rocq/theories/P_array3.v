From Coq Require Import Lra.
From Coquelicot Require Import Hierarchy Derive.
From Verif Require Import Base_Np Base_Trig M_utils S_utils P_utils M_sources S_sources P_sources P_sources2 M_array S_array P_array P_array2.
Open Scope nat_scope.

(** *** columns *)
(** M' has the columns idx of M *)
Lemma nth_sel {T} (l : list T) d idx k : k < List.length idx -> nth k (map (fun i => nth i l d) idx) d = nth (nth k idx 0) l d.
Proof.
  intros H. rewrite (nth_indep _ d (nth 0 l d)) by (now rewrite map_length). apply (map_nth (fun i => nth i l d)).
Qed.
Lemma nth_map_sel {T} (f : T -> R) (l : list T) d idx k : k < List.length idx -> (forall i, In i idx -> i < List.length l) ->
  nth k (map f (map (fun i => nth i l d) idx)) 0%R = nth (nth k idx 0) (map f l) 0%R.
Proof.
  intros H B. rewrite (nth_indep _ 0%R (f d)) by (now rewrite !map_length). rewrite map_nth, nth_sel by exact H.
  rewrite (nth_indep (map f l) 0%R (f d)) by (rewrite map_length; apply B, nth_In, H). now rewrite map_nth.
Qed.
Lemma phase_select s L lam der T DT idx : (forall i, In i idx -> i < src_size s) -> phase_delay_matrix s L lam der = Ok (T, DT) ->
  exists T' DT', phase_delay_matrix (select_sources s idx) L lam der = Ok (T', DT') /\ cols_of T T' idx /\ Forall2 (fun X X' => cols_of X X' idx /\ nr X = nr T) DT DT'.
Proof.
  intros B H. unfold phase_delay_matrix in *. destruct (_ || _)%bool; [discriminate|]. destruct s as [l u|l u|l]; cbn [select_sources src_size] in *; (destruct (Reqb lam 0); [destruct der; discriminate|]).
  - assert (G : forall D DD D' DD' : rmat, cols_of D D' idx -> cols_of DD DD' idx -> nr DD = nr D -> Ok (D, if der then [DD] else []) = Ok (T, DT) ->
      exists T' DT', Ok (D', if der then [DD'] else []) = Ok (T', DT') /\ cols_of T T' idx /\ Forall2 (fun X X' => cols_of X X' idx /\ nr X = nr T) DT DT').
    { intros D DD D' DD' C1 C2 C3 E. injection E as <- <-. eexists _, _. split; [reflexivity|]. split; [exact C1|]. destruct der; repeat constructor; assumption || apply C2. }
    destruct (String.eqb u "sin").
    + unfold phase_delay_sin in *. destruct (Nat.eqb (nc L) 1).
      * eapply G; [| | |exact H]; try reflexivity; (split; [reflexivity|]); (split; [cbn; rewrite ?map_length; reflexivity|]); intros i k Hi Hk; cbn [rscal mmap outer_col ent rsub radd]; rewrite ?nth_sel by exact Hk; reflexivity.
      * eapply G; [| | |exact H]; try reflexivity; (split; [reflexivity|]); (split; [cbn; rewrite ?map_length; reflexivity|]); intros i k Hi Hk; cbn [rscal mmap outer_col ent rsub radd].
        -- rewrite nth_sel, (nth_map_sel (fun x => sqrt (1 - x * x))%R) by assumption. reflexivity.
        -- rewrite (nth_map_sel (fun x => x / sqrt (1 - x * x))%R) by assumption. reflexivity.
    + unfold phase_delay_rad in *.
      set (f := fun q : list R => if String.eqb u "deg" then map deg2rad q else q).
      assert (F1 : forall q, List.length (f q) = List.length q) by (intros q; unfold f; destruct (String.eqb u "deg"); rewrite ?map_length; reflexivity).
      assert (F2 : f (map (fun i => nth i l 0%R) idx) = map (fun i => nth i (f l) 0%R) idx).
      { unfold f. destruct (String.eqb u "deg"); [|reflexivity]. rewrite map_map. apply map_ext_in. intros i Hi. symmetry. apply nth_map_R. apply B, Hi. }
      change (if String.eqb u "deg" then map deg2rad l else l) with (f l) in *.
      change (if String.eqb u "deg" then map deg2rad (map (fun i => nth i l 0%R) idx) else map (fun i => nth i l 0%R) idx) with (f (map (fun i => nth i l 0%R) idx)).
      rewrite F2. assert (B' : forall i, In i idx -> i < List.length (f l)) by (intros; rewrite F1; auto).
      destruct (Nat.eqb (nc L) 1); (eapply G; [| | |exact H]); destruct (String.eqb u "deg"); try reflexivity; (split; [reflexivity|]); (split; [cbn; rewrite ?map_length; reflexivity|]); intros i k Hi Hk; cbn [rscal mmap outer_col ent rsub radd];
        rewrite ?(nth_map_sel sin), ?(nth_map_sel cos) by assumption; reflexivity.
  - destruct der; [discriminate|]. cbn [bind] in *. injection H as <- <-. eexists _, _. split; [reflexivity|]. split; [|constructor].
    unfold phase_delay_2d. set (f := fun q : list (R * R) => if String.eqb u "deg" then map (fun p => (deg2rad (fst p), deg2rad (snd p))) q else q).
    assert (F1 : forall q, List.length (f q) = List.length q) by (intros q; unfold f; destruct (String.eqb u "deg"); rewrite ?map_length; reflexivity).
    assert (F2 : f (map (fun i => nth i l (0, 0)%R) idx) = map (fun i => nth i (f l) (0, 0)%R) idx).
    { unfold f. destruct (String.eqb u "deg"); [|reflexivity]. rewrite map_map. apply map_ext_in. intros i Hi. symmetry. apply (nth_map_P (fun p => (deg2rad (fst p), deg2rad (snd p)))). apply B, Hi. }
    change (if String.eqb u "deg" then map (fun p => (deg2rad (fst p), deg2rad (snd p))) l else l) with (f l) in *.
    match goal with |- context [if String.eqb u "deg" then map ?g (map ?h idx) else _] => change (if String.eqb u "deg" then map g (map h idx) else map h idx) with (f (map h idx)) end.
    rewrite F2. assert (B' : forall i, In i idx -> i < List.length (f l)) by (intros; rewrite F1; auto).
    destruct (Nat.eqb (nc L) 1); [|destruct (Nat.eqb (nc L) 2)]; (split; [reflexivity|]); (split; [cbn; rewrite ?map_length; reflexivity|]); intros i k Hi Hk; cbn [rscal mmap outer_col ent rsub radd];
      rewrite ?(nth_map_sel (fun p => cos (snd p) * cos (fst p))%R), ?(nth_map_sel (fun p => cos (snd p) * sin (fst p))%R), ?(nth_map_sel (fun p => sin (snd p))%R) by assumption; reflexivity.
  - destruct der; [discriminate|]. cbn [bind] in *. apply bind_Ok_inv in H as (D & HD & H). injection H as <- <-. unfold phase_delay_nf, align_location_dims in *.
    destruct (Nat.ltb (nc L) 2); [|destruct (Nat.ltb 2 (nc L))]; (destruct (Nat.eqb _ 0) eqn:E0 in HD; [discriminate|]); injection HD as <-; cbn [cdist nr] in *; cbn [pad_col nr pairs_mat] in *;
      rewrite E0; cbn [bind]; (eexists _, _; split; [reflexivity|]); (split; [|constructor]); (split; [reflexivity|]); (split; [cbn; rewrite ?map_length; reflexivity|]); intros i k Hi Hk; cbn [rscal mmap cdist ent nc pad_col pairs_mat rsum];
      unfold rsum; rewrite ?nth_sel by assumption; reflexivity.
Qed.
Lemma perturb_steering_same ps : forall A DA A' DA' s q, perturb_steering ps (Flat A) DA = Ok (s, q) -> nr A' = nr A -> Forall2 (fun D D' => nr D' = nr D) DA DA' ->
  exists B E, perturb_steering ps (Flat A') DA' = Ok (Flat B, E).
Proof.
  induction ps as [|p ps IH]; intros A DA A' DA' s q H HA HD; simpl in *; [eauto|].
  apply bind_Ok_inv in H as (s1 & H1 & H). apply bind_Ok_inv in H1 as (B & H1 & H1'). injection H1' as <-.
  apply bind_Ok_inv in H as (DA1 & H2 & H).
  destruct (perturb_one_total p A B A' H1 HA) as (B' & E1 & N1). rewrite E1. cbn [bind].
  assert (G : exists DA1', mapM (perturb_one p) DA' = Ok DA1' /\ Forall2 (fun D D' => nr D' = nr D) DA1 DA1').
  { clear -H2 HD. revert DA1 H2. induction HD as [|D D' DA DA' E HD IHD]; intros DA1 H2; cbn [mapM] in *.
    - injection H2 as <-. eexists. split; [reflexivity | constructor].
    - apply bind_Ok_inv in H2 as (D1 & E1 & H2). apply bind_Ok_inv in H2 as (r & E2 & H2). injection H2 as <-.
      destruct (perturb_one_total p D D1 D' E1 E) as (D1' & X1 & X2). destruct (IHD r E2) as (r' & X3 & X4). rewrite X1. cbn [bind]. rewrite X3. cbn [bind].
      eexists. split; [reflexivity|]. constructor; assumption. }
  destruct G as (DA1' & E2 & N2). rewrite E2. cbn [bind]. exact (IH B DA1 B' DA1' s q H N1 N2).
Qed.
Lemma perturbed_cols ps A A' idx m : nr A = m -> (forall p, In p ps -> nr (pert_matrix m p) = m /\ nc (pert_matrix m p) = m) ->
  (forall k, k < List.length idx -> nth k idx 0 < nc A) ->
  cols_of A A' idx -> cols_of (perturbed ps A) (perturbed ps A') idx.
Proof.
  intros HA Hp Hi (C1 & C2 & C3).
  assert (Hp' : forall p, In p ps -> nc (pert_matrix m p) = m /\ nr (pert_matrix m p) = m) by (intros p H; destruct (Hp p H); auto).
  assert (HA' : nr A' = m) by congruence.
  destruct (perturbed_linear ps A) as (L1 & N1 & N2); [now rewrite HA|]. destruct (perturbed_linear ps A') as (L2 & _); [now rewrite HA'|].
  rewrite HA in L1, N1, N2. rewrite HA' in L2. set (P := perturbed ps (mid m)) in *.
  split; [rewrite (meq_nr _ _ L1), (meq_nr _ _ L2); reflexivity|]. split; [rewrite (meq_nc _ _ L2); exact C2|].
  intros i k Hi' Hk. rewrite (meq_nr _ _ L1) in Hi'. cbn [nr mmul] in Hi'.
  assert (EN : nc (perturbed ps A') = List.length idx) by (rewrite (meq_nc _ _ L2); exact C2).
  assert (ER : nr (perturbed ps A') = nr P) by (rewrite (meq_nr _ _ L2); reflexivity).
  assert (ER1 : nr (perturbed ps A) = nr P) by (rewrite (meq_nr _ _ L1); reflexivity).
  assert (EC1 : nc (perturbed ps A) = nc A) by (rewrite (meq_nc _ _ L1); reflexivity).
  rewrite (meq_ent _ _ _ _ L2) by (rewrite ?ER, ?EN; assumption). rewrite (meq_ent _ _ _ _ L1) by (rewrite ?ER1, ?EC1; auto).
  cbn [ent mmul]. apply csum_ext. intros j Hj. rewrite C3; [reflexivity | lia | exact Hk].
Qed.
Lemma cols_meq {A B A' B' : cmat} idx : (forall k, k < List.length idx -> nth k idx 0 < nc A) -> A ==m B -> A' ==m B' -> cols_of B B' idx -> cols_of A A' idx.
Proof.
  intros Hi E E' (C1 & C2 & C3). split; [rewrite (meq_nr _ _ E), (meq_nr _ _ E'); exact C1|]. split; [rewrite (meq_nc _ _ E'); exact C2|].
  intros i k Hi' Hk. rewrite (meq_ent _ _ _ _ E'), (meq_ent _ _ _ _ E); auto.
  - apply C3; [rewrite <- (meq_nr _ _ E); exact Hi' | exact Hk].
  - rewrite (meq_nr _ _ E'), C1, <- (meq_nr _ _ E). exact Hi'.
  - rewrite (meq_nc _ _ E'), C2. exact Hk.
Qed.
Lemma steering_select a s lam der sel fl St DA idx : wf_array a -> scalar_isotropic a -> (forall i, In i idx -> i < src_size s) ->
  steering_matrix a s lam der sel fl = Ok (St, DA) ->
  exists A A' DA', St = Flat A /\ steering_matrix a (select_sources s idx) lam der sel fl = Ok (Flat A', DA') /\ cols_of A A' idx /\
    Forall2 (fun D D' => cols_of D D' idx) DA DA'.
Proof.
  intros W Iso B H. pose proof H as H0. unfold steering_matrix in H0. apply bind_Ok_inv in H0 as (ps & Hs & H0). rewrite (scalar_iso_req a Iso) in H0. cbn [andb] in H0.
  apply bind_Ok_inv in H0 as (L & HL & H0). apply bind_Ok_inv in H0 as ((T, DT) & HT & H0). cbn [bind] in H0.
  apply bind_Ok_inv in H0 as ((A2, DA2) & HP & H0). injection H0 as E1 E2. subst DA2.
  destruct (phase_select s (la_m L) lam der T DT idx B HT) as (T' & DT' & HT' & CT & CD).
  destruct (steering_scalar_inv a s lam der sel fl St DA W Iso H) as (ps' & L' & T0 & DT0 & A & F1 & F2 & F3 & F4 & F5 & F6 & F7 & F8 & F9).
  rewrite Hs in F1. injection F1 as <-. rewrite HL in F2. injection F2 as <-. rewrite HT in F4. injection F4 as <- <-.
  assert (NT : nr T = ar_size a) by (rewrite F5; exact (mv_rows _ _ _ F3)).
  set (d0 := fun (T0 X : rmat) => deriv0 (mmap cis T0) X).
  assert (HP2 : exists B' E', perturb_steering ps (Flat (mmap cis T')) (map (d0 T') DT') = Ok (Flat B', E')).
  { eapply perturb_steering_same; [exact HP | exact (proj1 CT)|]. clear -CD CT. induction CD; constructor; [|assumption]. exact (proj1 CT). }
  destruct HP2 as (B' & E' & HP').
  assert (HS : steering_matrix a (select_sources s idx) lam der sel fl = Ok (Flat B', E')).
  { unfold steering_matrix. rewrite Hs. cbn [bind]. rewrite (scalar_iso_req a Iso). cbn [andb bind]. rewrite HL. cbn [bind]. rewrite HT'. cbn [bind].
    unfold d0, deriv0 in HP'. rewrite HP'. reflexivity. }
  exists A, B', E'. split; [exact F7|]. split; [exact HS|].
  destruct (steering_scalar_inv a _ lam der sel fl _ _ W Iso HS) as (ps' & L' & T1 & DT1 & A1 & G1 & G2 & G3 & G4 & G5 & G6 & G7 & G8 & G9).
  rewrite Hs in G1. injection G1 as <-. rewrite HL in G2. injection G2 as <-. rewrite HT' in G4. injection G4 as <- <-. injection G7 as <-.
  assert (NC : nc T = src_size s).
  { clear -HT. unfold phase_delay_matrix in HT. destruct (_ || _)%bool; [discriminate|]. destruct s as [l u|l u|l].
    - destruct (Reqb lam 0); [discriminate|]. unfold phase_delay_sin, phase_delay_rad in HT. destruct (String.eqb u "sin"), (Nat.eqb (nc (la_m L)) 1); injection HT as <- _; cbn; rewrite ?map_length; try reflexivity; destruct (String.eqb u "deg"); rewrite ?map_length; reflexivity.
    - destruct der; [discriminate|]. destruct (Reqb lam 0); [discriminate|]. injection HT as <- _. unfold phase_delay_2d. destruct (Nat.eqb (nc (la_m L)) 1), (Nat.eqb (nc (la_m L)) 2); cbn; rewrite ?map_length; destruct (String.eqb u "deg"); rewrite ?map_length; reflexivity.
    - destruct der; [discriminate|]. destruct (Reqb lam 0); [discriminate|]. apply bind_Ok_inv in HT as (D & HD & HT). injection HT as <- _. unfold phase_delay_nf, align_location_dims in HD.
      destruct (Nat.ltb (nc (la_m L)) 2), (Nat.ltb 2 (nc (la_m L))); (destruct (Nat.eqb _ 0) in HD; [discriminate|]); injection HD as <-; reflexivity. }
  assert (IB : forall k, k < List.length idx -> nth k idx 0 < src_size s) by (intros k Hk; apply B, nth_In, Hk).
  assert (PNC : forall X : cmat, nr X = ar_size a -> nc (perturbed ps X) = nc X).
  { intros X HX. destruct (perturbed_linear ps X) as (Lx & _); [rewrite HX; intros p Hp; destruct (F6 p Hp); auto|]. rewrite (meq_nc _ _ Lx). reflexivity. }
  split.
  - refine (cols_meq idx _ F8 G8 _).
    + intros k Hk. rewrite (meq_nc _ _ F8), PNC by exact NT. cbn [nc mmap]. rewrite NC. auto.
    + apply (perturbed_cols ps _ _ idx (ar_size a)); [exact NT | exact F6 | intros k Hk; cbn [nc mmap]; rewrite NC; auto|].
      destruct CT as (C1 & C2 & C3). split; [exact C1|]. split; [exact C2|]. intros i k Hi Hk. cbn [ent mmap nr] in *. f_equal. now apply C3.
  - revert E' HP' HS G9 DA HP H F9. clear -CD CT NC NT PNC IB F6. intros E' _ _ G9 DA _ _ F9.
    revert DA E' F9 G9. induction CD as [|X X' DT DT' CX CD IH]; intros DA E' F9 G9; inversion F9; inversion G9; subst; constructor.
    + match goal with Hq : _ ==m perturbed ps (deriv0 (mmap cis T) X), Hq' : _ ==m perturbed ps (deriv0 (mmap cis T') X') |- _ => refine (cols_meq idx _ Hq Hq' _) end.
      * intros k Hk. match goal with Hq : _ ==m perturbed ps (deriv0 (mmap cis T) X) |- _ => rewrite (meq_nc _ _ Hq) end. rewrite PNC by exact NT. cbn [nc deriv0 mmap]. rewrite NC. auto.
      * apply (perturbed_cols ps _ _ idx (ar_size a)); [exact NT | exact F6 | intros k Hk; cbn [nc mmap deriv0]; rewrite NC; auto|].
        destruct CT as (C1 & C2 & C3). destruct CX as ((D1 & D2 & D3) & D4). split; [exact C1|]. split; [exact C2|]. intros i k Hi Hk. cbn [ent mmap nr deriv0] in *.
        rewrite C3 by assumption. f_equal. f_equal. f_equal. apply D3; [lia | exact Hk].
    + apply IH; assumption.
Qed.

(** *** elements with a spatial response *)
Lemma perturb_loc_only ps : (forall p, In p ps -> exists e k, p = LocErr e k) -> forall A DA, perturb_steering ps A DA = Ok (A, DA).
Proof.
  induction ps as [|p ps IH]; intros H A DA; [reflexivity|]. destruct (H p (or_introl eq_refl)) as (e & k & ->). cbn [perturb_steering].
  assert (E1 : steer_mapM (perturb_one (LocErr e k)) A = Ok A).
  { destruct A as [A|As]; [reflexivity|]. cbn [steer_mapM]. replace (mapM (perturb_one (LocErr e k)) As) with (Ok As : res (list cmat)); [reflexivity|].
    symmetry. induction As as [|X As IHs]; [reflexivity|]. cbn [mapM perturb_one]. cbn [bind]. rewrite IHs. reflexivity. }
  rewrite E1. cbn [bind]. assert (E2 : mapM (perturb_one (LocErr e k)) DA = Ok DA).
  { induction DA as [|X As IHs]; [reflexivity|]. cbn [mapM perturb_one]. cbn [bind]. rewrite IHs. reflexivity. }
  rewrite E2. cbn [bind]. apply IH. intros q Hq. apply H. now right.
Qed.
Lemma nonscalar_loc_only a p : wf_array a -> el_output_size (ar_elem a) <> 1 -> In p (perturbations a) -> exists e k, p = LocErr e k.
Proof.
  intros W N Hp. pose proof (wf_pert_applicable a p W Hp) as H. destruct p as [e k|g k|f k|P k|k]; simpl in H; [eauto| | | |discriminate];
    exfalso; injection H as H; apply andb_true_iff in H as (H & _); unfold is_scalar in H; apply Nat.eqb_eq in H; contradiction.
Qed.
Lemma bc_mul_spec Sm A B : bc_mul Sm A = Ok B -> nr B = nr A /\ nc B = nc A /\ (nr Sm = nr A \/ nr Sm = 1) /\ nc Sm = nc A /\
  forall i k, ent B i k = (ent Sm (if Nat.eqb (nr Sm) 1 then 0 else i) k * ent A i k)%C.
Proof.
  unfold bc_mul. destruct (Nat.eqb_spec (nr Sm) (nr A)), (Nat.eqb_spec (nr Sm) 1), (Nat.eqb_spec (nc Sm) (nc A)); cbn [andb orb]; intros H; try discriminate; injection H as <-; auto.
Qed.
Lemma mapM_spec {A B} (f : A -> res B) l r : mapM f l = Ok r -> Forall2 (fun x y => f x = Ok y) l r.
Proof.
  revert r; induction l as [|a l IH]; intros r H; cbn [mapM] in H; [injection H as <-; constructor|].
  apply bind_Ok_inv in H as (b & Hb & H). apply bind_Ok_inv in H as (q & Hq & H). injection H as <-. constructor; auto.
Qed.
Lemma Forall2_nth {A B} (P : A -> B -> Prop) l r i d e : Forall2 P l r -> i < List.length l -> P (nth i l d) (nth i r e).
Proof. intros H. revert i. induction H; intros [|i] Hi; simpl in *; try lia; auto. apply IHForall2. lia. Qed.
Lemma Forall2_imp {A B} (P Q : A -> B -> Prop) l r : (forall a b, P a b -> Q a b) -> Forall2 P l r -> Forall2 Q l r.
Proof. induction 2; constructor; auto. Qed.
Lemma Forall2_len {A B} (P : A -> B -> Prop) l r : Forall2 P l r -> List.length l = List.length r.
Proof. induction 1; simpl; congruence. Qed.
Lemma flatten_entry k As m l i j : l < List.length As -> i < m -> (forall A, In A As -> nr A = m) ->
  ent (flatten_stack k As) (l * m + i) j = ent (nth l As (Mat 0 0 (fun _ _ => RtoC 0))) i j.
Proof.
  intros Hl Hi Hm. unfold flatten_stack. destruct As as [|A0 As]; [simpl in Hl; lia|]. rewrite (Hm A0 (or_introl eq_refl)). cbn [ent].
  rewrite Nat.div_add_l, Nat.div_small, Nat.add_0_r by lia. f_equal. rewrite Nat.add_comm, Nat.mod_add by lia. apply Nat.mod_small. lia.
Qed.
(** the spherical coordinates handed to the element *)
Lemma steering_vector a s lam sel fl St DA : wf_array a -> el_output_size (ar_elem a) <> 1 -> valid_sources s ->
  steering_matrix a s lam false sel fl = Ok (St, DA) ->
  exists ps L r az el Sr, select_perturbations a sel = Ok ps /\ perturb_locations ps (ar_loc a) = Ok L /\ moved ps (la_m (ar_loc a)) (la_m L) /\
    element_coords s (la_m L) = Ok (r, az, el) /\ el_response (ar_elem a) r az el = Ok Sr /\ DA = [] /\
    forall Ss, Sr = RTen Ss ->
      exists As, Forall2 (fun Sm A => nr A = ar_size a /\ nc A = src_size s /\ (nr Sm = ar_size a \/ nr Sm = 1) /\ nc Sm = src_size s /\
          forall i k, i < ar_size a -> k < src_size s ->
            ent A i k = (ent Sm (if Nat.eqb (nr Sm) 1 then 0 else i) k * cis (source_phase s lam (la_m L) i k))%C) Ss As /\
        St = (if fl then Flat (flatten_stack (src_size s) As) else Stack As).
Proof.
  intros W N V H. unfold steering_matrix in H. apply bind_Ok_inv in H as (ps & Hs & H).
  assert (RQ : negb (el_isotropic (ar_elem a)) || negb (is_scalar (ar_elem a)) = true).
  { unfold is_scalar. destruct (Nat.eqb_spec (el_output_size (ar_elem a)) 1); [contradiction | apply orb_true_r]. }
  rewrite RQ in H. cbn [andb bind] in H. apply bind_Ok_inv in H as (L & HL & H). apply bind_Ok_inv in H as ((T, DT) & HT & H).
  apply bind_Ok_inv in H as (A1 & HA & H). apply bind_Ok_inv in HA as (((r, az), el) & HC & HA). apply bind_Ok_inv in HA as (Sr & HR & HA).
  apply bind_Ok_inv in H as ((A2, DA2) & HP & H). injection H as E1 E2.
  rewrite perturb_loc_only in HP; [|intros p Hp; apply (nonscalar_loc_only a p W N), (sel_subset a sel ps p Hs Hp)]. injection HP as <- <-.
  pose proof (perturb_locations_spec _ _ _ HL) as M. destruct (phase_general s (la_m L) lam false T DT V HT) as (P1 & P2 & P3).
  assert (ED : DT = []) by (unfold phase_delay_matrix in HT; destruct (_ || _)%bool; [discriminate|]; destruct s as [l u|l u|l]; (destruct (Reqb lam 0); [discriminate|]); [destruct (if String.eqb u "sin" then _ else _); injection HT; auto | injection HT; auto | apply bind_Ok_inv in HT as (D & _ & HT); injection HT; auto]).
  exists ps, L, r, az, el, Sr. repeat (split; [assumption|]). split; [unfold element_coords; destruct (is_far_field s); exact HC|]. split; [exact HR|].
  split; [rewrite <- E2, ED; reflexivity|]. intros Ss ->. cbn [apply_response] in HA. apply bind_Ok_inv in HA as (As & HB & HA). injection HA as <-.
  exists As. split; [|rewrite <- E1; destruct fl; reflexivity]. apply mapM_spec in HB.
  assert (NR : nr (la_m L) = ar_size a) by exact (mv_rows _ _ _ M). rewrite NR in *.
  eapply Forall2_imp; [|exact HB]. intros Sm A HA. apply bc_mul_spec in HA as (Q1 & Q2 & Q3 & Q4 & Q5). cbn [nr nc mmap ent] in *. rewrite P1 in *. rewrite P2 in *.
  repeat (split; [assumption|]). intros i k Hi Hk. rewrite Q5. cbn [ent mmap]. rewrite P3 by assumption. reflexivity.
Qed.

(** *** when the steering matrix is defined (scalar isotropic elements) *)
Lemma perturb_locations_total ps : forall l, (forall e k, In (LocErr e k) ps -> nr (la_m e) = nr (la_m l) /\ la_dt e = DFloat) -> la_dt l = DFloat ->
  exists l', perturb_locations ps l = Ok l' /\ la_dt l' = DFloat.
Proof.
  induction ps as [|p ps IH]; intros l H D; [exists l; auto|]. cbn [perturb_locations].
  assert (G : exists l1, perturb_sensor_locations p l = Ok l1 /\ la_dt l1 = DFloat /\ nr (la_m l1) = nr (la_m l)).
  { destruct p as [e k|g k|f k|P k|k]; try solve [exists l; auto]. destruct (H e k (or_introl eq_refl)) as (N & DE). cbn [perturb_sensor_locations].
    destruct (Nat.leb _ _); unfold iadd_leading; rewrite ?D, ?DE; cbn [bind]; rewrite N, Nat.eqb_refl; cbn [negb bind]; eexists; (split; [reflexivity|]); cbn; auto. }
  destruct G as (l1 & -> & D1 & N1). cbn [bind]. apply IH; [|exact D1]. intros e k He. rewrite N1. apply (H e k). now right.
Qed.
Lemma perturb_one_defined m p A : proper_pert m p -> nr A = m -> exists B, perturb_one p A = Ok B /\ nr B = m.
Proof.
  intros H E. destruct p as [e k|g k|f k|P k|k]; cbn [perturb_one proper_pert] in *.
  - eauto.
  - unfold scale_rows. rewrite H, E, Nat.eqb_refl. cbn [orb]. eexists. split; [reflexivity|]. cbn. destruct (Nat.eqb m 1); congruence.
  - unfold scale_rows. rewrite H, E, Nat.eqb_refl. cbn [orb]. eexists. split; [reflexivity|]. cbn. destruct (Nat.eqb m 1); congruence.
  - unfold nd_ndim, matmul. rewrite H. cbn [List.length Nat.eqb negb bind]. unfold nd_mat. rewrite H. cbn [nth nc nr]. rewrite E, Nat.eqb_refl. eexists. split; reflexivity.
  - eauto.
Qed.
Lemma perturb_steering_defined m ps : forall A DA, (forall p, In p ps -> proper_pert m p) -> nr A = m -> (forall D, In D DA -> nr D = m) ->
  exists B DB, perturb_steering ps (Flat A) DA = Ok (Flat B, DB) /\ List.length DB = List.length DA.
Proof.
  induction ps as [|p ps IH]; intros A DA H HA HD; [exists A, DA; auto|]. cbn [perturb_steering steer_mapM].
  destruct (perturb_one_defined m p A (H p (or_introl eq_refl)) HA) as (B & E & NB). rewrite E. cbn [bind].
  assert (G : exists DB, mapM (perturb_one p) DA = Ok DB /\ List.length DB = List.length DA /\ forall D, In D DB -> nr D = m).
  { clear -HD H. induction DA as [|D DA IH]; [exists []; repeat split; intros ? []|].
    destruct (perturb_one_defined m p D (H p (or_introl eq_refl)) (HD D (or_introl eq_refl))) as (D1 & E1 & N1).
    destruct IH as (DB & E2 & L2 & N2); [intros; apply HD; now right|]. cbn [mapM]. rewrite E1. cbn [bind]. rewrite E2. cbn [bind].
    eexists. split; [reflexivity|]. split; [cbn; congruence|]. intros X [<-|HX]; auto. }
  destruct G as (DB & E2 & L2 & N2). rewrite E2. cbn [bind]. destruct (IH B DB) as (B' & DB' & E3 & L3); [intros; apply H; now right | exact NB | exact N2|].
  exists B', DB'. split; [exact E3 | congruence].
Qed.
Lemma fold_max_le q : forall n b, n <= b -> (forall x, In x q -> x <= b) -> fold_left Nat.max q n <= b.
Proof. induction q as [|x q IH]; intros n b Hn H; [exact Hn|]. cbn [fold_left]. apply IH; [|intros; apply H; now right]. specialize (H x (or_introl eq_refl)). lia. Qed.
Lemma fold_max_ge q : forall n, n <= fold_left Nat.max q n.
Proof. induction q as [|x q IH]; intros n; [reflexivity|]. cbn [fold_left]. specialize (IH (Nat.max n x)). lia. Qed.
Lemma steering_defined a s lam sel ps fl : lam <> 0%R -> scalar_isotropic a -> la_dt (ar_loc a) = DFloat -> 1 <= ar_ndim a <= 3 -> 0 < ar_size a ->
  select_perturbations a sel = Ok ps -> (forall p, In p ps -> proper_pert (ar_size a) p) ->
  exists A, steering_matrix a s lam false sel fl = Ok (Flat A, []).
Proof.
  intros NZ Iso D Hd Hn Hs Hp. unfold steering_matrix. rewrite Hs. cbn [bind]. rewrite (scalar_iso_req a Iso). cbn [andb bind].
  destruct (perturb_locations_total ps (ar_loc a)) as (L & HL & _); [|exact D|]; [intros e k He; destruct (Hp _ He) as (X1 & X2 & _); auto|].
  rewrite HL. cbn [bind]. pose proof (perturb_locations_spec _ _ _ HL) as M.
  assert (HC : 1 <= nc (la_m L) <= 3).
  { rewrite (mv_cols _ _ _ M). split.
    - pose proof (fold_max_ge (map (fun p => match p with LocErr e _ => nc (la_m e) | _ => 0 end) ps) (nc (la_m (ar_loc a)))). unfold ar_ndim in Hd. lia.
    - apply fold_max_le; [unfold ar_ndim in Hd; lia|]. intros x Hx. apply in_map_iff in Hx as (p & <- & Hp'). destruct p; try lia. specialize (Hp _ Hp'). cbn in Hp. lia. }
  assert (HN : 0 < nr (la_m L)) by (rewrite (mv_rows _ _ _ M); exact Hn).
  assert (HT : exists T, phase_delay_matrix s (la_m L) lam false = Ok (T, []) /\ nr T = nr (la_m L)).
  { destruct s as [l u|l u|l].
    - destruct (phase_defined (FF1 l u) (la_m L) lam NZ HC eq_refl) as (T & E). exists T. split; [exact E|]. unfold phase_delay_matrix in E. rewrite (Reqb_neq _ _ NZ) in E. destruct (_ || _)%bool; [discriminate|].
      unfold phase_delay_sin, phase_delay_rad in E. destruct (String.eqb u "sin"), (Nat.eqb (nc (la_m L)) 1); injection E as <-; reflexivity.
    - destruct (phase_defined (FF2 l u) (la_m L) lam NZ HC eq_refl) as (T & E). exists T. split; [exact E|]. unfold phase_delay_matrix in E. rewrite (Reqb_neq _ _ NZ) in E. destruct (_ || _)%bool; [discriminate|].
      unfold phase_delay_2d in E. destruct (Nat.eqb (nc (la_m L)) 1), (Nat.eqb (nc (la_m L)) 2); injection E as <-; reflexivity.
    - destruct (phase_nf_defined l (la_m L) lam NZ HC HN) as (T & E). exists T. split; [exact E|]. apply phase_nf in E. tauto. }
  destruct HT as (T & HT & NT). rewrite HT. cbn [bind map].
  destruct (perturb_steering_defined (ar_size a) ps (mmap cis T) []) as (B & DB & E & LB); [exact Hp | cbn; rewrite NT; exact (mv_rows _ _ _ M) | intros ? []|].
  destruct DB; [|discriminate]. rewrite E. cbn [bind]. exists B. reflexivity.
Qed.
