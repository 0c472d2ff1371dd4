From Coq Require Import Lra.
From Coquelicot Require Import Hierarchy Derive AutoDerive.
From Verif Require Import Base_Np Base_Trig M_utils S_utils P_utils M_sources S_sources P_sources P_sources2 M_array S_array P_array.
Open Scope nat_scope.

Lemma phase_general s L lam der T DT : valid_sources s -> phase_delay_matrix s L lam der = Ok (T, DT) ->
  nr T = nr L /\ nc T = src_size s /\ forall i k, i < nr L -> k < src_size s -> ent T i k = source_phase s lam L i k.
Proof.
  intros V H. destruct s as [l u|l u|l].
  - exact (phase_ff (FF1 l u) L lam der T DT V eq_refl H).
  - exact (phase_ff (FF2 l u) L lam der T DT V eq_refl H).
  - destruct der.
    + unfold phase_delay_matrix in H. destruct (_ || _)%bool; discriminate.
    + apply phase_nf in H as (_ & H1 & H2 & _ & H3). auto.
Qed.
Lemma phase_cols s L lam der T DT : phase_delay_matrix s L lam der = Ok (T, DT) -> 1 <= nc L <= 3.
Proof.
  unfold phase_delay_matrix. destruct (Nat.ltb_spec (nc L) 1); [discriminate|]. destruct (Nat.ltb_spec 3 (nc L)); [discriminate|]. lia.
Qed.
Lemma mmap_cis_response s L lam der T DT : valid_sources s -> phase_delay_matrix s L lam der = Ok (T, DT) -> mmap cis T ==m response s lam L.
Proof.
  intros V H. apply phase_general in H as (H1 & H2 & H3); [|exact V]. split; [exact H1|]. split; [exact H2|].
  cbn [mmap nr nc ent response]. intros i k Hi Hk. rewrite H3 by congruence. reflexivity.
Qed.
(** a steering matrix exists only for a nonzero wavelength *)
Lemma steering_nonzero a s lam der sel fl r : steering_matrix a s lam der sel fl = Ok r -> lam <> 0%R.
Proof.
  intros H. unfold steering_matrix in H. apply bind_Ok_inv in H as (ps & _ & H). destruct (_ && der)%bool; [discriminate|].
  apply bind_Ok_inv in H as (L & _ & H). apply bind_Ok_inv in H as ((T, DT) & HT & _). exact (phase_delay_nonzero _ _ _ _ _ HT).
Qed.
Lemma sel_subset a sel ps p : select_perturbations a sel = Ok ps -> In p ps -> In p (perturbations a).
Proof.
  unfold select_perturbations. destruct (String.eqb sel "all"); [intros H; injection H as <-; auto|].
  destruct (String.eqb sel "known"); [intros H; injection H as <-; intros Hp; apply filter_In in Hp; tauto|].
  destruct (String.eqb sel "none"); [intros H; injection H as <-; intros [] | discriminate].
Qed.
Lemma wf_pert_applicable a p : wf_array a -> In p (perturbations a) -> is_applicable_to p a = Ok true.
Proof.
  intros W Hp. unfold perturbations, dvals in Hp. apply in_map_iff in Hp as ((c, q) & E & Hq). simpl in E. subst q. exact (wf_applicable a W c p Hq).
Qed.

Lemma scalar_iso_req a : scalar_isotropic a -> negb (el_isotropic (ar_elem a)) || negb (is_scalar (ar_elem a)) = false.
Proof. intros (H1 & H2). unfold is_scalar. rewrite H1, H2. reflexivity. Qed.
Definition deriv0 (A : cmat) (X : rmat) : cmat := Mat (nr A) (nc A) (fun i j => (ent A i j * (Ci * RtoC (ent X i j)))%C).
Lemma steering_scalar_inv a s lam der sel fl St DA : wf_array a -> scalar_isotropic a ->
  steering_matrix a s lam der sel fl = Ok (St, DA) ->
  exists ps L T DT A, select_perturbations a sel = Ok ps /\ perturb_locations ps (ar_loc a) = Ok L /\ moved ps (la_m (ar_loc a)) (la_m L) /\
    phase_delay_matrix s (la_m L) lam der = Ok (T, DT) /\ nr T = nr (la_m L) /\
    (forall p, In p ps -> nr (pert_matrix (ar_size a) p) = ar_size a /\ nc (pert_matrix (ar_size a) p) = ar_size a) /\
    St = Flat A /\ A ==m perturbed ps (mmap cis T) /\
    Forall2 (fun X D => D ==m perturbed ps (deriv0 (mmap cis T) X)) DT DA.
Proof.
  intros W I H. unfold steering_matrix in H. apply bind_Ok_inv in H as (ps & Hs & H). rewrite (scalar_iso_req a I) in H. cbn [andb] in H.
  apply bind_Ok_inv in H as (L & HL & H). apply bind_Ok_inv in H as ((T, DT) & HT & H). cbn [bind] in H.
  apply bind_Ok_inv in H as ((A2, DA2) & HP & H). injection H as <- <-.
  pose proof (perturb_locations_spec _ _ _ HL) as M.
  assert (NT : nr T = nr (la_m L)).
  { clear -HT. unfold phase_delay_matrix in HT. destruct (_ || _)%bool; [discriminate|]. destruct s as [l u|l u|l].
    - destruct (Reqb lam 0); [discriminate|]. unfold phase_delay_sin, phase_delay_rad in HT. destruct (String.eqb u "sin"), (Nat.eqb (nc (la_m L)) 1); injection HT as <- _; reflexivity.
    - destruct der; [discriminate|]. destruct (Reqb lam 0); [discriminate|]. injection HT as <- _. unfold phase_delay_2d. destruct (Nat.eqb (nc (la_m L)) 1), (Nat.eqb (nc (la_m L)) 2); reflexivity.
    - destruct der; [discriminate|]. destruct (Reqb lam 0); [discriminate|]. apply bind_Ok_inv in HT as (D & HD & HT). injection HT as <- _. unfold phase_delay_nf, align_location_dims in HD.
      destruct (Nat.ltb (nc (la_m L)) 2), (Nat.ltb 2 (nc (la_m L))); (destruct (Nat.eqb _ 0) in HD; [discriminate|]); injection HD as <-; reflexivity. }
  assert (NA : nr (mmap cis T) = ar_size a) by (cbn [nr mmap]; rewrite NT; exact (mv_rows _ _ _ M)).
  apply (perturb_flat ps (ar_size a)) in HP; [| |exact NA|].
  - destruct HP as (P1 & (B & -> & P2) & P3). exists ps, L, T, DT, B. repeat (split; [assumption || reflexivity|]).
    clear -P3. remember (map _ DT) as q. revert DT Heqq. induction P3 as [|x y q r E P3 IH]; intros DT Hq; destruct DT; try discriminate; constructor.
    + injection Hq as -> _. exact E.
    + injection Hq as _ ->. apply IH. reflexivity.
  - intros p Hp. apply applicable_scalar, wf_pert_applicable; [exact W|]. exact (sel_subset a sel ps p Hs Hp).
  - intros D HD. apply in_map_iff in HD as (X & <- & _). exact NA.
Qed.

(** *** linearity *)
Lemma perturbed_linear ps : forall A, (forall p, In p ps -> nc (pert_matrix (nr A) p) = nr A /\ nr (pert_matrix (nr A) p) = nr A) ->
  perturbed ps A ==m perturbed ps (mid (nr A)) *m A /\ nr (perturbed ps (mid (nr A))) = nr A /\ nc (perturbed ps (mid (nr A))) = nr A.
Proof.
  unfold perturbed. intros A. change (nr (mid (nr A))) with (nr A). set (m := nr A).
  assert (G : forall B C, nr C = m -> nc C = m -> nr B = m -> B ==m C *m A -> (forall p, In p ps -> nc (pert_matrix m p) = m /\ nr (pert_matrix m p) = m) ->
    fold_left (fun B p => pert_matrix m p *m B) ps B ==m fold_left (fun B p => pert_matrix m p *m B) ps C *m A /\
    nr (fold_left (fun B p => pert_matrix m p *m B) ps C) = m /\ nc (fold_left (fun B p => pert_matrix m p *m B) ps C) = m).
  { induction ps as [|p ps IH]; intros B D HC1 HC2 HB E H; simpl; [auto|]. destruct (H p (or_introl eq_refl)) as (Q1 & Q2). apply IH.
    - exact Q2. - exact HC2. - exact Q2.
    - rewrite mmul_assoc. apply mmul_eq_r; [congruence | exact E].
    - intros q Hq. apply H. now right. }
  intros H. apply G; auto. symmetry. apply mmul_id_l. reflexivity.
Qed.

(** *** totality in the source parameters *)
Lemma perturb_one_total p A B A' : perturb_one p A = Ok B -> nr A' = nr A -> exists B', perturb_one p A' = Ok B' /\ nr B' = nr B.
Proof.
  intros H E. destruct p as [e k|g k|f k|P k|k]; simpl in *.
  - injection H as <-. eauto.
  - unfold scale_rows in *. rewrite E. destruct (_ || _); [|discriminate]. injection H as <-. eexists. split; [reflexivity|]. reflexivity.
  - unfold scale_rows in *. rewrite E. destruct (_ || _); [|discriminate]. injection H as <-. eexists. split; [reflexivity|]. reflexivity.
  - destruct (Nat.eqb (nd_ndim P) 2); [|discriminate]. simpl in *. unfold matmul in *. rewrite E. destruct (Nat.eqb _ _); [|discriminate]. injection H as <-. eexists. split; [reflexivity|]. reflexivity.
  - injection H as <-. eauto.
Qed.
Lemma perturb_steering_total ps : forall A D A' D' s q, perturb_steering ps (Flat A) [D] = Ok (s, q) -> nr A' = nr A -> nr D' = nr D ->
  exists B E, perturb_steering ps (Flat A') [D'] = Ok (Flat B, [E]).
Proof.
  induction ps as [|p ps IH]; intros A D A' D' s q H HA HD; simpl in *; [eauto|].
  apply bind_Ok_inv in H as (s1 & H1 & H). apply bind_Ok_inv in H1 as (B & H1 & H1'). injection H1' as <-.
  apply bind_Ok_inv in H as (DA1 & H2 & H). apply bind_Ok_inv in H2 as (D1 & H2 & H2'). injection H2' as <-.
  destruct (perturb_one_total p A B A' H1 HA) as (B' & E1 & N1). destruct (perturb_one_total p D D1 D' H2 HD) as (D1' & E2 & N2).
  rewrite E1, E2. cbn [bind]. exact (IH B D1 B' D1' s q H N1 N2).
Qed.

(** *** derivatives *)
Lemma upd_length {A} (l : list A) k x : List.length (upd l k x) = List.length l.
Proof. revert k; induction l as [|a l IH]; intros [|k]; simpl; auto. Qed.
Lemma upd_nth {A} (l : list A) k x d : k < List.length l -> nth k (upd l k x) d = x.
Proof. revert k; induction l as [|a l IH]; intros [|k] H; simpl in *; try lia; [reflexivity | apply IH; lia]. Qed.
Lemma upd_nth_other {A} (l : list A) k j x d : j <> k -> nth j (upd l k x) d = nth j l d.
Proof. revert k j; induction l as [|a l IH]; intros [|k] [|j] H; simpl in *; try lia; auto. Qed.
Lemma upd_same {A} (l : list A) k d : upd l k (nth k l d) = l.
Proof. revert k; induction l as [|a l IH]; intros [|k]; simpl; auto. now rewrite IH. Qed.

Open Scope R_scope.
Lemma cderiv_ext f g x d : (forall t, f t = g t) -> cderiv f x d -> cderiv g x d.
Proof. intros E (H1 & H2). split; (eapply is_derive_ext; [|eassumption]); intros t; simpl; now rewrite E. Qed.
Lemma cderiv_const c x : cderiv (fun _ => c) x (RtoC 0).
Proof. split; simpl; apply @is_derive_const. Qed.
Lemma cderiv_scal c f x d : cderiv f x d -> cderiv (fun t => (c * f t)%C) x (c * d)%C.
Proof.
  intros (H1 & H2). split.
  - apply is_derive_ext with (fun t => Re c * Re (f t) - Im c * Im (f t)); [intros; now rewrite Re_mult|]. rewrite Re_mult.
    apply (is_derive_minus (K := R_AbsRing) (V := R_NormedModule)); apply is_derive_scal; assumption.
  - apply is_derive_ext with (fun t => Re c * Im (f t) + Im c * Re (f t)); [intros; now rewrite Im_mult|]. rewrite Im_mult.
    apply (is_derive_plus (K := R_AbsRing) (V := R_NormedModule)); apply is_derive_scal; assumption.
Qed.
Lemma cderiv_plus f g x d e : cderiv f x d -> cderiv g x e -> cderiv (fun t => (f t + g t)%C) x (d + e)%C.
Proof.
  intros (H1 & H2) (H3 & H4). split; cbn [Re Im fst snd Cplus]; apply (is_derive_plus (K := R_AbsRing) (V := R_NormedModule)); assumption.
Qed.
Lemma cderiv_csum n (f : nat -> R -> C) x d : (forall j, (j < n)%nat -> cderiv (f j) x (d j)) -> cderiv (fun t => csum n (fun j => f j t)) x (csum n d).
Proof.
  induction n as [|n IH]; intros H; simpl; [apply cderiv_const|]. apply cderiv_plus; [apply IH; intros; apply H; lia | apply H; lia].
Qed.
Lemma cderiv_cis (phi : R -> R) x dphi : is_derive phi x dphi -> cderiv (fun t => cis (phi t)) x (cis (phi x) * (Ci * RtoC dphi))%C.
Proof.
  intros H. split; cbn [Re Im fst snd cis Ci RtoC Cmult].
  - apply (is_derive_ext (fun t => cos (phi t))); [reflexivity|]. auto_derive; [now exists dphi|]. replace (Derive (fun x0 : R => phi x0) x) with dphi by (symmetry; exact (is_derive_unique _ _ _ H)). ring.
  - apply (is_derive_ext (fun t => sin (phi t))); [reflexivity|]. auto_derive; [now exists dphi|]. replace (Derive (fun x0 : R => phi x0) x) with dphi by (symmetry; exact (is_derive_unique _ _ _ H)). ring.
Qed.
Lemma phase_deriv l u L lam k : lam <> 0 -> (k < List.length l)%nat -> (1 <= nc L <= 3)%nat ->
  exists T DD : R -> rmat, (forall t, phase_delay_matrix (FF1 (upd l k t) u) L lam true = Ok (T t, [DD t])) /\
    (forall t, nr (T t) = nr L /\ nc (T t) = List.length l) /\
    (forall t, nr (DD t) = nr L) /\
    forall x i, (u = "sin"%string -> nc L = 1%nat \/ -1 < x < 1) -> is_derive (fun t => ent (T t) i k) x (ent (DD x) i k).
Proof.
  intros NZ Hk Hd. unfold phase_delay_matrix. destruct (Nat.ltb_spec (nc L) 1); [lia|]. destruct (Nat.ltb_spec 3 (nc L)); [lia|]. cbn [orb]. rewrite (Reqb_neq _ _ NZ).
  destruct (String.eqb_spec u "sin") as [->|N].
  - unfold phase_delay_sin. destruct (Nat.eqb_spec (nc L) 1) as [E|E].
    + eexists _, _. split; [intros t; reflexivity|]. cbn [rscal mmap outer_col nr nc ent]. split; [intros; split; [reflexivity | apply upd_length]|].
      split; [reflexivity|]. intros x i _. apply is_derive_ext with (fun t => 2 * PI / lam * (ent L i 0%nat * t)); [intros; now rewrite upd_nth|].
      auto_derive; [exact I|ring].
    + eexists _, _. split; [intros t; reflexivity|]. cbn [rscal mmap outer_col radd rsub nr nc ent]. split; [intros; split; [reflexivity | apply upd_length]|].
      split; [reflexivity|]. intros x i Hx. destruct (Hx eq_refl) as [?|Hx']; [contradiction|].
      apply is_derive_ext with (fun t => 2 * PI / lam * (ent L i 0%nat * t + ent L i 1%nat * sqrt (1 - t * t))).
      { intros t. rewrite upd_nth by exact Hk. rewrite (nth_map_R (fun x => sqrt (1 - x * x))) by (now rewrite upd_length). now rewrite upd_nth. }
      rewrite (nth_map_R (fun x => x / sqrt (1 - x * x))) by (now rewrite upd_length). rewrite upd_nth by exact Hk.
      assert (P : 0 < 1 - x * x) by nra. pose proof (sqrt_lt_R0 _ P).
      auto_derive; [nra|]. change (1 + - (x * x)) with (1 - x * x). f_equal. field. apply Rgt_not_eq. exact H1.
  - set (g := fun t => if String.eqb u "deg" then deg2rad t else t).
    assert (HL : forall t, List.length (if String.eqb u "deg" then map deg2rad (upd l k t) else upd l k t) = List.length l) by (intros; destruct (String.eqb u "deg"); rewrite ?map_length; apply upd_length).
    assert (HN : forall t, nth k (if String.eqb u "deg" then map deg2rad (upd l k t) else upd l k t) 0 = g t).
    { intros t. unfold g. destruct (String.eqb u "deg"); [rewrite nth_map_R by (now rewrite upd_length)|]; now rewrite upd_nth. }
    set (gf := if String.eqb u "deg" then PI / 180 else 1).
    assert (Hg : forall x, is_derive g x gf).
    { intros x. unfold g, gf, deg2rad. destruct (String.eqb u "deg"); auto_derive; try exact I; ring. }
    unfold phase_delay_rad. destruct (Nat.eqb_spec (nc L) 1) as [E|E].
    + eexists _, _. split; [intros t; reflexivity|]. cbn [rscal mmap outer_col nr nc ent]. split; [intros; split; [reflexivity | rewrite map_length; apply HL]|].
      split; [intros; destruct (String.eqb u "deg"); reflexivity|]. intros x i _.
      apply is_derive_ext with (fun t => 2 * PI / lam * (ent L i 0%nat * sin (g t))).
      { intros t. rewrite (nth_map_R sin) by (rewrite HL; exact Hk). now rewrite HN. }
      auto_derive; [now exists gf|]. replace (Derive (fun x0 : R => g x0) x) with gf by (symmetry; exact (is_derive_unique _ _ _ (Hg x))).
      unfold gf. destruct (String.eqb u "deg") eqn:ED; cbn [ent mmap rscal outer_col]; rewrite (nth_map_R cos) by (specialize (HL x); rewrite ?ED in HL; rewrite HL; exact Hk);
        specialize (HN x); rewrite ?ED in HN; rewrite HN; ring.
    + eexists _, _. split; [intros t; reflexivity|]. cbn [rscal mmap outer_col radd rsub nr nc ent]. split; [intros; split; [reflexivity | rewrite map_length; apply HL]|].
      split; [intros; destruct (String.eqb u "deg"); reflexivity|]. intros x i _.
      apply is_derive_ext with (fun t => 2 * PI / lam * (ent L i 0%nat * sin (g t) + ent L i 1%nat * cos (g t))).
      { intros t. rewrite (nth_map_R sin), (nth_map_R cos) by (rewrite HL; exact Hk). now rewrite HN. }
      auto_derive; [split; [now exists gf | split; [now exists gf | exact I]]|]. replace (Derive (fun x0 : R => g x0) x) with gf by (symmetry; exact (is_derive_unique _ _ _ (Hg x))).
      unfold gf. destruct (String.eqb u "deg") eqn:ED; cbn [ent mmap rscal outer_col rsub]; rewrite (nth_map_R cos), (nth_map_R sin) by (specialize (HL x); rewrite ?ED in HL; rewrite HL; exact Hk);
        specialize (HN x); rewrite ?ED in HN; rewrite HN; ring.
Qed.

(** C24: the derivative returned by steering_matrix *)
Lemma steering_deriv a l u lam sel fl k St DA : wf_array a -> scalar_isotropic a -> (k < List.length l)%nat ->
  steering_matrix a (FF1 l u) lam true sel fl = Ok (St, DA) ->
  exists A D : R -> cmat, (forall t, steering_matrix a (FF1 (upd l k t) u) lam true sel fl = Ok (Flat (A t), [D t])) /\
    forall x i, (i < ar_size a)%nat -> (u = "sin"%string -> ar_ndim a = 1%nat \/ -1 < x < 1) ->
      (u = "sin"%string -> (forall e kn, ~ In (LocErr e kn) (perturbations a)) \/ -1 < x < 1) ->
      cderiv (fun t => ent (A t) i k) x (ent (D x) i k).
Proof.
  intros W Iso Hk H. pose proof H as H0. unfold steering_matrix in H0. apply bind_Ok_inv in H0 as (ps & Hs & H0). rewrite (scalar_iso_req a Iso) in H0. cbn [andb] in H0.
  apply bind_Ok_inv in H0 as (L & HL & H0). apply bind_Ok_inv in H0 as ((T0, DT0) & HT & H0). cbn [bind] in H0.
  apply bind_Ok_inv in H0 as ((A2, DA2) & HP & _).
  pose proof (perturb_locations_spec _ _ _ HL) as M. pose proof (phase_cols _ _ _ _ _ _ HT) as Hd.
  destruct (phase_deriv l u (la_m L) lam k (phase_delay_nonzero _ _ _ _ _ HT) Hk Hd) as (T & DD & E1 & E2 & E3 & E4).
  pose proof (E1 (nth k l 0)) as E0. rewrite upd_same in E0. rewrite HT in E0. injection E0 as -> ->. cbn [map] in HP.
  set (G := fun t => mmap cis (T t)). set (GD := fun t => deriv0 (mmap cis (T t)) (DD t)).
  assert (NG : forall t, nr (G t) = ar_size a) by (intros t; unfold G; cbn [nr mmap]; rewrite (proj1 (E2 t)); exact (mv_rows _ _ _ M)).
  assert (NGD : forall t, nr (GD t) = ar_size a) by (intros t; exact (NG t)).
  assert (AP : forall p, In p ps -> applies_to_scalar (ar_size a) p) by (intros p Hp; apply applicable_scalar, wf_pert_applicable; [exact W|]; exact (sel_subset a sel ps p Hs Hp)).
  assert (TOT : forall t, exists BE : cmat * cmat, perturb_steering ps (Flat (G t)) [GD t] = Ok (Flat (fst BE), [snd BE])).
  { intros t. destruct (perturb_steering_total ps (G (nth k l 0)) (GD (nth k l 0)) (G t) (GD t) _ _ HP) as (B & E & Q); [now rewrite !NG | now rewrite !NGD|]. exists (B, E). exact Q. }
  assert (F : exists F : R -> cmat * cmat, forall t, perturb_steering ps (Flat (G t)) [GD t] = Ok (Flat (fst (F t)), [snd (F t)])).
  { exists (fun t => match perturb_steering ps (Flat (G t)) [GD t] with Ok (Flat B, E :: _) => (B, E) | _ => (G t, G t) end).
    intros t. destruct (TOT t) as ((B & E) & Q). rewrite Q. reflexivity. }
  destruct F as (F & HF). exists (fun t => fst (F t)), (fun t => snd (F t)). split.
  - intros t. unfold steering_matrix. rewrite Hs. cbn [bind]. rewrite (scalar_iso_req a Iso). cbn [andb]. rewrite HL. cbn [bind]. rewrite E1. cbn [bind map].
    specialize (HF t). unfold G, GD, deriv0 in HF. cbn [bind]. rewrite HF. reflexivity.
  - intros x i Hi Hx Hx'.
    assert (LIN : forall t, fst (F t) ==m perturbed ps (mid (ar_size a)) *m G t /\ snd (F t) ==m perturbed ps (mid (ar_size a)) *m GD t).
    { intros t. specialize (HF t). apply (perturb_flat ps (ar_size a)) in HF as (Q0 & (B & Q1 & Q2) & Q3); [|exact AP|apply NG | intros D [<-|[]]; apply NGD].
      injection Q1 as <-. inversion Q3 as [|? ? ? ? Q4 _]; subst.
      destruct (perturbed_linear ps (G t)) as (R1 & _); [rewrite NG; intros p Hp; destruct (Q0 p Hp); auto|].
      destruct (perturbed_linear ps (GD t)) as (R2 & _); [rewrite NGD; intros p Hp; destruct (Q0 p Hp); auto|].
      rewrite NG in R1. rewrite NGD in R2. split; [rewrite Q2; exact R1 | rewrite Q4; exact R2]. }
    assert (PN : nr (perturbed ps (mid (ar_size a))) = ar_size a /\ nc (perturbed ps (mid (ar_size a))) = ar_size a).
    { destruct (perturbed_linear ps (G x)) as (_ & R1 & R2); [|rewrite NG in R1, R2; auto].
      rewrite NG. intros p Hp. specialize (HF x). apply (perturb_flat ps (ar_size a)) in HF as (Q0 & _ & _); [|exact AP|apply NG | intros D [<-|[]]; apply NGD]. destruct (Q0 p Hp); auto. }
    destruct PN as (PN1 & PN2).
    set (P := perturbed ps (mid (ar_size a))) in *.
    assert (EA : forall t, ent (fst (F t)) i k = csum (nc P) (fun j => (ent P i j * ent (G t) j k)%C)).
    { intros t. destruct (proj1 (LIN t)) as (_ & Q2 & Q3).
      rewrite Q3; [reflexivity| |]. rewrite (proj1 (proj1 (LIN t))). cbn [nr mmul]. now rewrite PN1. rewrite Q2. cbn [nc mmul mmap G]. rewrite (proj2 (E2 t)). exact Hk. }
    assert (ED : ent (snd (F x)) i k = csum (nc P) (fun j => (ent P i j * ent (GD x) j k)%C)).
    { destruct (proj2 (LIN x)) as (Q1 & Q2 & Q3). rewrite Q3; [reflexivity| |]. rewrite Q1. cbn [nr mmul]. now rewrite PN1.
      rewrite Q2. cbn [nc mmul mmap GD deriv0]. rewrite (proj2 (E2 x)). exact Hk. }
    rewrite ED. apply (cderiv_ext (fun t => csum (nc P) (fun j => (ent P i j * ent (G t) j k)%C))); [intros; now rewrite EA|].
    apply cderiv_csum. intros j Hj. apply cderiv_scal. unfold G, GD, deriv0. cbn [ent mmap].
    apply (cderiv_cis (fun t => ent (T t) j k)). apply E4. intros Hu.
    destruct (Hx Hu) as [N1|?]; [|now right]. destruct (Hx' Hu) as [N2|?]; [|now right]. left.
    rewrite (perturb_locations_none ps (ar_loc a)) in HL; [injection HL as <-; exact N1|]. intros e kn Hin. apply (N2 e kn). exact (sel_subset a sel ps _ Hs Hin).
Qed.
