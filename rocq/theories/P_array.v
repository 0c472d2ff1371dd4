From Coq Require Import Sorting.Sorted Sorting.Permutation Lra.
From Verif Require Import Base_Np Base_Trig M_utils S_utils P_utils M_sources S_sources P_sources P_sources2 M_array S_array.
Open Scope nat_scope.

(** *** registry *)
Lemma pclass_eqb_spec a b : pclass_eqb a b = true <-> a = b.
Proof. destruct a, b; simpl; split; intros; try discriminate; reflexivity. Qed.
Lemma applicable_ext p a b : ar_loc a = ar_loc b -> ar_elem a = ar_elem b -> is_applicable_to p a = is_applicable_to p b.
Proof. intros H1 H2. unfold is_applicable_to, ar_size. rewrite H1, H2. reflexivity. Qed.
Lemma add_pert_frame ps : forall a b ro, add_perturbation_from_list a ps ro = Ok b ->
  ar_loc b = ar_loc a /\ ar_name b = ar_name a /\ ar_elem b = ar_elem a.
Proof.
  induction ps as [|p ps IH]; intros a b ro H; simpl in H.
  - injection H as <-. auto.
  - apply bind_Ok_inv in H as (ap & _ & H). destruct ap; [|discriminate]. simpl in H.
    destruct (_ && _)%bool; [discriminate|]. apply IH in H. exact H.
Qed.
Lemma dset_In {V} (d : list (pclass * V)) k v c w : In (c, w) (dset pclass_eqb d k v) -> (c, w) = (k, v) \/ In (c, w) d.
Proof.
  induction d as [|[k' v'] d IH]; simpl; [intros [H|[]]; left; congruence|].
  destruct (pclass_eqb k k') eqn:E; simpl.
  - apply pclass_eqb_spec in E; subst. intros [H|H]; [left; congruence | right; right; exact H].
  - intros [H|H]; [right; now left|]. apply IH in H as [H|H]; auto.
Qed.
Lemma add_pert_wf ps : forall a b ro, wf_array a -> add_perturbation_from_list a ps ro = Ok b -> wf_array b.
Proof.
  induction ps as [|p ps IH]; intros a b ro W H; simpl in H.
  - injection H as <-. exact W.
  - apply bind_Ok_inv in H as (ap & Hap & H). destruct ap; [|discriminate]. simpl in H.
    destruct (_ && _)%bool; [discriminate|]. apply IH in H; [exact H|]. destruct W as [W1 W2 W3]. constructor; cbn [set_perts ar_perts].
    + apply dset_NoDup; [exact pclass_eqb_spec | exact W1].
    + intros c q Hq. apply dset_In in Hq as [Hq|Hq]; [injection Hq as -> ->; reflexivity | eauto].
    + intros c q Hq. rewrite (applicable_ext q _ a) by reflexivity.
      apply dset_In in Hq as [Hq|Hq]; [injection Hq as -> ->; exact Hap | eauto].
Qed.
Lemma wf_empty l n e : wf_array (Array l n e []).
Proof. constructor; cbn; [constructor | tauto | tauto]. Qed.
(** the last perturbation of a class in the list *)
Lemma find_app {A} (f : A -> bool) l1 l2 : find f (l1 ++ l2) = match find f l1 with Some x => Some x | None => find f l2 end.
Proof. induction l1 as [|a l1 IH]; simpl; [reflexivity|]. destruct (f a); auto. Qed.
Lemma add_pert_dget ps : forall a b ro c, add_perturbation_from_list a ps ro = Ok b ->
  dget pclass_eqb (ar_perts b) c = match last_of ps c with Some p => Some p | None => dget pclass_eqb (ar_perts a) c end.
Proof.
  unfold last_of. induction ps as [|p ps IH]; intros a b ro c H; simpl in H.
  - injection H as <-. reflexivity.
  - apply bind_Ok_inv in H as (ap & Hap & H). destruct ap; [|discriminate]. simpl in H.
    destruct (_ && _)%bool; [discriminate|]. rewrite (IH _ _ _ c H). simpl rev. rewrite find_app.
    destruct (find _ (rev ps)); [reflexivity|]. simpl. cbn [set_perts ar_perts].
    destruct (pclass_eqb (class_of p) c) eqn:E.
    + apply pclass_eqb_spec in E; subst. apply dget_dset_eq, pclass_eqb_spec.
    + apply dget_dset_neq; [exact pclass_eqb_spec|]. intros ->. assert (pclass_eqb (class_of p) (class_of p) = true) by (now apply pclass_eqb_spec). congruence.
Qed.
Lemma dset_fresh {V} (d : list (pclass * V)) k v : dmem pclass_eqb d k = false -> dset pclass_eqb d k v = (d ++ [(k, v)])%list.
Proof.
  unfold dmem. induction d as [|[k' v'] d IH]; simpl; [reflexivity|].
  destruct (pclass_eqb k k'); [discriminate|]. intros H. now rewrite IH.
Qed.
Lemma add_pert_strict ps : forall a b, add_perturbation_from_list a ps true = Ok b ->
  ar_perts b = (ar_perts a ++ map (fun p => (class_of p, p)) ps)%list /\ (forall p, In p ps -> is_applicable_to p a = Ok true) /\
  (forall p, In p ps -> dmem pclass_eqb (ar_perts a) (class_of p) = false) /\ NoDup (map class_of ps).
Proof.
  induction ps as [|p ps IH]; intros a b H; simpl in H.
  - injection H as <-. rewrite app_nil_r. repeat split; try (intros ? []); constructor.
  - apply bind_Ok_inv in H as (ap & Hap & H). destruct ap; [|discriminate]. simpl in H.
    destruct (dmem pclass_eqb (ar_perts a) (class_of p)) eqn:E; [discriminate|]. simpl in H.
    apply IH in H as (H1 & H2 & H3 & H4). cbn [set_perts ar_perts] in *. rewrite dset_fresh in H1, H3 by exact E.
    assert (N : forall q, In q ps -> class_of q <> class_of p /\ dmem pclass_eqb (ar_perts a) (class_of q) = false).
    { intros q Hq. specialize (H3 q Hq). unfold dmem in *. clear -H3. induction (ar_perts a) as [|[k v] d IHd]; simpl in *.
      - destruct (pclass_eqb (class_of q) (class_of p)) eqn:E; [discriminate|]. split; [|reflexivity]. intros X. rewrite X in E. assert (pclass_eqb (class_of p) (class_of p) = true) by (now apply pclass_eqb_spec). congruence.
      - destruct (pclass_eqb (class_of q) k); [discriminate|]. auto. }
    split; [rewrite H1, <- app_assoc; reflexivity|]. split; [|split].
    + intros q [<-|Hq]; [exact Hap|]. rewrite <- (H2 q Hq). now apply applicable_ext.
    + intros q [<-|Hq]; [exact E | now apply N].
    + simpl. constructor; [|exact H4]. intros Hi. apply in_map_iff in Hi as (q & Eq & Hq). apply (N q Hq). exact Eq.
Qed.
Lemma add_pert_complete ps : forall a, (forall p, In p ps -> is_applicable_to p a = Ok true) ->
  (forall p, In p ps -> dmem pclass_eqb (ar_perts a) (class_of p) = false) -> NoDup (map class_of ps) ->
  exists b, add_perturbation_from_list a ps true = Ok b.
Proof.
  induction ps as [|p ps IH]; intros a H1 H2 H3; simpl; [eauto|].
  rewrite H1 by now left. cbn [bind negb]. rewrite H2 by now left. simpl. inversion H3; subst. apply IH.
  - intros q Hq. rewrite <- (H1 q) by now right. now apply applicable_ext.
  - intros q Hq. cbn [set_perts ar_perts]. rewrite dset_fresh by (apply H2; now left).
    specialize (H2 q (or_intror Hq)). unfold dmem in *. clear -H2 Hq H4. induction (ar_perts a) as [|[k v] d IHd]; simpl in *.
    + destruct (pclass_eqb (class_of q) (class_of p)) eqn:E; [|reflexivity]. apply pclass_eqb_spec in E. exfalso. apply H4. rewrite <- E. now apply in_map.
    + destruct (pclass_eqb (class_of q) k); [discriminate|]. auto.
  - assumption.
Qed.
Lemma add_pert_error ps : forall a ro e, no_base ps -> add_perturbation_from_list a ps ro = Raise e -> e = RuntimeError.
Proof.
  induction ps as [|p ps IH]; intros a ro e B H; simpl in H; [discriminate|].
  assert (B' : no_base ps) by (intros k Hk; apply (B k); now right).
  destruct (is_applicable_to p a) as [ap|e'] eqn:E; cbn [bind] in H.
  - destruct ap; simpl in H; [|congruence]. destruct (_ && _)%bool; [congruence|]. eauto.
  - exfalso. destruct p; try discriminate E. apply (B known). now left.
Qed.
Lemma add_pert_override ps : forall a, no_base ps -> (forall p, In p ps -> is_applicable_to p a = Ok true) ->
  exists b, add_perturbation_from_list a ps false = Ok b.
Proof.
  induction ps as [|p ps IH]; intros a B H; simpl; [eauto|].
  rewrite H by now left. cbn [bind negb]. rewrite andb_false_r. apply IH; [intros k Hk; apply (B k); now right|].
  intros q Hq. rewrite <- (H q) by now right. now apply applicable_ext.
Qed.

(** *** locations *)
Lemma coord_out m i c : nc m <= c -> coord m i c = 0%R.
Proof. intros H. unfold coord. destruct (Nat.ltb_spec c (nc m)); [lia | reflexivity]. Qed.
Lemma coord_in m i c : c < nc m -> coord m i c = ent m i c.
Proof. intros H. unfold coord. destruct (Nat.ltb_spec c (nc m)); [reflexivity | lia]. Qed.
Lemma iadd_coord a b l : iadd_leading a b = Ok l -> nc (la_m b) <= nc (la_m a) ->
  nr (la_m l) = nr (la_m a) /\ nr (la_m l) = nr (la_m b) /\ nc (la_m l) = nc (la_m a) /\ la_dt l = la_dt a /\
  forall i c, coord (la_m l) i c = (coord (la_m a) i c + coord (la_m b) i c)%R.
Proof.
  unfold iadd_leading. intros H Hc. destruct (match la_dt a with DInt => _ | DFloat => _ end); [discriminate|].
  destruct (Nat.eqb_spec (nr (la_m a)) (nr (la_m b))) as [E|E]; [|discriminate]. injection H as <-. cbn [la_m la_dt nr nc].
  repeat split; auto. intros i c. unfold coord at 1. cbn [nc ent].
  destruct (Nat.ltb_spec c (nc (la_m a))); [rewrite (coord_in (la_m a)) by assumption | rewrite !coord_out by lia; ring].
  destruct (Nat.ltb_spec c (nc (la_m b))); [now rewrite coord_in | rewrite (coord_out (la_m b)) by assumption; ring].
Qed.
Lemma perturb_sensor_spec p l l' : perturb_sensor_locations p l = Ok l' -> moved [p] (la_m l) (la_m l').
Proof.
  destruct p as [e k|g k|f k|P k|k]; cbn [perturb_sensor_locations]; try (intros H; injection H as <-; constructor; cbn [map fold_left loc_offset]; [reflexivity | lia | intros; ring]).
  destruct (Nat.leb_spec (nc (la_m e)) (nc (la_m l))) as [Hc|Hc]; intros H.
  - apply iadd_coord in H as (H1 & H2 & H3 & _ & H4); [|exact Hc]. constructor; cbn [map fold_left loc_offset]; [exact H1 | lia |].
    intros i c _. rewrite H4. ring.
  - apply iadd_coord in H as (H1 & H2 & H3 & _ & H4); [|lia]. constructor; cbn [map fold_left loc_offset]; [exact H2 | lia |].
    intros i c _. rewrite H4. ring.
Qed.
Lemma perturb_locations_spec ps : forall l l', perturb_locations ps l = Ok l' -> moved ps (la_m l) (la_m l').
Proof.
  induction ps as [|p ps IH]; intros l l' H; simpl in H.
  - injection H as <-. constructor; simpl; [reflexivity | reflexivity | intros; ring].
  - apply bind_Ok_inv in H as (l1 & H1 & H). apply perturb_sensor_spec in H1 as [A1 A2 A3]. apply IH in H as [B1 B2 B3].
    constructor.
    + congruence.
    + rewrite B2, A2. reflexivity.
    + intros i c Hi. rewrite B3 by congruence. rewrite A3 by exact Hi. destruct p; simpl; ring.
Qed.
Lemma perturb_locations_none ps l : (forall e k, ~ In (LocErr e k) ps) -> perturb_locations ps l = Ok l.
Proof.
  revert l; induction ps as [|p ps IH]; intros l H; [reflexivity|]. simpl.
  assert (E : perturb_sensor_locations p l = Ok l) by (destruct p; try reflexivity; exfalso; eapply H; now left).
  rewrite E. cbn [bind]. apply IH. intros e k Hi. apply (H e k). now right.
Qed.

(** *** perturbing the steering matrix *)
Definition applies_to_scalar (m : nat) (p : pert) : Prop :=
  match p with
  | GainErr g _ => List.length g = m
  | PhaseErr f _ => List.length f = m
  | Coupling P _ => nth 0 (nd_shape P) 0 = m
  | _ => True
  end.
Lemma applicable_scalar p a : is_applicable_to p a = Ok true -> applies_to_scalar (ar_size a) p.
Proof.
  destruct p; simpl; intros H; try exact I; injection H as H; apply andb_true_iff in H as (_ & H); apply Nat.eqb_eq in H; congruence.
Qed.
Lemma scale_rows_spec m g A B : m = nr A -> scale_rows m g A = Ok B -> B ==m mdiag m g *m A.
Proof.
  intros -> H. unfold scale_rows in H. rewrite Nat.eqb_refl in H. simpl in H. injection H as <-.
  rewrite mmul_diag_l by reflexivity. destruct (Nat.eqb_spec (nr A) 1) as [E|E]; (split; [reflexivity|]; split; [reflexivity|]); cbn [nr nc ent]; intros i j Hi Hj; [|reflexivity].
  replace i with 0 by lia. reflexivity.
Qed.
Lemma perturb_one_spec p m A B : applies_to_scalar m p -> nr A = m -> perturb_one p A = Ok B ->
  B ==m pert_matrix m p *m A /\ nr (pert_matrix m p) = m /\ nc (pert_matrix m p) = m.
Proof.
  destruct p as [e k|g k|f k|P k|k]; simpl; intros Hm HA H.
  - injection H as <-. split; [symmetry; apply mmul_id_l; congruence | auto].
  - rewrite Hm in H. apply scale_rows_spec in H; [split; [exact H | auto] | congruence].
  - rewrite Hm in H. apply scale_rows_spec in H; [split; [exact H | auto] | congruence].
  - destruct (Nat.eqb (nd_ndim P) 2); [|discriminate]. simpl in H. unfold matmul in H.
    destruct (Nat.eqb_spec (nc (nd_mat (RtoC 0) P)) (nr A)) as [E|E]; [|discriminate]. injection H as <-.
    split; [reflexivity|]. split; [exact Hm | simpl in *; congruence].
  - injection H as <-. split; [symmetry; apply mmul_id_l; congruence | auto].
Qed.
Lemma perturbed_ext ps : forall A B, A ==m B -> (forall p, In p ps -> nc (pert_matrix (nr A) p) = nr A /\ nr (pert_matrix (nr A) p) = nr A) ->
  perturbed ps A ==m perturbed ps B.
Proof.
  unfold perturbed. intros A B E. pose proof (meq_nr A B E) as EN. rewrite <- EN. set (m := nr A).
  assert (G : forall A B, A ==m B -> nr A = m -> (forall p, In p ps -> nc (pert_matrix m p) = m /\ nr (pert_matrix m p) = m) ->
    fold_left (fun B p => pert_matrix m p *m B) ps A ==m fold_left (fun B p => pert_matrix m p *m B) ps B).
  { clearbody m. clear A B E EN. induction ps as [|p ps IH]; intros A B E HA H; simpl; [exact E|]. apply IH.
    - apply mmul_eq_r; [|exact E]. rewrite HA. apply H. now left.
    - cbn [nr mmul]. apply H. now left.
    - intros q Hq. apply H. now right. }
  apply G; auto.
Qed.
Lemma perturb_flat ps m : forall A DA s DA', (forall p, In p ps -> applies_to_scalar m p) -> nr A = m -> (forall D, In D DA -> nr D = m) ->
  perturb_steering ps (Flat A) DA = Ok (s, DA') ->
  (forall p, In p ps -> nr (pert_matrix m p) = m /\ nc (pert_matrix m p) = m) /\
  (exists B, s = Flat B /\ B ==m perturbed ps A) /\ Forall2 (fun D D' => D' ==m perturbed ps D) DA DA'.
Proof.
  induction ps as [|p ps IH]; intros A DA s DA' Hp HA HD H; simpl in H.
  - injection H as <- <-. split; [intros ? []|]. split; [exists A; split; reflexivity|]. clear. induction DA; constructor; auto. reflexivity.
  - apply bind_Ok_inv in H as (s1 & H1 & H). apply bind_Ok_inv in H1 as (B & H1 & H1'). injection H1' as <-.
    apply bind_Ok_inv in H as (DA1 & H2 & H).
    destruct (perturb_one_spec p m A B (Hp p (or_introl eq_refl)) HA H1) as (EB & Q1 & Q2).
    assert (HB : nr B = m) by (rewrite (meq_nr _ _ EB); exact Q1).
    assert (HD2 : Forall2 (fun D D1 => D1 ==m pert_matrix m p *m D) DA DA1).
    { clear -H2 HD Hp. revert DA1 H2. induction DA as [|D DA IH]; intros DA1 H2; simpl in H2.
      - injection H2 as <-. constructor.
      - apply bind_Ok_inv in H2 as (D1 & E1 & H2). apply bind_Ok_inv in H2 as (r & E2 & H2). injection H2 as <-. constructor.
        + apply (perturb_one_spec p m D D1); [apply Hp; now left | apply HD; now left | exact E1].
        + apply IH; [intros; apply HD; now right | exact E2]. }
    assert (HD1 : forall D, In D DA1 -> nr D = m).
    { clear -HD2 Q1. induction HD2; [intros D [] | intros D [<-|HH]; [rewrite (meq_nr _ _ H); exact Q1 | auto]]. }
    apply IH in H as (I1 & (B' & -> & I2) & I3); [|intros q Hq; apply Hp; now right | exact HB | exact HD1].
    split; [intros q [<-|Hq]; auto|].
    assert (PE : forall A B, nr A = m -> nr B = m -> B ==m pert_matrix m p *m A -> perturbed ps B ==m perturbed (p :: ps) A).
    { intros X Y HX HY E.
      assert (W : perturbed (p :: ps) X = perturbed ps (pert_matrix m p *m X)).
      { unfold perturbed. cbn [fold_left nr mmul]. rewrite HX, Q1. reflexivity. }
      rewrite W. apply perturbed_ext; [exact E|]. rewrite HY. intros q Hq. destruct (I1 q Hq). auto. }
    split; [exists B'; split; [reflexivity|]; rewrite I2; now apply PE|].
    clear -I3 HD2 PE HD HD1. revert DA' I3. induction HD2 as [|D D1 DA DA1 E HD2 IH]; intros DA' I3; inversion I3; subst; constructor.
    + etransitivity; [eassumption|]. apply PE; [apply HD; now left | apply HD1; now left | exact E].
    + apply IH; [intros; apply HD; now right | intros; apply HD1; now right | assumption].
Qed.
