From Coq Require Import Sorting.Sorted Sorting.Permutation Lra.
From Verif Require Import Base_Np Base_Trig M_utils S_utils P_utils M_sources M_array M_designs S_designs P_designs M_coarray S_coarray.
Open Scope nat_scope.

Lemma places_grid_1d g l d : places_1d g l d -> grid_1d g l.
Proof. intros [[H1 H2] H3 H4 H5 _ _]. constructor; auto. Qed.

Lemma NoDup_map_inj {A B} (f : A -> B) (q : list A) :
  (forall a b, In a q -> In b q -> f a = f b -> a = b) -> NoDup q -> NoDup (map f q).
Proof.
  intros H Hn. induction q as [|a q IH]; simpl; [constructor|]. inversion Hn; subst. constructor.
  - intros Hin. apply in_map_iff in Hin as (b & E & Hb). apply H in E; [subst; contradiction | now right | now left].
  - apply IH; [|assumption]. intros; apply H; auto; now right.
Qed.
(** *** the index map *)
Definition at_diff (P : list (nat * Z)) (d : Z) : list nat := map fst (filter (fun e => Z.eqb (snd e) d) P).
Definition some_ne {A} (l : list A) : option (list A) := match l with [] => None | _ => Some l end.
Lemma Zeqb_spec' a b : Z.eqb a b = true <-> a = b. Proof. apply Z.eqb_eq. Qed.

Lemma build_fold P : forall P0 m, NoDup (dkeys m) -> (forall d, dget Z.eqb m d = some_ne (at_diff P0 d)) ->
  let m' := fold_left build_step P m in
  NoDup (dkeys m') /\ forall d, dget Z.eqb m' d = some_ne (at_diff (P0 ++ P) d).
Proof.
  induction P as [|[k v] P IH]; intros P0 m Hn Hd; simpl.
  - rewrite app_nil_r. auto.
  - replace (P0 ++ (k, v) :: P) with ((P0 ++ [(k, v)]) ++ P) by now rewrite <- app_assoc.
    apply IH.
    + unfold build_step. simpl. destruct (dget Z.eqb m v); apply (dset_NoDup Z.eqb Zeqb_spec' m v _ Hn).
    + intros d. unfold build_step. simpl. rewrite (Hd v).
      assert (EA : at_diff (P0 ++ [(k, v)]) d = at_diff P0 d ++ (if Z.eqb v d then [k] else [])).
      { unfold at_diff. rewrite filter_app, map_app. simpl. destruct (Z.eqb v d); reflexivity. }
      rewrite EA. destruct (Z.eqb_spec v d) as [E|E].
      * subst d. destruct (at_diff P0 v) as [|a q]; simpl; rewrite (dget_dset_eq Z.eqb Zeqb_spec'); reflexivity.
      * rewrite app_nil_r. destruct (some_ne (at_diff P0 v)); rewrite (dget_dset_neq Z.eqb Zeqb_spec') by auto; apply Hd.
Qed.

Section WithGrid.
  Variables (g : gdesign) (l : list Z).
  Hypothesis Hg : grid_1d g l.
  Local Notation M := (List.length l).

  Definition diffs : list Z := flatC (compute_location_differences Z.sub (gd_indices g)).
  Lemma diffs_length : List.length diffs = M * M.
  Proof. unfold diffs. rewrite length_flatC. simpl. rewrite (g1_rows g l Hg), (g1_cols g l Hg). lia. Qed.
  Lemma diffs_nth i j : i < M -> j < M -> nth (i + j * M) diffs 0%Z = (nth i l 0 - nth j l 0)%Z.
  Proof.
    intros Hi Hj. unfold diffs.
    pose proof (nth_flatC (compute_location_differences Z.sub (gd_indices g)) (i + j * M) 0 0%Z) as H.
    simpl in H. rewrite (g1_rows g l Hg), (g1_cols g l Hg) in H.
    replace ((i + j * M) * 1 + 0) with (i + j * M) in H by lia. rewrite H by (try lia; nia).
    rewrite Nat.mod_add, Nat.div_add, Nat.mod_small, Nat.div_small by lia. simpl.
    now rewrite !(g1_index g l Hg) by assumption.
  Qed.
  Lemma position_split k : k < M * M -> exists i j, i < M /\ j < M /\ k = i + j * M.
  Proof. intros H. apply vec_index_surj in H. exact H. Qed.

  Definition imap := build_map (gd_indices g).
  Lemma imap_spec : NoDup (dkeys imap) /\ forall d, dget Z.eqb imap d = some_ne (at_diff (combine (seq 0 (List.length diffs)) diffs) d).
  Proof.
    unfold imap, build_map. fold diffs.
    apply (build_fold (combine (seq 0 (List.length diffs)) diffs) [] []); [constructor | reflexivity].
  Qed.
  Definition pos d := at_diff (combine (seq 0 (List.length diffs)) diffs) d.
  Lemma combine_filter_sorted (D : list Z) (d : Z) : forall a,
    StronglySorted lt (at_diff (combine (seq a (List.length D)) D) d) /\ forall k, In k (at_diff (combine (seq a (List.length D)) D) d) <-> a <= k < a + List.length D /\ nth (k - a) D 0%Z = d.
  Proof.
    induction D as [|x D IH]; intros a; simpl.
    - split; [constructor | intros k; split; [contradiction | lia]].
    - destruct (IH (S a)) as (S1 & S2). unfold at_diff in *. simpl. destruct (Z.eqb_spec x d) as [E|E]; simpl.
      + split.
        * constructor; [exact S1|]. apply Forall_forall. intros k Hk. apply S2 in Hk. lia.
        * intros k. rewrite S2. split.
          -- intros [<-|[H1 H2]]; [split; [lia | now rewrite Nat.sub_diag]|]. split; [lia|]. replace (k - a) with (S (k - S a)) by lia. exact H2.
          -- intros [H1 H2]. destruct (Nat.eq_dec a k) as [->|Hne]; [now left|right]. split; [lia|].
             replace (k - a) with (S (k - S a)) in H2 by lia. exact H2.
      + split; [exact S1|]. intros k. rewrite S2. split.
        * intros [H1 H2]. split; [lia|]. replace (k - a) with (S (k - S a)) by lia. exact H2.
        * intros [H1 H2]. destruct (Nat.eq_dec a k) as [->|Hne].
          -- rewrite Nat.sub_diag in H2. contradiction.
          -- split; [lia|]. replace (k - a) with (S (k - S a)) in H2 by lia. exact H2.
  Qed.
  Lemma pos_sorted d : StronglySorted lt (pos d).
  Proof. apply (combine_filter_sorted diffs d 0). Qed.
  Lemma pos_In d k : In k (pos d) <-> lag_position l d k.
  Proof.
    unfold pos. rewrite (proj2 (combine_filter_sorted diffs d 0) k). rewrite Nat.sub_0_r. simpl. rewrite diffs_length. split.
    - intros [[_ H1] H2]. destruct (position_split k H1) as (i & j & Hi & Hj & ->). exists i, j. rewrite diffs_nth in H2 by assumption. auto.
    - intros (i & j & Hi & Hj & -> & H). rewrite diffs_nth by assumption. split; [nia | exact H].
  Qed.

  Variable w : wfun.
  Hypothesis Hw : mk_WeightFunction1D g = Ok w.
  Lemma w_eq : w = WFun M None imap (sort_by Z.leb (dkeys imap)).
  Proof.
    unfold mk_WeightFunction1D in Hw. rewrite (g1_ndim g l Hg) in Hw. simpl in Hw. injection Hw as <-.
    now rewrite (g1_size g l Hg).
  Qed.
  Lemma indices_of_pos d : indices_of w d = pos d.
  Proof. rewrite w_eq. unfold indices_of. simpl. rewrite (proj2 imap_spec d). unfold pos, some_ne. destruct (at_diff _ d); reflexivity. Qed.
  Lemma weight_of_len d : weight_of w d = List.length (indices_of w d).
  Proof. unfold weight_of, indices_of. destruct (dget _ _ _); reflexivity. Qed.
  Lemma indices_of_sorted d : StronglySorted lt (indices_of w d).
  Proof. rewrite indices_of_pos. apply pos_sorted. Qed.
  Lemma indices_of_In d k : In k (indices_of w d) <-> lag_position l d k.
  Proof. rewrite indices_of_pos. apply pos_In. Qed.
  Lemma SSorted_NoDup (q : list nat) : StronglySorted lt q -> NoDup q.
  Proof.
    induction q as [|a q IH]; intros H; inversion H; subst; constructor; [|auto].
    intros Hin. rewrite Forall_forall in H3. specialize (H3 _ Hin). lia.
  Qed.
  Lemma indices_of_NoDup d : NoDup (indices_of w d).
  Proof. apply SSorted_NoDup, indices_of_sorted. Qed.

  (** weights as numbers of ordered pairs *)
  Lemma NoDup_list_prod {A B} (xs : list A) (ys : list B) : NoDup xs -> NoDup ys -> NoDup (list_prod xs ys).
  Proof.
    intros Hx Hy. induction xs as [|x xs IH]; simpl; [constructor|]. inversion Hx; subst. apply NoDup_app_disj.
    - apply FinFun.Injective_map_NoDup; [intros u v E; now injection E | exact Hy].
    - auto.
    - intros [a b] H3 H4. apply in_map_iff in H3 as (y & E & _). injection E as <- <-. apply in_prod_iff in H4. tauto.
  Qed.
  Lemma lag_count_eq d : weight_of w d = lag_count l d.
  Proof.
    rewrite weight_of_len. unfold lag_count.
    rewrite <- (map_length (fun p : nat * nat => fst p + snd p * M)).
    apply Permutation_length, NoDup_Permutation.
    - apply indices_of_NoDup.
    - apply NoDup_map_inj.
      + intros [a b] [c e] H1 H2 E. apply filter_In in H1 as [H1 _], H2 as [H2 _].
        apply in_prod_iff in H1, H2. destruct H1 as [H1 H1'], H2 as [H2 H2']. apply in_seq in H1, H2, H1', H2'. simpl in E.
        destruct (vec_index_inj M a b c e) as [-> ->]; [lia|lia|exact E|reflexivity].
      + apply NoDup_filter, NoDup_list_prod; apply seq_NoDup.
    - intros k. rewrite indices_of_In, in_map_iff. split.
      + intros (i & j & Hi & Hj & -> & E). exists (i, j). split; [reflexivity|]. apply filter_In. split.
        * apply in_prod_iff. split; apply in_seq; lia.
        * apply Z.eqb_eq. exact E.
      + intros ([i j] & <- & H). apply filter_In in H as [H1 H2]. apply in_prod_iff in H1 as [H1 H1']. apply in_seq in H1, H1'.
        apply Z.eqb_eq in H2. exists i, j. simpl in *. repeat split; auto; lia.
  Qed.
  Lemma weight_sym d : weight_of w (- d) = weight_of w d.
  Proof.
    rewrite !weight_of_len.
    rewrite <- (map_length (fun k => k / M + (k mod M) * M) (indices_of w d)).
    apply Permutation_length, NoDup_Permutation.
    - apply indices_of_NoDup.
    - apply NoDup_map_inj; [|apply indices_of_NoDup].
      intros a b Ha Hb E. apply indices_of_In in Ha as (i & j & Hi & Hj & -> & _), Hb as (i' & j' & Hi' & Hj' & -> & _).
      rewrite !Nat.div_add, !Nat.mod_add, !Nat.div_small, !Nat.mod_small in E by lia.
      destruct (vec_index_inj M j i j' i') as [-> ->]; [lia|lia| |reflexivity]. simpl in E. exact E.
    - intros k. rewrite indices_of_In, in_map_iff. split.
      + intros (i & j & Hi & Hj & -> & E). exists (j + i * M). split.
        * rewrite !Nat.div_add, !Nat.mod_add, !Nat.div_small, !Nat.mod_small by lia. reflexivity.
        * apply indices_of_In. exists j, i. repeat split; auto; lia.
      + intros (q & <- & H). apply indices_of_In in H as (i & j & Hi & Hj & -> & E). exists j, i.
        rewrite !Nat.div_add, !Nat.mod_add, !Nat.div_small, !Nat.mod_small by lia. repeat split; auto; lia.
  Qed.
  Lemma weight_zero : NoDup l -> weight_of w 0 = M.
  Proof.
    intros Hn. rewrite weight_of_len. rewrite <- (seq_length M 0) at 1.
    rewrite <- (map_length (fun i => i + i * M) (seq 0 M)).
    apply Permutation_length, NoDup_Permutation.
    - apply indices_of_NoDup.
    - apply NoDup_map_inj; [|apply seq_NoDup].
      intros a b Ha Hb E. apply in_seq in Ha, Hb. destruct (vec_index_inj M a a b b) as [-> _]; [lia|lia|exact E|reflexivity].
    - intros k. rewrite indices_of_In, in_map_iff. split.
      + intros (i & j & Hi & Hj & -> & E). exists i. assert (i = j).
        { apply (proj1 (NoDup_nth l 0%Z) Hn i j Hi Hj). lia. }
        subst j. split; [reflexivity | apply in_seq; lia].
      + intros (i & <- & H). apply in_seq in H. exists i, i. repeat split; auto; lia.
  Qed.

  (** differences *)
  Lemma is_lag_nth d : is_lag l d <-> exists k, lag_position l d k.
  Proof.
    split.
    - intros (a & b & Ha & Hb & E). apply (In_nth _ _ 0%Z) in Ha as (i & Hi & <-), Hb as (j & Hj & <-).
      exists (i + j * M), i, j. auto.
    - intros (k & i & j & Hi & Hj & -> & E). exists (nth i l 0%Z), (nth j l 0%Z). auto using nth_In.
  Qed.
  Lemma dmem_lag d : dmem Z.eqb imap d = true <-> is_lag l d.
  Proof.
    rewrite is_lag_nth. unfold dmem. rewrite (proj2 imap_spec d). fold (pos d). split.
    - destruct (pos d) as [|k q] eqn:E; simpl; [discriminate|]. intros _. exists k. apply pos_In. rewrite E. now left.
    - intros (k & H). apply pos_In in H. destruct (pos d); [contradiction | reflexivity].
  Qed.
  Lemma keys_lag d : In d (dkeys imap) <-> is_lag l d.
  Proof.
    rewrite <- dmem_lag. unfold dmem. destruct (dget Z.eqb imap d) eqn:E.
    - split; [reflexivity|]. intros _. apply (dget_In Z.eqb Zeqb_spec') in E. apply (in_map fst) in E. exact E.
    - split; [|discriminate]. intros H. apply (dget_None_notin Z.eqb Zeqb_spec') in E. contradiction.
  Qed.
  Lemma differences_In d : In d (differences w) <-> is_lag l d.
  Proof.
    rewrite w_eq. unfold differences. simpl. rewrite <- keys_lag.
    split; intros H; [eapply Permutation_in; [apply sort_by_perm|exact H] | eapply Permutation_in; [symmetry; apply sort_by_perm | exact H]].
  Qed.
  Lemma differences_sorted : strictly_increasing (differences w).
  Proof.
    rewrite w_eq. unfold differences. simpl.
    assert (S1 : StronglySorted (fun a b => Z.leb a b = true) (sort_by Z.leb (dkeys imap))).
    { apply sort_by_sorted; [intros a b H; apply Z.leb_gt in H; apply Z.leb_le; lia | intros a b c H1 H2; apply Z.leb_le in H1, H2; apply Z.leb_le; lia]. }
    assert (S2 : NoDup (sort_by Z.leb (dkeys imap))).
    { eapply Permutation_NoDup; [symmetry; apply sort_by_perm | apply imap_spec]. }
    revert S1 S2. generalize (sort_by Z.leb (dkeys imap)) as q. intros q S1 S2.
    induction q as [|a q IH]; intros i j Hij Hj; simpl in Hj; [lia|].
    inversion S1; inversion S2; subst. destruct j as [|j]; [lia|]. destruct i as [|i]; simpl.
    - rewrite Forall_forall in H2. assert (In (nth j q 0%Z) q) by (apply nth_In; lia).
      specialize (H2 _ H). apply Z.leb_le in H2. destruct (Z.eq_dec a (nth j q 0%Z)) as [E|E]; [|lia].
      subst a. contradiction.
    - apply IH; auto; lia.
  Qed.
  Lemma wf_len_differences : wf_len w = List.length (differences w).
  Proof.
    rewrite w_eq. unfold wf_len, differences. simpl. rewrite (Permutation_length (sort_by_perm Z.leb (dkeys imap))).
    unfold dkeys. now rewrite map_length.
  Qed.
  Lemma weights_spec : weights w = Ok (map (weight_of w) (differences w)).
  Proof.
    unfold weights. assert (H : forall q, (forall x, In x q -> In x (differences w)) ->
      mapM (fun x => match dget Z.eqb (wf_map w) x with Some q0 => Ok (List.length q0) | None => Raise KeyError end) q = Ok (map (weight_of w) q)).
    { induction q as [|x q IH]; intros H; [reflexivity|]. simpl. unfold weight_of at 1.
      assert (Hx : dmem Z.eqb imap x = true). { apply dmem_lag, differences_In, H. now left. }
      assert (E : wf_map w = imap) by (rewrite w_eq; reflexivity). rewrite E in *.
      unfold dmem in Hx. destruct (dget Z.eqb imap x); [|discriminate]. cbn [bind]. rewrite IH; [reflexivity|]. intros; apply H; now right. }
    apply H. auto.
  Qed.
  Definition sum_nat (q : list nat) : nat := fold_right Nat.add 0 q.
  Lemma sum_filter (P : list (nat * Z)) ks : NoDup ks -> (forall e, In e P -> In (snd e) ks) ->
    sum_nat (map (fun d => List.length (at_diff P d)) ks) = List.length P.
  Proof.
    intros Hn. induction P as [|[k v] P IH]; intros H.
    - clear. induction ks; simpl; auto.
    - simpl. rewrite <- IH by (intros; apply H; now right).
      assert (Hin : In v ks) by (apply (H (k, v)); now left). clear -Hn Hin.
      unfold at_diff. simpl. induction ks as [|a ks IH]; [contradiction|]. inversion Hn; subst. simpl.
      destruct Hin as [->|Hin].
      + rewrite Z.eqb_refl. simpl. f_equal. f_equal.
        clear -H1. induction ks as [|b ks IH]; [reflexivity|]. simpl in *. destruct (Z.eqb_spec v b); [subst; tauto|]. f_equal. tauto.
      + rewrite IH by assumption. destruct (Z.eqb_spec v a); [subst; contradiction|]. simpl. lia.
  Qed.
  Lemma weights_sum : sum_nat (map (weight_of w) (differences w)) = M * M.
  Proof.
    rewrite <- diffs_length. rewrite <- (seq_length (List.length diffs) 0) at 1.
    rewrite (map_ext _ (fun d => List.length (pos d))) by (intros d; rewrite weight_of_len, indices_of_pos; reflexivity).
    unfold pos. rewrite sum_filter.
    - rewrite combine_length, seq_length. lia.
    - rewrite w_eq. unfold differences. simpl. eapply Permutation_NoDup; [symmetry; apply sort_by_perm | apply imap_spec].
    - intros [k v] H. simpl. apply differences_In.
      pose proof (in_combine_l _ _ _ _ H) as H1. apply in_seq in H1.
      apply is_lag_nth. exists k. apply pos_In. unfold pos, at_diff. apply in_map_iff. exists (k, v). split; [reflexivity|].
      apply filter_In. split; [exact H | apply Z.eqb_refl].
  Qed.

  (** central ULA *)
  Lemma ula_search_spec m fuel : forall mv,
    let r := ula_search m fuel mv in
    mv <= r <= mv + fuel /\ (forall k, mv <= k < r -> dmem Z.eqb m (Z.of_nat k) = true) /\ (r < mv + fuel -> dmem Z.eqb m (Z.of_nat r) = false).
  Proof.
    induction fuel as [|f IH]; intros mv; simpl.
    - repeat split; try lia.
    - destruct (dmem Z.eqb m (Z.of_nat mv)) eqn:E.
      + specialize (IH (mv + 1)). cbv zeta in IH. destruct IH as (I1 & I2 & I3). split; [lia|]. split; [|intros; apply I3; lia].
        intros k Hk. destruct (Nat.eq_dec k mv) as [->|]; [exact E | apply I2; lia].
      + repeat split; try lia. intros _. exact E.
  Qed.
  Definition mv0 := ula_search imap (S (List.length imap)) 0.
  Lemma mv0_hole : first_hole l (Z.of_nat mv0).
  Proof.
    unfold mv0. destruct (ula_search_spec imap (S (List.length imap)) 0) as (H1 & H2 & H3). cbv zeta in *.
    set (r := ula_search imap (S (List.length imap)) 0) in *. split; [lia|]. split.
    - intros Hl. apply dmem_lag in Hl. destruct (Nat.lt_ge_cases r (0 + S (List.length imap))) as [Hlt|Hge].
      + rewrite H3 in Hl by exact Hlt. discriminate.
      + assert (Hinc : incl (map Z.of_nat (seq 0 (S (List.length imap)))) (dkeys imap)).
        { intros x Hx. apply in_map_iff in Hx as (k & <- & Hk). apply in_seq in Hk. apply keys_lag, dmem_lag, H2. lia. }
        apply NoDup_incl_length in Hinc.
        * unfold dkeys in Hinc. rewrite !map_length, seq_length in Hinc. lia.
        * apply FinFun.Injective_map_NoDup; [intros x y; lia | apply seq_NoDup].
    - intros d Hd. apply dmem_lag. replace d with (Z.of_nat (Z.to_nat d)) by lia. apply H2. lia.
  Qed.
  (** the state after any sequence of queries *)
  Definition after (calls : list bool) : wfun := fold_left (fun w b => snd (get_central_ula_size w b)) calls w.
  Lemma after_cases calls : after calls = w \/ after calls = WFun M (Some mv0) imap (sort_by Z.leb (dkeys imap)).
  Proof.
    unfold after. assert (H : forall cs w', (w' = w \/ w' = WFun M (Some mv0) imap (sort_by Z.leb (dkeys imap))) ->
      (fold_left (fun w b => snd (get_central_ula_size w b)) cs w' = w \/ fold_left (fun w b => snd (get_central_ula_size w b)) cs w' = WFun M (Some mv0) imap (sort_by Z.leb (dkeys imap)))).
    { induction cs as [|b cs IH]; intros w' H; [exact H|]. simpl. apply IH. destruct H as [->| ->]; right; [rewrite w_eq|]; reflexivity. }
    apply H. now left.
  Qed.
  Lemma after_queries calls d : indices_of (after calls) d = indices_of w d /\ weight_of (after calls) d = weight_of w d /\ differences (after calls) = differences w.
  Proof. destruct (after_cases calls) as [->| ->]; [auto|]. rewrite w_eq. auto. Qed.
  Lemma central_ula calls b : fst (get_central_ula_size (after calls) b) = (if b then Z.of_nat mv0 else (2 * Z.of_nat mv0 - 1)%Z).
  Proof.
    destruct (after_cases calls) as [->| ->]; [rewrite w_eq|]; unfold get_central_ula_size; cbn [wf_mv wf_map]; fold mv0; destruct b; cbn [fst]; lia.
  Qed.
  Lemma central_ula_hole calls h : first_hole l h -> fst (get_central_ula_size (after calls) true) = h.
  Proof.
    intros (H1 & H2 & H3). rewrite central_ula. destruct mv0_hole as (K1 & K2 & K3).
    destruct (Z.lt_trichotomy (Z.of_nat mv0) h) as [H|[H|H]]; [|exact H|].
    - exfalso. apply K2, H3. lia.
    - exfalso. apply H2, K3. lia.
  Qed.
  Lemma mv0_pos : l <> [] -> 1 <= mv0.
  Proof.
    intros H. destruct mv0_hole as (K1 & K2 & K3). destruct (Nat.eq_dec mv0 0) as [E|E]; [|lia].
    exfalso. apply K2. rewrite E. destruct l as [|a q]; [tauto|]. exists a, a. simpl. repeat split; auto. lia.
  Qed.
  Lemma mv0_lag d : (- Z.of_nat mv0 < d < Z.of_nat mv0)%Z -> is_lag l d.
  Proof.
    intros H. destruct mv0_hole as (K1 & K2 & K3). destruct (Z.le_ge_cases 0 d).
    - apply K3. lia.
    - replace d with (- - d)%Z by lia. apply is_lag_sym, K3. lia.
  Qed.
End WithGrid.
