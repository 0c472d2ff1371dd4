(** Proofs: 2-D peak finding, caching transparency, heap effects of estimate calls, noise subspace. *)
From Coq Require Import Sorting.Sorted Sorting.Permutation.
From Verif Require Import Base_Np Base_Trig S_utils M_utils P_utils M_sources M_array M_designs S_sources P_sources P_sources3 M_coarray M_heap M_grid M_core S_grid P_grid P_core.
Open Scope nat_scope.

(** *** peaks *)
Lemma in_window s : forall idx idx', in_shape s idx ->
  (In idx' (window s idx) <-> in_shape s idx' /\ adjacent idx idx').
Proof.
  induction s as [|n s IH]; intros [|i idx] idx' H; cbn [in_shape] in H; try tauto; cbn [window].
  - split; [intros [<-|[]]; split; [exact I | intros j; lia] | intros (H' & _)]. destruct idx'; [now left | destruct H'].
  - destruct H as (Hi & H). rewrite in_flat_map. split.
    + intros (a & Ha & Hm). apply in_map_iff in Hm as (r & <- & Hr). apply IH in Hr as (Hr1 & Hr2); [|exact H].
      assert (a < n /\ i <= a + 1 /\ a <= i + 1) by (destruct Ha as [<-|[<-|[<-|[]]]]; lia).
      split; [cbn; tauto|]. intros [|j]; cbn [nth]; [lia | apply Hr2].
    + intros (H1 & H2). destruct idx' as [|a r]; [destruct H1|]. destruct H1 as (Ha & Hr). pose proof (H2 0) as H0. cbn [nth] in H0.
      exists a. split; [|apply in_map, IH; [exact H | split; [exact Hr | intros j; exact (H2 (S j))]]].
      cbn [In]. destruct (Nat.eq_dec a i) as [->|]; [tauto|]. destruct (Nat.eq_dec a (i - 1)) as [->|]; [tauto|]. right. right. left. lia.
Qed.
Lemma fold_Rmax_ge l : forall a, (a <= fold_left Rmax l a)%R /\ (forall x, In x l -> (x <= fold_left Rmax l a)%R) /\ (fold_left Rmax l a = a \/ In (fold_left Rmax l a) l).
Proof.
  induction l as [|b l IH]; intros a; cbn [fold_left In]; [split; [lra|]; split; [tauto | now left]|].
  destruct (IH (Rmax a b)) as (H1 & H2 & H3). pose proof (Rmax_l a b). pose proof (Rmax_r a b). split; [lra|]. split.
  - intros x [<-|Hx]; [lra | auto].
  - destruct H3 as [H3|H3]; [|tauto]. rewrite H3. unfold Rmax. destruct (Rle_dec a b); tauto.
Qed.
Lemma peak_spec shape x idx : in_shape shape idx ->
  (Reqb (at_idx shape x idx) (maximum_filter3 shape x idx) = true <->
   forall idx', in_shape shape idx' -> adjacent idx idx' -> (at_idx shape x idx' <= at_idx shape x idx)%R).
Proof.
  intros H. unfold maximum_filter3. destruct (fold_Rmax_ge (map (at_idx shape x) (window shape idx)) (at_idx shape x idx)) as (H1 & H2 & H3).
  unfold Reqb. destruct (Req_EM_T _ _) as [E|N].
  - split; [|reflexivity]. intros _ idx' Hs Ha. rewrite E. apply H2. apply in_map. apply in_window; auto.
  - split; [discriminate|]. intros HA. exfalso. apply N. destruct H3 as [H3|H3]; [now symmetry|].
    apply in_map_iff in H3 as (idx' & E & Hi). apply in_window in Hi as (Hs & Had); [|exact H]. specialize (HA idx' Hs Had). rewrite <- E in H1 |- *. lra.
Qed.
Lemma ravel_all_indices s : map (ravel s) (all_indices s) = seq 0 (prod_list s).
Proof.
  apply (nth_ext _ _ 0 0); [now rewrite map_length, length_all_indices, seq_length|]. rewrite map_length, length_all_indices. intros r Hr.
  rewrite (nth_indep _ 0 (ravel s [])) by (now rewrite map_length, length_all_indices). rewrite map_nth, nth_all_indices, seq_nth by exact Hr. cbn. now apply ravel_unravel.
Qed.
Lemma seq_sorted a n : StronglySorted lt (seq a n).
Proof. revert a; induction n as [|n IH]; intros a; cbn [seq]; constructor; [apply IH|]. apply Forall_forall. intros x Hx. apply in_seq in Hx. lia. Qed.
Lemma filter_sorted {A} (Q : A -> A -> Prop) f l : StronglySorted Q l -> StronglySorted Q (filter f l).
Proof.
  induction 1 as [|a l H IH HF]; cbn [filter]; [constructor|]. destruct (f a); [|exact IH]. constructor; [exact IH|].
  rewrite Forall_forall in *. intros x Hx. apply filter_In in Hx. now apply HF.
Qed.
Lemma map_sorted {A B} (Q : B -> B -> Prop) (f : A -> B) l : StronglySorted Q (map f l) <-> StronglySorted (fun a b => Q (f a) (f b)) l.
Proof.
  induction l as [|a l IH]; cbn [map]; [split; constructor|]. split; intros H; inversion H as [|? ? H1 H2]; subst; constructor; try (now apply IH).
  - exact (proj1 (Forall_map _ _ _) H2).
  - exact (proj2 (Forall_map _ _ _) H2).
Qed.
Lemma find_peaks_nd fp shape x : List.length shape <> 1 ->
  (forall idx, In idx (find_peaks_simple fp shape x) <-> in_shape shape idx /\ forall idx', in_shape shape idx' -> adjacent idx idx' -> (at_idx shape x idx' <= at_idx shape x idx)%R) /\
  StronglySorted lt (map (ravel shape) (find_peaks_simple fp shape x)).
Proof.
  intros N. unfold find_peaks_simple. destruct (Nat.eqb_spec (List.length shape) 1); [contradiction|]. split.
  - intros idx. rewrite filter_In, in_all_indices. split; intros (H1 & H2); (split; [exact H1 | now apply (peak_spec shape x idx H1)]).
  - rewrite map_sorted. apply filter_sorted. rewrite <- map_sorted. rewrite ravel_all_indices. apply seq_sorted.
Qed.
Lemma exists_max {A} (f : A -> R) l : l <> [] -> exists a, In a l /\ forall b, In b l -> (f b <= f a)%R.
Proof.
  induction l as [|a l IH]; [congruence|]. intros _. destruct l as [|b l].
  - exists a. split; [now left|]. intros b [<-|[]]. lra.
  - destruct IH as (m & Hm & Hx); [discriminate|]. destruct (Rle_dec (f a) (f m)).
    + exists m. split; [now right|]. intros c [<-|Hc]; [assumption | auto].
    + exists a. split; [now left|]. intros c [<-|Hc]; [lra|]. specialize (Hx c Hc). lra.
Qed.

(** *** heap effects: every call only appends buffers *)
Definition extends (h h' : lheap) : Prop := List.length h <= List.length h' /\ forall b, b < List.length h -> nth b h' [] = nth b h [].
Lemma extends_refl h : extends h h. Proof. split; auto. Qed.
Lemma extends_trans h1 h2 h3 : extends h1 h2 -> extends h2 h3 -> extends h1 h3.
Proof. intros (A1 & A2) (B1 & B2). split; [lia|]. intros b Hb. rewrite B2 by lia. now apply A2. Qed.
Lemma refine_one_heap {T} (e : estimator T) f d last est i h gs h' gs' : refine_one e f d last est i (h, gs) = Ok (h', gs') ->
  List.length h' = List.length h /\ forall b, b <> p_addr est -> nth b h' [] = nth b h [].
Proof.
  unfold refine_one. destruct (nth_error gs i) as [g|]; [|discriminate]. intros H.
  apply bind_Ok_inv in H as (A & _ & H). apply bind_Ok_inv in H as (sp & _ & H). apply bind_Ok_inv in H as (p & _ & H). apply bind_Ok_inv in H as (s & _ & H).
  destruct (nth_error (src_rows s) p) as [row|]; [|discriminate].
  assert (E : h' = set_location h est i (cast (sg_dt (e_grid e)) row)).
  { destruct last; [congruence|]. apply bind_Ok_inv in H as (g' & _ & H). congruence. }
  subst h'. unfold set_location. split; [apply set_row_length|]. intros b Hb. rewrite nth_set_row. destruct (Nat.eqb_spec b (p_addr est)); [contradiction | reflexivity].
Qed.
Definition keeps (est : placement) (h h' : lheap) : Prop := List.length h' = List.length h /\ forall b, b <> p_addr est -> nth b h' [] = nth b h [].
Lemma foldM_keeps {S} (f : nat -> lheap * S -> res (lheap * S)) est l :
  (forall i st st', f i st = Ok st' -> keeps est (fst st) (fst st')) -> forall st st', foldM f l st = Ok st' -> keeps est (fst st) (fst st').
Proof.
  intros Hf. induction l as [|i l IH]; intros st st' H; cbn [foldM] in H; [injection H as <-; split; auto|].
  apply bind_Ok_inv in H as (s1 & E1 & H). apply Hf in E1 as (A1 & A2). apply IH in H as (B1 & B2). split; [lia|]. intros b Hb. rewrite B2 by exact Hb. auto.
Qed.
Lemma refine_estimates_heap {T} (e : estimator T) f h est flat d n h' : refine_estimates e f h est flat d n = Ok h' -> keeps est h h'.
Proof.
  unfold refine_estimates. intros H. apply bind_Ok_inv in H as (gs & _ & H). apply bind_Ok_inv in H as (st & E & H). injection H as <-.
  unfold refine_loop in E. refine (foldM_keeps _ est _ _ _ _ E). intros i st1 st2 E1. refine (foldM_keeps _ est _ _ _ _ E1).
  intros i2 (h1, g1) (h2, g2) E2. exact (refine_one_heap _ _ _ _ _ _ _ _ _ _ E2).
Qed.
Lemma estimate_from_heap {T} (e : estimator T) A h f k o oc h' : estimate_from e A h f k o = Ok (oc, h') ->
  extends h h' /\ forall est, oc_estimates oc = Some est -> List.length h <= p_addr est < List.length h'.
Proof.
  unfold estimate_from. intros H. apply bind_Ok_inv in H as (sp & _ & H). destruct (negb _); [discriminate|].
  destruct (Z.ltb _ _); [injection H as <- <-; split; [apply extends_refl | discriminate]|].
  destruct (negb _); [discriminate|]. apply bind_Ok_inv in H as ((it, h1) & E & H).
  assert (G : exists est new, it = IPlacement est /\ p_addr est = List.length h /\ h1 = h ++ [new]).
  { unfold getitem in E. apply bind_Ok_inv in E as (sel & _ & E). injection E as <- <-. eexists _, _. split; [reflexivity|]. split; reflexivity. }
  destruct G as (est & new & -> & Ea & ->).
  assert (X1 : extends h (h ++ [new])) by (split; [rewrite app_length; lia|]; intros b Hb; now rewrite app_nth1).
  destruct (o_refine o).
  - apply bind_Ok_inv in H as (h2 & E2 & H). injection H as <- <-. apply refine_estimates_heap in E2 as (K1 & K2). rewrite app_length in K1. cbn in K1. split.
    + split; [lia|]. intros b Hb. rewrite K2 by lia. now rewrite app_nth1.
    + cbn. intros est' Heq. injection Heq as <-. lia.
  - injection H as <- <-. split; [exact X1|]. cbn. intros est' Heq. injection Heq as <-. rewrite app_length. cbn. lia.
Qed.
Lemma estimate_heap {T} (e : estimator T) h f k o r e' h' : estimate e h f k o = (r, e', h') ->
  extends h h' /\ forall oc est, r = Ok oc -> oc_estimates oc = Some est -> List.length h <= p_addr est < List.length h'.
Proof.
  rewrite estimate_eq. destruct (get_atom_matrix e None) as ([A|x] & e1).
  - destruct (estimate_from e1 A h f k o) as [(oc, h1)|x] eqn:E; intros H; injection H as <- <- <-.
    + apply estimate_from_heap in E as (E1 & E2). split; [exact E1|]. intros oc' est Hr. injection Hr as <-. apply E2.
    + split; [apply extends_refl | discriminate].
  - intros H; injection H as <- <- <-. split; [apply extends_refl | discriminate].
Qed.
Lemma estimate_all_heap {T} calls : forall (e : estimator T) h rs e' h', estimate_all e h calls = (rs, e', h') ->
  extends h h' /\ forall oc est, In (Ok oc) rs -> oc_estimates oc = Some est -> List.length h <= p_addr est < List.length h'.
Proof.
  induction calls as [|((f, k), o) calls IH]; intros e h rs e' h' H; cbn [estimate_all] in H.
  - injection H as <- <- <-. split; [apply extends_refl | intros ? ? []].
  - destruct (estimate e h f k o) as ((r, e1), h1) eqn:E1. destruct (estimate_all e1 h1 calls) as ((rs2, e2), h2) eqn:E2. injection H as <- <- <-.
    apply estimate_heap in E1 as (X1 & Y1). apply IH in E2 as (X2 & Y2). split; [now apply (extends_trans _ h1)|].
    intros oc est [Hr|Hr] He.
    + specialize (Y1 oc est Hr He). destruct X2. lia.
    + specialize (Y2 oc est Hr He). destruct X1. lia.
Qed.

(** *** caching *)
Definition cache_ok {T} (e : estimator T) : Prop := e_cache e = None \/ exists A, e_cache e = Some A /\ e_atom e (e_grid e) = Ok A.
Definition same_cfg {T} (e1 e2 : estimator T) : Prop :=
  e_grid e1 = e_grid e2 /\ e_pl e1 = e_pl e2 /\ e_atom e1 = e_atom e2 /\ e_pf e1 = e_pf e2 /\ e_argsort e1 = e_argsort e2.
Lemma refine_one_cfg {T} (e1 e2 : estimator T) f d last est i st : same_cfg e1 e2 -> refine_one e1 f d last est i st = refine_one e2 f d last est i st.
Proof. intros (H1 & H2 & H3 & H4 & H5). unfold refine_one. destruct st. unfold get_atom_matrix. cbn [fst]. rewrite H1, H3. reflexivity. Qed.
Lemma foldM_ext {S} (f g : nat -> S -> res S) l s : (forall i s, f i s = g i s) -> foldM f l s = foldM g l s.
Proof. intros H. revert s; induction l as [|i l IH]; intros s; cbn [foldM]; [reflexivity|]. rewrite H. destruct (g i s); [apply IH | reflexivity]. Qed.
Lemma estimate_from_cfg {T} (e1 e2 : estimator T) A h f k o : same_cfg e1 e2 -> estimate_from e1 A h f k o = estimate_from e2 A h f k o.
Proof.
  intros C. pose proof C as (H1 & H2 & H3 & H4 & H5). unfold estimate_from. rewrite H1, H2, H4, H5. destruct (f A) as [sp|]; [|reflexivity]. cbn [bind].
  destruct (negb _); [reflexivity|]. destruct (Z.ltb _ _); [reflexivity|]. destruct (negb _); [reflexivity|].
  destruct (getitem _ _ _) as [([?|? ?|est] & h1)|]; try reflexivity. cbn [bind]. destruct (o_refine o); [|reflexivity].
  replace (refine_estimates e1) with (refine_estimates e2); [reflexivity|].
  unfold refine_estimates, refine_loop. rewrite <- H1.
  assert (E : refine_one e2 = refine_one e1); [|now rewrite E].
  unfold refine_one, get_atom_matrix. now rewrite H1, H3.
Qed.
Lemma get_atom_cfg {T} (e : estimator T) : cache_ok e -> fst (get_atom_matrix e None) = e_atom e (e_grid e) /\ same_cfg e (snd (get_atom_matrix e None)) /\ cache_ok (snd (get_atom_matrix e None)) /\
  (e_caching e = false -> e_cache e = None -> snd (get_atom_matrix e None) = e).
Proof.
  unfold get_atom_matrix. intros [H|(A & H & HA)]; rewrite H.
  - destruct (e_atom e (e_grid e)) as [A|x] eqn:E; cbn [fst snd].
    + split; [reflexivity|]. destruct (e_caching e); cbn [snd].
      * split; [repeat split|]. split; [right; exists A; split; [reflexivity | exact E] | discriminate].
      * split; [repeat split|]. split; [now left | reflexivity].
    + split; [reflexivity|]. split; [repeat split|]. split; [now left | reflexivity].
  - cbn [fst snd]. split; [now symmetry|]. split; [repeat split|]. split; [right; eauto | intros; congruence].
Qed.
Lemma same_cfg_sym {T} (e1 e2 : estimator T) : same_cfg e1 e2 -> same_cfg e2 e1.
Proof. unfold same_cfg. intuition congruence. Qed.
Lemma same_cfg_trans {T} (e1 e2 e3 : estimator T) : same_cfg e1 e2 -> same_cfg e2 e3 -> same_cfg e1 e3.
Proof. unfold same_cfg. intuition congruence. Qed.
Lemma estimate_cfg {T} (e1 e2 : estimator T) h f k o : same_cfg e1 e2 -> cache_ok e1 -> cache_ok e2 ->
  exists r h' e1' e2', estimate e1 h f k o = (r, e1', h') /\ estimate e2 h f k o = (r, e2', h') /\ same_cfg e1 e1' /\ same_cfg e2 e2' /\ cache_ok e1' /\ cache_ok e2'.
Proof.
  intros C K1 K2. rewrite !estimate_eq. destruct (get_atom_cfg e1 K1) as (A1 & B1 & D1 & _). destruct (get_atom_cfg e2 K2) as (A2 & B2 & D2 & _).
  destruct (get_atom_matrix e1 None) as (r1, e1'). destruct (get_atom_matrix e2 None) as (r2, e2'). cbn [fst snd] in *.
  assert (E : e_atom e1 (e_grid e1) = e_atom e2 (e_grid e2)) by (destruct C as (-> & _ & -> & _); reflexivity).
  subst r1 r2. rewrite E. destruct (e_atom e2 (e_grid e2)) as [A|x].
  - rewrite (estimate_from_cfg e1' e2') by (apply (same_cfg_trans _ e1); [now apply same_cfg_sym | now apply (same_cfg_trans _ e2)]).
    destruct (estimate_from e2' A h f k o) as [(oc, h')|x]; eexists _, _, _, _; repeat (split; [reflexivity || eassumption|]); assumption.
  - eexists _, _, _, _; repeat (split; [reflexivity || eassumption|]); assumption.
Qed.
Lemma estimate_all_cfg {T} calls : forall (e1 e2 : estimator T) h, same_cfg e1 e2 -> cache_ok e1 -> cache_ok e2 ->
  exists rs h' e1' e2', estimate_all e1 h calls = (rs, e1', h') /\ estimate_all e2 h calls = (rs, e2', h') /\ same_cfg e1 e1' /\ same_cfg e2 e2' /\ cache_ok e1' /\ cache_ok e2'.
Proof.
  induction calls as [|((f, k), o) calls IH]; intros e1 e2 h C K1 K2; cbn [estimate_all].
  - eexists _, _, _, _. repeat (split; [reflexivity || assumption || (repeat split)|]). assumption.
  - destruct (estimate_cfg e1 e2 h f k o C K1 K2) as (r & h1 & e1' & e2' & E1 & E2 & S1 & S2 & D1 & D2). rewrite E1, E2.
    destruct (IH e1' e2' h1) as (rs & h2 & e1'' & e2'' & F1 & F2 & T1 & T2 & G1 & G2);
      [apply (same_cfg_trans _ e1); [now apply same_cfg_sym | now apply (same_cfg_trans _ e2)] | assumption | assumption |].
    rewrite F1, F2. eexists _, _, _, _. split; [reflexivity|]. split; [reflexivity|].
    split; [now apply (same_cfg_trans _ e1')|]. split; [now apply (same_cfg_trans _ e2')|]. split; assumption.
Qed.

(** *** noise subspace *)
Lemma clip_neg n k : 1 <= k -> clip_bound n (- Z.of_nat k) = n - k.
Proof. intros H. unfold clip_bound. destruct (Z.ltb_spec (- Z.of_nat k) 0); [lia | lia]. Qed.
