(** Estimators that see the same physical scene through different numbers return the same estimates. *)
From Coq Require Import Sorting.Sorted Sorting.Permutation.
From Verif Require Import Base_Np Base_Lin M_utils M_sources M_array M_heap M_grid M_core M_subspace M_pipeline S_grid P_core P_core2 S_invar Prop_subspace Prop_pipeline.
Open Scope nat_scope.

Lemma same_order_refl x : same_order x x. Proof. split; [reflexivity|]. intros; tauto. Qed.
Lemma argmax_aux_order x y : same_order x y -> forall l l' i best, skipn i x = l -> skipn i y = l' -> best < List.length x ->
  argmax_aux l i best (nth best x 0%R) = argmax_aux l' i best (nth best y 0%R).
Proof.
  intros (HL & HO). induction l as [|a l IH]; intros l' i best E E' Hb.
  - destruct l' as [|a' l']; [reflexivity|]. exfalso. pose proof (f_equal (@List.length R) E) as L1. pose proof (f_equal (@List.length R) E') as L2. rewrite skipn_length in L1, L2. cbn in L1, L2. lia.
  - destruct l' as [|a' l'].
    { exfalso. pose proof (f_equal (@List.length R) E) as L1. pose proof (f_equal (@List.length R) E') as L2. rewrite skipn_length in L1, L2. cbn in L1, L2. lia. }
    assert (Hi : i < List.length x). { pose proof (f_equal (@List.length R) E) as L1. rewrite skipn_length in L1. cbn in L1. lia. }
    assert (N : forall (z : list R) b t, skipn i z = b :: t -> nth i z 0%R = b /\ skipn (S i) z = t).
    { clear. induction i as [|i IH]; intros z b t H; destruct z as [|c z]; cbn in *; try discriminate; [injection H as -> ->; now split|]. apply IH in H as (H1 & H2). now split. }
    destruct (N x a l E) as (Na & Ns). destruct (N y a' l' E') as (Na' & Ns').
    cbn [argmax_aux]. unfold Rltb. specialize (HO best i Hb Hi). rewrite <- Na, <- Na'.
    destruct (Rlt_dec (nth best x 0%R) (nth i x 0%R)), (Rlt_dec (nth best y 0%R) (nth i y 0%R)); try tauto; apply IH; auto.
Qed.
Lemma argmax_order x y : same_order x y -> argmax x = argmax y.
Proof.
  intros H. destruct x as [|a x], y as [|b y]; try reflexivity; try (destruct H; discriminate).
  cbn [argmax]. f_equal. apply (argmax_aux_order (a :: x) (b :: y) H x y 1 0); try reflexivity. cbn; lia.
Qed.

(** results of computing two spectra: the same error, or spectra related by Q *)
Definition res_rel (Q : list R -> list R -> Prop) (r r' : res (list R)) : Prop :=
  match r, r' with Ok x, Ok y => Q x y | Raise a, Raise b => a = b | _, _ => False end.
Record twin {T} (Q : list R -> list R -> Prop) (e e' : estimator T) (f f' : T -> res (list R)) : Prop := {
  tw_grid : e_grid e' = e_grid e; tw_pl : e_pl e' = e_pl e; tw_pf : e_pf e' = e_pf e; tw_sort : e_argsort e' = e_argsort e;
  tw_order : forall x y, Q x y -> same_order x y;
  tw_spectra : forall g, sg_class g = sg_class (e_grid e) -> res_rel Q (let! A := e_atom e g in f A) (let! A := e_atom e' g in f' A);
  tw_pf_order : forall x y, Q x y -> List.length x = prod_list (sg_shape (e_grid e)) -> e_pf e (sg_shape (e_grid e)) x = e_pf e (sg_shape (e_grid e)) y;
  tw_sort_order : forall x y ps, Q x y -> List.length x = prod_list (sg_shape (e_grid e)) -> (forall p, In p ps -> in_shape (sg_shape (e_grid e)) p) ->
    e_argsort e (map (at_idx (sg_shape (e_grid e)) x) ps) = e_argsort e (map (at_idx (sg_shape (e_grid e)) y) ps)
}.
Lemma in_set_nth {A} (l : list A) n x y : In y (set_nth l n x) -> y = x \/ In y l.
Proof.
  intros H. apply In_nth_error in H as (m & H). rewrite P_heap.nth_error_set_nth in H. destruct (_ && _)%bool; [left; congruence|right; now apply nth_error_In in H].
Qed.
Lemma refine_one_twin {T} Q (e e' : estimator T) f f' d last est i st : twin Q e e' f f' -> (forall g, In g (snd st) -> sg_class g = sg_class (e_grid e)) ->
  refine_one e f d last est i st = refine_one e' f' d last est i st /\
  forall st', refine_one e f d last est i st = Ok st' -> forall g, In g (snd st') -> sg_class g = sg_class (e_grid e).
Proof.
  intros W Hin. unfold refine_one. destruct st as (h, subs). cbn [snd] in Hin. destruct (nth_error subs i) as [g|] eqn:Eg; [|split; [reflexivity|discriminate]]. unfold get_atom_matrix. cbn [fst].
  assert (Cg : sg_class g = sg_class (e_grid e)) by (apply Hin; now apply nth_error_In in Eg).
  split.
  - pose proof (tw_spectra _ _ _ _ _ W g Cg) as H. unfold res_rel in H. destruct (e_atom e g) as [A|x], (e_atom e' g) as [A'|x']; cbn [bind] in *.
    + destruct (f A) as [sp|x], (f' A') as [sp'|x']; cbn [bind] in *; try tauto; [|now subst]. rewrite (argmax_order sp sp' (tw_order _ _ _ _ _ W _ _ H)), (tw_grid _ _ _ _ _ W). reflexivity.
    + destruct (f A); cbn [bind] in *; [tauto|now subst].
    + destruct (f' A'); cbn [bind] in *; [tauto|now subst].
    + now subst.
  - intros st' E. destruct (e_atom e g) as [A|]; cbn [bind] in E; [|discriminate]. destruct (f A) as [sp|]; cbn [bind] in E; [|discriminate]. destruct (argmax sp) as [im|]; cbn [bind] in E; [|discriminate].
    destruct (create_source_placement g) as [s|]; cbn [bind] in E; [|discriminate]. destruct (nth_error (src_rows s) im) as [row|]; [|discriminate].
    destruct last; [injection E as <-; exact Hin|].
    destruct (create_refined_grid_at g _ d 1) as [g'|] eqn:Er; cbn [bind] in E; [|discriminate]. injection E as <-. cbn [snd]. intros g2 I2.
    unfold create_refined_grid_at in Er. destruct (create_refined_axes_at _ _ _ _) as [ax|]; cbn [bind] in Er; [|discriminate]. injection Er as <-.
    apply in_set_nth in I2 as [-> | I2]; [exact Cg | now apply Hin].
Qed.
Lemma foldM_inv {S} (I : S -> Prop) (f g : nat -> S -> res S) l : (forall i s, I s -> f i s = g i s /\ forall s', f i s = Ok s' -> I s') ->
  forall s, I s -> foldM f l s = foldM g l s /\ forall s', foldM f l s = Ok s' -> I s'.
Proof.
  intros H. induction l as [|i l IH]; intros s Is; cbn [foldM]; [split; [reflexivity|]; intros s' E; now injection E as <-|].
  destruct (H i s Is) as (H1 & H2). rewrite <- H1. destruct (f i s) as [s1|x]; cbn [bind]; [apply IH; now apply H2|]. split; [reflexivity|discriminate].
Qed.
Lemma refine_twin {T} Q (e e' : estimator T) f f' h est flat d n : twin Q e e' f f' -> refine_estimates e f h est flat d n = refine_estimates e' f' h est flat d n.
Proof.
  intros W. unfold refine_estimates, refine_loop. rewrite (tw_grid _ _ _ _ _ W). destruct (create_refined_grids_at _ _ _) as [subs|] eqn:Es; [|reflexivity]. cbn [bind].
  f_equal. apply (foldM_inv (fun st => forall g, In g (snd st) -> sg_class g = sg_class (e_grid e))).
  - intros r st Hst. apply (foldM_inv (fun st => forall g, In g (snd st) -> sg_class g = sg_class (e_grid e))); [|exact Hst]. intros i s Hs. now apply (refine_one_twin Q).
  - cbn [snd]. intros g Hg. unfold create_refined_grids_at in Es. 
    revert subs Es Hg. generalize (map (fun p => map Z.of_nat (unravel (sg_shape (e_grid e)) p)) flat) as cs. induction cs as [|c cs IH]; intros subs Es Hg; cbn [mapM] in Es.
    + injection Es as <-. destruct Hg.
    + destruct (create_refined_grid_at (e_grid e) c d 1) as [g'|] eqn:Er; cbn [bind] in Es; [|discriminate]. destruct (mapM _ cs) as [gs|]; cbn [bind] in Es; [|discriminate]. injection Es as <-.
      destruct Hg as [<-|Hg]; [|now apply (IH gs)]. unfold create_refined_grid_at in Er. destruct (create_refined_axes_at _ _ _ _) as [ax|]; cbn [bind] in Er; [|discriminate]. now injection Er as <-.
Qed.
Lemma estimate_from_twin {T} Q (e e' : estimator T) f f' A A' h k o : twin Q e e' f f' -> res_rel Q (f A) (f' A') ->
  match estimate_from e A h f k o, estimate_from e' A' h f' k o with
  | Ok (oc, h1), Ok (oc', h1') => h1 = h1' /\ same_outcome Q (Ok oc) (Ok oc')
  | Raise x, Raise y => x = y
  | _, _ => False
  end.
Proof.
  intros W H. unfold estimate_from. destruct (f A) as [sp|x], (f' A') as [sp'|x']; cbn [res_rel bind] in *; try tauto. pose proof (tw_order _ _ _ _ _ W _ _ H) as (HL & HO).
  rewrite (tw_grid _ _ _ _ _ W), (tw_pl _ _ _ _ _ W), (tw_pf _ _ _ _ _ W), (tw_sort _ _ _ _ _ W), HL.
  destruct (negb _) eqn:B; [reflexivity|]. apply negb_false_iff, Nat.eqb_eq in B. pose proof (eq_trans HL B) as B1.
  rewrite <- (tw_pf_order _ _ _ _ _ W sp sp' H B1). set (peaks := e_pf e _ sp).
  assert (Sp : match (if o_spectrum o then Some sp else None), (if o_spectrum o then Some sp' else None) with None, None => True | Some x, Some y => Q x y | _, _ => False end) by (destruct (o_spectrum o); [exact H|exact I]).
  destruct (Z.ltb _ _). { cbn. split; [reflexivity|]. split; [reflexivity|]. split; [reflexivity|exact Sp]. }
  destruct (negb (forallb _ _)) eqn:B2; [reflexivity|]. apply negb_false_iff in B2. rewrite forallb_forall in B2.
  rewrite <- (tw_sort_order _ _ _ _ _ W sp sp' peaks H B1) by (intros p Hp; now apply idx_ok_spec, B2).
  destruct (getitem _ _ _) as [([?|? ?|est] & h1)|]; cbn [bind]; try reflexivity.
  destruct (o_refine o).
  - rewrite (refine_twin Q e e' f f' _ _ _ _ _ W). destruct (refine_estimates e' f' _ _ _ _ _); cbn [bind]; [|reflexivity]. split; [reflexivity|]. split; [reflexivity|]. split; [reflexivity|exact Sp].
  - split; [reflexivity|]. split; [reflexivity|]. split; [reflexivity|exact Sp].
Qed.
Lemma twin_cfg {T} Q (e e' e1 e1' : estimator T) f f' : same_cfg e e1 -> same_cfg e' e1' -> twin Q e e' f f' -> twin Q e1 e1' f f'.
Proof.
  intros (a1 & a2 & a3 & a4 & a5) (b1 & b2 & b3 & b4 & b5) [t1 t2 t3 t4 t5 t6 t7 t8]. constructor; try congruence; try assumption.
  - intros g. rewrite <- a3, <- b3, <- a1. apply t6.
  - rewrite <- a4, <- a1. exact t7.
  - rewrite <- a5, <- a1. exact t8.
Qed.
Theorem estimate_twin {T} Q (e e' : estimator T) f f' h k o : cache_ok e -> cache_ok e' -> twin Q e e' f f' ->
  same_results Q (estimate e h f k o) (estimate e' h f' k o).
Proof.
  intros K1 K2 W. unfold same_results. rewrite !estimate_eq. destruct (get_atom_cfg e K1) as (A1 & B1 & D1 & _). destruct (get_atom_cfg e' K2) as (A2 & B2 & D2 & _).
  destruct (get_atom_matrix e None) as (r1, e1). destruct (get_atom_matrix e' None) as (r2, e2). cbn [fst snd] in *.
  pose proof (tw_spectra _ _ _ _ _ W (e_grid e) eq_refl) as H. pose proof (tw_grid _ _ _ _ _ W) as G. rewrite G in A2. rewrite <- A1, <- A2 in H.
  pose proof (twin_cfg Q e e' e1 e2 f f' B1 B2 W) as W'.
  destruct r1 as [A|x], r2 as [A'|x']; cbn [bind] in H.
  - pose proof (estimate_from_twin Q e1 e2 f f' A A' h k o W' H) as F.
    destruct (estimate_from e1 A h f k o) as [(oc, h1)|x], (estimate_from e2 A' h f' k o) as [(oc', h1')|x']; cbn [fst snd]; try contradiction.
    + destruct F as (F1 & F2). now split.
    + now split.
  - unfold estimate_from. destruct (f A); cbn in H; [tauto|]; subst; cbn; now split.
  - unfold estimate_from. destruct (f' A'); cbn in H; [tauto|]; subst; cbn; now split.
  - cbn in H. subst. cbn. now split.
Qed.

(** *** Relations between spectra *)
Lemma twin_eq {T} (e e' : estimator T) f f' : e_grid e' = e_grid e -> e_pl e' = e_pl e -> e_pf e' = e_pf e -> e_argsort e' = e_argsort e ->
  (forall g, sg_class g = sg_class (e_grid e) -> (let! A := e_atom e g in f A) = (let! A := e_atom e' g in f' A)) -> twin eq e e' f f'.
Proof.
  intros H1 H2 H3 H4 H5. constructor; try assumption.
  - intros x y ->. apply same_order_refl.
  - intros g Hg. rewrite (H5 g Hg). unfold res_rel. destruct (let! A := e_atom e' g in f' A); reflexivity.
  - intros x y -> _. reflexivity.
  - intros x y ps -> _ _. reflexivity.
Qed.
Lemma at_idx_order shape x y ps : List.length x = prod_list shape -> same_order x y -> (forall p, In p ps -> in_shape shape p) ->
  same_order (map (at_idx shape x) ps) (map (at_idx shape y) ps).
Proof.
  intros HL (HE & HO) Hp. split; [now rewrite !map_length|]. intros i j Hi Hj. rewrite map_length in Hi, Hj.
  assert (K : forall z q, q < List.length ps -> nth q (map (at_idx shape z) ps) 0%R = nth (ravel shape (nth q ps [])) z 0%R).
  { intros z q Hq. rewrite (nth_indep _ 0%R (at_idx shape z [])) by (now rewrite map_length). now rewrite map_nth. }
  rewrite !K by assumption. apply HO; rewrite HL; apply ravel_lt, Hp, nth_In; assumption.
Qed.
Lemma twin_order {T} (e e' : estimator T) f f' : e_grid e' = e_grid e -> e_pl e' = e_pl e -> e_pf e' = e_pf e -> e_argsort e' = e_argsort e ->
  compares_peaks (e_pf e) -> compares_only (e_argsort e) ->
  (forall g, sg_class g = sg_class (e_grid e) -> res_rel same_order (let! A := e_atom e g in f A) (let! A := e_atom e' g in f' A)) -> twin same_order e e' f f'.
Proof.
  intros H1 H2 H3 H4 C1 C2 H5. constructor; try assumption.
  - intros x y H. exact H.
  - intros x y H HL. now apply C1.
  - intros x y ps H HL Hp. apply C2. now apply at_idx_order.
Qed.
Lemma embed_order l l' : List.length l = List.length l' ->
  (forall i j, i < List.length l -> j < List.length l ->
    match nth i l None, nth j l None, nth i l' None, nth j l' None with
    | Some a, Some b, Some a', Some b' => (a < b)%R <-> (a' < b')%R
    | Some _, None, Some _, None | None, Some _, None, Some _ | None, None, None, None => True
    | _, _, _, _ => False end) -> same_order (embed_inf l) (embed_inf l').
Proof.
  intros HL H. assert (L : forall z, List.length (embed_inf z) = List.length z) by (intros; unfold embed_inf; now rewrite map_length).
  split; [now rewrite !L|]. rewrite L. intros i j Hi Hj. rewrite !Prop_subspace.C58_infinite_values_rank_highest by lia. specialize (H i j Hi Hj).
  destruct (nth i l None), (nth j l None), (nth i l' None), (nth j l' None); tauto.
Qed.
(** *** Routines that only compare *)
Lemma find_peaks_simple_compares fp : compares_only fp -> compares_peaks (find_peaks_simple fp).
Proof.
  intros C shape x y HL H. unfold find_peaks_simple. destruct (Nat.eqb _ 1); [now rewrite (C x y H)|].
  apply filter_ext_in. intros idx Hi. apply in_all_indices in Hi. destruct H as (HE & HO).
  assert (K : forall z, (Reqb (at_idx shape z idx) (maximum_filter3 shape z idx) = true <-> forall idx', in_shape shape idx' -> adjacent idx idx' -> (at_idx shape z idx' <= at_idx shape z idx)%R)) by (intros; now apply peak_spec).
  destruct (Reqb (at_idx shape x idx) _) eqn:E1, (Reqb (at_idx shape y idx) _) eqn:E2; try reflexivity; exfalso.
  - pose proof (proj1 (K x) E1) as F. assert (G : Reqb (at_idx shape y idx) (maximum_filter3 shape y idx) = true); [|congruence]. apply K. intros q Hq Aq.
    destruct (Rle_dec (at_idx shape y q) (at_idx shape y idx)) as [l|n]; [exact l|]. exfalso. apply Rnot_le_lt in n. unfold at_idx in n. apply HO in n; [|rewrite HL; now apply ravel_lt|rewrite HL; now apply ravel_lt]. specialize (F q Hq Aq). unfold at_idx in F. lra.
  - assert (G : Reqb (at_idx shape x idx) (maximum_filter3 shape x idx) = true); [|congruence]. apply K. intros q Hq Aq. pose proof (proj1 (K y) E2 q Hq Aq) as F.
    destruct (Rle_dec (at_idx shape x q) (at_idx shape x idx)) as [l|n]; [exact l|]. exfalso. apply Rnot_le_lt in n. unfold at_idx in n. apply HO in n; [|rewrite HL; now apply ravel_lt|rewrite HL; now apply ravel_lt]. unfold at_idx in F. lra.
Qed.
Lemma ins_by_in {A} (le : A -> A -> bool) a l x : In x (ins_by le a l) <-> x = a \/ In x l.
Proof. induction l as [|b l IH]; cbn; [intuition congruence|]. destruct (le a b); cbn; [intuition congruence|]. rewrite IH. intuition congruence. Qed.
Lemma sort_by_in {A} (le : A -> A -> bool) l x : In x (sort_by le l) <-> In x l.
Proof. induction l as [|a l IH]; cbn; [tauto|]. rewrite ins_by_in. fold (sort_by le l). rewrite IH. intuition congruence. Qed.
Lemma ins_by_ext {A} (le le' : A -> A -> bool) a l : (forall b, In b l -> le a b = le' a b) -> ins_by le a l = ins_by le' a l.
Proof. induction l as [|b l IH]; intros H; cbn; [reflexivity|]. rewrite (H b) by (now left). destruct (le' a b); [reflexivity|]. f_equal. apply IH. intros; apply H. now right. Qed.
Lemma sort_by_ext {A} (le le' : A -> A -> bool) l : (forall a b, In a l -> In b l -> le a b = le' a b) -> sort_by le l = sort_by le' l.
Proof.
  induction l as [|a l IH]; intros H; [reflexivity|]. cbn [sort_by fold_right]. fold (sort_by le l) (sort_by le' l).
  rewrite <- IH by (intros; apply H; now right). apply ins_by_ext. intros b Hb. apply H; [now left|]. right. now apply sort_by_in in Hb.
Qed.
Lemma argsort_R_compares : compares_only Prop_subspace.argsort_R.
Proof.
  intros x y (HL & HO). unfold Prop_subspace.argsort_R. rewrite <- HL. apply sort_by_ext. intros a b Ha Hb. apply in_seq in Ha, Hb. unfold Rleb.
  specialize (HO b a ltac:(lia) ltac:(lia)). destruct (Rle_dec _ _), (Rle_dec _ _); try reflexivity; exfalso; lra.
Qed.
Lemma peaks_ref_compares : compares_only Prop_pipeline.peaks_ref.
Proof.
  intros x y (HL & HO). unfold Prop_pipeline.peaks_ref. rewrite <- HL. apply filter_ext_in. intros i Hi. apply in_seq in Hi.
  destruct (Nat.ltb_spec 0 i), (Nat.ltb_spec (S i) (List.length x)); cbn [andb]; try reflexivity. unfold Rltb.
  pose proof (HO (i - 1) i ltac:(lia) ltac:(lia)) as H1. pose proof (HO (S i) i ltac:(lia) ltac:(lia)) as H2.
  destruct (Rlt_dec (nth (i - 1) x 0%R) _), (Rlt_dec (nth (i - 1) y 0%R) _), (Rlt_dec (nth (S i) x 0%R) _), (Rlt_dec (nth (S i) y 0%R) _); try reflexivity; tauto.
Qed.
