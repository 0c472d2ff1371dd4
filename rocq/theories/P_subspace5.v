(** Root selection with roots on the unit circle; counting roots inside the circle; distinct steering phases. *)
From Coq Require Import Sorting.Sorted Sorting.Permutation.
From Verif Require Import Base_Np Base_Mem Base_Lin Base_Trig M_utils P_utils S_grid M_heap M_core P_core P_core2 P_sources3 M_subspace S_subspace P_subspace P_subspace2 P_heap.
Open Scope C_scope.

Definition dist (z : list C) (i j : nat) : R := Cmod (nth i z (RtoC 0) - nth j z (RtoC 0)).
Definition cand (mask : list bool) (i j : nat) : bool := (negb (Nat.eqb j i) && nth j mask false)%bool.
Definition best_ok (z : list C) (mask : list bool) (i : nat) (b : option nat * option R) : Prop :=
  match b with (Some j, Some d) => d = dist z i j /\ cand mask i j = true /\ (j < List.length z)%nat | (None, None) => True | _ => False end.
Definition closest_step (z : list C) (mask : list bool) (i : nat) (best : option nat * option R) (j : nat) : option nat * option R :=
  if negb (Nat.eqb j i) && nth j mask false
  then let cur := Cmod (nth i z (RtoC 0) - nth j z (RtoC 0))%C in
       match snd best with None => (Some j, Some cur) | Some d => if Rltb cur d then (Some j, Some cur) else best end
  else best.
Lemma closest_fold z mask i : forall js b, best_ok z mask i b -> (forall j, In j js -> (j < List.length z)%nat) ->
  let r := fold_left (closest_step z mask i) js b in
  best_ok z mask i r /\ (forall d, snd b = Some d -> exists d', snd r = Some d' /\ (d' <= d)%R) /\
  (forall j, In j js -> cand mask i j = true -> exists d', snd r = Some d' /\ (d' <= dist z i j)%R).
Proof.
  induction js as [|a js IH]; intros b HB HJ; cbn [fold_left].
  - split; [exact HB|]. split; [intros d E; exists d; split; [exact E | right; reflexivity] | intros j []].
  - set (b' := closest_step z mask i b a). assert (La : (a < List.length z)%nat) by (apply HJ; now left).
    assert (HB' : best_ok z mask i b' /\ (forall d, snd b = Some d -> exists d', snd b' = Some d' /\ (d' <= d)%R) /\ (cand mask i a = true -> exists d', snd b' = Some d' /\ (d' <= dist z i a)%R)).
    { unfold b', closest_step. fold (cand mask i a). destruct (cand mask i a) eqn:Ca.
      - fold (dist z i a). destruct b as [[bj|] [bd|]]; cbn [best_ok snd] in *; try contradiction.
        + unfold Rltb. destruct (Rlt_dec (dist z i a) bd) as [L|L]; cbn [best_ok snd].
          * split; [now split|]. split; [intros d E; injection E as <-; exists (dist z i a); split; [reflexivity | lra] | intros _; exists (dist z i a); split; [reflexivity | right; reflexivity]].
          * split; [exact HB|]. split; [intros d E; exists d; split; [exact E | right; reflexivity] | intros _; exists bd; split; [reflexivity | now apply Rnot_lt_le]].
        + split; [now split|]. split; [discriminate|]. intros _. exists (dist z i a). split; [reflexivity | right; reflexivity].
      - split; [exact HB|]. split; [intros d E; exists d; split; [exact E | right; reflexivity] | discriminate]. }
    destruct HB' as (H1 & H2 & H3). destruct (IH b' H1 ltac:(intros; apply HJ; now right)) as (I1 & I2 & I3). split; [exact I1|]. split.
    + intros d E. destruct (H2 d E) as (d1 & E1 & L1). destruct (I2 d1 E1) as (d2 & E2 & L2). exists d2. split; [exact E2 | lra].
    + intros j [<-|Ij] Cj; [|now apply I3]. destruct (H3 Cj) as (d1 & E1 & L1). destruct (I2 d1 E1) as (d2 & E2 & L2). exists d2. split; [exact E2 | lra].
Qed.
Lemma closest_partner z mask i p : (p < List.length z)%nat -> p <> i -> nth p mask false = true -> nth p z (RtoC 0) = nth i z (RtoC 0) ->
  (forall j, (j < List.length z)%nat -> j <> i -> nth j z (RtoC 0) = nth i z (RtoC 0) -> j = p) -> closest z mask i = Some p.
Proof.
  intros Hp Np Mp Ep Up. unfold closest. change (fun (best : option nat * option R) (j : nat) => _) with (closest_step z mask i).
  destruct (closest_fold z mask i (seq 0 (List.length z)) (None, None) I ltac:(intros j Hj; apply in_seq in Hj; lia)) as (H1 & _ & H3).
  destruct (H3 p) as (d & Ed & Ld); [apply in_seq; lia | unfold cand; rewrite Mp, (proj2 (Nat.eqb_neq p i) Np); reflexivity|].
  set (r := fold_left (closest_step z mask i) (seq 0 (List.length z)) (None, None)) in *. destruct r as [[j|] [dj|]]; cbn [snd best_ok fst] in *; try discriminate; try contradiction.
  injection Ed as ->. destruct H1 as (D & Cj & Lj). f_equal. unfold cand in Cj. apply andb_true_iff in Cj as (C1 & _). apply negb_true_iff, Nat.eqb_neq in C1. apply Up; [exact Lj | exact C1|].
  assert (Z : dist z i p = 0%R) by (unfold dist; rewrite Ep; replace (nth i z (RtoC 0) - nth i z (RtoC 0)) with (RtoC 0) by ring; apply Cmod_0).
  assert (D0 : dist z i j = 0%R) by (apply Rle_antisym; [rewrite <- D, <- Z; exact Ld | apply Cmod_ge_0]). unfold dist in D0. apply Cmod_eq_0 in D0.
  replace (nth j z (RtoC 0)) with (nth i z (RtoC 0) - (nth i z (RtoC 0) - nth j z (RtoC 0))) by ring. rewrite D0. ring.
Qed.
(** every root on the circle is an exact double root *)
Definition circle_pairs (z : list C) (par : nat -> nat) : Prop :=
  forall i, (i < List.length z)%nat -> Cmod (nth i z (RtoC 0)) = 1%R ->
    (par i < List.length z)%nat /\ par i <> i /\ nth (par i) z (RtoC 0) = nth i z (RtoC 0) /\ forall j, (j < List.length z)%nat -> j <> i -> nth j z (RtoC 0) = nth i z (RtoC 0) -> j = par i.
Lemma par_par z par i : circle_pairs z par -> (i < List.length z)%nat -> Cmod (nth i z (RtoC 0)) = 1%R -> par (par i) = i.
Proof.
  intros HC Hi Ui. destruct (HC i Hi Ui) as (P1 & P2 & P3 & P4). destruct (HC (par i) P1 ltac:(rewrite P3; exact Ui)) as (Q1 & Q2 & Q3 & Q4). symmetry. apply Q4; [exact Hi | congruence | congruence].
Qed.
Lemma mask_loop_pairs (z : list C) par : circle_pairs z par -> forall n, (n <= List.length z)%nat ->
  exists mask, mask_loop z (seq 0 n) (repeat true (List.length z)) = Ok mask /\ List.length mask = List.length z /\
    forall i, (i < List.length z)%nat -> nth i mask false =
      if Rlt_dec 1 (Cmod (nth i z (RtoC 0))) then negb (i <? n)%nat else if Req_EM_T (Cmod (nth i z (RtoC 0))) 1 then negb (par i <? n)%nat else true.
Proof.
  intros HC. assert (APP : forall l1 l2 m, mask_loop z (l1 ++ l2) m = let! m' := mask_loop z l1 m in mask_loop z l2 m').
  { induction l1 as [|a l1 IH]; intros l2 m; cbn [app mask_loop]; [reflexivity|]. destruct (mask_step z m a) as [m'|]; cbn [bind]; [apply IH | reflexivity]. }
  induction n as [|n IH]; intros Hn.
  - exists (repeat true (List.length z)). split; [reflexivity|]. split; [apply repeat_length|]. intros i Hi. rewrite nth_repeat' by exact Hi. cbn [Nat.ltb Nat.leb negb]. destruct (Rlt_dec _ _); [reflexivity|]. destruct (Req_EM_T _ _); reflexivity.
  - destruct (IH ltac:(lia)) as (mask & E & L & N). rewrite seq_S, APP, E. cbn [bind mask_loop Nat.add]. unfold mask_step. unfold Rltb. destruct (Rlt_dec 1 (Cmod (nth n z (RtoC 0)))) as [Gt|Le]; cbn [bind].
    + eexists. split; [reflexivity|]. split; [now rewrite set_nth_length|]. intros i Hi. rewrite nth_set_nth, L. rewrite (proj2 (Nat.ltb_lt _ _) Hi), andb_true_r. destruct (Nat.eqb_spec i n) as [->|Ne].
      * destruct (Rlt_dec _ _) as [|X]; [|contradiction]. symmetry. apply negb_false_iff. apply Nat.ltb_lt. lia.
      * rewrite N by exact Hi. destruct (Rlt_dec _ _) as [X|X].
        { f_equal. destruct (Nat.ltb_spec i n), (Nat.ltb_spec i (S n)); reflexivity || lia. }
        destruct (Req_EM_T _ _) as [Y|Y]; [|reflexivity]. f_equal. assert (par i <> n).
        { intros Q. destruct (HC i Hi Y) as (_ & _ & P3 & _). rewrite Q in P3. rewrite P3 in Gt. lra. }
        destruct (Nat.ltb_spec (par i) n), (Nat.ltb_spec (par i) (S n)); reflexivity || lia.
    + unfold Reqb. destruct (Req_EM_T (Cmod (nth n z (RtoC 0))) 1) as [U|U].
      * destruct (HC n ltac:(lia) U) as (P1 & P2 & P3 & P4). assert (PP := par_par z par n HC ltac:(lia) U).
        assert (UP : Cmod (nth (par n) z (RtoC 0)) = 1%R) by (rewrite P3; exact U).
        assert (MP : nth (par n) mask false = true).
        { rewrite N by exact P1. destruct (Rlt_dec _ _) as [X|X]; [lra|]. destruct (Req_EM_T _ _) as [Y|Y]; [|reflexivity]. rewrite PP. apply negb_true_iff, Nat.ltb_ge. lia. }
        rewrite (closest_partner z mask n (par n) P1 P2 MP P3 P4). cbn [bind]. eexists. split; [reflexivity|]. split; [now rewrite set_nth_length|]. intros i Hi. rewrite nth_set_nth, L. rewrite (proj2 (Nat.ltb_lt _ _) Hi), andb_true_r.
        destruct (Nat.eqb_spec i (par n)) as [->|Ne].
        { destruct (Rlt_dec _ _) as [X|X]; [lra|]. destruct (Req_EM_T _ _) as [Y|Y]; [|contradiction]. rewrite PP. symmetry. apply negb_false_iff, Nat.ltb_lt. lia. }
        rewrite N by exact Hi. destruct (Rlt_dec _ _) as [X|X].
        { f_equal. assert (i <> n) by (intros ->; lra). destruct (Nat.ltb_spec i n), (Nat.ltb_spec i (S n)); reflexivity || lia. }
        destruct (Req_EM_T _ _) as [Y|Y]; [|reflexivity]. f_equal. assert (par i <> n).
        { intros Q. apply Ne. rewrite <- Q. symmetry. now apply (par_par z par). }
        destruct (Nat.ltb_spec (par i) n), (Nat.ltb_spec (par i) (S n)); reflexivity || lia.
      * cbn [bind]. exists mask. split; [reflexivity|]. split; [exact L|]. intros i Hi. rewrite N by exact Hi. destruct (Rlt_dec _ _) as [X|X].
        { f_equal. assert (i <> n) by (intros ->; contradiction). destruct (Nat.ltb_spec i n), (Nat.ltb_spec i (S n)); reflexivity || lia. }
        destruct (Req_EM_T _ _) as [Y|Y]; [|reflexivity]. f_equal. assert (par i <> n).
        { intros Q. destruct (HC i Hi Y) as (_ & _ & P3 & _). rewrite Q in P3. apply U. rewrite P3. exact Y. }
        destruct (Nat.ltb_spec (par i) n), (Nat.ltb_spec (par i) (S n)); reflexivity || lia.
Qed.
Lemma root_mask_pairs (z : list C) par : circle_pairs z par -> exists mask, mask_loop z (seq 0 (List.length z)) (repeat true (List.length z)) = Ok mask /\ masked z mask = filter inside z.
Proof.
  intros HC. destruct (mask_loop_pairs z par HC (List.length z) (le_n _)) as (mask & E & L & N). exists mask. split; [exact E|]. apply (masked_filter (RtoC 0)); [exact L|]. intros i Hi. rewrite N by exact Hi. unfold inside.
  rewrite (proj2 (Nat.ltb_lt _ _) Hi). destruct (Rlt_dec 1 _) as [X|X]; [destruct (Rlt_dec _ 1); [lra | reflexivity]|]. destruct (Req_EM_T _ _) as [Y|Y].
  - destruct (HC i Hi Y) as (P1 & _). rewrite (proj2 (Nat.ltb_lt _ _) P1). destruct (Rlt_dec _ 1); [lra | reflexivity].
  - destruct (Rlt_dec _ 1); [reflexivity | lra].
Qed.
(** the selection given the kept roots *)
Lemma root_select_kept argsort (z : list C) k mask : mask_loop z (seq 0 (List.length z)) (repeat true (List.length z)) = Ok mask -> 
  let kept := masked z mask in
  is_argsort (map (fun w => 1 - Cmod w)%R kept) (argsort (map (fun w => 1 - Cmod w)%R kept)) ->
  ((List.length kept < k)%nat -> root_select argsort z (Z.of_nat k) = Ok None) /\
  ((k <= List.length kept)%nat -> exists chosen rest, root_select argsort z (Z.of_nat k) = Ok (Some chosen) /\
     Permutation (chosen ++ rest) kept /\ List.length chosen = k /\ forall a b, In a chosen -> In b rest -> (Cmod b <= Cmod a)%R).
Proof.
  intros HM kept HA. unfold root_select. rewrite HM. cbn [bind]. fold kept.
  set (key := fun w : C => (1 - Cmod w)%R) in *. set (p := argsort (map key kept)) in *. destruct HA as [HP HS]. rewrite map_length in HP.
  split; intros Hk.
  - destruct (Z.ltb_spec (Z.of_nat (List.length kept)) (Z.of_nat k)); [reflexivity | lia].
  - destruct (Z.ltb_spec (Z.of_nat (List.length kept)) (Z.of_nat k)); [lia|].
    assert (LP : List.length p = List.length kept) by (rewrite (Permutation_length HP), seq_length; reflexivity).
    rewrite pslice_prefix. exists (map (fun i => nth i kept (RtoC 0)) (firstn k p)), (map (fun i => nth i kept (RtoC 0)) (skipn k p)).
    split; [reflexivity|]. split; [|split].
    + rewrite <- map_app, firstn_skipn. rewrite (Permutation_map _ HP). rewrite seq_nth_map. apply Permutation_refl.
    + rewrite map_length, firstn_length. lia.
    + intros a b Ia Ib. apply in_map_iff in Ia as (i & <- & Ii). apply in_map_iff in Ib as (j & <- & Ij).
      rewrite <- (firstn_skipn k p) in HS. pose proof (sorted_app _ _ _ HS i j Ii Ij) as HK. cbv beta in HK.
      assert (Bi : (i < List.length kept)%nat) by (assert (X : In i p) by (rewrite <- (firstn_skipn k p); apply in_or_app; now left); apply (Permutation_in _ HP), in_seq in X; lia).
      assert (Bj : (j < List.length kept)%nat) by (assert (X : In j p) by (rewrite <- (firstn_skipn k p); apply in_or_app; now right); apply (Permutation_in _ HP), in_seq in X; lia).
      rewrite !(nth_indep (map key kept) 0%R (key (RtoC 0))) in HK by (now rewrite map_length). rewrite !map_nth in HK. unfold key in HK. lra.
Qed.

(** reciprocal-conjugate pairs: half of the roots are inside *)
Lemma Cmod_refl w : w <> RtoC 0 -> Cmod (/ Cconj w) = (/ Cmod w)%R.
Proof. intros H. assert (N : Cconj w <> RtoC 0) by (intros X; apply H; now apply Cconj_eq_0). rewrite Cmod_inv by exact N. f_equal. rewrite !Cmod_sqrt_norm2, Cnorm2_conj. reflexivity. Qed.
Lemma filter_perm {A} (p : A -> bool) l1 l2 : Permutation l1 l2 -> Permutation (filter p l1) (filter p l2).
Proof.
  induction 1 as [|a l l' H IH|a b l|l1 l2 l3 H1 IH1 H2 IH2]; cbn [filter].
  - constructor.
  - destruct (p a); [now constructor | exact IH].
  - destruct (p a), (p b); try constructor; reflexivity || apply Permutation_refl.
  - now transitivity (filter p l2).
Qed.
Lemma filter_split_length {A} (p : A -> bool) l : (List.length (filter p l) + List.length (filter (fun x => negb (p x)) l) = List.length l)%nat.
Proof. induction l as [|a l IH]; [reflexivity|]. cbn [filter]. destruct (p a); cbn [negb List.length]; lia. Qed.
Lemma half_inside (z : list C) : off_circle z -> ~ In (RtoC 0) z -> Permutation (map (fun w => / Cconj w) z) z -> (2 * List.length (filter inside z) = List.length z)%nat.
Proof.
  intros HO H0 HP. assert (F : List.length (filter inside (map (fun w => / Cconj w) z)) = List.length (filter (fun w => negb (inside w)) z)).
  { clear HP. induction z as [|a z IH]; [reflexivity|]. unfold off_circle in HO. apply Forall_cons_iff in HO as (Ha & HO). cbn [map filter].
    assert (Na : a <> RtoC 0) by (intros X; apply H0; now left). assert (Pa : (0 < Cmod a)%R) by (now apply Cmod_gt_0).
    assert (Q : inside (/ Cconj a) = negb (inside a)).
    { unfold inside. rewrite Cmod_refl by exact Na. destruct (Rlt_dec (Cmod a) 1) as [L|L], (Rlt_dec (/ Cmod a) 1) as [L'|L']; try reflexivity; exfalso.
      - apply (Rmult_lt_compat_l (Cmod a)) in L'; [|exact Pa]. rewrite Rinv_r in L' by lra. lra.
      - apply L'. apply (Rmult_lt_reg_l (Cmod a)); [exact Pa|]. rewrite Rinv_r by lra. lra. }
    rewrite Q. assert (I := IH HO ltac:(intros X; apply H0; now right)). destruct (inside a); cbn [negb List.length]; lia. }
  rewrite (Permutation_length (filter_perm inside _ _ HP)) in F. pose proof (filter_split_length inside z) as T. lia.
Qed.

(** cis is injective on (-pi, pi] *)
Lemma cis_inj a b : (- PI < a <= PI)%R -> (- PI < b <= PI)%R -> cis a = cis b -> a = b.
Proof.
  intros Ha Hb E. rewrite <- (atan2_polar 1 a Rlt_0_1 Ha), <- (atan2_polar 1 b Rlt_0_1 Hb). unfold cis in E. injection E as E1 E2. now rewrite E1, E2.
Qed.
