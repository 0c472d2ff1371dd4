From Coq Require Import Sorting.Sorted Sorting.Permutation Lra.
From Verif Require Import Base_Np Base_Trig M_utils S_utils P_utils M_sources M_array M_designs S_designs P_designs M_coarray S_coarray P_coarray.
Open Scope nat_scope.

Lemma fold_Cplus_acc q : forall a : C, fold_left Cplus q a = (a + fold_left Cplus q (RtoC 0))%C.
Proof.
  induction q as [|x q IH]; intros a; simpl; [ring|]. rewrite (IH (a + x)%C), (IH (RtoC 0 + x)%C). ring.
Qed.
Lemma existsb_eqb_In k q : existsb (Nat.eqb k) q = true <-> In k q.
Proof.
  rewrite existsb_exists. split; [intros (x & Hx & E); apply Nat.eqb_eq in E; now subst | intros H; exists k; split; [exact H | apply Nat.eqb_refl]].
Qed.
Lemma sum_indicator n (q : list nat) (f : nat -> C) : NoDup q -> (forall k, In k q -> k < n) ->
  fold_left Cplus (map f q) (RtoC 0) = csum n (fun k => if existsb (Nat.eqb k) q then f k else RtoC 0).
Proof.
  induction q as [|a q IH]; intros Hn Hb; simpl.
  - rewrite csum_0; auto.
  - inversion Hn; subst. rewrite fold_Cplus_acc, IH; [|assumption|intros; apply Hb; now right].
    assert (Es : csum n (fun k => if Nat.eqb k a then f k else RtoC 0) = f a).
    { rewrite (csum_single n (fun k => if Nat.eqb k a then f k else RtoC 0) a); [now rewrite Nat.eqb_refl | apply Hb; now left |].
      intros i _ Hne. apply Nat.eqb_neq in Hne. now rewrite Hne. }
    rewrite (csum_ext n (fun k => if (k =? a) || existsb (Nat.eqb k) q then f k else RtoC 0)
               (fun k => ((if Nat.eqb k a then f k else RtoC 0) + (if existsb (Nat.eqb k) q then f k else RtoC 0))%C)).
    + rewrite csum_plus, Es. ring.
    + intros k _. destruct (Nat.eqb_spec k a) as [->|]; simpl; [|ring].
      destruct (existsb (Nat.eqb a) q) eqn:E; [|ring]. apply existsb_eqb_In in E. contradiction.
Qed.
(** sums over positions of vec(R) and over sensor pairs *)
Lemma sum_positions (l : list Z) (q : list nat) d (f : nat -> C) :
  (forall k, In k q <-> lag_position l d k) ->
  csum (List.length l * List.length l) (fun k => if existsb (Nat.eqb k) q then f k else RtoC 0) =
  csum (List.length l) (fun i => csum (List.length l) (fun j =>
    if Z.eqb (nth i l 0 - nth j l 0)%Z d then f (i + j * List.length l) else RtoC 0)).
Proof.
  intros Hq. set (M := List.length l) in *. rewrite csum_prod, csum_swap. apply csum_ext. intros i Hi. apply csum_ext. intros j Hj.
  replace (j * M + i) with (i + j * M) by lia.
  destruct (existsb (Nat.eqb (i + j * M)) q) eqn:E.
  - apply existsb_eqb_In, Hq in E. destruct E as (i' & j' & Hi' & Hj' & E & D). fold M in Hi', Hj', E.
    destruct (vec_index_inj M i j i' j') as [-> ->]; auto. rewrite D, Z.eqb_refl. reflexivity.
  - destruct (Z.eqb_spec (nth i l 0 - nth j l 0)%Z d) as [D|D]; [|reflexivity]. exfalso.
    assert (H : In (i + j * M) q). { apply Hq. exists i, j. auto. }
    apply existsb_eqb_In in H. congruence.
Qed.

Lemma mapM_map {A B} (f : A -> res B) (h : A -> B) q : (forall x, In x q -> f x = Ok (h x)) -> mapM f q = Ok (map h q).
Proof.
  induction q as [|x q IH]; intros H; [reflexivity|]. simpl. rewrite H by now left. cbn [bind]. rewrite IH by (intros; apply H; now right). reflexivity.
Qed.
Lemma lag_count_pos l d : is_lag l d -> 0 < lag_count l d.
Proof.
  intros (a & b & Ha & Hb & E). apply (In_nth _ _ 0%Z) in Ha as (i & Hi & <-), Hb as (j & Hj & <-).
  unfold lag_count. assert (H : In (i, j) (filter (fun p => Z.eqb (nth (fst p) l 0 - nth (snd p) l 0)%Z d) (list_prod (seq 0 (List.length l)) (seq 0 (List.length l))))).
  { apply filter_In. split; [apply in_prod_iff; split; apply in_seq; lia | now apply Z.eqb_eq]. }
  destruct (filter _ _); [contradiction | simpl; lia].
Qed.

Section WithGrid2.
  Variables (g : gdesign) (l : list Z) (w : wfun).
  Hypothesis Hg : grid_1d g l.
  Hypothesis Hw : mk_WeightFunction1D g = Ok w.
  Local Notation M := (List.length l).
  Local Notation mv := (mv0 g).

  Lemma mean_at_lag (R : cmat) calls d : nr R = M -> nc R = M ->
    mean_at (vec (RtoC 0) R) (indices_of (after w calls) d) = Ok (lag_mean l R d).
  Proof.
    intros H1 H2. rewrite (proj1 (after_queries g l Hg w Hw calls d)).
    assert (Hin : forall k, In k (indices_of w d) -> k < M * M).
    { intros k Hk. apply (indices_of_In g l Hg w Hw) in Hk as (i & j & Hi & Hj & -> & _). nia. }
    unfold mean_at. rewrite (proj1 (vec_shape _ R)), H1, H2.
    destruct (existsb (fun p => M * M <=? p) (indices_of w d)) eqn:E.
    { apply existsb_exists in E as (k & Hk & E). apply Nat.leb_le in E. specialize (Hin k Hk). lia. }
    f_equal. unfold lag_mean. rewrite <- (lag_count_eq g l Hg w Hw d), weight_of_len. f_equal.
    rewrite (sum_indicator (M * M)); [|apply (indices_of_NoDup g l Hg w Hw)|exact Hin].
    rewrite (sum_positions l _ d) by (intros k; apply (indices_of_In g l Hg w Hw)).
    unfold lag_sum. apply csum_ext. intros i Hi. apply csum_ext. intros j Hj.
    destruct (Z.eqb _ _); [|reflexivity]. rewrite <- H1. rewrite vec_entry by congruence. reflexivity.
  Qed.

  (** *** selection matrix *)
  Lemma diff_range_nth (b : bool) r : r < (if b then mv else 2 * mv - 1) ->
    nth r (if b then zrange 0 (Z.of_nat mv) else zrange (- Z.of_nat mv + 1) (Z.of_nat mv)) 0%Z =
    (if b then Z.of_nat r else Z.of_nat r - Z.of_nat mv + 1)%Z.
  Proof. intros H. destruct b; rewrite zrange_nth by lia; lia. Qed.
  Lemma in_range (b : bool) d : In d (if b then zrange 0 (Z.of_nat mv) else zrange (- Z.of_nat mv + 1) (Z.of_nat mv)) -> (- Z.of_nat mv < d < Z.of_nat mv)%Z.
  Proof. destruct b; rewrite zrange_In; lia. Qed.
  Lemma selection_ok calls (b : bool) : 1 <= mv ->
    exists F w', get_coarray_selection_matrix (after w calls) b = Ok (F, w') /\
      nr F = (if b then mv else 2 * mv - 1) /\ nc F = M * M /\
      forall r k, r < nr F -> ent F r k =
        let d := (if b then Z.of_nat r else Z.of_nat r - Z.of_nat mv + 1)%Z in
        if existsb (Nat.eqb k) (indices_of w d) then (1 / INR (lag_count l d))%R else 0%R.
  Proof.
    intros Hmv. unfold get_coarray_selection_matrix.
    pose proof (central_ula g l Hg w Hw calls true) as E.
    assert (E2 : snd (get_central_ula_size (after w calls) true) = after w (calls ++ [true])).
    { unfold after. rewrite fold_left_app. reflexivity. }
    destruct (get_central_ula_size (after w calls) true) as (m_v, w'). simpl in E, E2. subst m_v w'.
    assert (EM : wf_m (after w (calls ++ [true])) = M).
    { destruct (after_cases g l Hg w Hw (calls ++ [true])) as [->| ->]; [rewrite (w_eq g l Hg w Hw)|]; reflexivity. }
    assert (Hbad : existsb (fun d => existsb (fun c => M * M <=? c) (indices_of (after w (calls ++ [true])) d))
               (if b then zrange 0 (Z.of_nat mv) else zrange (- Z.of_nat mv + 1) (Z.of_nat mv)) = false).
    { apply not_true_is_false. intros H. apply existsb_exists in H as (d & _ & H). apply existsb_exists in H as (k & Hk & H).
      rewrite (proj1 (after_queries g l Hg w Hw _ d)) in Hk.
      apply (indices_of_In g l Hg w Hw) in Hk as (i & j & Hi & Hj & -> & _). apply Nat.leb_le in H. nia. }
    destruct b; cbn [fst snd]; rewrite EM, Hbad.
    - destruct (Z.ltb_spec (Z.of_nat mv) 0); [lia|]. eexists _, _. split; [reflexivity|]. cbn [nr nc ent].
      rewrite Nat2Z.id. repeat split. intros r k Hr. cbv zeta. rewrite (diff_range_nth true) by exact Hr. cbv iota beta.
      rewrite (proj1 (after_queries g l Hg w Hw _ _)), (proj1 (proj2 (after_queries g l Hg w Hw _ _))), (lag_count_eq g l Hg w Hw). reflexivity.
    - destruct (Z.ltb_spec (2 * Z.of_nat mv - 1) 0); [lia|]. eexists _, _. split; [reflexivity|]. cbn [nr nc ent].
      replace (Z.to_nat (2 * Z.of_nat mv - 1)) with (2 * mv - 1) by lia. repeat split. intros r k Hr. cbv zeta.
      rewrite (diff_range_nth false) by exact Hr. cbv iota beta.
      rewrite (proj1 (after_queries g l Hg w Hw _ _)), (proj1 (proj2 (after_queries g l Hg w Hw _ _))), (lag_count_eq g l Hg w Hw). reflexivity.
  Qed.
  Lemma selection_average d (F : nat -> R) (R : cmat) : nr R = M -> nc R = M ->
    (forall k, F k = if existsb (Nat.eqb k) (indices_of w d) then (1 / INR (lag_count l d))%R else 0%R) ->
    csum (M * M) (fun k => RtoC (F k) * ent (vec (RtoC 0) R) k 0)%C = lag_mean l R d.
  Proof.
    intros H1 H2 HF.
    rewrite (csum_ext _ _ (fun k => if existsb (Nat.eqb k) (indices_of w d) then (RtoC (1 / INR (lag_count l d)) * ent (vec (RtoC 0) R) k 0)%C else RtoC 0)).
    2:{ intros k _. rewrite HF. destruct (existsb _ _); [reflexivity | ring]. }
    rewrite (sum_positions l _ d) by (intros k; apply (indices_of_In g l Hg w Hw)).
    unfold lag_mean, lag_sum, Cdiv. rewrite Cmult_comm, <- csum_scal. apply csum_ext. intros i Hi. rewrite <- csum_scal. apply csum_ext. intros j Hj.
    destruct (Z.eqb_spec (nth i l 0 - nth j l 0)%Z d) as [E|E]; [|ring].
    rewrite <- H1 at 1. rewrite vec_entry by congruence. f_equal.
    assert (0 < lag_count l d). { apply lag_count_pos. exists (nth i l 0%Z), (nth j l 0%Z). auto using nth_In. }
    unfold Rdiv. rewrite Rmult_1_l. rewrite RtoC_inv; [reflexivity|]. apply not_0_INR. lia.
  Qed.
  Lemma selection_row_sum d (F : nat -> R) : is_lag l d ->
    (forall k, F k = if existsb (Nat.eqb k) (indices_of w d) then (1 / INR (lag_count l d))%R else 0%R) ->
    rsum (M * M) F = 1%R.
  Proof.
    intros Hl HF. pose (one := Mat M M (fun _ _ => RtoC 1)).
    assert (E : RtoC (rsum (M * M) F) = lag_mean l one d).
    { rewrite <- (selection_average d F one eq_refl eq_refl HF), <- csum_RtoC. apply csum_ext. intros k Hk.
      destruct (vec_index_surj _ _ _ Hk) as (i & j & Hi & Hj & ->).
      assert (V : ent (vec (RtoC 0) one) (i + j * M) 0 = RtoC 1) by (apply (vec_entry (RtoC 0) one i j Hi Hj)).
      rewrite V. ring. }
    assert (E1 : lag_mean l one d = RtoC 1).
    { unfold lag_mean. assert (ES : lag_sum l one d = RtoC (INR (lag_count l d))).
      { rewrite <- (lag_count_eq g l Hg w Hw), weight_of_len.
        assert (S := sum_positions l (indices_of w d) d (fun _ => RtoC 1) (fun k => indices_of_In g l Hg w Hw d k)).
        unfold lag_sum. simpl. rewrite <- S. rewrite <- sum_indicator.
        - clear. induction (indices_of w d) as [|a q IH]; [reflexivity|]. simpl map. simpl fold_left. rewrite fold_Cplus_acc, IH. change (List.length (a :: q)) with (Datatypes.S (List.length q)). rewrite S_INR, RtoC_plus. ring.
        - apply (indices_of_NoDup g l Hg w Hw).
        - intros k Hk. apply (indices_of_In g l Hg w Hw) in Hk as (i & j & Hi & Hj & -> & _). nia. }
      rewrite ES. unfold Cdiv. apply Cinv_r. apply RtoC_neq_0, not_0_INR. pose proof (lag_count_pos l d Hl). lia. }
    rewrite E1 in E. now injection E.
  Qed.

  (** *** augmented covariance *)
  Lemma virtual_z_eq calls (R : cmat) : nr R = M -> nc R = M ->
    virtual_z (after w calls) (vec (RtoC 0) R) (2 * mv - 1) mv =
    Ok (map (fun i => lag_mean l R (Z.of_nat i - Z.of_nat mv + 1)%Z) (seq 0 (2 * mv - 1))).
  Proof. intros H1 H2. unfold virtual_z. apply mapM_map. intros i _. apply mean_at_lag; assumption. Qed.
  Lemma nth_firstn_skipn {A} (q : list A) i n r d : r < n -> nth r (firstn n (skipn i q)) d = nth (i + r) q d.
  Proof.
    revert q i r. induction n as [|n IH]; intros q i r H; [lia|].
    revert q. induction i as [|i IHi]; intros q.
    - simpl skipn. destruct q; [destruct r; reflexivity|]. destruct r; [reflexivity|]. simpl. change (firstn n q) with (firstn n (skipn 0 q)). rewrite IH by lia. reflexivity.
    - destruct q; [simpl; destruct r; reflexivity|]. simpl skipn. rewrite IHi. reflexivity.
  Qed.
  Lemma fold_fill (mvn : nat) (f : nat -> nat -> C) is : forall A, nr A = mvn -> nc A = mvn -> (forall i, In i is -> i < mvn) ->
    let B := fold_left (fun Ra i => Mat mvn mvn (fun r c => if Nat.eqb c (mvn - (i + 1)) then f i r else ent Ra r c)) is A in
    nr B = mvn /\ nc B = mvn /\ forall r c, c < mvn -> ent B r c = if existsb (Nat.eqb (mvn - 1 - c)) is then f (mvn - 1 - c) r else ent A r c.
  Proof.
    induction is as [|i is IH]; intros A H1 H2 Hi; simpl; [auto|].
    specialize (IH (Mat mvn mvn (fun r c => if Nat.eqb c (mvn - (i + 1)) then f i r else ent A r c)) eq_refl eq_refl (fun k Hk => Hi k (or_intror Hk))).
    cbv zeta in IH. destruct IH as (I1 & I2 & I3). split; [exact I1|]. split; [exact I2|]. intros r c Hc. rewrite I3 by exact Hc. simpl.
    assert (i < mvn) by (apply Hi; now left).
    destruct (existsb (Nat.eqb (mvn - 1 - c)) is); [now rewrite orb_true_r|]. rewrite orb_false_r.
    destruct (Nat.eqb_spec c (mvn - (i + 1))); destruct (Nat.eqb_spec (mvn - 1 - c) i); try lia; try reflexivity. now subst i.
  Qed.
  Lemma fold_add (mvn : nat) (f : nat -> nat -> nat -> C) is : forall A, nr A = mvn -> nc A = mvn ->
    let B := fold_left (fun Ra i => Mat mvn mvn (fun r c => (ent Ra r c + f i r c)%C)) is A in
    nr B = mvn /\ nc B = mvn /\ forall r c, ent B r c = (ent A r c + fold_left Cplus (map (fun i => f i r c) is) (RtoC 0))%C.
  Proof.
    induction is as [|i is IH]; intros A H1 H2; simpl.
    - repeat split; auto. intros. ring.
    - specialize (IH (Mat mvn mvn (fun r c => (ent A r c + f i r c)%C)) eq_refl eq_refl).
      cbv zeta in IH. destruct IH as (I1 & I2 & I3). split; [exact I1|]. split; [exact I2|]. intros r c. rewrite I3. simpl.
      rewrite (fold_Cplus_acc _ (RtoC 0 + f i r c)%C). ring.
  Qed.
  Lemma fold_seq_csum (f : nat -> C) n : fold_left Cplus (map f (seq 0 n)) (RtoC 0) = csum n f.
  Proof.
    induction n as [|n IH]; [reflexivity|]. rewrite seq_S, map_app, fold_left_app, IH. reflexivity.
  Qed.

  Definition the_acm calls := Acm g (after w calls).
  Lemma transform_prefix calls (R : cmat) method : 1 <= mv -> nr R = M -> nc R = M ->
    transform (the_acm calls) R method =
    (raise_if (negb (String.eqb method "ss" || String.eqb method "da")) as ValueError ;;
     let zi := fun i r => nth r (firstn mv (skipn i (map (fun i => lag_mean l R (Z.of_nat i - Z.of_nat mv + 1)%Z) (seq 0 (2 * mv - 1))))) (RtoC 0) in
     let Ra0 := Mat mv mv (fun _ _ => RtoC 0) in
     if String.eqb method "ss" then
       let Ra := fold_left (fun Ra i => Mat mv mv (fun r c => (ent Ra r c + zi i r * Cconj (zi i c))%C)) (seq 0 mv) Ra0 in
       Ok (Mat mv mv (fun r c => (ent Ra r c / RtoC (INR mv))%C))
     else
       Ok (fold_left (fun Ra i => Mat mv mv (fun r c => if Nat.eqb c (mv - (i + 1)) then zi i r else ent Ra r c)) (seq 0 mv) Ra0)).
  Proof.
    intros Hmv H1 H2. unfold transform, the_acm. cbn [acm_array acm_w]. rewrite H1, H2, (g1_size g l Hg).
    assert (EC : ensure_covariance_size [M; M] M = Ok tt).
    { unfold ensure_covariance_size. cbn [List.length nth Nat.eqb]. rewrite Nat.eqb_refl. reflexivity. }
    rewrite EC. cbn [bind].
    destruct (negb _); [reflexivity|].
    pose proof (central_ula g l Hg w Hw calls false) as E. cbv iota in E.
    assert (E2 : snd (get_central_ula_size (after w calls) false) = after w (calls ++ [false])).
    { unfold after. rewrite fold_left_app. reflexivity. }
    destruct (get_central_ula_size (after w calls) false) as (mc, w'). cbn [fst snd] in E, E2. subst mc w'.
    destruct (Z.ltb_spec (2 * Z.of_nat mv - 1) 0); [lia|].
    replace (Z.to_nat ((2 * Z.of_nat mv - 1 + 1) / 2)) with mv by (replace (2 * Z.of_nat mv - 1 + 1)%Z with (Z.of_nat mv * 2)%Z by lia; rewrite Z.div_mul by lia; lia).
    replace (Z.to_nat (2 * Z.of_nat mv - 1)) with (2 * mv - 1) by lia.
    rewrite virtual_z_eq by assumption. reflexivity.
  Qed.
  Lemma z_entry (R : cmat) i r : i < mv -> r < mv ->
    nth r (firstn mv (skipn i (map (fun i => lag_mean l R (Z.of_nat i - Z.of_nat mv + 1)%Z) (seq 0 (2 * mv - 1))))) (RtoC 0)
    = lag_mean l R (Z.of_nat i + Z.of_nat r - Z.of_nat mv + 1)%Z.
  Proof.
    intros Hi Hr. rewrite nth_firstn_skipn by exact Hr.
    rewrite (nth_map_seq (fun i => lag_mean l R (Z.of_nat i - Z.of_nat mv + 1)%Z)) by lia. f_equal. lia.
  Qed.
  Lemma transform_da calls (R : cmat) : 1 <= mv -> nr R = M -> nc R = M ->
    exists D, transform (the_acm calls) R "da" = Ok D /\ nr D = mv /\ nc D = mv /\
      forall r c, r < mv -> c < mv -> ent D r c = lag_mean l R (Z.of_nat r - Z.of_nat c)%Z.
  Proof.
    intros Hmv H1 H2. rewrite transform_prefix by assumption. cbn [String.eqb Ascii.eqb Bool.eqb orb negb].
    eexists. split; [reflexivity|].
    match goal with |- context [fold_left _ (seq 0 mv) ?A0] => set (A := A0) end.
    destruct (fold_fill mv (fun i r => nth r (firstn mv (skipn i (map (fun i => lag_mean l R (Z.of_nat i - Z.of_nat mv + 1)%Z) (seq 0 (2 * mv - 1))))) (RtoC 0)) (seq 0 mv) A eq_refl eq_refl) as (I1 & I2 & I3).
    { intros i Hi. apply in_seq in Hi. lia. }
    split; [exact I1|]. split; [exact I2|]. intros r c Hr Hc. rewrite I3 by exact Hc.
    assert (E : existsb (Nat.eqb (mv - 1 - c)) (seq 0 mv) = true) by (apply existsb_eqb_In, in_seq; lia).
    rewrite E, z_entry by lia. f_equal. lia.
  Qed.
  Lemma transform_ss calls (R : cmat) : 1 <= mv -> nr R = M -> nc R = M ->
    exists D Sm, transform (the_acm calls) R "da" = Ok D /\ transform (the_acm calls) R "ss" = Ok Sm /\
      Sm ==m mscal (RtoC (/ INR mv)) (D *m mher D).
  Proof.
    intros Hmv H1 H2. destruct (transform_da calls R Hmv H1 H2) as (D & ED & D1 & D2 & D3).
    exists D. eexists. split; [exact ED|]. rewrite transform_prefix by assumption. cbn [String.eqb Ascii.eqb Bool.eqb orb negb].
    split; [reflexivity|].
    match goal with |- context [fold_left _ (seq 0 mv) ?A0] => set (A := A0) end.
    set (zi := fun i r => nth r (firstn mv (skipn i (map (fun i => lag_mean l R (Z.of_nat i - Z.of_nat mv + 1)%Z) (seq 0 (2 * mv - 1))))) (RtoC 0)).
    destruct (fold_add mv (fun i r c => (zi i r * Cconj (zi i c))%C) (seq 0 mv) A eq_refl eq_refl) as (I1 & I2 & I3).
    split; [simpl; lia|]. split; [simpl; lia|]. cbn [nr nc ent mscal]. intros r c Hr Hc.
    fold zi. rewrite I3. unfold A. cbn [ent]. rewrite fold_seq_csum. unfold mmul. cbn [ent nc mher]. rewrite D2.
    rewrite <- (csum_rev mv (fun k => (ent D r k * Cconj (ent D c k))%C)).
    rewrite RtoC_inv by (apply not_0_INR; lia). unfold Cdiv. rewrite Cplus_0_l, Cmult_comm. f_equal.
    apply csum_ext. intros i Hi. rewrite !D3 by lia. unfold zi. rewrite !z_entry by lia.
    f_equal; [|f_equal]; f_equal; lia.
  Qed.
  Lemma transform_hermitian (R D : cmat) calls : 1 <= mv -> nr R = M -> hermitian R ->
    transform (the_acm calls) R "da" = Ok D -> hermitian D.
  Proof.
    intros Hmv H1 HR H. assert (H2 : nc R = M) by (destruct HR as [E _]; congruence).
    destruct (transform_da calls R Hmv H1 H2) as (D' & ED & D1 & D2 & D3). rewrite H in ED. injection ED as <-.
    split; [congruence|]. rewrite D1. intros r c Hr Hc. rewrite !D3 by assumption.
    replace (Z.of_nat r - Z.of_nat c)%Z with (- (Z.of_nat c - Z.of_nat r))%Z by lia.
    set (d := (Z.of_nat c - Z.of_nat r)%Z). unfold lag_mean.
    assert (EN : lag_count l (- d) = lag_count l d) by (rewrite <- !(lag_count_eq g l Hg w Hw); apply (weight_sym g l Hg w Hw)).
    rewrite EN. unfold Cdiv. rewrite Cmult_conj.
    assert (ES : lag_sum l R (- d) = Cconj (lag_sum l R d)).
    { unfold lag_sum. rewrite csum_conj. rewrite csum_swap. apply csum_ext. intros j Hj. rewrite csum_conj. apply csum_ext. intros i Hi.
      destruct HR as [_ HR]. rewrite H1 in HR.
      destruct (Z.eqb_spec (nth i l 0 - nth j l 0)%Z (- d)); destruct (Z.eqb_spec (nth j l 0 - nth i l 0)%Z d); try lia.
      - rewrite HR by assumption. reflexivity.
      - now rewrite Cconj_0. }
    rewrite ES. f_equal.
    assert (0 < lag_count l d). { apply lag_count_pos, (mv0_lag g l Hg). unfold d. lia. }
    rewrite Cconj_inv' by (apply RtoC_neq_0, not_0_INR; lia). now rewrite Cconj_RtoC.
  Qed.
  (** a matrix whose entries depend only on the lag *)
  Lemma lag_mean_const (R : cmat) (f : Z -> C) d : is_lag l d ->
    (forall i j, i < M -> j < M -> ent R i j = f (nth i l 0 - nth j l 0)%Z) -> lag_mean l R d = f d.
  Proof.
    intros Hl HR. unfold lag_mean.
    assert (E : lag_sum l R d = (f d * RtoC (INR (lag_count l d)))%C).
    { assert (HF : forall k, (fun k => if existsb (Nat.eqb k) (indices_of w d) then (1 / INR (lag_count l d))%R else 0%R) k = if existsb (Nat.eqb k) (indices_of w d) then (1 / INR (lag_count l d))%R else 0%R) by reflexivity.
      pose proof (selection_row_sum d _ Hl HF) as S1.
      pose proof (selection_average d _ (Mat M M (fun _ _ => RtoC 1)) eq_refl eq_refl HF) as S2.
      assert (N : RtoC (INR (lag_count l d)) <> RtoC 0) by (apply RtoC_neq_0, not_0_INR; pose proof (lag_count_pos l d Hl); lia).
      assert (S3 : lag_sum l (Mat M M (fun _ _ => RtoC 1)) d = RtoC (INR (lag_count l d))).
      { assert (S4 : lag_mean l (Mat M M (fun _ _ => RtoC 1)) d = RtoC 1).
        { rewrite <- S2. etransitivity; [|exact (f_equal RtoC S1)]. rewrite <- csum_RtoC. apply csum_ext. intros k Hk. destruct (vec_index_surj _ _ _ Hk) as (i & j & Hi & Hj & ->).
          assert (V : ent (vec (RtoC 0) (Mat M M (fun _ _ => RtoC 1))) (i + j * M) 0 = RtoC 1) by (apply (vec_entry (RtoC 0) (Mat M M (fun _ _ => RtoC 1)) i j Hi Hj)).
          rewrite V. ring. }
        unfold lag_mean in S4. apply (f_equal (fun x => (x * RtoC (INR (lag_count l d)))%C)) in S4.
        unfold Cdiv in S4. rewrite <- Cmult_assoc, Cinv_l, Cmult_1_r, Cmult_1_l in S4 by exact N. exact S4. }
      rewrite <- S3. unfold lag_sum. rewrite <- csum_scal. apply csum_ext. intros i Hi. rewrite <- csum_scal. apply csum_ext. intros j Hj.
      destruct (Z.eqb_spec (nth i l 0 - nth j l 0)%Z d) as [E|E]; [|ring]. rewrite HR, E by assumption. simpl. ring. }
    rewrite E. unfold Cdiv. rewrite <- Cmult_assoc, Cinv_r, Cmult_1_r; [reflexivity|].
    apply RtoC_neq_0, not_0_INR. pose proof (lag_count_pos l d Hl). lia.
  Qed.
End WithGrid2.
