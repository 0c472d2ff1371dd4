(** Proofs about source number detection. *)
From Verif Require Import Base_Np Base_Mem Base_Trig M_utils P_utils M_coarray M_core M_srcnum S_srcnum.
Open Scope R_scope.

Lemma ln_le_sub t : 0 < t -> ln t <= t - 1.
Proof.
  intros H. destruct (Req_dec (ln t) 0) as [E|N].
  - rewrite E. replace t with (exp (ln t)) by (now apply exp_ln). rewrite E, exp_0. lra.
  - pose proof (exp_ineq1 (ln t) N) as H1. rewrite exp_ln in H1 by exact H. lra.
Qed.
Lemma ln_lt_sub t : 0 < t -> t <> 1 -> ln t < t - 1.
Proof.
  intros H N1. assert (N : ln t <> 0). { intros E. apply N1. replace t with (exp (ln t)) by (now apply exp_ln). rewrite E. apply exp_0. }
  pose proof (exp_ineq1 (ln t) N) as H1. rewrite exp_ln in H1 by exact H. lra.
Qed.
Lemma lsum_rsum l : lsum l = rsum (List.length l) (fun j => nth j l 0).
Proof. induction l as [|a l IH]; [reflexivity|]. cbn [lsum fold_right List.length]. rewrite rsum_S_l. cbn [nth]. fold (lsum l). now rewrite IH. Qed.
Lemma lprod_pos l : Forall (Rlt 0) l -> 0 < lprod l.
Proof. induction 1 as [|a l H1 H2 IH]; cbn; [lra|]. fold (lprod l). now apply Rmult_lt_0_compat. Qed.
Lemma ln_lprod l : Forall (Rlt 0) l -> ln (lprod l) = rsum (List.length l) (fun j => ln (nth j l 0)).
Proof.
  induction 1 as [|a l H1 H2 IH]; [cbn; apply ln_1|]. cbn [lprod fold_right List.length]. fold (lprod l). rewrite ln_mult by (auto using lprod_pos). rewrite rsum_S_l. cbn [nth]. now rewrite IH.
Qed.
Lemma lsum_pos l : Forall (Rlt 0) l -> l <> [] -> 0 < lsum l.
Proof.
  intros H N. destruct l as [|a l]; [congruence|]. inversion H as [|? ? H1 H2]; subst. cbn. fold (lsum l).
  assert (0 <= lsum l). { clear -H2. induction H2 as [|b l H _ IH]; cbn; [lra|]. fold (lsum l). lra. } lra.
Qed.
Lemma nth_firstn_lt {A} (l : list A) d j x : (j < d)%nat -> nth j (firstn d l) x = nth j l x.
Proof. revert d j; induction l as [|a l IH]; intros [|d] [|j] H; cbn; try lia; auto. apply IH. lia. Qed.
Lemma Forall_firstn {A} (P : A -> Prop) l d : Forall P l -> Forall P (firstn d l).
Proof. intros H. revert d; induction H; intros [|d]; cbn; constructor; auto. Qed.

Lemma ld_stat_value x k N : Forall (Rlt 0) x -> (k < List.length x)%nat ->
  ld_stat [List.length x] x (Z.of_nat k) N = Ok (N * log_am_gm x k).
Proof.
  intros HP Hk. unfold ld_stat. cbn [List.length Nat.eqb negb]. set (n := List.length x) in *.
  replace (Z.of_nat n - Z.of_nat k)%Z with (Z.of_nat (n - k)) by lia. set (d := (n - k)%nat).
  destruct (Z.eqb_spec (Z.of_nat d) 0); [lia|]. rewrite pslice_prefix. rewrite <- INR_IZR_INZ.
  assert (Hd : 0 < INR d) by (apply lt_0_INR; lia). set (l := firstn d x).
  assert (Ll : List.length l = d) by (unfold l; rewrite firstn_length; fold n; lia).
  assert (HPl : Forall (Rlt 0) l) by now apply Forall_firstn.
  assert (Hs : 0 < lsum l) by (apply lsum_pos; [exact HPl | intros E; rewrite E in Ll; cbn in Ll; lia]).
  assert (Hg : 0 < Rpower (lprod l) (1 / INR d)) by apply exp_pos.
  assert (Ha : 0 < lsum l / INR d) by now apply Rdiv_lt_0_compat.
  assert (Harg : 0 < lsum l / INR d / Rpower (lprod l) (1 / INR d)) by now apply Rdiv_lt_0_compat.
  unfold Rleb. destruct (Rle_dec _ _); [lra|]. f_equal.
  unfold Rdiv at 1. rewrite ln_mult by (auto using Rinv_0_lt_compat). rewrite ln_Rinv by exact Hg. unfold Rpower. rewrite ln_exp.
  rewrite ln_lprod by exact HPl. rewrite lsum_rsum, Ll. unfold log_am_gm. fold n. fold d.
  assert (E1 : rsum d (fun j => nth j l 0) = rsum d (fun j => nth j x 0)) by (apply rsum_ext; intros; unfold l; now apply nth_firstn_lt).
  assert (E2 : rsum d (fun j => ln (nth j l 0)) = rsum d (fun j => ln (nth j x 0))) by (apply rsum_ext; intros; f_equal; unfold l; now apply nth_firstn_lt).
  rewrite E1, E2. field. lra.
Qed.

Section AmGm.
  Variables (x : list R) (k : nat).
  Hypothesis HP : Forall (Rlt 0) x.
  Hypothesis Hk : (k < List.length x)%nat.
  Let d := (List.length x - k)%nat.
  Let a := rsum d (fun j => nth j x 0) / INR d.
  Lemma pos_j j : (j < d)%nat -> 0 < nth j x 0.
  Proof. intros H. rewrite Forall_forall in HP. apply HP. apply nth_In. unfold d in H. lia. Qed.
  Lemma d_pos : 0 < INR d. Proof. apply lt_0_INR. unfold d. lia. Qed.
  Lemma a_pos : 0 < a.
  Proof.
    unfold a. apply Rdiv_lt_0_compat; [|exact d_pos]. assert (H : 0 <= rsum d (fun j => nth j x 0)) by (apply rsum_nonneg; intros; left; now apply pos_j).
    destruct H as [H|H]; [exact H|]. exfalso. assert (Hd : (0 < d)%nat) by (unfold d; lia).
    pose proof (rsum_nonneg_0 d (fun j => nth j x 0) ltac:(intros; left; now apply pos_j) (eq_sym H) 0%nat Hd) as E. cbv beta in E. pose proof (pos_j 0%nat Hd). lra.
  Qed.
  Lemma sum_dev : log_am_gm x k = rsum d (fun j => nth j x 0 / a - 1 - ln (nth j x 0 / a)).
  Proof.
    pose proof a_pos as Ha. pose proof d_pos as Hd. unfold log_am_gm. fold d. fold a.
    rewrite (rsum_ext d (fun j => nth j x 0 / a - 1 - ln (nth j x 0 / a)) (fun j => (/ a * nth j x 0 - 1) - (ln (nth j x 0) - ln a))).
    2:{ intros j Hj. unfold Rdiv. rewrite ln_mult, ln_Rinv by (auto using pos_j, Rinv_0_lt_compat). ring. }
    rewrite !rsum_minus, rsum_scal, !rsum_const.
    replace (/ a * rsum d (fun i => nth i x 0)) with (INR d); [ring|].
    assert (E : rsum d (fun j => nth j x 0) = a * INR d) by (unfold a; field; lra). rewrite E. field. lra.
  Qed.
  Lemma am_gm_nonneg : 0 <= log_am_gm x k.
  Proof.
    rewrite sum_dev. apply rsum_nonneg. intros j Hj. pose proof (ln_le_sub (nth j x 0 / a)) as H.
    assert (0 < nth j x 0 / a) by (apply Rdiv_lt_0_compat; [now apply pos_j | exact a_pos]). specialize (H H0). lra.
  Qed.
  Lemma am_gm_zero : log_am_gm x k = 0 <-> forall i j, (i < d)%nat -> (j < d)%nat -> nth i x 0 = nth j x 0.
  Proof.
    rewrite sum_dev. pose proof a_pos as Ha. split.
    - intros H. assert (G : forall j, (j < d)%nat -> nth j x 0 = a).
      { intros j Hj. assert (P : 0 < nth j x 0 / a) by (apply Rdiv_lt_0_compat; [now apply pos_j | exact a_pos]).
        assert (E : nth j x 0 / a - 1 - ln (nth j x 0 / a) = 0).
        { apply (rsum_nonneg_0 d (fun j => nth j x 0 / a - 1 - ln (nth j x 0 / a))); [|exact H|exact Hj]. intros i Hi. pose proof (ln_le_sub (nth i x 0 / a)).
          assert (0 < nth i x 0 / a) by (apply Rdiv_lt_0_compat; [now apply pos_j | exact a_pos]). specialize (H0 H1). lra. }
        destruct (Req_dec (nth j x 0 / a) 1) as [E1|N1].
        - replace (nth j x 0) with (nth j x 0 / a * a) by (field; lra). rewrite E1. ring.
        - pose proof (ln_lt_sub _ P N1). lra. }
      intros i j Hi Hj. now rewrite !G.
    - intros H. apply rsum_0. intros j Hj. assert (E : a = nth j x 0).
      { unfold a. rewrite (rsum_ext d _ (fun _ => nth j x 0)) by (intros; now apply H). rewrite rsum_const. field. pose proof d_pos. lra. }
      rewrite <- E. replace (a / a) with 1 by (field; lra). rewrite ln_1. ring.
  Qed.
  Lemma am_gm_scale c : 0 < c -> log_am_gm (map (Rmult c) x) k = log_am_gm x k.
  Proof.
    intros Hc. unfold log_am_gm. rewrite map_length. fold d. pose proof d_pos as Hd.
    assert (N : forall j, (j < d)%nat -> nth j (map (Rmult c) x) 0 = c * nth j x 0).
    { intros j Hj. rewrite (nth_indep _ 0 (c * 0)) by (rewrite map_length; unfold d in Hj; lia). apply (map_nth (Rmult c)). }
    rewrite (rsum_ext d _ _ N). rewrite rsum_scal. fold d.
    rewrite (rsum_ext d (fun j => ln (nth j (map (Rmult c) x) 0)) (fun j => ln c + ln (nth j x 0))).
    2:{ intros j Hj. rewrite N by exact Hj. apply ln_mult; [exact Hc | now apply pos_j]. }
    rewrite rsum_plus, rsum_const. replace (c * rsum d (fun i => nth i x 0) / INR d) with (c * a) by (unfold a; field; lra).
    rewrite ln_mult by (auto using a_pos). fold a. ring.
  Qed.
End AmGm.

(** *** argmin *)
Lemma oltb_spec a b : oltb a b = true <-> olt a b.
Proof. unfold oltb, olt, Rltb. destruct a as [u|], b as [v|]; try destruct (Rlt_dec _ _); split; auto; try discriminate; tauto. Qed.
Lemma olt_trans a b c : olt a b -> ole b c -> olt a c. Proof. destruct a, b, c; cbn; try tauto; lra. Qed.
Lemma ole_olt_trans a b c : ole a b -> olt b c -> olt a c. Proof. destruct a, b, c; cbn; try tauto; lra. Qed.
Lemma ole_trans a b c : ole a b -> ole b c -> ole a c. Proof. destruct a, b, c; cbn; try tauto; lra. Qed.
Lemma ole_refl a : ole a a. Proof. destruct a; cbn; lra. Qed.
Lemma olt_ole a b : olt a b -> ole a b. Proof. destruct a, b; cbn; try tauto; lra. Qed.
Lemma not_olt_ole a b : ~ olt a b -> ole b a. Proof. destruct a, b; cbn; try tauto; lra. Qed.
Lemma argmin_aux_spec l : forall i best b (pre : list (option R)), i = List.length pre -> (best < List.length pre)%nat -> nth best pre None = b ->
  (forall j, (j < List.length pre)%nat -> ole b (nth j pre None)) -> (forall j, (j < best)%nat -> olt b (nth j pre None)) ->
  let p := argmin_aux l i best b in let f := fun j => nth j (pre ++ l) None in first_omin (List.length (pre ++ l)) f p.
Proof.
  induction l as [|a l IH]; intros i best b pre Hi Hb Hn Hm Hf; cbn [argmin_aux].
  - rewrite app_nil_r. split; [exact Hb|]. rewrite Hn. split; auto.
  - assert (E : pre ++ a :: l = (pre ++ [a]) ++ l) by (now rewrite <- app_assoc). rewrite E.
    assert (L : List.length (pre ++ [a]) = S (List.length pre)) by (rewrite app_length; cbn; lia).
    assert (Na : nth (List.length pre) (pre ++ [a]) None = a) by (rewrite app_nth2 by lia; now rewrite Nat.sub_diag).
    destruct (oltb a b) eqn:O.
    + apply oltb_spec in O. apply IH; [lia | lia | now rewrite Hi | |].
      * intros j Hj. destruct (Nat.eq_dec j (List.length pre)) as [->|Nj]; [rewrite Na; apply ole_refl|]. rewrite app_nth1 by lia. apply olt_ole, (olt_trans _ b); [exact O|]. apply Hm. lia.
      * intros j Hj. rewrite app_nth1 by lia. apply (olt_trans _ b); [exact O|]. apply Hm. lia.
    + assert (O' : ole b a). { apply not_olt_ole. intros H. apply oltb_spec in H. congruence. }
      apply IH; [lia | lia | now rewrite app_nth1 by lia | |].
      * intros j Hj. destruct (Nat.eq_dec j (List.length pre)) as [->|Nj]; [rewrite Na; exact O'|]. rewrite app_nth1 by lia. apply Hm. lia.
      * intros j Hj. rewrite app_nth1 by lia. now apply Hf.
Qed.
Lemma argmin_spec l : l <> [] -> exists p, argmin l = Ok p /\ first_omin (List.length l) (fun j => nth j l None) p.
Proof.
  destruct l as [|a l]; [congruence|]. intros _. eexists. split; [reflexivity|].
  apply (argmin_aux_spec l 1%nat 0%nat a [a]); [reflexivity | cbn; lia | reflexivity | |].
  - intros [|j] Hj; [apply ole_refl | cbn in Hj; lia].
  - intros j Hj. lia.
Qed.
Lemma first_omin_ext n f g p : (forall i, (i < n)%nat -> f i = g i) -> first_omin n f p -> first_omin n g p.
Proof.
  intros E (H1 & H2 & H3). split; [exact H1|]. rewrite <- (E p H1). split; intros i Hi; rewrite <- E by lia; auto.
Qed.
Lemma first_omin_some n f p : first_omin n (fun i => Some (f i)) p <-> first_min n f p.
Proof. reflexivity. Qed.
Lemma first_min_unique n f p q : first_min n f p -> first_min n f q -> p = q.
Proof.
  intros (A1 & A2 & A3) (B1 & B2 & B3). destruct (Nat.lt_trichotomy p q) as [H|[H|H]]; [|exact H|].
  - specialize (B3 p H). specialize (A2 q B1). lra.
  - specialize (A3 q H). specialize (B2 p A1). lra.
Qed.
Lemma mapM_map {A B} (f : A -> res B) (g : A -> B) l : (forall a, In a l -> f a = Ok (g a)) -> mapM f l = Ok (map g l).
Proof. induction l as [|a l IH]; intros H; cbn [mapM map]; [reflexivity|]. rewrite H by (now left). cbn [bind]. rewrite IH by (intros; apply H; now right). reflexivity. Qed.
Lemma criterion_spec pen x N : Forall (Rlt 0) x -> (0 < List.length x)%nat ->
  exists p, criterion pen x N = Ok p /\ first_min (List.length x) (fun i => N * log_am_gm x i + pen (List.length x) i) p.
Proof.
  intros HP HL. unfold criterion. rewrite (mapM_map _ (fun i => Some (N * log_am_gm x i + pen (List.length x) i))).
  2:{ intros i Hi. apply in_seq in Hi. rewrite ld_stat_value by (auto; lia). reflexivity. }
  cbn [bind]. set (l := map _ _). assert (Ll : List.length l = List.length x) by (unfold l; now rewrite map_length, seq_length).
  destruct (argmin_spec l) as (p & E & H). { intros E. rewrite E in Ll. cbn in Ll. lia. }
  exists p. split; [exact E|]. rewrite Ll in H. change (first_omin (List.length x) (fun i => Some (N * log_am_gm x i + pen (List.length x) i)) p). apply (first_omin_ext _ (fun j => nth j l None)); [|exact H].
  intros i Hi. unfold l. now rewrite (nth_map_seq (fun i => Some (N * log_am_gm x i + pen (List.length x) i))).
Qed.

(** *** SORTE *)
Lemma mean_seq f d : mean (map f (seq 0 d)) = rsum d f / INR d.
Proof.
  unfold mean. rewrite map_length, seq_length, lsum_rsum, map_length, seq_length. f_equal. apply rsum_ext. intros i Hi. now rewrite nth_map_seq.
Qed.
Lemma var_seq f d : var (map f (seq 0 d)) = rsum d (fun j => (f j - rsum d f / INR d) * (f j - rsum d f / INR d)) / INR d.
Proof. unfold var. rewrite mean_seq. rewrite map_map. now rewrite mean_seq. Qed.
Lemma map_seq_eq {A} (l : list A) f d0 : (forall i, (i < List.length l)%nat -> nth i l d0 = f i) -> l = map f (seq 0 (List.length l)).
Proof. intros H. apply (nth_ext _ _ d0 d0); [now rewrite map_length, seq_length|]. intros i Hi. rewrite nth_map_seq by exact Hi. auto. Qed.
Lemma nth_skipn' {A} (l : list A) k i x : nth i (skipn k l) x = nth (k + i) l x.
Proof. revert l; induction k as [|k IH]; intros l; [reflexivity|]. destruct l as [|a l]; [now destruct i | apply IH]. Qed.
Lemma map_seq_skip {A} (f : nat -> A) d k : skipn k (map f (seq 0 d)) = map (fun j => f (k + j)%nat) (seq 0 (d - k)).
Proof.
  destruct d as [|d]; [now rewrite skipn_nil|].
  assert (HL : List.length (skipn k (map f (seq 0 (S d)))) = (S d - k)%nat) by (now rewrite skipn_length, map_length, seq_length).
  rewrite (map_seq_eq (skipn k (map f (seq 0 (S d)))) (fun j => f (k + j)%nat) (f 0%nat)); [now rewrite HL|].
  rewrite HL. intros i Hi. rewrite nth_skipn'. now rewrite nth_map_seq by lia.
Qed.

Lemma gap_diffs x : (2 <= List.length x)%nat ->
  map (fun p => fst p - snd p) (combine (pslice (rev x) None (Some (-1)%Z)) (pslice (rev x) (Some 1%Z) None)) = map (gap x) (seq 0 (List.length x - 1)).
Proof.
  intros H. set (n := List.length x) in *. change (-1)%Z with (- Z.of_nat 1)%Z. change (Some 1%Z) with (Some (Z.of_nat 1)).
  rewrite pslice_droplast by lia. rewrite pslice_suffix. rewrite rev_length. fold n.
  assert (L1 : List.length (firstn (n - 1) (rev x)) = (n - 1)%nat) by (rewrite firstn_length, rev_length; fold n; lia).
  assert (L2 : List.length (skipn 1 (rev x)) = (n - 1)%nat) by (rewrite skipn_length, rev_length; fold n; lia).
  set (l := map _ _). assert (Ll : List.length l = (n - 1)%nat) by (unfold l; rewrite map_length, combine_length; lia).
  rewrite <- Ll. apply (map_seq_eq l (gap x) (0 - 0)). rewrite Ll. intros i Hi. unfold l.
  change (0 - 0) with ((fun p : R * R => fst p - snd p) (0, 0)). rewrite map_nth. rewrite combine_nth by lia. cbn [fst snd].
  rewrite nth_firstn_lt by lia. rewrite nth_skipn'. rewrite !rev_nth by (fold n; lia). fold n. unfold gap. fold n. f_equal; f_equal; lia.
Qed.
Lemma gap_var_nonneg x k : (k < List.length x - 1)%nat -> 0 <= gap_var x k.
Proof.
  intros H. unfold gap_var. apply Rle_mult_inv_pos; [|apply lt_0_INR; lia]. apply rsum_nonneg. intros. apply Rle_0_sqr.
Qed.
Lemma sorte_short x : (List.length x < 4)%nat -> sorte_of x = Raise ValueError.
Proof. intros H. unfold sorte_of. cbv zeta. rewrite rev_length. destruct (Nat.ltb_spec (List.length x) 4); [reflexivity | lia]. Qed.
Lemma sorte_spec x : (4 <= List.length x)%nat ->
  exists p, sorte_of x = Ok (p + 1)%nat /\ first_omin (List.length x - 3) (sorte_ratio float_eps x) p.
Proof.
  intros H. unfold sorte_of. cbv zeta. rewrite rev_length. set (n := List.length x) in *. destruct (Nat.ltb_spec n 4); [lia|].
  rewrite gap_diffs by (fold n; lia). fold n.
  assert (ES : map (fun k => var (pslice (map (gap x) (seq 0 (n - 1))) (Some (Z.of_nat k)) None)) (seq 0 (n - 1)) = map (gap_var x) (seq 0 (n - 1))).
  { apply map_ext. intros k. rewrite pslice_suffix, map_seq_skip, var_seq. reflexivity. }
  rewrite ES. set (s := map (fun k => if Rltb _ _ then None else _) (seq 0 (n - 2))).
  assert (Es : s = map (sorte_ratio float_eps x) (seq 0 (n - 2))).
  { unfold s. apply map_ext_in. intros k Hk. apply in_seq in Hk. rewrite !nth_map_seq by lia. rewrite Rabs_pos_eq by (apply gap_var_nonneg; fold n; lia).
    unfold sorte_ratio, Rltb. now destruct (Rlt_dec _ _). }
  rewrite Es. change (-1)%Z with (- Z.of_nat 1)%Z. rewrite pslice_droplast by lia. rewrite map_length, seq_length.
  set (l := firstn _ _). assert (Ll : List.length l = (n - 3)%nat) by (unfold l; rewrite firstn_length, map_length, seq_length; lia).
  destruct (argmin_spec l) as (p & E & Hp). { intros E. rewrite E in Ll. cbn in Ll. lia. }
  exists p. rewrite E. split; [reflexivity|]. rewrite Ll in Hp. apply (first_omin_ext _ (fun j => nth j l None)); [|exact Hp].
  intros i Hi. unfold l. rewrite nth_firstn_lt by lia. now rewrite nth_map_seq by lia.
Qed.
Lemma first_omin_unique n f p q : first_omin n f p -> first_omin n f q -> p = q.
Proof.
  intros (A1 & A2 & A3) (B1 & B2 & B3). destruct (Nat.lt_trichotomy p q) as [H|[H|H]]; [|exact H|]; exfalso.
  - specialize (B3 p H). specialize (A2 q B1). destruct (f p), (f q); cbn in *; lra || tauto.
  - specialize (A3 q H). specialize (B2 p A1). destruct (f p), (f q); cbn in *; lra || tauto.
Qed.
Lemma sorte_ext x y : List.length x = List.length y -> (forall k, (k < List.length x - 3)%nat -> sorte_ratio float_eps x k = sorte_ratio float_eps y k) ->
  sorte_of x = sorte_of y.
Proof.
  intros HL HE. destruct (Nat.lt_ge_cases (List.length x) 4) as [H|H]; [rewrite !sorte_short by lia; reflexivity|].
  destruct (sorte_spec x H) as (p & E1 & P1). destruct (sorte_spec y ltac:(lia)) as (q & E2 & P2). rewrite E1, E2. f_equal. f_equal.
  apply (first_omin_unique _ _ p q (first_omin_ext _ _ _ _ HE P1)). now rewrite HL.
Qed.
Lemma gap_affine (x : list R) a c j : (j < List.length x - 1)%nat -> gap (map (fun v => a * v + c) x) j = a * gap x j.
Proof.
  intros H. unfold gap. rewrite map_length.
  assert (N : forall i, (i < List.length x)%nat -> nth i (map (fun v => a * v + c) x) 0 = a * nth i x 0 + c).
  { intros i Hi. rewrite (nth_indep _ 0 (a * 0 + c)) by (now rewrite map_length). apply (map_nth (fun v => a * v + c)). }
  rewrite !N by lia. ring.
Qed.
Lemma gap_var_affine (x : list R) a c k : (k < List.length x - 1)%nat -> gap_var (map (fun v => a * v + c) x) k = a * a * gap_var x k.
Proof.
  intros H. unfold gap_var, gap_mean. rewrite map_length. set (d := (List.length x - 1 - k)%nat). assert (Hd : 0 < INR d) by (apply lt_0_INR; unfold d; lia).
  assert (E : rsum d (fun j => gap (map (fun v => a * v + c) x) (k + j)) = a * rsum d (fun j => gap x (k + j))).
  { rewrite <- rsum_scal. apply rsum_ext. intros j Hj. apply gap_affine. unfold d in Hj. lia. }
  rewrite E. set (S0 := rsum d (fun j => gap x (k + j))).
  rewrite (rsum_ext d _ (fun j => a * a * ((gap x (k + j) - S0 / INR d) * (gap x (k + j) - S0 / INR d)))).
  2:{ intros j Hj. rewrite gap_affine by (unfold d in Hj; lia). field. lra. }
  rewrite rsum_scal. field. lra.
Qed.

(** *** spatial smoothing *)
Lemma block_fold (A : cmat) p l0 : forall (B : cmat), nr B = p -> nc B = p ->
  let F := fold_left (fun acc i => madd acc (block A i p)) l0 B in
  nr F = p /\ nc F = p /\ forall a b, ent F a b = (ent B a b + fold_right Cplus (RtoC 0) (map (fun i => ent A (i + a) (i + b)) l0))%C.
Proof.
  induction l0 as [|i l0 IH]; intros B H1 H2; cbn [fold_left map fold_right]; cbv zeta.
  - repeat split; auto. intros. ring.
  - destruct (IH (madd B (block A i p)) H1 H2) as (K1 & K2 & K3). repeat split; auto. intros a b. rewrite K3. cbn [madd block ent]. ring.
Qed.
Lemma fold_csum f n s : fold_right Cplus (RtoC 0) (map f (seq s n)) = csum n (fun i => f (s + i)%nat).
Proof.
  revert s; induction n as [|n IH]; intros s; [reflexivity|]. cbn [seq map fold_right]. rewrite IH, csum_S_l. f_equal; [f_equal; lia|]. apply csum_ext. intros. f_equal. lia.
Qed.
Definition fwd (A : cmat) (l : nat) : cmat := Mat (nr A - l + 1) (nr A - l + 1) (smoothed A l).
Definition fwd_back (cplx : bool) (F : cmat) : cmat :=
  Mat (nr F) (nc F) (fun a b => RtoC (/ 2) * (ent F a b + (if cplx then Cconj (ent F (nr F - 1 - a) (nr F - 1 - b)) else ent F (nr F - 1 - a) (nr F - 1 - b))))%C.
Lemma smooth_value ty A l fb : ty <> MInt -> (1 <= l <= nr A)%nat ->
  exists B, spatial_smooth ty A (Z.of_nat l) fb = Ok B /\ nr B = (nr A - l + 1)%nat /\ nc B = (nr A - l + 1)%nat /\
    forall a b, ent B a b = if fb then ent (fwd_back (match ty with MComplex => true | _ => false end) (fwd A l)) a b else smoothed A l a b.
Proof.
  intros HT [H1 H2]. unfold spatial_smooth. destruct (Z.ltb_spec (Z.of_nat l) 1); [lia|]. destruct (Z.gtb_spec (Z.of_nat l) (Z.of_nat (nr A))); [lia|]. cbn [orb].
  rewrite Nat2Z.id. set (p := (nr A - l + 1)%nat). destruct (block_fold A p (seq 1 (l - 1)) (block A 0 p) eq_refl eq_refl) as (K1 & K2 & K3). cbv zeta in K1, K2, K3.
  set (F := fold_left _ _ _) in *.
  assert (KF : forall a b, (RtoC (/ INR l) * ent F a b = smoothed A l a b)%C).
  { intros a b. rewrite K3, fold_csum. unfold smoothed. f_equal. destruct l as [|l']; [lia|]. cbn [Nat.sub]. rewrite csum_S_l. rewrite Nat.sub_0_r. cbn [block ent]. f_equal. }
  destruct ty; [congruence | |]; (destruct fb; cbn [negb]; [|eexists; split; [reflexivity|]; cbn [mscal nr nc ent]; repeat split; auto]).
  - eexists; split; [reflexivity|]. cbn [mscal madd flip nr nc ent fwd_back fwd]. rewrite K1, K2. repeat split; auto. intros a b. rewrite !KF. fold p. replace (1 / 2) with (/ 2) by lra. reflexivity.
  - eexists; split; [reflexivity|]. cbn [mscal madd flip mconj mmap nr nc ent fwd_back fwd]. rewrite K1, K2. repeat split; auto. intros a b. rewrite !KF. fold p. replace (1 / 2) with (/ 2) by lra. reflexivity.
Qed.
Lemma smooth_error ty A (l : Z) fb : (l < 1)%Z \/ (Z.of_nat (nr A) < l)%Z -> spatial_smooth ty A l fb = Raise ValueError.
Proof. intros H. unfold spatial_smooth. destruct (Z.ltb_spec l 1); [reflexivity|]. destruct (Z.gtb_spec l (Z.of_nat (nr A))); [reflexivity | lia]. Qed.

Lemma smooth_conj_sym A l a b : hermitian A -> (a < nr A - l + 1)%nat -> (b < nr A - l + 1)%nat -> (1 <= l <= nr A)%nat ->
  smoothed A l a b = Cconj (smoothed A l b a).
Proof.
  intros [Hs He] Ha Hb Hl. unfold smoothed. rewrite Cmult_conj, Cconj_RtoC, csum_conj. f_equal. apply csum_ext. intros i Hi. apply He; lia.
Qed.
Lemma fwd_hermitian A l : (1 <= l <= nr A)%nat -> hermitian A -> hermitian (fwd A l).
Proof. intros Hl HA. split; [reflexivity|]. cbn [fwd nr nc ent]. intros i j Hi Hj. now apply smooth_conj_sym. Qed.
(** the i-th block is a congruence with a selection matrix *)
Definition selection (m p i : nat) : cmat := Mat m p (fun r c => if Nat.eqb r (i + c) then RtoC 1 else RtoC 0).
Lemma block_congr A i p : nr A = nc A -> (i + p <= nr A)%nat -> mher (selection (nr A) p i) *m A *m selection (nr A) p i ==m block A i p.
Proof.
  intros Hs H. split; [reflexivity|]. split; [reflexivity|]. cbn [mmul mher selection block nr nc ent]. intros a b Ha Hb.
  rewrite (csum_single _ _ (i + b)) by (lia || (intros k Hk Nk; destruct (Nat.eqb_spec k (i + b)); [lia | ring])). rewrite Nat.eqb_refl.
  rewrite (csum_single _ _ (i + a)) by (lia || (intros k Hk Nk; destruct (Nat.eqb_spec k (i + a)); [lia | rewrite Cconj_RtoC; ring])). rewrite Nat.eqb_refl.
  rewrite Cconj_RtoC. ring.
Qed.
Lemma block_psd A i p : psd A -> (i + p <= nr A)%nat -> psd (block A i p).
Proof. intros HA H. destruct HA as [[Hs He] HP] eqn:E. apply (psd_eq _ _ (block_congr A i p Hs H)). apply psd_congr; [reflexivity | exact HA]. Qed.
Lemma sum_block_psd A p n : psd A -> (n - 1 + p <= nr A)%nat -> psd (Mat p p (fun a b => csum n (fun i => ent A (i + a) (i + b)))).
Proof.
  intros HA. induction n as [|n IH]; intros H.
  - apply (psd_eq (mscal (RtoC 0) (mid p))); [|apply psd_mscal; [lra | apply psd_mid]]. split; [reflexivity|]. split; [reflexivity|]. intros i j _ _. cbn [mscal ent csum]. change (csum 0 _) with (RtoC 0). ring.
  - apply (psd_eq (madd (Mat p p (fun a b => csum n (fun i => ent A (i + a) (i + b)))) (block A n p))); [split; [reflexivity|]; split; [reflexivity|]; intros i j _ _; reflexivity|].
    apply psd_madd; [reflexivity | apply IH; lia | apply block_psd; [exact HA | lia]].
Qed.
Lemma fwd_psd A l : (1 <= l <= nr A)%nat -> psd A -> psd (fwd A l).
Proof.
  intros Hl HA. apply (psd_eq (mscal (RtoC (/ INR l)) (Mat (nr A - l + 1) (nr A - l + 1) (fun a b => csum l (fun i => ent A (i + a) (i + b)))))).
  - split; [reflexivity|]. split; [reflexivity|]. intros i j _ _. reflexivity.
  - apply psd_mscal; [left; apply Rinv_0_lt_compat, lt_0_INR; lia|]. apply sum_block_psd; [exact HA | lia].
Qed.
(** flipping a PSD matrix (with or without conjugation) *)
Lemma flip_hermitian F : hermitian F -> hermitian (flip F).
Proof. intros [Hs He]. split; [exact Hs|]. cbn [flip nr nc ent]. intros i j Hi Hj. rewrite <- Hs in *. apply He; lia. Qed.
Lemma mconj_hermitian F : hermitian F -> hermitian (mconj F).
Proof. intros [Hs He]. split; [exact Hs|]. cbn [mconj mmap nr nc ent]. intros i j Hi Hj. f_equal. apply He; auto. Qed.
Definition exch (n : nat) : cmat := Mat n n (fun i j => if Nat.eqb (i + j + 1) n then RtoC 1 else RtoC 0).
Lemma flip_congr F : nr F = nc F -> mher (exch (nr F)) *m F *m exch (nr F) ==m flip F.
Proof.
  intros Hs. set (n := nr F). split; [reflexivity|]. split; [cbn; now symmetry|]. cbn [mmul mher exch flip nr nc ent]. intros a b Ha Hb. rewrite <- Hs. fold n.
  rewrite (csum_single _ _ (n - 1 - b)) by (lia || (intros k Hk Nk; destruct (Nat.eqb_spec (k + b + 1) n); [lia | ring])).
  destruct (Nat.eqb_spec (n - 1 - b + b + 1) n); [|lia].
  rewrite (csum_single _ _ (n - 1 - a)) by (lia || (intros k Hk Nk; destruct (Nat.eqb_spec (k + a + 1) n); [lia | rewrite Cconj_RtoC; ring])).
  destruct (Nat.eqb_spec (n - 1 - a + a + 1) n); [|lia]. rewrite Cconj_RtoC. ring.
Qed.
Lemma flip_psd F : psd F -> psd (flip F).
Proof. intros HF. destruct HF as [[Hs He] HP] eqn:E. apply (psd_eq _ _ (flip_congr F Hs)). apply psd_congr; [reflexivity | exact HF]. Qed.
Lemma mconj_psd F : psd F -> psd (mconj F).
Proof.
  intros [HH HP]. split; [now apply mconj_hermitian|]. intros x. specialize (HP (fun i => Cconj (x i))).
  replace (qform (mconj F) x) with (Cconj (qform F (fun i => Cconj (x i)))); [now rewrite Re_conj|].
  unfold qform. cbn [mconj mmap nr nc ent]. rewrite csum_conj. apply csum_ext. intros i Hi. rewrite csum_conj. apply csum_ext; intros j Hj. now rewrite !Cmult_conj, !Cconj_conj.
Qed.
(** the memory version computes the same values and writes fresh buffers only *)
Lemma smooth_mem_loop (R : view) p l0 : forall m0 m v F, m_frame m0 m -> (m_next m0 <= v_buf v)%nat -> (v_buf R < m_next m0)%nat -> v_nr v = p -> v_nc v = p -> v_stride v = p ->
  v_read m v ==m F -> nr F = p -> nc F = p ->
  let m' := fold_left (fun m i => iadd m v (v_window R i p i p)) l0 m in
  m_frame m0 m' /\ m_next m' = m_next m /\ v_read m' v ==m fold_left (fun acc i => madd acc (block (v_read m0 R) i p)) l0 F.
Proof.
  induction l0 as [|i l0 IH]; intros m0 m v F HF Hv HR H1 H2 H3 HE N1 N2; cbn [fold_left]; cbv zeta; [auto|].
  assert (HE' : v_read (iadd m v (v_window R i p i p)) v ==m madd F (block (v_read m0 R) i p)).
  { unfold iadd. etransitivity; [apply read_store; [lia | now cbn | now cbn]|]. split; [now cbn; rewrite N1|]. split; [now cbn; rewrite N2|].
    intros a b Ha Hb. cbn [madd ent]. f_equal; [apply HE; [exact Ha | exact Hb]|]. rewrite read_window. cbn [block ent]. cbn [v_read ent]. apply HF. exact HR. }
  assert (HF' : m_frame m0 (iadd m v (v_window R i p i p))) by (now apply frame_store).
  destruct (IH m0 (iadd m v (v_window R i p i p)) v (madd F (block (v_read m0 R) i p)) HF' Hv HR H1 H2 H3 HE' N1 N2) as (K1 & K2 & K3).
  repeat split; try exact K3; [apply K1 | apply K1 | rewrite K2; reflexivity | apply K3 | apply K3 | apply K3].
Qed.
Lemma smooth_mem_spec ty m R l fb : v_ok m R ->
  (forall e, spatial_smooth ty (v_read m R) l fb = Raise e -> spatial_smooth_mem ty m R l fb = Raise e) /\
  (forall B, spatial_smooth ty (v_read m R) l fb = Ok B -> exists m' v, spatial_smooth_mem ty m R l fb = Ok (m', v) /\
     v_read m' v ==m B /\ m_frame m m' /\ (m_next m <= v_buf v)%nat /\ v_ok m' v).
Proof.
  intros [HR HS]. unfold spatial_smooth, spatial_smooth_mem. change (nr (v_read m R)) with (v_nr R).
  destruct ((l <? 1)%Z || (l >? Z.of_nat (v_nr R))%Z) eqn:EC; [split; [now intros e [= <-] | intros B [=]]|].
  apply orb_false_elim in EC as [C1 C2]. apply Z.ltb_ge in C1. assert (C2' : (l <= Z.of_nat (v_nr R))%Z) by (rewrite Z.gtb_ltb in C2; now apply Z.ltb_ge in C2).
  set (L := Z.to_nat l). set (p := (v_nr R - L + 1)%nat). set (A0 := v_read m (v_window R 0 p 0 p)).
  destruct (m_alloc m A0) as [m1 v] eqn:EA. assert (E1 : m1 = fst (m_alloc m A0)) by (now rewrite EA). assert (E2 : v = snd (m_alloc m A0)) by (now rewrite EA).
  destruct (smooth_mem_loop R p (seq 1 (L - 1)) m m1 v (block (v_read m R) 0 p)) as (K1 & K2 & K3).
  { rewrite E1. apply frame_alloc. } { rewrite E2. cbn. lia. } { exact HR. } { rewrite E2. reflexivity. } { rewrite E2. reflexivity. } { rewrite E2. reflexivity. }
  { rewrite E1, E2. etransitivity; [apply read_alloc|]. split; [reflexivity|]. split; [reflexivity|]. intros a b _ _. unfold A0. rewrite read_window. reflexivity. }
  { reflexivity. } { reflexivity. }
  cbv zeta in K1, K2, K3. set (m2 := fold_left _ _ m1) in *. set (F := fold_left _ _ (block _ _ _)) in *.
  destruct (block_fold (v_read m R) p (seq 1 (L - 1)) (block (v_read m R) 0 p) eq_refl eq_refl) as (F1 & F2 & _). cbv zeta in F1, F2. fold F in F1, F2.
  destruct ty; [split; [now intros e [= <-] | intros B [=]] | |]; (split; [intros e HH; destruct fb; discriminate|]); intros B HB; cbv zeta; set (m3 := m_store m2 v _);
   (assert (G1 : m_frame m m3) by (apply frame_store; [exact K1 | rewrite E2; cbn; lia]));
   (assert (G2 : v_read m3 v ==m mscal (RtoC (/ INR L)) F) by
      (unfold m3; etransitivity; [apply read_store; [rewrite E2; cbn; lia | reflexivity | reflexivity]|]; split; [apply K3|]; split; [apply K3|]; intros a b Ha Hb; cbn [mscal ent]; f_equal; apply K3; assumption));
   (assert (G3 : v_ok m3 v) by (split; [cbn [m3 m_store m_next]; rewrite K2, E2, E1; cbn; lia | rewrite E2; cbn; lia]));
   (assert (G4 : (m_next m <= v_buf v)%nat) by (rewrite E2; cbn; lia));
   (destruct fb; cbn [negb] in *; injection HB as <-;
    [| exists m3, v; split; [reflexivity|]; split; [exact G2|]; split; [exact G1|]; split; [exact G4 | exact G3]]);
   (eexists _, _; split; [symmetry; f_equal; symmetry; apply surjective_pairing|]; split;
    [| split; [eapply frame_trans; [exact G1 | apply frame_alloc]|]; split; [cbn; apply G1 | apply alloc_ok]]);
   (etransitivity; [apply read_alloc|]); destruct G2 as (R1 & R2 & R3); cbn [mscal nr nc] in R1, R2;
   (split; [cbn [mscal madd nr]; exact R1|]; split; [cbn [mscal madd nc]; exact R2|]; intros a b Ha Hb; cbn [mscal madd mconj mmap flip ent nr nc] in *; rewrite !R3 by lia; rewrite R1, R2; reflexivity).
Qed.
