(** Optimisation variables, start point and bounds of the ML estimators. *)
From Verif Require Import Base_Np M_utils M_sources M_array M_coarray M_heap M_grid M_core M_ml S_utils S_sources S_ml P_heap P_sources3 P_ml.
Open Scope nat_scope.

Lemma concat_nth {A} (d : nat) (rows : list (list A)) (x : A) : Forall (fun r => List.length r = d) rows ->
  List.length (List.concat rows) = List.length rows * d /\
  forall i j, i < List.length rows -> j < d -> nth (i * d + j) (List.concat rows) x = nth j (nth i rows []) x.
Proof.
  intros F. induction F as [|r rows Hr F (IH1 & IH2)]; [split; [reflexivity | intros i j Hi; simpl in Hi; lia]|]. cbn [List.concat List.length]. split; [rewrite app_length; lia|]. intros [|i] j Hi Hj.
  - cbn [nth Nat.mul Nat.add]. rewrite app_nth1 by lia. reflexivity.
  - cbn [nth]. rewrite app_nth2 by (simpl; lia). rewrite <- IH2 by (simpl in Hi; lia). f_equal. simpl. lia.
Qed.
Definition dim_s (s : sources) : nat := match s with FF1 _ _ => 1 | _ => 2 end.
Lemma value_dim s dt : dim_of (value_of s dt) = dim_s s. Proof. destruct s; reflexivity. Qed.
Lemma value_rows s dt : pv_rows (value_of s dt) = src_rows s. Proof. destruct s; reflexivity. Qed.
Lemma value_len s dt : List.length (pv_rows (value_of s dt)) = src_size s. Proof. destruct s; cbn; apply map_length. Qed.
Lemma rows_dim s : Forall (fun r => List.length r = dim_s s) (src_rows s).
Proof. destruct s; cbn; apply Forall_forall; intros r Hr; apply in_map_iff in Hr; destruct Hr as (y & <- & _); reflexivity. Qed.
Lemma value_sources s dt : pl_sources (pv_pl (value_of s dt)) (src_rows s) = Ok s.
Proof.
  destruct s as [l u|l u|l]; cbn -[nth map]; unfold pl_sources; cbn -[map]; rewrite map_map; cbn; f_equal; f_equal.
  - apply map_id.
  - rewrite <- (map_id l) at 2. apply map_ext. intros []; reflexivity.
  - rewrite <- (map_id l) at 2. apply map_ext. intros []; reflexivity.
Qed.
Lemma value_sources_rows s dt rows : List.length rows = src_size s -> Forall (fun r => List.length r = dim_s s) rows ->
  exists s', pl_sources (pv_pl (value_of s dt)) rows = Ok s' /\ value_of s' dt = with_rows (value_of s dt) rows /\ src_size s' = src_size s.
Proof.
  intros L F. destruct s as [l u|l u|l]; unfold pl_sources; cbn -[map List.length]; eexists; (split; [reflexivity|]); cbn -[map List.length]; (split; [|rewrite map_length; exact L]).
  all: unfold with_rows; cbn -[map List.length]; f_equal; rewrite map_map; cbn; rewrite <- (map_id rows) at 2; apply map_ext_in; intros r Hr; rewrite Forall_forall in F; specialize (F r Hr); cbn in F.
  - destruct r as [|a [|b r]]; try discriminate F. reflexivity.
  - destruct r as [|a [|b [|c r]]]; try discriminate F. reflexivity.
  - destruct r as [|a [|b [|c r]]]; try discriminate F. reflexivity.
Qed.
(** the ranges of a valid placement, and what they say *)
Lemma ranges_ok s : valid_sources s -> exists vr, valid_ranges s = Ok vr /\ List.length vr = dim_s s.
Proof.
  destruct s as [l u|l u|l]; cbn [valid_sources valid_ranges dim_s].
  - intros (H & _). unfold known_unit in H. destruct H as [->|[->| ->]]; cbn; eexists; split; reflexivity.
  - intros (H & _). destruct H as [->| ->]; cbn; eexists; split; reflexivity.
  - intros _. eexists; split; reflexivity.
Qed.
Definition rows_within (vr : list bound) (rows : list (list R)) : Prop :=
  forall i j, i < List.length rows -> j < List.length vr -> within (nth j vr (None, None)) (nth j (nth i rows []) 0%R).
Lemma Forall_nth' {A} (P : A -> Prop) l d : Forall P l <-> forall i, i < List.length l -> P (nth i l d).
Proof. rewrite Forall_forall. split; intros H; [intros i Hi; apply H, nth_In, Hi|]. intros x Hx. destruct (In_nth l x d Hx) as (i & Hi & <-). now apply H. Qed.
Lemma valid_iff_within s vr : valid_ranges s = Ok vr -> (match s with NF2 _ => True | FF1 _ u => known_unit u | FF2 _ u => unit2 u end) -> (valid_sources s <-> rows_within vr (src_rows s)).
Proof.
  intros E HU. unfold rows_within, bound in *. destruct s as [l u|l u|l]; cbn [valid_sources src_rows].
  - rewrite (Forall_nth' _ l 0%R), map_length. assert (G : forall i, i < List.length l -> nth i (map (fun x : R => [x]) l) [] = [nth i l 0%R]) by (intros i Hi; rewrite (nth_indep _ [] [0%R]) by (now rewrite map_length); now rewrite (map_nth (fun x : R => [x]))).
    assert (VA : vr = [(fst (nth 0 vr (None, None)), snd (nth 0 vr (None, None)))] /\ forall x, valid_angle u x <-> within (nth 0 vr (None, None)) x).
    { pose proof PI_RGT_0. cbn [valid_ranges] in E. unfold valid_angle, within. destruct HU as [->|[->| ->]]; cbn in E; injection E as <-; cbn; (split; [reflexivity|]); intros x; split; intros V;
        repeat match goal with H : _ \/ _ |- _ => destruct H end; repeat match goal with H : _ /\ _ |- _ => destruct H end; try discriminate; (left; split; [reflexivity | lra]) || (right; left; split; [reflexivity | lra]) || (right; right; split; [reflexivity | lra]) || (split; lra) || idtac. }
    destruct VA as (VL & VA). rewrite VL. cbn [List.length nth]. split.
    + intros (_ & F) i j Hi Hj. assert (j = 0) as -> by lia. rewrite G by exact Hi. cbn [nth]. rewrite <- surjective_pairing. now apply VA, F.
    + intros F. split; [exact HU|]. intros i Hi. apply VA. specialize (F i 0 Hi ltac:(lia)). rewrite G in F by exact Hi. cbn [nth] in F. now rewrite <- surjective_pairing in F.
  - rewrite (Forall_nth' _ l (0, 0)%R), map_length. assert (G : forall i, i < List.length l -> nth i (map (fun p : R * R => [fst p; snd p]) l) [] = [fst (nth i l (0, 0)%R); snd (nth i l (0, 0)%R)]) by (intros i Hi; rewrite (nth_indep _ [] ((fun p : R * R => [fst p; snd p]) (0, 0)%R)) by (now rewrite map_length); now rewrite (map_nth (fun p : R * R => [fst p; snd p]))).
    assert (VA : List.length vr = 2 /\ forall p, valid_ae u p <-> (within (nth 0 vr (None, None)) (fst p) /\ within (nth 1 vr (None, None)) (snd p))).
    { pose proof PI_RGT_0. cbn [valid_ranges] in E. unfold valid_ae, within. destruct HU as [->| ->]; cbn in E; injection E as <-; cbn; (split; [reflexivity|]); intros p; split; intros V;
        repeat match goal with H : _ \/ _ |- _ => destruct H end; repeat match goal with H : _ /\ _ |- _ => destruct H end; try discriminate; (left; split; [reflexivity | lra]) || (right; split; [reflexivity | lra]) || (repeat split; lra) || idtac. }
    destruct VA as (VL & VA). split.
    + intros (_ & F) i j Hi Hj. rewrite G by exact Hi. specialize (F i Hi). apply VA in F. destruct j as [|[|j]]; cbn [nth]; [apply F | apply F | lia].
    + intros F. split; [exact HU|]. intros i Hi. apply VA. split; [specialize (F i 0 Hi ltac:(lia)) | specialize (F i 1 Hi ltac:(lia))]; rewrite G in F by exact Hi; exact F.
  - split; [|auto]. intros _ i j Hi Hj. cbn in E. injection E as <-. destruct j as [|[|j]]; [repeat split | repeat split | cbn in Hj; lia].
Qed.
Lemma opt_bounds_ok s dt vr : valid_ranges s = Ok vr -> opt_bounds (pv_pl (value_of s dt)) (src_rows s) = Ok (List.concat (repeat vr (src_size s))).
Proof. intros E. unfold opt_bounds. rewrite value_sources. cbn [bind]. rewrite E. cbn [bind]. f_equal. f_equal. f_equal. rewrite <- (value_rows s dt). apply value_len. Qed.
Lemma repeat_all {A} (P : A -> Prop) a n : P a -> Forall P (repeat a n).
Proof. intros H. induction n; constructor; auto. Qed.
Lemma point_rows_dim k d x : Forall (fun r => List.length r = d) (point_rows k d x).
Proof. unfold point_rows. apply Forall_forall. intros r Hr. apply in_map_iff in Hr. destruct Hr as (i & <- & _). now rewrite map_length, seq_length. Qed.
Lemma point_rows_nth k d x i j : i < k -> j < d -> nth j (nth i (point_rows k d x) []) 0%R = nth (i * d + j) x 0%R.
Proof. intros Hi Hj. unfold point_rows. rewrite nth_map_seq by exact Hi. now rewrite nth_map_seq. Qed.
Lemma div_pos k d q : q < k * d -> exists i j, i < k /\ j < d /\ q = i * d + j.
Proof.
  intros H. assert (D : d <> 0) by (intros ->; lia). exists (q / d), (q mod d). split; [apply Nat.div_lt_upper_bound; lia|]. split; [apply Nat.mod_upper_bound; exact D|]. pose proof (Nat.div_mod q d D). lia.
Qed.
Lemma concat_point k d x : List.length x = k * d -> List.concat (point_rows k d x) = x.
Proof.
  intros L. pose proof (concat_nth d (point_rows k d x) 0%R (point_rows_dim k d x)) as (C1 & C2). rewrite point_rows_length in C1, C2. apply (nth_ext_list _ _ 0%R); [lia|]. intros q Hq. rewrite C1 in Hq. destruct (div_pos k d q Hq) as (i & j & Hi & Hj & ->). rewrite C2 by assumption. now apply point_rows_nth.
Qed.
Lemma point_concat (rows : list (list R)) d : Forall (fun r => List.length r = d) rows -> point_rows (List.length rows) d (List.concat rows) = rows.
Proof.
  intros F. pose proof (concat_nth d rows 0%R F) as (C1 & C2). apply (nth_ext_list _ _ []); [apply point_rows_length|]. intros i Hi. rewrite point_rows_length in Hi.
  assert (Lr : List.length (nth i rows []) = d) by (rewrite Forall_forall in F; apply F, nth_In, Hi).
  assert (Lp : List.length (nth i (point_rows (List.length rows) d (List.concat rows)) []) = d) by (pose proof (point_rows_dim (List.length rows) d (List.concat rows)) as G; rewrite Forall_forall in G; apply G, nth_In; now rewrite point_rows_length).
  apply (nth_ext_list _ _ 0%R); [congruence|]. intros j Hj. rewrite Lp in Hj. rewrite point_rows_nth by assumption. now apply C2.
Qed.
