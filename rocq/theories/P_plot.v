From Verif Require Import Base_Np M_utils P_utils M_sources M_array M_grid S_grid P_grid M_core M_coarray M_plot S_plot.
Open Scope nat_scope.

Lemma fold_max_spec l : forall a, In (fold_left Rmax l a) (a :: l) /\ forall v, In v (a :: l) -> (v <= fold_left Rmax l a)%R.
Proof.
  induction l as [|b l IH]; intros a; cbn [fold_left]; [split; [now left|]; intros v [->|[]]; lra|]. destruct (IH (Rmax a b)) as (I1 & I2). split.
  - destruct I1 as [I1|I1]; [|right; right; exact I1]. rewrite <- I1. unfold Rmax. destruct (Rle_dec a b); [right; left | left]; reflexivity.
  - intros v Hv. assert (M := I2 (Rmax a b) (or_introl eq_refl)). destruct Hv as [->|[->|Hv]]; [pose proof (Rmax_l v b); lra | pose proof (Rmax_r a v); lra | apply I2; right; exact Hv].
Qed.
Lemma fold_min_spec l : forall a, In (fold_left Rmin l a) (a :: l) /\ forall v, In v (a :: l) -> (fold_left Rmin l a <= v)%R.
Proof.
  induction l as [|b l IH]; intros a; cbn [fold_left]; [split; [now left|]; intros v [->|[]]; lra|]. destruct (IH (Rmin a b)) as (I1 & I2). split.
  - destruct I1 as [I1|I1]; [|right; right; exact I1]. rewrite <- I1. unfold Rmin. destruct (Rle_dec a b); [left | right; left]; reflexivity.
  - intros v Hv. assert (M := I2 (Rmin a b) (or_introl eq_refl)). destruct Hv as [->|[->|Hv]]; [pose proof (Rmin_l v b); lra | pose proof (Rmin_r a v); lra | apply I2; right; exact Hv].
Qed.
Lemma amax_ok l : l <> [] -> exists m, amax l = Ok m /\ In m l /\ forall v, In v l -> (v <= m)%R.
Proof. destruct l as [|a l]; [congruence|]. intros _. eexists. split; [reflexivity|]. apply fold_max_spec. Qed.
Lemma amin_ok l : l <> [] -> exists m, amin l = Ok m /\ In m l /\ forall v, In v l -> (m <= v)%R.
Proof. destruct l as [|a l]; [congruence|]. intros _. eexists. split; [reflexivity|]. apply fold_min_spec. Qed.
Lemma normalize_ok x : x <> [] -> exists y, normalize_by_maximum x = Ok y /\ normalised x y.
Proof.
  intros H. destruct (amax_ok x H) as (m & E & I & M). unfold normalize_by_maximum. rewrite E. cbn [bind]. eexists. split; [reflexivity|]. exists m. split; [exact I|]. split; [exact M|].
  unfold Rltb. destruct (Rlt_dec 0 m); split; intros; try reflexivity; lra.
Qed.
Lemma units_eqb_iff a b : units_eqb a b = true <-> a = b. Proof. unfold units_eqb. destruct (list_eq_dec string_dec a b); split; congruence. Qed.
Lemma shape_eqb_iff a b : shape_eqb a b = true <-> a = b. Proof. unfold shape_eqb. destruct (list_eq_dec Nat.eq_dec a b); split; congruence. Qed.
Lemma along_rows s j : (match s with FF1 _ _ => j = 0 | _ => j < 2 end) -> map (fun row => nth j row 0%R) (src_rows s) = along s j.
Proof.
  destruct s as [l u|l u|l]; intros H; cbn [src_rows along]; rewrite map_map; [subst j; apply map_id|..]; apply map_ext; intros (a, b); destruct j as [|[|]]; (reflexivity || lia).
Qed.

(** the drawing loop *)
Definition item_draw (x : list R) (log discrete : bool) (i : nat) (y : list R) (lab : plabel) : draw :=
  if discrete then DStem x y "-" " " lab (color_of i) else DLine x y log lab (color_of i).
Definition has_label (l : list (ndarr R * plabel)) : bool := existsb (fun it => match snd it with LStr s => Nat.ltb 0 (String.length s) | LInt _ => false end) l.
Fixpoint item_draws (tgt : nat) (x : list R) (log discrete : bool) (i : nat) (ys : list (list R)) (l : list (ndarr R * plabel)) : list (nat * draw) :=
  match ys, l with y :: ys, it :: l => (tgt, item_draw x log discrete i y (snd it)) :: item_draws tgt x log discrete (S i) ys l | _, _ => [] end.
Definition to_events (l : list (nat * draw)) : list event := map (fun c => EDraw (fst c) (snd c)) l.
Lemma draw_spectra_ok ax x (log discrete : bool) c nx (l : list (ndarr R * plabel)) : (forall it, In it l -> nd_data (fst it) <> [] /\ exists s, snd it = LStr s) ->
  exists ys, Forall2 (fun it y => normalised (nd_data (fst it)) y) l ys /\
    forall i tr, let cs := item_draws (if discrete then ax else c) x log discrete i ys l in
      draw_spectra ax x log discrete i l (PSt (Some c) nx tr) = (Ok (cs, has_label l), PSt (Some c) nx (tr ++ to_events cs)).
Proof.
  induction l as [|(s, lab) l IH]; intros H.
  - exists []. split; [constructor|]. intros i tr. cbn. rewrite app_nil_r. reflexivity.
  - destruct (H (s, lab) (or_introl eq_refl)) as (Hs & str & E). cbn [fst snd] in Hs, E. subst lab. destruct (normalize_ok _ Hs) as (y & Ey & Ny). destruct IH as (ys & F & E); [intros it Hit; apply H; right; exact Hit|].
    exists (y :: ys). split; [constructor; assumption|]. intros i tr. cbn [draw_spectra abind]. unfold abind, alift. rewrite Ey. cbn [label_len].
    change (nth (i mod List.length color_cycle) color_cycle ""%string) with (color_of i). destruct discrete; cbn [draws gca ps_cur ps_next ps_trace]; rewrite E; cbn [fst snd aret item_draws to_events map]; unfold aret; rewrite <- app_assoc; reflexivity.
Qed.
Lemma artists_app a b : artists (a ++ b) = artists a ++ artists b. Proof. unfold artists. apply flat_map_app. Qed.
Lemma artists_to l : (forall c, In c l -> is_artist (snd c) = true) -> artists (to_events l) = l.
Proof.
  induction l as [|(a, d) l IH]; intros H; [reflexivity|]. unfold to_events, artists in *. cbn [map flat_map fst snd]. pose proof (H (a, d) (or_introl eq_refl)) as Q. cbn [snd] in Q. rewrite Q. cbn [app]. f_equal. apply IH. intros c Hc. apply H. right. exact Hc.
Qed.
Lemma item_draws_artist tgt x log discrete ys : forall i l c, In c (item_draws tgt x log discrete i ys l) -> is_artist (snd c) = true.
Proof. induction ys as [|y ys IH]; intros i [|it l] c; cbn [item_draws In]; try tauto. intros [<-|H]; [unfold item_draw; cbn [snd]; destruct discrete; reflexivity | eapply IH; exact H]. Qed.
