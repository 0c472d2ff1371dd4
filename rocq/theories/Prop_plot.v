(** C78, C80, C81, C82: plot functions.  Events are what matplotlib is told to draw, see M_plot.v. *)
From Verif Require Import Base_Np M_utils S_utils P_utils M_sources M_array S_array M_designs M_grid S_grid P_grid M_core M_coarray M_plot S_plot P_plot.
Open Scope nat_scope.

(** ** C78: the collections of spectra, normalisation *)
Definition good (g : sgrid) (it : spval * plabel) : Prop := exists a, fst it = SArr a /\ nd_shape a = sg_shape g.
Theorem C78_spectrum_list : forall sp g,
  (offered sp = None -> build_spectrum_list sp g = Raise ValueError) /\
  (offered sp = Some [] -> build_spectrum_list sp g = Raise ValueError) /\
  (forall items, offered sp = Some items -> items <> [] -> (forall it, In it items -> good g it) ->
     exists l, build_spectrum_list sp g = Ok l /\ map (fun it => (SArr (fst it), snd it)) l = items) /\
  (forall before it after, offered sp = Some (before ++ it :: after) -> (forall it, In it before -> good g it) -> ~ good g it ->
     build_spectrum_list sp g = Raise (match fst it with SArr _ => ValueError | SOther => AttributeError end)).
Proof.
  intros sp g.
  assert (E : build_spectrum_list sp g = match offered sp with None => Raise ValueError | Some [] => Raise ValueError | Some l => check_shapes (sg_shape g) l end).
  { unfold build_spectrum_list, offered. destruct sp as [a|l|l|d|]; [reflexivity | destruct l; reflexivity | destruct l; reflexivity | destruct d; reflexivity | reflexivity]. }
  rewrite E. split; [intros ->; reflexivity|]. split; [intros ->; reflexivity|]. split.
  - intros items -> Hn HG. destruct items as [|it0 items0]; [congruence|]. generalize (it0 :: items0) HG. clear. intros l. induction l as [|(v, lab) l IH]; intros HG; [exists []; split; reflexivity|].
    destruct (HG (v, lab) (or_introl eq_refl)) as (a & Ea & Sa). cbn [fst] in Ea. subst v. destruct IH as (r & Er & Mr); [intros it Hit; apply HG; right; exact Hit|]. exists ((a, lab) :: r). cbn [check_shapes]. rewrite (proj2 (shape_eqb_iff _ _) Sa). cbn [negb bind]. rewrite Er. cbn [bind map fst snd]. rewrite Mr. split; reflexivity.
  - intros before it after -> HB HN. assert (Q : check_shapes (sg_shape g) (before ++ it :: after) = Raise (match fst it with SArr _ => ValueError | SOther => AttributeError end)).
    { clear E. induction before as [|(v, lab) before IH]; cbn [app check_shapes].
      - destruct it as ([a|], lab); cbn [fst]; [|reflexivity]. destruct (shape_eqb (nd_shape a) (sg_shape g)) eqn:Es; [|reflexivity]. exfalso. apply HN. exists a. split; [reflexivity | now apply shape_eqb_iff].
      - destruct (HB (v, lab) (or_introl eq_refl)) as (a & Ea & Sa). cbn [fst] in Ea. subst v. rewrite (proj2 (shape_eqb_iff _ _) Sa). cbn [negb bind]. rewrite IH; [reflexivity|]. intros it' Hit; apply HB; right; exact Hit. }
    rewrite Q. destruct before; reflexivity.
Qed.
Theorem C78_normalisation : forall x, x <> [] -> exists y, normalize_by_maximum x = Ok y /\ normalised x y /\ List.length y = List.length x /\
  (forall i j, i < List.length x -> j < List.length x -> (nth i y 0 * nth j x 0 = nth j y 0 * nth i x 0)%R /\ ((nth i x 0 <= nth j x 0)%R <-> (nth i y 0 <= nth j y 0)%R)) /\
  ((exists v, In v x /\ 0 < v)%R -> In 1%R y /\ forall v, In v y -> (v <= 1)%R).
Proof.
  intros x Hx. destruct (normalize_ok x Hx) as (y & E & N). exists y. split; [exact E|]. split; [exact N|]. destruct N as (m & I & M & N1 & N2). destruct (Rlt_dec 0 m) as [Hm|Hm].
  - rewrite (N1 Hm). split; [apply map_length|]. split.
    + intros i j Hi Hj. rewrite (nth_indep _ 0 (0 / m))%R by (rewrite map_length; exact Hi). rewrite (nth_indep (map _ x) 0 (0 / m))%R by (rewrite map_length; exact Hj). rewrite !(map_nth (fun v => v / m)%R). split; [field; lra|].
      unfold Rdiv. split; [intros; apply Rmult_le_compat_r; [left; now apply Rinv_0_lt_compat | assumption] | intros Q; apply Rmult_le_reg_r in Q; [exact Q | now apply Rinv_0_lt_compat]].
    + intros _. split; [apply in_map_iff; exists m; split; [field; lra | exact I]|]. intros v Hv. apply in_map_iff in Hv as (u & <- & Hu). apply Rmult_le_reg_r with m; [exact Hm|]. unfold Rdiv. rewrite Rmult_assoc, Rinv_l, Rmult_1_r, Rmult_1_l by lra. apply M. exact Hu.
  - rewrite (N2 ltac:(lra)). split; [reflexivity|]. split; [intros; split; [ring | tauto]|]. intros (v & Hv & Pv). specialize (M v Hv). lra.
Qed.
Theorem C78_empty : normalize_by_maximum [] = Raise ValueError. Proof. reflexivity. Qed.

(** ** C80: 1-D spectra.  [c] are pyplot's current axes, [ax] the axes passed in. *)
Definition spectrum_artist (g : sgrid) (ax c : nat) (log discrete : bool) (i : nat) (y : list R) (lab : plabel) : nat * draw :=
  if discrete then (ax, DStem (axis g 0) y "-" " " lab (color_of i)) else (c, DLine (axis g 0) y log lab (color_of i)).
Definition source_artist (ax : nat) (s : option sources) (marker lab color : string) : list (nat * draw) :=
  match s with None => [] | Some s => [(ax, DStem (along s 0) (repeat 1%R (src_size s)) "--" marker (LStr lab) color)] end.
Definition usable (g : sgrid) (it : spval * plabel) : Prop := exists a s, it = (SArr a, LStr s) /\ nd_wf a /\ nd_shape a = sg_shape g.

Lemma nth_item_draws tgt x log discrete ys : forall i0 l i y it, nth_error ys i = Some y -> nth_error l i = Some it ->
  nth_error (item_draws tgt x log discrete i0 ys l) i = Some (tgt, item_draw x log discrete (i0 + i) y (snd it)).
Proof.
  induction ys as [|y0 ys IH]; intros i0 [|it0 l] [|i] y it; cbn [nth_error item_draws]; try discriminate.
  - intros [= ->] [= ->]. rewrite Nat.add_0_r. reflexivity.
  - intros H1 H2. rewrite (IH (S i0) l i y it H1 H2). replace (i0 + S i) with (S i0 + i) by lia. reflexivity.
Qed.
Lemma length_item_draws tgt x log discrete ys : forall i0 l, List.length ys = List.length l -> List.length (item_draws tgt x log discrete i0 ys l) = List.length l.
Proof. induction ys as [|y0 ys IH]; intros i0 [|it0 l] H; cbn in *; try discriminate; [reflexivity|]. f_equal. apply IH. lia. Qed.
Lemma sources1_ok g ax s marker lab color st : sg_class g = G1D -> (forall p, s = Some p -> src_units p = [sg_unit g]) ->
  draw_sources1 g ax s marker lab color st = (Ok (source_artist ax s marker lab color), PSt (ps_cur st) (ps_next st) (ps_trace st ++ to_events (source_artist ax s marker lab color))).
Proof.
  intros C H. destruct s as [s|]; cbn [draw_sources1 source_artist to_events map]; [|rewrite app_nil_r; destruct st; reflexivity]. specialize (H s eq_refl). unfold sg_units. rewrite C. rewrite (proj2 (units_eqb_iff _ _) H). cbn [negb]. unfold abind, draws, aret.
  destruct s as [l u|l u|l]; [|discriminate H | discriminate H]. rewrite along_rows by reflexivity. cbn [along src_size fst snd]. assert (ER : forall l : list R, map (fun _ => 1%R) l = repeat 1%R (List.length l)) by (induction l0; cbn; congruence). rewrite ER. reflexivity.
Qed.
Lemma sources1_bad g ax s marker lab color st : sg_class g = G1D -> src_units s <> [sg_unit g] -> draw_sources1 g ax (Some s) marker lab color st = (Raise ValueError, st).
Proof. intros C H. cbn [draw_sources1]. unfold sg_units. rewrite C. destruct (units_eqb (src_units s) [sg_unit g]) eqn:E; [apply units_eqb_iff in E; congruence | reflexivity]. Qed.
Lemma source_artist_is ax s m l c x : In x (source_artist ax s m l c) -> is_artist (snd x) = true.
Proof. destruct s; cbn [source_artist In]; [|tauto]. intros [<-|[]]. reflexivity. Qed.
Lemma list_usable sp g items : offered sp = Some items -> items <> [] -> 0 < sg_size g -> (forall it, In it items -> usable g it) ->
  exists l, build_spectrum_list sp g = Ok l /\ map (fun it => (SArr (fst it), snd it)) l = items /\ forall it, In it l -> nd_data (fst it) <> [] /\ exists s, snd it = LStr s.
Proof.
  intros HO HN HS HU. destruct (C78_spectrum_list sp g) as (_ & _ & Q & _). destruct (Q items HO HN) as (l & E & M); [intros it Hit; destruct (HU it Hit) as (a & s & -> & _ & Sa); exists a; auto|].
  exists l. split; [exact E|]. split; [exact M|]. intros (a, lab) Hit. destruct (HU (SArr a, lab)) as (a' & s & Eq & W & Sa). { rewrite <- M. apply in_map_iff. exists (a, lab). auto. }
  injection Eq as <- ->. cbn [fst snd]. split; [|eauto]. intros Z. unfold nd_wf in W. rewrite Z, Sa in W. cbn in W. unfold sg_size in HS. lia.
Qed.
Lemma axis0 g : plain_grid g -> sg_class g = G1D -> nth_res (sg_axes g) 0 = Ok (nth 0 (sg_axes g) (vec1 [])).
Proof. intros (_ & N) C. rewrite C in N. unfold sg_ndim in N. unfold nth_res. destruct (sg_axes g) as [|a [|]]; (reflexivity || discriminate N). Qed.

Theorem C80_plot_1d : forall sp g ax estimates truth log discrete st c items,
  plain_grid g -> sg_class g = G1D -> 0 < sg_size g -> ps_cur st = Some c ->
  offered sp = Some items -> items <> [] -> (forall it, In it items -> usable g it) ->
  (forall p, estimates = Some p -> src_units p = [sg_unit g]) -> (forall p, truth = Some p -> src_units p = [sg_unit g]) ->
  exists ys evs st', plot_spectrum_1d sp g ax estimates truth log discrete st = (Ok (artists evs), st') /\ ps_trace st' = ps_trace st ++ evs /\ ps_cur st' = Some c /\
    Forall2 (fun it y => exists a, fst it = SArr a /\ normalised (nd_data a) y) items ys /\
    (forall i y it, nth_error ys i = Some y -> nth_error items i = Some it -> nth_error (artists evs) i = Some (spectrum_artist g ax c log discrete i y (snd it))) /\
    skipn (List.length items) (artists evs) = source_artist ax estimates "x" "Estimates" "C3" ++ source_artist ax truth "o" "Ground truth" "C2" /\
    (legend_on ax evs <-> (exists it s, In it items /\ snd it = LStr s /\ s <> ""%string) \/ estimates <> None \/ truth <> None) /\
    In (EDraw ax (DXLabel ("DOA/" ++ sg_unit g))) evs /\ (In (EDraw ax DYScaleLog) evs <-> discrete = true /\ log = true).
Proof.
  intros sp g ax es tr log discrete st c items PG CG HS HC HO HN HU HE HT. destruct (list_usable sp g items HO HN HS HU) as (l & EB & ML & OK).
  destruct (draw_spectra_ok ax (axis g 0) log discrete c (ps_next st) l OK) as (ys & FY & DS).
  assert (FI : Forall2 (fun it y => exists a, fst it = SArr a /\ normalised (nd_data a) y) items ys).
  { rewrite <- ML. clear -FY. induction FY as [|(a, lab) y l ys H F IH]; cbn [map]; constructor; [exists a; auto | exact IH]. }
  assert (LL : List.length ys = List.length l) by (clear -FY; induction FY; cbn; congruence). assert (LI : List.length items = List.length l) by (rewrite <- ML; apply map_length).
  set (tgt := if discrete then ax else c) in *. set (cs := item_draws tgt (axis g 0) log discrete 0 ys l) in *.
  set (E0 := if discrete && log then [EDraw ax DYScaleLog] else [] : list event). set (es' := source_artist ax es "x" "Estimates" "C3") in *. set (tr' := source_artist ax tr "o" "Ground truth" "C2") in *.
  set (leg := has_label l || is_some es || is_some tr).
  set (E3 := [EDraw ax (DXLabel ("DOA/" ++ sg_unit g)); EDraw ax DMarginsX0] ++ (if log then [] else [EDraw ax (DYLimFrom0 c)]) ++ [EDraw ax (DYLabel "Normalized spectrum")] ++ (if leg then [EDraw ax DLegend] else [])).
  set (evs := E0 ++ to_events cs ++ to_events es' ++ to_events tr' ++ E3).
  assert (AE : artists evs = cs ++ es' ++ tr').
  { unfold evs. rewrite !artists_app. rewrite (artists_to cs) by apply item_draws_artist. rewrite (artists_to es') by apply source_artist_is. rewrite (artists_to tr') by apply source_artist_is.
    assert (A0 : artists E0 = []) by (unfold E0; destruct (discrete && log); reflexivity). assert (A3 : artists E3 = []) by (unfold E3; destruct log, leg; reflexivity). rewrite A0, A3, app_nil_r. reflexivity. }
  exists ys, evs. exists (PSt (Some c) (ps_next st) (ps_trace st ++ evs)). split; [|split; [reflexivity|split; [reflexivity|split; [exact FI|]]]].
  - unfold plot_spectrum_1d. unfold abind at 1, alift at 1. rewrite EB. unfold abind at 1, alift at 1. rewrite (axis0 g PG CG). cbn [bind]. fold (axis g 0).
    unfold abind at 1. destruct st as [cur nx tr0]. cbn [ps_cur ps_next ps_trace] in *. subst cur.
    assert (Q0 : (if discrete && log then emit (EDraw ax DYScaleLog) else aret tt) (PSt (Some c) nx tr0) = (Ok tt, PSt (Some c) nx (tr0 ++ E0))) by (unfold E0; destruct (discrete && log); cbn; [reflexivity | now rewrite app_nil_r]).
    rewrite Q0. unfold abind at 1. rewrite DS. cbv zeta. fold tgt. fold cs. unfold abind at 1. rewrite sources1_ok by assumption. fold es'. cbn [ps_cur ps_next ps_trace]. unfold abind at 1. rewrite sources1_ok by assumption. fold tr'. cbn [ps_cur ps_next ps_trace].
    unfold abind at 1, alift at 1. unfold sg_axis_names, sg_units. rewrite CG. cbn [nth_res nth_error]. unfold abind at 1, alift at 1. cbn [nth_res nth_error]. unfold abind, emit, gca, aret. cbn [ps_cur ps_next ps_trace fst snd].
    fold leg. rewrite AE. unfold evs, E3. destruct log, leg; cbn [ps_cur ps_next ps_trace app String.append]; rewrite <- ?app_assoc; reflexivity.
  - rewrite AE. split; [|split; [|split; [|split]]].
    + intros i y it Hy Hit. rewrite <- ML, nth_error_map in Hit. destruct (nth_error l i) as [it0|] eqn:E; [|discriminate Hit]. injection Hit as <-. rewrite nth_error_app1.
      * unfold cs. rewrite (nth_item_draws _ _ _ _ _ 0 l i y it0 Hy E). unfold spectrum_artist, item_draw, tgt. destruct discrete; reflexivity.
      * unfold cs. rewrite length_item_draws by exact LL. apply nth_error_Some. congruence.
    + rewrite LI. rewrite <- (length_item_draws tgt (axis g 0) log discrete ys 0 l LL). fold cs. rewrite skipn_app, skipn_all, Nat.sub_diag. reflexivity.
    + assert (LG : legend_on ax evs <-> leg = true).
      { unfold legend_on, evs. rewrite !in_app_iff. split.
        - intros [H|[H|[H|[H|H]]]]; [exfalso; unfold E0 in H; destruct (discrete && log); cbn in H; [destruct H as [H|[]]; discriminate H | exact H]| | | |].
          1-3: (exfalso; unfold to_events in H; apply in_map_iff in H as (x & Ex & Hx); injection Ex as _ Ex; first [apply item_draws_artist in Hx | apply source_artist_is in Hx]; rewrite Ex in Hx; discriminate Hx).
          unfold E3 in H. destruct leg; [reflexivity|]. exfalso. destruct log; cbn in H; repeat (destruct H as [H|H]; [discriminate H|]); exact H.
        - intros ->. right. right. right. right. unfold E3. rewrite !in_app_iff. right. right. right. left. reflexivity. }
      rewrite LG. unfold leg. rewrite !orb_true_iff. assert (HL : has_label l = true <-> exists it s, In it items /\ snd it = LStr s /\ s <> ""%string).
      { unfold has_label. rewrite existsb_exists. split.
        - intros ((a, lab) & Hin & Hl). cbn [snd] in Hl. destruct lab as [s|]; [|discriminate Hl]. exists (SArr a, LStr s), s. split; [rewrite <- ML; apply in_map_iff; exists (a, LStr s); auto|]. split; [reflexivity|]. intros ->. discriminate Hl.
        - intros (it & s & Hin & Es & Hs). rewrite <- ML in Hin. apply in_map_iff in Hin as ((a, lab) & <- & Hin). cbn [snd fst] in Es. subst lab. exists (a, LStr s). split; [exact Hin|]. cbn [snd]. apply Nat.ltb_lt. destruct s; [congruence | cbn; lia]. }
      rewrite HL. assert (SN : forall o : option sources, is_some o = true <-> o <> None) by (intros [o|]; cbn; split; congruence). rewrite !SN. tauto.
    + unfold evs. rewrite !in_app_iff. right. right. right. right. left. reflexivity.
    + unfold evs. rewrite !in_app_iff. split.
      * intros [H|[H|[H|[H|H]]]].
        { unfold E0 in H. destruct discrete, log; cbn in H; tauto. }
        1-3: (exfalso; unfold to_events in H; apply in_map_iff in H as (x & Ex & Hx); injection Ex as _ Ex; first [apply item_draws_artist in Hx | apply source_artist_is in Hx]; rewrite Ex in Hx; discriminate Hx).
        exfalso. unfold E3 in H. destruct log, leg; cbn in H; repeat (destruct H as [H|H]; [discriminate H|]); exact H.
      * intros (-> & ->). left. left. reflexivity.
Qed.
(** on the axes passed in, if these are the current ones or stems are drawn *)
Theorem C80_on_given_axes : forall sp g ax estimates truth log discrete st c items r st',
  plain_grid g -> sg_class g = G1D -> 0 < sg_size g -> ps_cur st = Some c ->
  offered sp = Some items -> items <> [] -> (forall it, In it items -> usable g it) ->
  (forall p, estimates = Some p -> src_units p = [sg_unit g]) -> (forall p, truth = Some p -> src_units p = [sg_unit g]) ->
  c = ax \/ discrete = true -> plot_spectrum_1d sp g ax estimates truth log discrete st = (Ok r, st') ->
  List.length r = List.length items + (if estimates then 1 else 0) + (if truth then 1 else 0) /\ forall x, In x r -> fst x = ax.
Proof.
  intros sp g ax es tr log discrete st c items r st' PG CG HS HC HO HN HU HE HT HA H. destruct (C80_plot_1d sp g ax es tr log discrete st c items PG CG HS HC HO HN HU HE HT) as (ys & evs & st1 & E & _ & _ & F & A1 & A2 & _).
  rewrite H in E. injection E as -> ->. assert (LY : List.length ys = List.length items) by (clear -F; induction F; cbn; congruence).
  assert (LE : List.length items <= List.length (artists evs)).
  { destruct (Nat.le_gt_cases (List.length items) (List.length (artists evs))) as [L|L]; [exact L|]. exfalso. destruct (nth_error ys (List.length (artists evs))) as [y|] eqn:Ey; [|apply nth_error_None in Ey; lia]. destruct (nth_error items (List.length (artists evs))) as [it|] eqn:Ei; [|apply nth_error_None in Ei; lia].
    specialize (A1 _ _ _ Ey Ei). assert (nth_error (artists evs) (List.length (artists evs)) = None) by (apply nth_error_None; lia). congruence. }
  split.
  - rewrite <- (firstn_skipn (List.length items) (artists evs)), app_length, A2, firstn_length, app_length, Nat.min_l by exact LE. destruct es, tr; cbn; lia.
  - intros x Hx. apply In_nth_error in Hx as (i & Hi). destruct (Nat.lt_ge_cases i (List.length items)) as [L|L].
    + destruct (nth_error ys i) as [y|] eqn:Ey; [|apply nth_error_None in Ey; lia]. destruct (nth_error items i) as [it|] eqn:Ei; [|apply nth_error_None in Ei; lia]. rewrite (A1 _ _ _ Ey Ei) in Hi. injection Hi as <-. unfold spectrum_artist. destruct HA as [->| ->]; [destruct discrete|]; reflexivity.
    + assert (Q : In x (skipn (List.length items) (artists evs))). { replace i with (List.length items + (i - List.length items)) in Hi by lia. rewrite <- (firstn_skipn (List.length items) (artists evs)), nth_error_app2 in Hi; rewrite firstn_length, Nat.min_l in * by exact LE; [|lia]. eapply nth_error_In. exact Hi. }
      rewrite A2 in Q. apply in_app_iff in Q. destruct es, tr, Q as [Q|Q]; cbn in Q; try tauto; destruct Q as [<-|[]]; reflexivity.
Qed.
(** otherwise the lines go to whatever axes are current: the axes passed in show none of the spectra *)
Theorem C80_lines_on_current_axes_defect : forall sp g ax log st c items r st',
  plain_grid g -> sg_class g = G1D -> 0 < sg_size g -> ps_cur st = Some c -> c <> ax ->
  offered sp = Some items -> items <> [] -> (forall it, In it items -> usable g it) ->
  plot_spectrum_1d sp g ax None None log false st = (Ok r, st') ->
  List.length r = List.length items /\ forall x, In x r -> fst x = c /\ fst x <> ax.
Proof.
  intros sp g ax log st c items r st' PG CG HS HC HA HO HN HU H. destruct (C80_plot_1d sp g ax None None log false st c items PG CG HS HC HO HN HU ltac:(discriminate) ltac:(discriminate)) as (ys & evs & st1 & E & _ & _ & F & A1 & A2 & _).
  rewrite H in E. injection E as -> ->. assert (LY : List.length ys = List.length items) by (clear -F; induction F; cbn; congruence). cbn [source_artist app] in A2.
  assert (LE : List.length (artists evs) <= List.length items). { pose proof (skipn_length (List.length items) (artists evs)) as Q. rewrite A2 in Q. cbn in Q. lia. }
  assert (LG : List.length items <= List.length (artists evs)).
  { destruct (Nat.le_gt_cases (List.length items) (List.length (artists evs))) as [L|L]; [exact L|]. exfalso. destruct (nth_error ys (List.length (artists evs))) as [y|] eqn:Ey; [|apply nth_error_None in Ey; lia]. destruct (nth_error items (List.length (artists evs))) as [it|] eqn:Ei; [|apply nth_error_None in Ei; lia].
    specialize (A1 _ _ _ Ey Ei). assert (nth_error (artists evs) (List.length (artists evs)) = None) by (apply nth_error_None; lia). congruence. }
  split; [lia|]. intros x Hx. apply In_nth_error in Hx as (i & Hi). assert (i < List.length (artists evs)) by (apply nth_error_Some; congruence).
  destruct (nth_error ys i) as [y|] eqn:Ey; [|apply nth_error_None in Ey; lia]. destruct (nth_error items i) as [it|] eqn:Ei; [|apply nth_error_None in Ei; lia]. rewrite (A1 _ _ _ Ey Ei) in Hi. injection Hi as <-. cbn [spectrum_artist fst]. auto.
Qed.
(** estimates or ground truth in another unit (or of another kind) are refused *)
Theorem C80_unit_check : forall sp g ax p other log discrete st c items,
  plain_grid g -> sg_class g = G1D -> 0 < sg_size g -> ps_cur st = Some c -> offered sp = Some items -> items <> [] -> (forall it, In it items -> usable g it) -> src_units p <> [sg_unit g] ->
  fst (plot_spectrum_1d sp g ax (Some p) other log discrete st) = Raise ValueError /\
  fst (plot_spectrum_1d sp g ax other (Some p) log discrete st) = Raise ValueError.
Proof.
  intros sp g ax p other log discrete st c items PG CG HS HC HO HN HU HB. destruct (list_usable sp g items HO HN HS HU) as (l & EB & ML & OK).
  destruct (draw_spectra_ok ax (axis g 0) log discrete c (ps_next st) l OK) as (ys & FY & DS). destruct st as [cur nx tr0]. cbn [ps_cur ps_next ps_trace] in *. subst cur.
  assert (Q0 : exists t, (if discrete && log then emit (EDraw ax DYScaleLog) else aret tt) (PSt (Some c) nx tr0) = (Ok tt, PSt (Some c) nx t)) by (destruct (discrete && log); cbn; eexists; reflexivity). destruct Q0 as (t & Q0).
  split; unfold plot_spectrum_1d; unfold abind at 1, alift at 1; rewrite EB; unfold abind at 1, alift at 1; rewrite (axis0 g PG CG); cbn [bind]; fold (axis g 0); unfold abind at 1; rewrite Q0; unfold abind at 1; rewrite DS; cbv zeta; unfold abind at 1.
  - rewrite sources1_bad by assumption. reflexivity.
  - assert (QO : exists r, draw_sources1 g ax other "x" "Estimates" "C3" (PSt (Some c) nx (t ++ to_events (item_draws (if discrete then ax else c) (axis g 0) log discrete 0 ys l))) = r /\ (fst r = Raise ValueError \/ exists v, fst r = Ok v)).
    { eexists. split; [reflexivity|]. destruct other as [o|]; [|right; eexists; reflexivity]. cbn [draw_sources1]. destruct (units_eqb (src_units o) (sg_units g)); [right; eexists; reflexivity | left; reflexivity]. }
    destruct QO as ((r, st2) & -> & [Q|(v & Q)]); cbn [fst] in Q; subst r; [reflexivity|]. unfold abind at 1. rewrite sources1_bad by assumption. reflexivity.
Qed.
(** labels that are no strings make plotting fail *)
Theorem C80_label_type_defect : forall a z g ax log discrete st, plain_grid g -> sg_class g = G1D -> nd_data a <> [] -> nd_shape a = sg_shape g ->
  fst (plot_spectrum_1d (InDict [(LInt z, SArr a)]) g ax None None log discrete st) = Raise TypeError.
Proof.
  intros a z g ax log discrete st PG CG HD HS. unfold plot_spectrum_1d, build_spectrum_list. cbn [map snd fst bind List.length Nat.eqb check_shapes]. rewrite (proj2 (shape_eqb_iff _ _) HS). cbn [negb bind]. unfold abind at 1, alift at 1. unfold abind at 1, alift at 1. rewrite (axis0 g PG CG). cbn [bind].
  unfold abind at 1. assert (Q0 : exists s, (if discrete && log then emit (EDraw ax DYScaleLog) else aret tt) st = (Ok tt, s)) by (destruct (discrete && log); cbn; eexists; reflexivity). destruct Q0 as (s & ->). unfold abind at 1. cbn [draw_spectra]. unfold abind at 1, alift at 1. destruct (normalize_ok _ HD) as (y & -> & _). unfold abind at 1, alift at 1. cbn [label_len]. reflexivity.
Qed.

(** ** C81: 2-D spectra *)
Definition source_points (ax : nat) (s : option sources) (ix iy : nat) (marker lab : string) : list (nat * draw) :=
  match s with None => [] | Some s => [(ax, DScatter [along s ix; along s iy] marker lab)] end.
(** the units and the axis labels of a 2-D grid: azimuth and elevation in the unit of the grid, or coordinates in meters *)
Definition grid_units (g : sgrid) : list string := match sg_class g with GNF => ["m"; "m"]%string | _ => [sg_unit g; sg_unit g] end.
Definition axis_label (g : sgrid) (j : nat) : string :=
  match sg_class g with GNF => (if Nat.eqb j 0 then "x/m" else "y/m")%string | _ => ((if Nat.eqb j 0 then "Azimuth/" else "Elevation/") ++ sg_unit g)%string end.
(** sources placed in the units of the grid match: 2-D far-field sources in its unit, near-field sources on near-field grids *)
Theorem C81_matching_units : forall g l m, (sg_class g = G2D -> src_units (FF2 l (sg_unit g)) = grid_units g) /\ (sg_class g = GNF -> src_units (NF2 m) = grid_units g) /\
  (forall u, sg_class g = G2D -> u <> sg_unit g -> src_units (FF2 l u) <> grid_units g).
Proof. intros g l m. unfold grid_units. repeat split; intros; rewrite ?H; cbn; congruence. Qed.
Lemma sources2_ok g ax s ix iy marker lab st : ix < 2 -> iy < 2 -> sg_class g <> G1D -> (forall p, s = Some p -> src_units p = grid_units g) ->
  draw_sources2 g ax s ix iy marker lab st = (Ok (source_points ax s ix iy marker lab), PSt (ps_cur st) (ps_next st) (ps_trace st ++ to_events (source_points ax s ix iy marker lab))).
Proof.
  intros I1 I2 C H. destruct s as [s|]; cbn [draw_sources2 source_points to_events map]; [|rewrite app_nil_r; destruct st; reflexivity]. specialize (H s eq_refl). assert (U : sg_units g = grid_units g) by (unfold sg_units, grid_units; destruct (sg_class g); tauto). rewrite U. rewrite (proj2 (units_eqb_iff _ _) H). cbn [negb]. unfold abind, draws, aret. unfold grid_units in H.
  rewrite !along_rows; [reflexivity|..]; destruct s; try exact I1; try exact I2; destruct (sg_class g); discriminate H.
Qed.
Lemma source_points_is ax s ix iy m l x : In x (source_points ax s ix iy m l) -> is_artist (snd x) = true.
Proof. destruct s; cbn [source_points In]; [|tauto]. intros [<-|[]]. reflexivity. Qed.
(** the pixel in column c and row r (from below) is the spectrum at the grid point with index c along the horizontal axis and r along the vertical one *)
Theorem C81_plot_2d : forall a g ax estimates truth log swap cmap st,
  plain_grid g -> sg_class g <> G1D -> 0 < sg_size g -> nd_shape a = sg_shape g ->
  (forall p, estimates = Some p -> src_units p = grid_units g) -> (forall p, truth = Some p -> src_units p = grid_units g) ->
  let ix := if swap : bool then 1 else 0 in let iy := if swap then 0 else 1 in
  exists evs st' img x0 x1 y0 y1, plot_spectrum_2d (InArray a) g ax estimates truth log swap cmap st = (Ok (artists evs), st') /\ ps_trace st' = ps_trace st ++ evs /\
    artists evs = (ax, DImage (List.length (axis g iy)) (List.length (axis g ix)) img x0 x1 y0 y1 cmap log) :: source_points ax estimates ix iy "o" "Estimates" ++ source_points ax truth ix iy "+" "Ground truth" /\
    (forall r c, r < List.length (axis g iy) -> c < List.length (axis g ix) -> exists idx, in_shape (sg_shape g) idx /\ nth ix idx 0 = c /\ nth iy idx 0 = r /\ img r c = at_idx (sg_shape g) (nd_data a) idx) /\
    In x0 (axis g ix) /\ In x1 (axis g ix) /\ (forall v, In v (axis g ix) -> (x0 <= v <= x1)%R) /\ In y0 (axis g iy) /\ In y1 (axis g iy) /\ (forall v, In v (axis g iy) -> (y0 <= v <= y1)%R) /\
    (legend_on ax evs <-> estimates <> None \/ truth <> None) /\
    In (EDraw ax (DXLabel (axis_label g ix))) evs /\ In (EDraw ax (DYLabel (axis_label g iy))) evs.
Proof.
  intros a g ax es tr log swap cmap st PG CG HS HA HE HT ix iy. destruct PG as (PA & PN). assert (PN2 : sg_ndim g = 2) by (rewrite PN; destruct (sg_class g); tauto). clear PN. rename PN2 into PN. unfold sg_ndim in PN. destruct (sg_axes g) as [|u [|v [|]]] eqn:EX; try discriminate PN.
  assert (AX : axis g 0 = nd_data u /\ axis g 1 = nd_data v) by (unfold axis; rewrite EX; split; reflexivity). destruct AX as (AX0 & AX1).
  assert (LU : ax_len u = List.length (nd_data u)) by (unfold ax_len; rewrite (PA u (or_introl eq_refl)); reflexivity). assert (LV : ax_len v = List.length (nd_data v)) by (unfold ax_len; rewrite (PA v (or_intror (or_introl eq_refl))); reflexivity).
  assert (SH : sg_shape g = [List.length (axis g 0); List.length (axis g 1)]) by (unfold sg_shape; rewrite EX, AX0, AX1; cbn [map]; rewrite LU, LV; reflexivity).
  assert (N01 : axis g 0 <> [] /\ axis g 1 <> []). { unfold sg_size in HS. rewrite SH in HS. cbn [prod_list fold_right] in HS. split; intros Z; rewrite Z in HS; cbn in HS; lia. } destruct N01 as (N0 & N1).
  assert (NX : axis g ix <> [] /\ axis g iy <> []) by (unfold ix, iy; destruct swap; auto). destruct NX as (NX & NY).
  destruct (amin_ok _ NX) as (x0 & Ex0 & Ix0 & Mx0). destruct (amax_ok _ NX) as (x1 & Ex1 & Ix1 & Mx1). destruct (amin_ok _ NY) as (y0 & Ey0 & Iy0 & My0). destruct (amax_ok _ NY) as (y1 & Ey1 & Iy1 & My1).
  assert (RX : nth_res (sg_axes g) ix = Ok (nth ix (sg_axes g) (vec1 [])) /\ nth_res (sg_axes g) iy = Ok (nth iy (sg_axes g) (vec1 []))) by (rewrite EX; unfold ix, iy; destruct swap; split; reflexivity). destruct RX as (RX & RY). rewrite EX in RX, RY.
  set (m := if swap then nd_mat 0%R a else mtr (nd_mat 0%R a)).
  set (es' := source_points ax es ix iy "o" "Estimates"). set (tr' := source_points ax tr ix iy "+" "Ground truth"). set (leg := is_some es || is_some tr).
  set (im := (ax, DImage (nr m) (nc m) (ent m) x0 x1 y0 y1 cmap log)).
  set (E1 := [EDraw ax DColorbar; EDraw ax (DXLabel (axis_label g ix)); EDraw ax (DYLabel (axis_label g iy))]).
  set (E2 := if leg then [EDraw ax DLegend] else [] : list event).
  set (evs := to_events [im] ++ E1 ++ to_events es' ++ to_events tr' ++ E2).
  assert (AE : artists evs = im :: es' ++ tr').
  { unfold evs. rewrite !artists_app. rewrite (artists_to [im]) by (intros ? [<-|[]]; reflexivity). rewrite (artists_to es') by apply source_points_is. rewrite (artists_to tr') by apply source_points_is. assert (A1 : artists E1 = []) by reflexivity. assert (A2 : artists E2 = []) by (unfold E2; destruct leg; reflexivity). rewrite A1, A2, app_nil_r. reflexivity. }
  assert (DM : nr m = List.length (axis g iy) /\ nc m = List.length (axis g ix)) by (unfold m, ix, iy; destruct swap; cbn [mtr nd_mat nr nc]; rewrite HA, SH; split; reflexivity). destruct DM as (DM1 & DM2).
  exists evs, (PSt (ps_cur st) (ps_next st) (ps_trace st ++ evs)), (ent m), x0, x1, y0, y1. split; [|split; [reflexivity|split; [rewrite AE; unfold im; rewrite DM1, DM2; reflexivity|split]]].
  - unfold plot_spectrum_2d. rewrite (proj2 (shape_eqb_iff _ _) HA). cbn [negb]. cbv zeta. fold ix. fold iy. fold m. rewrite EX. unfold abind at 1, alift at 1. rewrite RX. cbn [bind]. unfold abind at 1, alift at 1. rewrite RY. cbn [bind]. rewrite <- EX. fold (axis g ix). fold (axis g iy).
    assert (NM : exists nx ny ux uy, nth_res (sg_axis_names g) ix = Ok nx /\ nth_res (sg_axis_names g) iy = Ok ny /\ nth_res (sg_units g) ix = Ok ux /\ nth_res (sg_units g) iy = Ok uy /\ (nx ++ "/" ++ ux)%string = axis_label g ix /\ (ny ++ "/" ++ uy)%string = axis_label g iy)
      by (unfold sg_axis_names, sg_units, axis_label; destruct (sg_class g); [tauto | |]; unfold ix, iy; destruct swap; eexists _, _, _, _; repeat split). destruct NM as (nx & ny & ux & uy & -> & -> & -> & -> & LX & LY).
    rewrite Ex0, Ex1, Ey0, Ey1. unfold abind at 1 2 3 4 5 6 7 8, alift. unfold abind at 1. unfold draws at 1. unfold abind at 1, emit at 1. unfold abind at 1, emit at 1. unfold abind at 1, emit at 1. cbn [ps_cur ps_next ps_trace].
    unfold abind at 1. rewrite sources2_ok; [|unfold ix; destruct swap; lia | unfold iy; destruct swap; lia | exact CG | exact HE]. fold es'. cbn [ps_cur ps_next ps_trace]. unfold abind at 1. rewrite sources2_ok; [|unfold ix; destruct swap; lia | unfold iy; destruct swap; lia | exact CG | exact HT]. fold tr'. cbn [ps_cur ps_next ps_trace].
    unfold abind at 1. fold leg. assert (QL : forall s, (if leg then emit (EDraw ax DLegend) else aret tt) s = (Ok tt, PSt (ps_cur s) (ps_next s) (ps_trace s ++ E2))) by (intros s; unfold E2; destruct leg; cbn; [reflexivity | rewrite app_nil_r; destruct s; reflexivity]). rewrite QL. unfold aret. cbn [ps_cur ps_next ps_trace]. rewrite AE. unfold evs, E1, im. cbn [to_events map fst snd app]. rewrite <- !app_assoc. cbn [app]. rewrite LX, LY. reflexivity.
  - intros r c Hr Hc. exists (if swap then [r; c] else [c; r]). rewrite SH. unfold ix, iy, m in *. destruct swap; cbn [in_shape nth mtr nd_mat ent at_idx ravel prod_list fold_right]; (split; [auto|]); (split; [reflexivity|]); (split; [reflexivity|]); rewrite HA, SH; unfold at_idx; cbn [nth ravel prod_list fold_right]; f_equal; lia.
  - split; [exact Ix0|]. split; [exact Ix1|]. split; [auto|]. split; [exact Iy0|]. split; [exact Iy1|]. split; [auto|]. split; [|split].
    + unfold legend_on, evs. rewrite !in_app_iff. assert (SN : forall o : option sources, is_some o = true <-> o <> None) by (intros [o|]; cbn; split; congruence). split.
      * intros [H|[H|[H|[H|H]]]].
        { exfalso. cbn in H. destruct H as [H|[]]. discriminate H. } { exfalso. cbn in H. repeat (destruct H as [H|H]; [discriminate H|]). exact H. }
        1-2: (exfalso; unfold to_events in H; apply in_map_iff in H as (x & Ex & Hx); injection Ex as _ Ex; apply source_points_is in Hx; rewrite Ex in Hx; discriminate Hx).
        unfold E2 in H. destruct leg eqn:L; [|destruct H]. unfold leg in L. apply orb_true_iff in L. rewrite !SN in L. exact L.
      * intros H. right. right. right. right. assert (L : leg = true) by (unfold leg; apply orb_true_iff; rewrite !SN; exact H). unfold E2. rewrite L. left. reflexivity.
    + unfold evs. rewrite !in_app_iff. right. left. right. left. reflexivity.
    + unfold evs. rewrite !in_app_iff. right. left. right. right. left. reflexivity.
Qed.
(** the arguments plot_spectrum_2d refuses; collections of spectra, which plot_spectrum passes on, among them *)
Theorem C81_rejects : forall sp g ax estimates truth log swap cmap st,
  (forall a, sp = InArray a -> nd_shape a <> sg_shape g -> fst (plot_spectrum_2d sp g ax estimates truth log swap cmap st) = Raise ValueError) /\
  ((forall a, sp <> InArray a) -> fst (plot_spectrum_2d sp g ax estimates truth log swap cmap st) = Raise AttributeError).
Proof.
  intros sp g ax es tr log swap cmap st. split.
  - intros a -> H. cbn [plot_spectrum_2d]. destruct (shape_eqb (nd_shape a) (sg_shape g)) eqn:E; [apply shape_eqb_iff in E; contradiction | reflexivity].
  - intros H. destruct sp; try reflexivity. exfalso. exact (H a eq_refl).
Qed.
Lemma pixel_alg (x0 d N c : R) : (1 <= N)%R -> (0 < d)%R -> (0 <= c)%R -> (c <= N)%R ->
  (x0 + c * ((x0 + N * d - x0) / (N + 1)) <= x0 + c * d <= x0 + (c + 1) * ((x0 + N * d - x0) / (N + 1)))%R /\
  ((x0 + c * ((x0 + N * d - x0) / (N + 1)) + (x0 + (c + 1) * ((x0 + N * d - x0) / (N + 1)))) / 2 - (x0 + c * d) = d / (N + 1) * (N / 2 - c))%R.
Proof.
  intros H1 Hd Hc Hn. assert (E : ((x0 + N * d - x0) / (N + 1) = d - d / (N + 1))%R) by (field; lra). rewrite E. assert (P : (0 < d / (N + 1))%R) by (apply Rdiv_lt_0_compat; lra). assert (Q : (d / (N + 1) * (N + 1) = d)%R) by (field; lra). set (e := (d / (N + 1))%R) in *. split; [split|].
  - nra.
  - nra.
  - nra.
Qed.
(** on an ascending, evenly spaced axis every grid point lies in its own pixel ... *)
Theorem C81_point_in_pixel : forall (l : list R) d x0 x1 c, 2 <= List.length l -> (0 < d)%R -> (forall i, i < List.length l -> nth i l 0%R = (x0 + INR i * d)%R) -> x1 = nth (List.length l - 1) l 0%R -> c < List.length l ->
  (pixel_lo x0 x1 (List.length l) c <= nth c l 0 <= pixel_hi x0 x1 (List.length l) c)%R.
Proof.
  intros l d x0 x1 c HL Hd HE H1 Hc. rewrite H1, (HE c Hc), (HE (List.length l - 1)) by lia. unfold pixel_lo, pixel_hi. rewrite plus_INR. change (INR 1) with 1%R. replace (INR (List.length l)) with (INR (List.length l - 1) + 1)%R by (rewrite <- S_INR; f_equal; lia).
  apply pixel_alg; [change 1%R with (INR 1); apply le_INR; lia | exact Hd | apply pos_INR | apply le_INR; lia].
Qed.
(** ... but is at its centre only in the middle of the axis: markers of estimates at grid points are off by up to half a pixel *)
Theorem C81_off_centre_defect : forall (l : list R) d x0 x1 c, 2 <= List.length l -> (0 < d)%R -> (forall i, i < List.length l -> nth i l 0%R = (x0 + INR i * d)%R) -> x1 = nth (List.length l - 1) l 0%R -> c < List.length l ->
  ((pixel_lo x0 x1 (List.length l) c + pixel_hi x0 x1 (List.length l) c) / 2 = nth c l 0)%R <-> 2 * c = List.length l - 1.
Proof.
  intros l d x0 x1 c HL Hd HE H1 Hc. rewrite H1, (HE c Hc), (HE (List.length l - 1)) by lia. unfold pixel_lo, pixel_hi. rewrite plus_INR. change (INR 1) with 1%R. replace (INR (List.length l)) with (INR (List.length l - 1) + 1)%R by (rewrite <- S_INR; f_equal; lia).
  assert (G1 : (1 <= INR (List.length l - 1))%R) by (change 1%R with (INR 1); apply le_INR; lia). destruct (pixel_alg x0 d (INR (List.length l - 1)) (INR c) G1 Hd (pos_INR _) ltac:(apply le_INR; lia)) as (_ & P). set (lhs := ((_ + _) / 2)%R) in *.
  assert (PE : (0 < d / (INR (List.length l - 1) + 1))%R) by (apply Rdiv_lt_0_compat; lra). split.
  - intros E. rewrite E in P. assert (Z : (INR (List.length l - 1) / 2 - INR c = 0)%R) by (apply Rmult_eq_reg_l with (d / (INR (List.length l - 1) + 1))%R; lra). apply INR_eq. rewrite mult_INR. change (INR 2) with 2%R. lra.
  - intros E. assert (EN : INR (List.length l - 1) = (2 * INR c)%R) by (rewrite <- E, mult_INR; reflexivity). assert (Z : (INR (List.length l - 1) / 2 - INR c = 0)%R) by (rewrite EN; field). rewrite Z in P. clearbody lhs. lra.
Qed.
(** an axis given in descending order is drawn mirrored: the first point of the axis appears in the pixel at the lower end *)
Theorem C81_descending_mirrored_defect : exists l : list R, amin l = Ok 0%R /\ amax l = Ok 2%R /\ nth 0 l 0%R = 2%R /\ (pixel_hi 0 2 (List.length l) 0 < nth 0 l 0)%R.
Proof.
  exists [2; 1; 0]%R. split; [|split; [|split; [reflexivity|]]].
  - unfold amin. cbn [fold_left]. rewrite (Rmin_right 2 1), (Rmin_right 1 0) by lra. reflexivity.
  - unfold amax. cbn [fold_left]. rewrite (Rmax_left 2 1), (Rmax_left 2 0) by lra. reflexivity.
  - unfold pixel_hi. cbn. lra.
Qed.

(** ** C82: plot_spectrum *)
Theorem C82_plot_spectrum : forall sp g estimates truth log kw st,
  let cmap := or_else (k_cmap kw) "jet"%string in let swap := or_else (k_swap kw) false in let discrete := or_else (k_discrete kw) false in
  let run ax st' := if Nat.eqb (sg_ndim g) 1 then plot_spectrum_1d sp g ax estimates truth log discrete st' else plot_spectrum_2d sp g ax estimates truth log swap cmap st' in
  (sg_ndim g = 1 /\ k_swap kw = None /\ k_cmap kw = None) \/ (sg_ndim g = 2 /\ k_discrete kw = None) ->
  (forall ax, plot_spectrum sp g (Some ax) estimates truth log kw st = match run ax st with (Ok r, st') => (Ok (ax, r), st') | (Raise e, st') => (Raise e, st') end) /\
  (let ax := ps_next st in let st0 := PSt (Some ax) (S ax) (ps_trace st ++ [ENewAxes ax false]) in
   plot_spectrum sp g None estimates truth log kw st = match run ax st0 with (Ok r, st') => (Ok (ax, r), PSt (ps_cur st') (ps_next st') (ps_trace st' ++ [EShow])) | (Raise e, st') => (Raise e, st') end).
Proof.
  intros sp g es tr log kw st cmap swap discrete run H. unfold plot_spectrum, run. destruct H as [(N & K1 & K2)|(N & K1)].
  - rewrite N, K1, K2. cbn [Nat.eqb is_some orb]. fold discrete. split; [intros ax; unfold abind, aret|unfold abind, new_axes, emit, aret; cbv zeta]; destruct (plot_spectrum_1d _ _ _ _ _ _ _ _) as ([r|e], st'); reflexivity.
  - rewrite N, K1. cbn [Nat.eqb is_some orb]. fold swap. fold cmap. split; [intros ax; unfold abind, aret|unfold abind, new_axes, emit, aret; cbv zeta]; destruct (plot_spectrum_2d _ _ _ _ _ _ _ _ _) as ([r|e], st'); reflexivity.
Qed.
(** grids of other dimensions and keyword arguments of the other kind of plot are rejected *)
Theorem C82_plot_spectrum_rejects : forall sp g ax estimates truth log kw st,
  (sg_ndim g <> 1 -> sg_ndim g <> 2 -> fst (plot_spectrum sp g ax estimates truth log kw st) = Raise NotImplementedError) /\
  (sg_ndim g = 1 -> k_swap kw <> None \/ k_cmap kw <> None -> fst (plot_spectrum sp g ax estimates truth log kw st) = Raise TypeError) /\
  (sg_ndim g = 2 -> k_discrete kw <> None -> fst (plot_spectrum sp g ax estimates truth log kw st) = Raise TypeError).
Proof.
  intros sp g ax es tr log kw st. unfold plot_spectrum. split; [|split].
  - intros H1 H2. apply Nat.eqb_neq in H1, H2. rewrite H1, H2. destruct ax; reflexivity.
  - intros -> H. cbn [Nat.eqb]. assert (E : is_some (k_swap kw) || is_some (k_cmap kw) = true) by (destruct (k_swap kw), (k_cmap kw); cbn; tauto). rewrite E. destruct ax; reflexivity.
  - intros -> H. cbn [Nat.eqb]. assert (E : is_some (k_discrete kw) = true) by (destruct (k_discrete kw); cbn; tauto). rewrite E. destruct ax; reflexivity.
Qed.

(** ** C82: arrays *)
(** the plotted coordinates of the points with the given locations: 1-D locations are drawn on the horizontal axis *)
Definition coordinates (x : rmat) (cols : list (list R)) : Prop :=
  List.length cols = Nat.max 2 (nc x) /\ (forall j, j < List.length cols -> List.length (nth j cols []) = nr x) /\
  forall i j, i < nr x -> j < List.length cols -> nth i (nth j cols []) 0%R = (if Nat.ltb j (nc x) then ent x i j else 0%R).
Lemma colR_nth (x : rmat) i j : i < nr x -> nth i (colR x j) 0%R = ent x i j.
Proof. intros H. unfold colR. rewrite (nth_map_seq (fun i => ent x i j)) by exact H. reflexivity. Qed.
Lemma zeros_nth n i : nth i (map (fun _ => 0%R) (seq 0 n)) 0%R = 0%R.
Proof. destruct (Nat.lt_ge_cases i n); [rewrite (nth_map_seq (fun _ => 0%R)) by assumption; reflexivity | apply nth_overflow; rewrite map_length, seq_length; assumption]. Qed.
Lemma auto_scatter_ok ax x marker lab st : 1 <= nc x <= 3 -> exists cols, coordinates x cols /\ auto_scatter ax x marker lab st = (Ok tt, PSt (ps_cur st) (ps_next st) (ps_trace st ++ [EDraw ax (DScatter cols marker lab)])).
Proof.
  intros H. unfold auto_scatter. destruct (nc x) as [|[|[|[|]]]] eqn:E; try lia; eexists; (split; [|reflexivity]); unfold coordinates; rewrite E; (split; [reflexivity|]); (split; [intros [|[|[|j]]] Hj; cbn in Hj; try lia; cbn [nth]; unfold colR; rewrite ?map_length, ?seq_length; reflexivity|]);
    intros i [|[|[|j]]] Hi Hj; cbn [List.length] in Hj; try lia; cbn [nth Nat.ltb Nat.leb]; rewrite ?colR_nth, ?zeros_nth by exact Hi; reflexivity.
Qed.
Lemma no_string_key a s : has_perturbation_key a (KStr s) = false.
Proof. unfold has_perturbation_key, dmem. assert (Q : dget pkey_eqb (map (fun kv : pclass * pert => (KClass (fst kv), snd kv)) (ar_perts a)) (KStr s) = None) by (induction (ar_perts a) as [|kv l IH]; cbn; [reflexivity | exact IH]). rewrite Q. reflexivity. Qed.
Lemma plot_impl_spec : forall lims a ax coarray show st loc, 1 <= nc loc <= 3 ->
  (if coarray : bool then compute_unique_location_differences (la_m (ar_loc a)) 0 (1 / 100000000) = Ok loc else loc = la_m (ar_loc a)) ->
  exists cols evs st', let axn := match ax with Some n => n | None => ps_next st end in
    plot_array_impl lims a ax coarray show st = (Ok axn, st') /\ ps_trace st' = ps_trace st ++ evs /\ coordinates loc cols /\
    artists evs = [(axn, DScatter cols "o" "Nominal locations")] /\
    (In EWarn evs <-> show = true) /\ (ax = None <-> In (ENewAxes axn (Nat.eqb (ar_ndim a) 3)) evs) /\ (ax = None <-> In EShow evs) /\
    (In (EDraw axn DAspectEqual) evs <-> ar_ndim a < 3) /\
    exists s, In (EDraw axn (DScatter cols "o" "Nominal locations")) (ps_trace s) /\ forall l, In (EDraw axn (DLimits l)) evs <-> 3 <= ar_ndim a /\ fix_3d_limits (lims s axn) = Some l.
Proof.
  intros lims a ax coarray show st loc HD HLoc.
  assert (EL : (if coarray then compute_unique_location_differences (la_m (ar_loc a)) 0 (1 / 100000000) else Ok (la_m (ar_loc a))) = Ok loc) by (destruct coarray; [exact HLoc | rewrite HLoc; reflexivity]).
  unfold plot_array_impl. rewrite no_string_key. cbn [negb andb]. set (E0 := if show then [EWarn] else [] : list event).
  assert (Q0 : (if show then abind (emit EWarn) (fun _ => aret false) else aret show) st = (Ok false, PSt (ps_cur st) (ps_next st) (ps_trace st ++ E0))) by (unfold E0; destruct show; cbn; [reflexivity | rewrite app_nil_r; destruct st; reflexivity]).
  unfold abind at 1. rewrite Q0. unfold abind at 1, aret at 1. set (E1 := match ax with None => [ENewAxes (ps_next st) (Nat.eqb (ar_ndim a) 3)] | Some _ => [] end). set (axn := match ax with Some n => n | None => ps_next st end).
  assert (Q1 : exists cur nx, (match ax with None => new_axes (Nat.eqb (ar_ndim a) 3) | Some n => aret n end) (PSt (ps_cur st) (ps_next st) (ps_trace st ++ E0)) = (Ok axn, PSt cur nx ((ps_trace st ++ E0) ++ E1))) by (unfold E1, axn; destruct ax; cbn; [eexists _, _; rewrite app_nil_r; reflexivity | eexists _, _; reflexivity]). destruct Q1 as (cur & nx & Q1).
  unfold abind at 1. rewrite Q1. unfold abind at 1, alift at 1. rewrite EL. unfold abind at 1. destruct (auto_scatter_ok axn loc "o" "Nominal locations" (PSt cur nx ((ps_trace st ++ E0) ++ E1)) HD) as (cols & CC & ES). rewrite ES. cbn [ps_cur ps_next ps_trace]. unfold abind at 1, aret at 1. unfold abind at 1, emit at 1. unfold abind at 1, emit at 1. cbn [ps_cur ps_next ps_trace].
  set (t := (((_ ++ _) ++ _) ++ _) : list event). unfold abind at 1.
  assert (INT : forall e, In (EDraw axn (DScatter cols "o" "Nominal locations")) (t ++ [e])) by (intros e; unfold t; rewrite !in_app_iff; cbn [In]; tauto).
  assert (Q2 : exists E2, (forall e, In e E2 -> match e with EDraw _ d => is_artist d = false | _ => False end) /\
    ((In (EDraw axn DAspectEqual) E2 <-> ar_ndim a < 3) /\ exists s, In (EDraw axn (DScatter cols "o" "Nominal locations")) (ps_trace s) /\ forall l, In (EDraw axn (DLimits l)) E2 <-> 3 <= ar_ndim a /\ fix_3d_limits (lims s axn) = Some l) /\
    (if Nat.ltb (ar_ndim a) 3 then abind (emit (EDraw axn DAspectEqual)) (fun _ => abind (emit (EDraw axn DGridOn)) (fun _ => emit (EDraw axn DAxisBelow)))
      else abind (emit (EDraw axn (DZLabel "z"))) (fun _ st => match fix_3d_limits (lims st axn) with None => (Ok tt, st) | Some l => emit (EDraw axn (DLimits l)) st end)) (PSt cur nx t) = (Ok tt, PSt cur nx (t ++ E2))).
  { destruct (Nat.ltb_spec (ar_ndim a) 3) as [LT|GE].
    - exists [EDraw axn DAspectEqual; EDraw axn DGridOn; EDraw axn DAxisBelow]. split; [intros e [<-|[<-|[<-|[]]]]; reflexivity|]. split; [|unfold abind, emit; cbn [ps_cur ps_next ps_trace]; rewrite <- !app_assoc; reflexivity].
      split; [cbn; tauto|]. exists (PSt cur nx (t ++ [EShow])). split; [apply INT|]. intros l. split; [intros H; exfalso; cbn in H; repeat (destruct H as [H|H]; [discriminate H|]); exact H | intros (H & _); lia].
    - unfold abind, emit. cbn [ps_cur ps_next ps_trace]. set (s1 := PSt cur nx (t ++ [EDraw axn (DZLabel "z")])). destruct (fix_3d_limits (lims s1 axn)) as [l|] eqn:EF; [exists [EDraw axn (DZLabel "z"); EDraw axn (DLimits l)] | exists [EDraw axn (DZLabel "z")]];
        (split; [intros e He; cbn in He; repeat (destruct He as [<-|He]; [reflexivity|]); destruct He|]); (split; [split; [split; [intros H; exfalso; cbn in H; repeat (destruct H as [H|H]; [discriminate H|]); exact H | lia]|exists s1; split; [apply INT|]; rewrite EF; intros l'; cbn; split]|unfold s1; cbn [ps_cur ps_next ps_trace]; rewrite <- ?app_assoc; reflexivity]).
      + intros [H|[H|[]]]; [discriminate H|]. injection H as ->. auto.
      + intros (_ & H). injection H as ->. auto.
      + intros [H|[]]. discriminate H.
      + intros (_ & H). discriminate H. }
  destruct Q2 as (E2 & N2 & (AEQ & s0 & IS0 & LIM) & Q2). rewrite Q2. unfold abind at 1, emit at 1. cbn [ps_cur ps_next ps_trace]. unfold abind at 1.
  set (E3 := match ax with None => [EShow] | Some _ => [] end). assert (Q3 : forall tr, (match ax with None => emit EShow | Some _ => aret tt end) (PSt cur nx tr) = (Ok tt, PSt cur nx (tr ++ E3))) by (intros tr; unfold E3; destruct ax; cbn; [rewrite app_nil_r|]; reflexivity). rewrite Q3. unfold aret.
  exists cols, (E0 ++ E1 ++ [EDraw axn (DScatter cols "o" "Nominal locations"); EDraw axn (DXLabel "x"); EDraw axn (DYLabel "y")] ++ E2 ++ [EDraw axn DLegend] ++ E3). eexists. split; [reflexivity|]. split; [unfold t; cbn [ps_trace]; rewrite <- !app_assoc; reflexivity|]. split; [exact CC|].
  assert (A2 : artists E2 = []). { clear -N2. induction E2 as [|e l IH]; [reflexivity|]. unfold artists in *. cbn [flat_map]. pose proof (N2 e (or_introl eq_refl)) as Q. destruct e; try tauto. rewrite Q. cbn [app]. apply IH. intros e' H. apply N2. right. exact H. }
  assert (NW : forall e, match e with EDraw _ _ => False | _ => True end -> In e (E0 ++ E1 ++ [EDraw axn (DScatter cols "o" "Nominal locations"); EDraw axn (DXLabel "x"); EDraw axn (DYLabel "y")] ++ E2 ++ [EDraw axn DLegend] ++ E3) <-> In e E0 \/ In e E1 \/ In e E3).
  { intros e He. rewrite !in_app_iff. split; [|tauto]. intros [H|[H|[H|[H|[H|H]]]]]; auto; exfalso; [cbn in H; repeat (destruct H as [H|H]; [subst e; exact He|]); exact H | apply N2 in H; destruct e; tauto | cbn in H; destruct H as [H|[]]; subst e; exact He]. }
  assert (NE : forall d, is_artist d = false -> d <> DXLabel "x" -> d <> DYLabel "y" -> d <> DLegend -> In (EDraw axn d) (E0 ++ E1 ++ [EDraw axn (DScatter cols "o" "Nominal locations"); EDraw axn (DXLabel "x"); EDraw axn (DYLabel "y")] ++ E2 ++ [EDraw axn DLegend] ++ E3) <-> In (EDraw axn d) E2).
  { intros d HA H1 H2 H3. rewrite !in_app_iff. split; [|tauto]. intros [H|[H|[H|[H|[H|H]]]]]; auto; exfalso; [unfold E0 in H; destruct show; cbn in H; intuition discriminate | unfold E1 in H; destruct ax; cbn in H; intuition discriminate | cbn in H; destruct H as [H|[H|[H|[]]]]; [injection H as <-; discriminate HA | injection H as <-; tauto | injection H as <-; tauto] | cbn in H; destruct H as [H|[]]; injection H as <-; tauto | unfold E3 in H; destruct ax; cbn in H; intuition discriminate]. }
  split; [|split; [|split; [|split; [|split]]]].
  5: (rewrite NE by (reflexivity || discriminate); exact AEQ).
  5: (exists s0; split; [exact IS0|]; intros l; rewrite NE by (reflexivity || discriminate); apply LIM).
  - rewrite !artists_app, A2. assert (A0 : artists E0 = []) by (unfold E0; destruct show; reflexivity). assert (A1 : artists E1 = []) by (unfold E1; destruct ax; reflexivity). assert (A3 : artists E3 = []) by (unfold E3; destruct ax; reflexivity). rewrite A0, A1, A3. reflexivity.
  - rewrite NW by exact I. unfold E0, E1, E3. destruct show, ax; cbn; split; intros H; try reflexivity; try discriminate; try tauto; repeat destruct H as [H|H]; try discriminate; tauto.
  - rewrite NW by exact I. unfold E0, E1, E3, axn. destruct show, ax; cbn; split; intros H; try reflexivity; try discriminate; try tauto; repeat destruct H as [H|H]; try discriminate; tauto.
  - rewrite NW by exact I. unfold E0, E1, E3. destruct show, ax; cbn; split; intros H; try reflexivity; try discriminate; try tauto; repeat destruct H as [H|H]; try discriminate; tauto.
Qed.
(** what is drawn: one scatter plot of the nominal locations (of their distinct differences for plot_coarray), whatever show_location_errors says *)
Theorem C82_plot_array : forall lims a ax show st, let loc := la_m (ar_loc a) in 1 <= nc loc <= 3 ->
  exists cols evs st', let axn := match ax with Some n => n | None => ps_next st end in
    plot_array lims a ax show st = (Ok axn, st') /\ ps_trace st' = ps_trace st ++ evs /\ coordinates loc cols /\
    artists evs = [(axn, DScatter cols "o" "Nominal locations")] /\
    (In EWarn evs <-> show = true) /\ (ax = None <-> In (ENewAxes axn (Nat.eqb (ar_ndim a) 3)) evs) /\ (ax = None <-> In EShow evs) /\
    (In (EDraw axn DAspectEqual) evs <-> ar_ndim a < 3) /\
    exists s, In (EDraw axn (DScatter cols "o" "Nominal locations")) (ps_trace s) /\ forall l, In (EDraw axn (DLimits l)) evs <-> 3 <= ar_ndim a /\ fix_3d_limits (lims s axn) = Some l.
Proof. intros lims a ax show st loc H. exact (plot_impl_spec lims a ax false show st loc H eq_refl). Qed.
Lemma max_abs_exists (x : rmat) : 0 < nr x -> 0 < nc x -> exists M, is_max_abs x M.
Proof.
  intros H1 H2. set (l := flat_map (fun i => map (fun j => (i, j)) (seq 0 (nc x))) (seq 0 (nr x))). set (f := fun p : nat * nat => Rabs (ent x (fst p) (snd p))).
  assert (G : forall l : list (nat * nat), l <> [] -> exists p, In p l /\ forall q, In q l -> (f q <= f p)%R).
  { clear. induction l as [|p l IH]; intros H; [congruence|]. destruct l as [|q l]; [exists p; split; [now left|]; intros q [<-|[]]; lra|].
    destruct IH as (r & Hr & HM); [discriminate|]. destruct (Rle_dec (f p) (f r)) as [L|L]; [exists r; split; [now right|]; intros z [<-|Hz]; auto|].
    exists p. split; [now left|]. intros z [<-|Hz]; [lra|]. specialize (HM z Hz). lra. }
  assert (IN : forall i j, In (i, j) l <-> i < nr x /\ j < nc x).
  { intros i j. unfold l. rewrite in_flat_map. split; [intros (i' & Hi & Hj); apply in_map_iff in Hj as (j' & E & Hj); injection E as -> ->; apply in_seq in Hi, Hj; lia|].
    intros (Hi & Hj). exists i. split; [apply in_seq; lia|]. apply in_map_iff. exists j. split; [reflexivity | apply in_seq; lia]. }
  destruct (G l) as ((i, j) & Hp & HM); [intros E; assert (N : In (0, 0) l) by (apply IN; auto); rewrite E in N; exact N|]. exists (f (i, j)). apply IN in Hp as (Hi & Hj). split.
  - intros i' j' Hi' Hj'. exact (HM (i', j') (proj2 (IN i' j') (conj Hi' Hj'))).
  - exists i, j. auto.
Qed.
(** plot_coarray: the points drawn are the differences of the nominal locations, one for every class of differences that agree within 1e-8 of the largest coordinate *)
Theorem C82_plot_coarray : forall lims a ax show st, let loc := la_m (ar_loc a) in let m := nr loc in 1 <= nc loc <= 3 -> 1 <= m ->
  exists (D y : rmat) M idx, nr D = m * m /\ nc D = nc loc /\ (forall i j c, i < m -> j < m -> c < nc loc -> ent D (j * m + i) c = (ent loc i c - ent loc j c)%R) /\
  is_max_abs D M /\ rows_of D y idx /\ separated_cover D (1 / 100000000 * M) idx /\
  exists cols evs st', let axn := match ax with Some n => n | None => ps_next st end in
    plot_coarray lims a ax show st = (Ok axn, st') /\ ps_trace st' = ps_trace st ++ evs /\ coordinates y cols /\
    artists evs = [(axn, DScatter cols "o" "Nominal locations")] /\
    (In EWarn evs <-> show = true) /\ (ax = None <-> In (ENewAxes axn (Nat.eqb (ar_ndim a) 3)) evs) /\ (ax = None <-> In EShow evs) /\
    (In (EDraw axn DAspectEqual) evs <-> ar_ndim a < 3) /\
    exists s, In (EDraw axn (DScatter cols "o" "Nominal locations")) (ps_trace s) /\ forall l, In (EDraw axn (DLimits l)) evs <-> 3 <= ar_ndim a /\ fix_3d_limits (lims s axn) = Some l.
Proof.
  intros lims a ax show st loc m H Hm. set (D := compute_location_differences Rminus loc).
  destruct (max_abs_exists D) as (M & HM); [cbn; fold m; nia | cbn; lia|].
  destruct (unique_rows_unsorted D 0 (1 / 100000000) M) as (y & idx & E & RO & SC); [cbn; fold m; nia | exact HM|].
  exists D, y, M, idx. split; [reflexivity|]. split; [reflexivity|]. split.
  { intros i j c Hi Hj Hc. unfold D, compute_location_differences. cbn [ent]. fold m. rewrite Nat.div_add_l, Nat.div_small, Nat.add_0_r by lia. rewrite Nat.add_comm, Nat.mod_add, Nat.mod_small by lia. reflexivity. }
  split; [exact HM|]. split; [exact RO|]. split; [replace (1 / 100000000 * M)%R with (0 + 1 / 100000000 * M)%R by ring; exact SC|].
  apply (plot_impl_spec lims a ax true show st y); [rewrite (proj1 (proj2 RO)); exact H|].
  unfold compute_unique_location_differences. fold loc D. rewrite (unique_rows_noindex D _ _ false y _ E). reflexivity.
Qed.
Lemma impl_no_errors : forall lims a ax coarray st r st' evs, plot_array_impl lims a ax coarray true st = (r, st') -> ps_trace st' = ps_trace st ++ evs ->
  In EWarn evs /\ forall axn cols m, ~ In (EDraw axn (DScatter cols m "Actual locations")) evs.
Proof.
  assert (AS : forall ax x s, exists l, snd (auto_scatter ax x "o" "Nominal locations" s) = PSt (ps_cur s) (ps_next s) (ps_trace s ++ l) /\ forall axn cols m, ~ In (EDraw axn (DScatter cols m "Actual locations")) l).
  { intros ax x s. unfold auto_scatter. destruct (nc x) as [|[|[|[|]]]]; cbn [snd emit araise]; eexists; (split; [|]); try reflexivity; try (unfold araise; cbn [snd]; rewrite app_nil_r; destruct s; reflexivity); try (intros axn cols m []; try discriminate; tauto). }
  intros lims a ax coarray st r st' evs H HT. unfold plot_array_impl in H. rewrite no_string_key in H. cbn [negb andb] in H. unfold abind at 1 in H. unfold abind at 1, emit at 1, aret at 1 in H. unfold abind at 1, aret at 1 in H. unfold abind at 1 in H.
  set (P := fun s : pst => exists l, ps_trace s = ps_trace st ++ EWarn :: l /\ forall axn cols m, ~ In (EDraw axn (DScatter cols m "Actual locations")) l).
  assert (KEEP : forall e s, match e with EDraw _ (DScatter _ _ lab) => lab <> "Actual locations"%string | _ => True end -> P s -> P (snd (emit e s))).
  { intros e s He (l & E & N). exists (l ++ [e]). cbn [emit snd ps_trace]. rewrite E, <- app_assoc. split; [reflexivity|]. intros axn cols m Hin. apply in_app_iff in Hin as [Hin|[Hin|[]]]; [exact (N _ _ _ Hin)|]. subst e. congruence. }
  assert (FIN : P st' -> In EWarn evs /\ forall axn cols m, ~ In (EDraw axn (DScatter cols m "Actual locations")) evs).
  { intros (l & E & N). rewrite HT in E. apply app_inv_head in E. subst evs. split; [left; reflexivity|]. intros axn cols m [Hin|Hin]; [discriminate Hin | exact (N _ _ _ Hin)]. }
  apply FIN. assert (P0 : P (PSt (ps_cur st) (ps_next st) (ps_trace st ++ [EWarn]))) by (exists []; split; [reflexivity | intros ? ? ? []]). revert H P0. generalize (PSt (ps_cur st) (ps_next st) (ps_trace st ++ [EWarn])). intros s H Ps.
  assert (Q1 : exists axn s1, (match ax with None => new_axes (Nat.eqb (ar_ndim a) 3) | Some n => aret n end) s = (Ok axn, s1) /\ P s1).
  { destruct ax; [eexists _, _; split; [reflexivity | exact Ps]|]. eexists _, _. split; [reflexivity|]. destruct Ps as (l & E & N). exists (l ++ [ENewAxes (ps_next s) (Nat.eqb (ar_ndim a) 3)]). cbn [ps_trace]. rewrite E, <- app_assoc. split; [reflexivity|]. intros axn cols m Hin. apply in_app_iff in Hin as [Hin|[Hin|[]]]; [exact (N _ _ _ Hin) | discriminate Hin]. }
  destruct Q1 as (axn & s1 & E1 & P1). rewrite E1 in H. unfold abind at 1, alift at 1 in H. destruct (if coarray then _ else _) as [loc|]; [|injection H as <- <-; exact P1].
  unfold abind at 1 in H. destruct (AS axn loc s1) as (l1 & ES & NS). destruct (auto_scatter axn loc "o" "Nominal locations" s1) as (r1, s2). cbn [snd] in ES. subst s2.
  assert (P2 : P (PSt (ps_cur s1) (ps_next s1) (ps_trace s1 ++ l1))) by (destruct P1 as (l & E & N); exists (l ++ l1); cbn [ps_trace]; rewrite E, <- app_assoc; split; [reflexivity|]; intros ax' cols m Hin; apply in_app_iff in Hin as [Hin|Hin]; [exact (N _ _ _ Hin) | exact (NS _ _ _ Hin)]).
  destruct r1 as [[]|]; [|injection H as <- <-; exact P2]. revert H P2. generalize (PSt (ps_cur s1) (ps_next s1) (ps_trace s1 ++ l1)). intros s2 H P2.
  unfold abind at 1, aret at 1 in H. unfold abind at 1 in H. pose proof (KEEP (EDraw axn (DXLabel "x")) s2 I P2) as P3. destruct (emit _ s2) as (r3, s3) eqn:E3. cbn [snd] in P3. injection E3 as <- _. clear P2 s2.
  unfold abind at 1 in H. pose proof (KEEP (EDraw axn (DYLabel "y")) s3 I P3) as P4. destruct (emit _ s3) as (r4, s4) eqn:E4. cbn [snd] in P4. injection E4 as <- _. clear P3 s3.
  unfold abind at 1 in H.
  assert (Q5 : exists s5, (if Nat.ltb (ar_ndim a) 3 then abind (emit (EDraw axn DAspectEqual)) (fun _ => abind (emit (EDraw axn DGridOn)) (fun _ => emit (EDraw axn DAxisBelow)))
      else abind (emit (EDraw axn (DZLabel "z"))) (fun _ st => match fix_3d_limits (lims st axn) with None => (Ok tt, st) | Some l => emit (EDraw axn (DLimits l)) st end)) s4 = (Ok tt, s5) /\ P s5).
  { destruct (Nat.ltb (ar_ndim a) 3).
    - eexists. split; [reflexivity|]. apply (KEEP (EDraw axn DAxisBelow) _ I). apply (KEEP (EDraw axn DGridOn) _ I). apply (KEEP (EDraw axn DAspectEqual) _ I). exact P4.
    - unfold abind. cbn [emit]. pose proof (KEEP (EDraw axn (DZLabel "z")) s4 I P4) as P5. cbn [emit snd] in P5. destruct (fix_3d_limits _) as [l|]; eexists; (split; [reflexivity|]); [|exact P5]. apply (KEEP (EDraw axn (DLimits l)) _ I). exact P5. }
  destruct Q5 as (s5 & E5 & P5). rewrite E5 in H. unfold abind at 1 in H. pose proof (KEEP (EDraw axn DLegend) s5 I P5) as P6. destruct (emit _ s5) as (r6, s6) eqn:E6. cbn [snd] in P6. injection E6 as <- _. clear P5 E5 s5. unfold abind at 1 in H.
  destruct ax; cbn [aret emit] in H; injection H as _ <-; [exact P6|]. exact (KEEP EShow s6 I P6).
Qed.
(** hence location errors are never shown, even when the array has them and they are asked for *)
Theorem C82_location_errors_never_shown_defect : forall lims a ax st r st' evs,
  plot_array lims a ax true st = (r, st') \/ plot_coarray lims a ax true st = (r, st') -> ps_trace st' = ps_trace st ++ evs ->
  In EWarn evs /\ forall axn cols m, ~ In (EDraw axn (DScatter cols m "Actual locations")) evs.
Proof. intros lims a ax st r st' evs [H|H]; [exact (impl_no_errors lims a ax false st r st' evs H) | exact (impl_no_errors lims a ax true st r st' evs H)]. Qed.
(** arrays with no or more than three dimensions cannot be drawn *)
Theorem C82_dimensions : forall lims a ax show st, ~ (1 <= ar_ndim a <= 3) -> fst (plot_array lims a ax show st) = Raise ValueError /\
  (1 <= nr (la_m (ar_loc a)) -> fst (plot_coarray lims a ax show st) = Raise ValueError).
Proof.
  intros lims a ax show st H.
  assert (I : forall coarray r, (if coarray : bool then compute_unique_location_differences (la_m (ar_loc a)) 0 (1 / 100000000) else Ok (la_m (ar_loc a))) = r ->
    match r with Ok y => ~ (1 <= nc y <= 3) | Raise e => e = ValueError end -> fst (plot_array_impl lims a ax coarray show st) = Raise ValueError).
  { intros coarray r Er Hr. unfold plot_array_impl. rewrite no_string_key. cbn [negb andb]. unfold abind at 1.
    assert (Q0 : exists s, (if show then abind (emit EWarn) (fun _ => aret false) else aret show) st = (Ok false, s)) by (destruct show; cbn; eexists; reflexivity). destruct Q0 as (s & ->). unfold abind at 1, aret at 1.
    unfold abind at 1. assert (Q1 : exists n s', (match ax with None => new_axes (Nat.eqb (ar_ndim a) 3) | Some n => aret n end) s = (Ok n, s')) by (destruct ax; eexists _, _; reflexivity). destruct Q1 as (n & s' & ->). unfold abind at 1, alift at 1.
    rewrite Er. destruct r as [y|e]; [|rewrite Hr; reflexivity]. unfold abind at 1. unfold auto_scatter. destruct (nc y) as [|[|[|[|k]]]]; try lia; reflexivity. }
  split; [exact (I false _ eq_refl H)|]. intros Hm. unfold plot_coarray. set (D := compute_location_differences Rminus (la_m (ar_loc a))).
  destruct (Nat.eq_dec (nc (la_m (ar_loc a))) 0) as [Z|Z].
  - apply (I true _ eq_refl). unfold compute_unique_location_differences, unique_rows. cbn [compute_location_differences nr nc]. destruct (Nat.eqb_spec (nr (la_m (ar_loc a)) * nr (la_m (ar_loc a))) 0); [nia|]. rewrite Z. reflexivity.
  - destruct (max_abs_exists D) as (M & HM); [cbn; nia | cbn; lia|].
    destruct (unique_rows_unsorted D 0 (1 / 100000000) M) as (y & idx & E & RO & SC); [cbn; nia | exact HM|].
    apply (I true (Ok y)); [unfold compute_unique_location_differences; fold D; rewrite (unique_rows_noindex D _ _ false y _ E); reflexivity|].
    rewrite (proj1 (proj2 RO)). exact H.
Qed.

(** _fix_3d_aspect: nothing is done exactly if all ranges are zero; otherwise the three ranges become equal *)
Theorem C82_equal_ranges : forall l1 l2 l3 : R * R, let ls := [l1; l2; l3] in (forall l, In l ls -> (fst l <= snd l)%R) ->
  (fix_3d_limits ls = None <-> forall l, In l ls -> fst l = snd l) /\
  forall out, fix_3d_limits ls = Some out -> exists M, (0 < M)%R /\ (forall l, In l ls -> (snd l - fst l <= M)%R) /\ (exists l, In l ls /\ (snd l - fst l = M)%R) /\
    List.length out = 3 /\ forall l, In l out -> (snd l - fst l = M)%R.
Proof.
  intros l1 l2 l3 ls HO.
  assert (AB : forall l, In l ls -> Rabs (snd l - fst l) = (snd l - fst l)%R) by (intros l Hl; apply Rabs_pos_eq; specialize (HO l Hl); lra).
  unfold fix_3d_limits. set (rs := map _ ls). assert (Ers : rs = map (fun l => snd l - fst l)%R ls) by (unfold rs; apply map_ext_in; exact AB). rewrite Ers. cbn [ls map].
  destruct (fold_max_spec [(snd l2 - fst l2)%R; (snd l3 - fst l3)%R] (snd l1 - fst l1)%R) as (I & M). set (mx := fold_left Rmax _ _) in *.
  assert (BD : forall l, In l ls -> (snd l - fst l <= mx)%R) by (intros l [<-|[<-|[<-|[]]]]; apply M; cbn; auto).
  assert (NN : (0 <= mx)%R) by (specialize (BD l1 (or_introl eq_refl)); specialize (HO l1 (or_introl eq_refl)); lra).
  assert (AT : exists l, In l ls /\ (snd l - fst l = mx)%R) by (cbn in I; destruct I as [I|[I|[I|[]]]]; [exists l1 | exists l2 | exists l3]; split; cbn; auto).
  destruct (Req_EM_T mx 0) as [Z|NZ].
  - split; [|discriminate]. split; [|reflexivity]. intros _ l Hl. specialize (BD l Hl). specialize (HO l Hl). lra.
  - split; [split; [discriminate|]; intros H; exfalso; destruct AT as (l & Hl & El); specialize (H l Hl); lra|]. intros out [= <-]. exists mx. split; [lra|]. split; [exact BD|]. split; [exact AT|]. split; [reflexivity|].
    intros l Hl. change (In l (map (fun l => if Req_EM_T (Rabs (snd l - fst l)) 0 then (- mx / 2, mx / 2)%R else (fst l * mx / Rabs (snd l - fst l), snd l * mx / Rabs (snd l - fst l))%R) ls)) in Hl. apply in_map_iff in Hl as (l0 & <- & Hl0). rewrite (AB l0 Hl0). destruct (Req_EM_T (snd l0 - fst l0) 0); cbn [fst snd]; field; lra.
Qed.
(** ... but they are scaled about the origin instead of their centre and can leave the data outside *)
Theorem C82_limits_leave_data_defect : exists out, fix_3d_limits [(0, 10); (10, 11); (0, 1)]%R = Some out /\ (snd (nth 1 [(0, 10); (10, 11); (0, 1)] (0, 0)) < fst (nth 1 out (0, 0)))%R.
Proof.
  unfold fix_3d_limits. cbn [map fst snd]. rewrite !Rabs_pos_eq by lra. cbn [fold_left]. rewrite (Rmax_left (10 - 0) (11 - 10)), (Rmax_left (10 - 0) (1 - 0)) by lra. destruct (Req_EM_T (10 - 0) 0); [lra|]. eexists. split; [reflexivity|]. cbn [nth map]. destruct (Req_EM_T (11 - 10) 0); [lra|]. cbn [fst snd]. lra.
Qed.

(** sources whose units are not those of the grid are refused *)
Theorem C81_unit_check : forall a g ax p other log swap cmap st,
  plain_grid g -> sg_class g <> G1D -> 0 < sg_size g -> nd_shape a = sg_shape g -> src_units p <> grid_units g ->
  fst (plot_spectrum_2d (InArray a) g ax (Some p) other log swap cmap st) = Raise ValueError /\
  fst (plot_spectrum_2d (InArray a) g ax other (Some p) log swap cmap st) = Raise ValueError.
Proof.
  intros a g ax p other log swap cmap st PG CG HS HA HP.
  assert (U : sg_units g = grid_units g) by (unfold sg_units, grid_units; destruct (sg_class g); tauto).
  assert (UF : units_eqb (src_units p) (sg_units g) = false) by (destruct (units_eqb _ _) eqn:E; [apply units_eqb_iff in E; congruence | reflexivity]).
  (* without sources the plot succeeds, so everything before the sources does *)
  destruct (C81_plot_2d a g ax None None log swap cmap st PG CG HS HA) as (evs & st' & img & x0 & x1 & y0 & y1 & E & _); [discriminate | discriminate|].
  unfold plot_spectrum_2d in *. rewrite (proj2 (shape_eqb_iff _ _) HA) in *. cbn [negb] in *. cbv zeta in *.
  set (ix := if swap then 1 else 0) in *. set (iy := if swap then 0 else 1) in *.
  unfold abind, alift in *.
  repeat match type of E with context [match ?r with Ok _ => _ | Raise _ => _ end] => destruct r eqn:?; [|discriminate E] end.
  cbn [draws emit draw_sources2] in *. rewrite UF. cbn [negb]. split; [reflexivity|].
  destruct other as [o|]; cbn [aret]; [|reflexivity]. cbn [draw_sources2]. destruct (units_eqb (src_units o) (sg_units g)); reflexivity.
Qed.
(** collections of spectra reach plot_spectrum_2d through plot_spectrum: attribute error; and so it is for every grid of two dimensions *)
Corollary C82_collections_on_2d_defect : forall l g ax estimates truth log kw st, sg_ndim g = 2 -> k_discrete kw = None ->
  fst (plot_spectrum (InList l) g ax estimates truth log kw st) = Raise AttributeError.
Proof. intros l g ax es tr log kw st H K. unfold plot_spectrum. rewrite H, K. destruct ax; reflexivity. Qed.

(** ** examples *)
Definition ex_g1 : sgrid := SGrid G1D [vec1 [0; 1; 2]%R] "deg" DFloat.
Definition ex_g2 : sgrid := SGrid G2D [vec1 [0; 1]%R; vec1 [0; 1; 2]%R] "deg" DFloat.
Definition ex_st : pst := PSt (Some 0) 1 [].
Example C80_example : plain_grid ex_g1 /\ sg_class ex_g1 = G1D /\ 0 < sg_size ex_g1 /\ ps_cur ex_st = Some 0 /\
  let sp := InDict [(LStr "a", SArr (vec1 [1; 2; 4]%R)); (LStr "b", SArr (vec1 [0; 0; 0]%R))] in
  (forall it, In it [(SArr (vec1 [1; 2; 4]%R), LStr "a"); (SArr (vec1 [0; 0; 0]%R), LStr "b")] -> usable ex_g1 it) /\
  exists st', plot_spectrum_1d sp ex_g1 0 (Some (FF1 [1]%R "deg")) None false false ex_st =
    (Ok [(0, DLine [0; 1; 2]%R [1 / 4; 2 / 4; 4 / 4]%R false (LStr "a") "C0"); (0, DLine [0; 1; 2]%R [0; 0; 0]%R false (LStr "b") "C1"); (0, DStem [1]%R [1]%R "--" "x" (LStr "Estimates") "C3")], st').
Proof.
  split; [split; [intros a [<-|[]]; reflexivity | reflexivity]|]. split; [reflexivity|]. split; [cbn; lia|]. split; [reflexivity|]. split; [intros it [<-|[<-|[]]]; eexists _, _; repeat split|].
  assert (N1 : normalize_by_maximum [1; 2; 4]%R = Ok [1 / 4; 2 / 4; 4 / 4]%R) by (unfold normalize_by_maximum; cbn [amax fold_left bind]; rewrite (Rmax_right 1 2), (Rmax_right 2 4) by lra; unfold Rltb; destruct (Rlt_dec 0 4); [reflexivity | lra]).
  assert (N2 : normalize_by_maximum [0; 0; 0]%R = Ok [0; 0; 0]%R) by (unfold normalize_by_maximum; cbn [amax fold_left bind]; rewrite !(Rmax_left 0 0) by lra; unfold Rltb; destruct (Rlt_dec 0 0); [lra | reflexivity]).
  eexists. unfold plot_spectrum_1d, abind, alift. change (build_spectrum_list _ _) with (Ok [(vec1 [1; 2; 4]%R, LStr "a"); (vec1 [0; 0; 0]%R, LStr "b")]). cbv iota beta. cbn [draw_spectra]. unfold abind, alift. cbn [nd_data vec1]. rewrite N1, N2. reflexivity.
Qed.
Example C81_example : plain_grid ex_g2 /\ sg_class ex_g2 <> G1D /\ 0 < sg_size ex_g2 /\ exists a, nd_shape a = sg_shape ex_g2 /\
  exists img st', plot_spectrum_2d (InArray a) ex_g2 0 None (Some (FF2 [(0, 2)]%R "deg")) false true "jet" ex_st =
    (Ok [(0, DImage 2 3 img 0 2 0 1 "jet" false); (0, DScatter [[2]; [0]]%R "+" "Ground truth")], st') /\ img 1 2 = 6%R.
Proof.
  split; [split; [intros a [<-|[<-|[]]]; reflexivity | reflexivity]|]. split; [discriminate|]. split; [cbn; lia|]. exists (Nd [2; 3] [1; 2; 3; 4; 5; 6]%R). split; [reflexivity|]. eexists _, _. split.
  - unfold plot_spectrum_2d, abind, alift. unfold shape_eqb. destruct (list_eq_dec _ _ _) as [_|n]; [|exfalso; apply n; reflexivity]. cbn [negb nth_res nth_error sg_axes ex_g2 bind]. cbn [nd_data vec1 amin amax fold_left]. rewrite (Rmin_left 0 1), (Rmin_left 0 2), (Rmax_right 0 1), (Rmax_right 1 2) by lra. reflexivity.
  - reflexivity.
Qed.
(** an array with location errors, plotted with show_location_errors=True: only the nominal locations appear *)
Definition ex_arr : array := Array (LArr DFloat (Mat 2 2 (fun i j => INR (i + j)))) "a" ISOTROPIC_SCALAR_SENSOR [(CLoc, LocErr (LArr DFloat (Mat 2 2 (fun _ _ => 1%R))) true)].
Example C82_example : 1 <= nc (la_m (ar_loc ex_arr)) <= 3 /\ (exists l, actual_element_locations ex_arr = Ok l /\ ent (la_m l) 0 0 = 1%R) /\
  exists r st', plot_array (fun _ _ => []) ex_arr (Some 0) true ex_st = (r, st') /\ artists (ps_trace st') = [(0, DScatter [[0; 1]; [1; 1 + 1]]%R "o" "Nominal locations")].
Proof.
  split; [cbn; lia|]. split.
  - eexists. split; [reflexivity|]. cbn. lra.
  - eexists _, _. split; reflexivity.
Qed.
Print Assumptions C78_spectrum_list. Print Assumptions C78_normalisation. Print Assumptions C80_plot_1d. Print Assumptions C81_plot_2d. Print Assumptions C82_plot_array. Print Assumptions C82_plot_coarray. Print Assumptions C82_equal_ranges. Print Assumptions C82_location_errors_never_shown_defect.
