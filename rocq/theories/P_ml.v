(** Lemmas about the ML estimators: object level. *)
From Verif Require Import Base_Np M_utils M_sources M_array M_coarray M_heap M_grid M_core M_ml S_ml P_heap P_sources3.
Open Scope nat_scope.

Lemma slice_all n : slice_indices n None None None = Ok (seq 0 n).
Proof.
  unfold slice_indices. cbn [Z.eqb Z.ltb Z.compare]. f_equal. destruct n as [|n].
  - reflexivity.
  - replace ((0 <? Z.of_nat (S n))%Z) with true by (symmetry; apply Z.ltb_lt; lia). rewrite Z.div_1_r. replace (Z.to_nat (Z.of_nat (S n) - 0 - 1 + 1)) with (S n) by lia.
    rewrite <- (map_id (seq 0 (S n))) at 2. apply map_ext. intros k. lia.
Qed.
Lemma flat_all {A} (rows : list A) : flat_map (fun q => match nth_error rows q with Some r => [r] | None => [] end) (seq 0 (List.length rows)) = rows.
Proof.
  assert (G : forall (l pre : list A), flat_map (fun q => match nth_error (pre ++ l) q with Some r => [r] | None => [] end) (seq (List.length pre) (List.length l)) = l).
  { induction l as [|a l IH]; intros pre; [reflexivity|]. cbn [List.length seq flat_map]. rewrite nth_error_app2 by lia. rewrite Nat.sub_diag. cbn [nth_error app]. f_equal.
    specialize (IH (pre ++ [a])). rewrite app_length in IH. cbn [List.length] in IH. rewrite Nat.add_1_r in IH. rewrite <- app_assoc in IH. cbn [app] in IH. exact IH. }
  exact (G rows []).
Qed.
Lemma getitem_all {A} (h : list (list A)) p :
  getitem h p (KSlice None None None) = Ok (IPlacement (Placement (p_class p) (p_units p) (List.length h)), h ++ [buf h p]).
Proof. unfold getitem, key_rows. rewrite slice_all. cbn [bind]. now rewrite flat_all. Qed.

Lemma nth_firstn {A} (l : list A) n i d : (i < n)%nat -> nth i (firstn n l) d = nth i l d.
Proof. revert n i; induction l as [|a l IH]; intros [|n] [|i] H; simpl; auto; try lia. apply IH. lia. Qed.
Lemma nth_skipn {A} (l : list A) n i d : nth i (skipn n l) d = nth (n + i) l d.
Proof. revert l; induction n as [|n IH]; intros [|a l]; simpl; auto. destruct i; reflexivity. Qed.
Lemma nth_ext_list {A} (l l' : list A) d : List.length l = List.length l' -> (forall i, i < List.length l -> nth i l d = nth i l' d) -> l = l'.
Proof. intros H1 H2. apply (nth_ext l l' d d H1 H2). Qed.
Lemma reshape_point k d : forall x, k * d <= List.length x -> reshape_rows k d x = point_rows k d x.
Proof.
  unfold point_rows. induction k as [|k IH]; intros x H; [reflexivity|]. cbn [reshape_rows seq map]. f_equal.
  - apply (nth_ext_list _ _ 0%R).
    + rewrite firstn_length, map_length, seq_length. simpl in H. lia.
    + intros i Hi. rewrite firstn_length in Hi. rewrite nth_firstn by lia. assert (Hd : i < d) by lia.
      rewrite nth_map_seq by exact Hd. reflexivity.
  - rewrite IH by (rewrite skipn_length; simpl in H; lia). rewrite <- seq_shift, map_map. apply map_ext. intros i. apply map_ext. intros j. rewrite nth_skipn. f_equal. lia.
Qed.
Lemma reshape_firstn k d : forall x, k * d <= List.length x -> reshape_rows k d (firstn (k * d) x) = point_rows k d x.
Proof.
  intros x H. rewrite reshape_point by (rewrite firstn_length; lia). unfold point_rows. apply map_ext_in. intros i Hi. apply in_seq in Hi. apply map_ext_in. intros j Hj. apply in_seq in Hj. apply nth_firstn. nia.
Qed.
Lemma point_rows_length k d x : List.length (point_rows k d x) = k. Proof. unfold point_rows. now rewrite map_length, seq_length. Qed.

(** a buffer after a row assignment *)
Lemma nth_error_ext {A} (l l' : list A) : (forall i, nth_error l i = nth_error l' i) -> l = l'.
Proof.
  revert l'; induction l as [|a l IH]; intros [|b l'] H; [reflexivity | specialize (H 0); discriminate H | specialize (H 0); discriminate H|].
  f_equal; [specialize (H 0); now injection H | apply IH; intros i; exact (H (S i))].
Qed.
Lemma set_row_buf {A} (h : list (list A)) addr q v : q < List.length (nth addr h []) -> nth addr (set_row h addr q v) [] = set_nth (nth addr h []) q v.
Proof.
  intros Hq. apply nth_error_ext. intros i. rewrite nth_set_row_row, nth_error_set_nth. destruct (Nat.eqb_spec i q) as [->|]; cbn [andb]; [|reflexivity].
  destruct (Nat.ltb_spec q (List.length (nth addr h []))); [|lia]. destruct (nth_error (nth addr h []) q) eqn:E; [reflexivity|]. apply nth_error_None in E. lia.
Qed.

(** *** simulation *)
Definition orel (h : lheap) (o : lobj) (v : pval) : Prop :=
  p_addr (lo_pl o) < List.length h /\ p_class (lo_pl o) = pv_class v /\ p_units (lo_pl o) = pv_units v /\ lo_dt o = pv_dt v /\ buf h (lo_pl o) = pv_rows v.
Definition addr (o : lobj) := p_addr (lo_pl o).
Definition est_rel (h : lheap) (objs : list lobj) (e : option lobj) (v : option pval) : Prop :=
  match e, v with
  | None, None => True
  | Some o, Some v => orel h o v /\ ~ In (addr o) (map addr objs)
  | _, _ => False
  end.
Definition wrel (w : mlworld) (s : vworld) : Prop :=
  Forall2 (orel (mw_h w)) (mw_objs w) (vw_objs s) /\ NoDup (map addr (mw_objs w)) /\
  est_rel (mw_h w) (mw_objs w) (ms_est (mw_st w)) (vs_last (vw_st s)) /\ ms_M (mw_st w) = vs_M (vw_st s).

Lemma orel_frame h h' o v : orel h o v -> List.length h <= List.length h' -> nth (addr o) h' [] = nth (addr o) h [] -> orel h' o v.
Proof. intros (a & b & c & d & e) L E. split; [lia|]. split; [exact b|]. split; [exact c|]. split; [exact d|]. unfold buf. unfold addr in E. now rewrite E. Qed.
Lemma orels_frame h h' os vs : Forall2 (orel h) os vs -> List.length h <= List.length h' -> (forall a, In a (map addr os) -> nth a h' [] = nth a h []) -> Forall2 (orel h') os vs.
Proof.
  intros F L. induction F as [|o v os vs Hov F IH]; intros E; [constructor|]. constructor.
  - apply (orel_frame h); [exact Hov | exact L | apply E; now left].
  - apply IH. intros a Ha. apply E. now right.
Qed.
Lemma orels_addr h os vs : Forall2 (orel h) os vs -> forall a, In a (map addr os) -> a < List.length h.
Proof. intros F a Ha. induction F as [|o v os vs Hov F IH]; [destruct Ha|]. destruct Ha as [<-|Ha]; [apply Hov | auto]. Qed.

Lemma pl_sources_pv p v rows : p_class p = pv_class v -> p_units p = pv_units v -> pl_sources p rows = pl_sources (pv_pl v) rows.
Proof. intros E1 E2. unfold pl_sources. cbn [pv_pl p_class p_units]. now rewrite E1, E2. Qed.

(** updating the private buffer *)
Lemma update_rel h o g rows x : orel h o (with_rows g rows) -> List.length rows = List.length (pv_rows g) ->
  match place_at g x with
  | Raise e => update_from_x o x h = (Raise e, h)
  | Ok r => exists h', update_from_x o x h = (Ok tt, h') /\ orel h' o (with_rows g r) /\ List.length r = List.length (pv_rows g) /\
              List.length h' = List.length h /\ forall a, a <> addr o -> nth a h' [] = nth a h []
  end.
Proof.
  intros (H1 & H2 & H3 & H4 & H5) L. cbn [with_rows pv_class pv_units pv_dt pv_rows] in *. unfold place_at, update_from_x. rewrite H5, L.
  assert (D : pl_dim (lo_pl o) = dim_of g) by (unfold pl_dim, dim_of; now rewrite H2). rewrite D. destruct (Nat.ltb_spec (List.length x) (List.length (pv_rows g) * dim_of g)); [reflexivity|]. rewrite H4. destruct (pv_dt g) eqn:DT; [reflexivity|].
  eexists. split; [reflexivity|]. rewrite reshape_firstn by assumption. split.
  - split; [now rewrite set_nth_length|]. split; [exact H2|]. split; [exact H3|]. cbn [with_rows pv_dt pv_rows]. split; [congruence|]. unfold buf. rewrite nth_set_nth, Nat.eqb_refl. destruct (Nat.ltb_spec (p_addr (lo_pl o)) (List.length h)); [reflexivity | lia].
  - split; [apply point_rows_length|]. split; [apply set_nth_length|]. intros a Ha. rewrite nth_set_nth. unfold addr in Ha. destruct (Nat.eqb_spec a (p_addr (lo_pl o))); [contradiction | reflexivity].
Qed.

Lemma eval_rel env st M Rm h o g rows x : ms_M st = M -> orel h o (with_rows g rows) -> List.length rows = List.length (pv_rows g) ->
  match place_at g x with
  | Raise e => eval_nll env st o Rm (List.length (pv_rows g)) x h = (Raise e, h)
  | Ok r => exists h', eval_nll env st o Rm (List.length (pv_rows g)) x h = (objective_at env M Rm g r, h') /\ orel h' o (with_rows g r) /\ List.length r = List.length (pv_rows g) /\
              List.length h' = List.length h /\ forall a, a <> addr o -> nth a h' [] = nth a h []
  end.
Proof.
  intros EM Ho L. pose proof (update_rel h o g rows x Ho L) as U. unfold eval_nll, steering_from_x. destruct (place_at g x) as [r|e].
  - destruct U as (h' & U1 & U2 & U3 & U4 & U5). exists h'. rewrite U1. split; [|auto]. destruct U2 as (_ & C1 & C2 & _ & C3). cbn [with_rows pv_class pv_units pv_rows] in C1, C2, C3.
    rewrite C3, (pl_sources_pv _ g) by assumption. unfold objective_at. destruct (pl_sources (pv_pl g) r) as [s|]; cbn [bind]; [|reflexivity]. destruct (steering_matrix _ _ _ _ _ _) as [[A D]|]; cbn [bind]; [|reflexivity]. destruct A; [|reflexivity]. rewrite EM. reflexivity.
  - rewrite U. reflexivity.
Qed.

Lemma run_opt_rel env st M Rm o g : ms_M st = M -> forall t h rows, orel h o (with_rows g rows) -> List.length rows = List.length (pv_rows g) ->
  exists h' rows', run_opt (eval_nll env st o Rm (List.length (pv_rows g))) t h = (fst (optimise (objective_at env M Rm g) g t rows), h') /\
    rows' = snd (optimise (objective_at env M Rm g) g t rows) /\ orel h' o (with_rows g rows') /\ List.length rows' = List.length (pv_rows g) /\
    List.length h' = List.length h /\ forall a, a <> addr o -> nth a h' [] = nth a h [].
Proof.
  intros EM. induction t as [b x | x next IH | e]; intros h rows Ho L.
  - exists h, rows. cbn. repeat split; auto; apply Ho.
  - cbn [run_opt optimise]. pose proof (eval_rel env st M Rm h o g rows x EM Ho L) as U. destruct (place_at g x) as [r|e].
    + destruct U as (h1 & U1 & U2 & U3 & U4 & U5). rewrite U1. destruct (objective_at env M Rm g r) as [v|e].
      * destruct (IH v h1 r U2 U3) as (h' & rows' & V1 & V2 & V3 & V4 & V5 & V6). exists h', rows'. split; [exact V1|]. split; [exact V2|]. split; [exact V3|]. split; [exact V4|]. split; [lia|]. intros a Ha. rewrite V6, U5; auto.
      * exists h1, r. cbn [fst snd]. auto 10.
    + rewrite U. exists h, rows. cbn [fst snd]. auto 10.
  - exists h, rows. cbn. auto 10.
Qed.

Lemma get_last_rel st h o v : ms_est st = Some o -> orel h o v ->
  exists r h', get_last_estimates st h = (Ok r, h') /\ orel h' r v /\ addr r = List.length h /\ h' = h ++ [pv_rows v].
Proof.
  intros E (H1 & H2 & H3 & H4 & H5). unfold get_last_estimates. rewrite E, getitem_all. eexists _, _. split; [reflexivity|]. rewrite H5. split; [|split; reflexivity].
  split; [cbn; rewrite app_length; simpl; lia|]. cbn [lo_pl p_class p_units lo_dt]. split; [exact H2|]. split; [exact H3|]. split; [exact H4|]. unfold buf. cbn [p_addr]. rewrite app_nth2, Nat.sub_diag by lia. reflexivity.
Qed.

(** estimate, object level against value level.  [h] arrays of the client are unchanged; the estimator's array is new. *)
Lemma estimate_rel env mini st vst Rm o g h : orel h o g -> ms_M st = vs_M vst ->
  exists st' h', snd (fst (ml_estimate env mini st Rm o h)) = st' /\ snd (ml_estimate env mini st Rm o h) = h' /\
    (forall a, a < List.length h -> nth a h' [] = nth a h []) /\ List.length h <= List.length h' /\ ms_M st' = vs_M (snd (v_estimate env mini vst Rm g)) /\
    ((st' = st /\ h' = h /\ vst = snd (v_estimate env mini vst Rm g)) \/
     exists e ve, ms_est st' = Some e /\ vs_last (snd (v_estimate env mini vst Rm g)) = Some ve /\ orel h' e ve /\ addr e = List.length h) /\
    match fst (v_estimate env mini vst Rm g) with
    | Raise x => fst (fst (ml_estimate env mini st Rm o h)) = Raise x
    | Ok (b, None) => fst (fst (ml_estimate env mini st Rm o h)) = Ok (b, None)
    | Ok (b, Some v) => exists r, fst (fst (ml_estimate env mini st Rm o h)) = Ok (b, Some r) /\ orel h' r v /\ addr r = S (List.length h)
    end.
Proof.
  intros Ho EM. eexists _, _. split; [reflexivity|]. split; [reflexivity|]. destruct Ho as (H1 & H2 & H3 & H4 & H5). unfold ml_estimate, v_estimate. rewrite H5. set (k := List.length (pv_rows g)). set (m := ar_size (ml_array env)).
  unfold ensure_n_resolvable_sources, ensure_covariance_size. cbn [List.length Nat.eqb nth]. rewrite Z.gtb_ltb.
  destruct (Nat.leb_spec m k) as [Hk|Hk].
  { destruct (Z.ltb_spec (Z.of_nat m - 1) (Z.of_nat k)); [|lia]. cbn [bind fst snd orb]. repeat split; auto. }
  destruct (Z.ltb_spec (Z.of_nat m - 1) (Z.of_nat k)); [lia|]. cbn [bind negb orb]. destruct (Nat.eqb_spec (nr Rm) m) as [Hr|Hr]; cbn [negb orb]; [|cbn [fst snd]; repeat split; auto].
  rewrite getitem_all, H5. set (p := Placement (p_class (lo_pl o)) (p_units (lo_pl o)) (List.length h)). set (h1 := h ++ [pv_rows g]). set (est := LObj p (lo_dt o)).
  assert (L1 : List.length h1 = S (List.length h)) by (unfold h1; rewrite app_length; simpl; lia).
  assert (K1 : forall a, a < List.length h -> nth a h1 [] = nth a h []) by (intros a Ha; unfold h1; now rewrite app_nth1).
  assert (O1 : orel h1 est (with_rows g (pv_rows g))).
  { split; [cbn; lia|]. cbn [est lo_pl p p_class p_units with_rows pv_class pv_units pv_dt pv_rows lo_dt]. split; [exact H2|]. split; [exact H3|]. split; [exact H4|]. unfold buf, est, p. cbn [lo_pl p_addr]. unfold h1. rewrite app_nth2, Nat.sub_diag by lia. reflexivity. }
  assert (O1' : orel h1 est g) by (destruct g; exact O1).
  assert (PM : prepare_M env (MlSt (Some est) (ms_M st)) Rm k = prepare_M env (MlSt None (vs_M vst)) Rm k) by (unfold prepare_M; destruct (ml_kind env); cbn [ms_M]; now rewrite ?EM).
  rewrite PM. destruct (prepare_M env (MlSt None (vs_M vst)) Rm k) as [M|e] eqn:EP.
  2:{ cbn [fst snd ms_M ms_est vs_M vs_last]. split; [exact K1|]. split; [lia|]. split; [exact EM|]. split; [|reflexivity]. right. exists est, g. auto. }
  assert (B0 : buf h1 (lo_pl o) = pv_rows g) by (unfold buf; rewrite K1 by exact H1; exact H5). rewrite B0.
  assert (OB : opt_bounds (lo_pl o) (pv_rows g) = opt_bounds (pv_pl g) (pv_rows g)) by (unfold opt_bounds; now rewrite (pl_sources_pv _ g)). rewrite OB.
  destruct (opt_bounds (pv_pl g) (pv_rows g)) as [bounds|e].
  2:{ cbn [fst snd ms_M ms_est vs_M vs_last]. split; [exact K1|]. split; [lia|]. split; [reflexivity|]. split; [|reflexivity]. right. exists est, g. auto. }
  set (st2 := MlSt (Some est) M). unfold opt_x0.
  destruct (run_opt_rel env st2 M Rm est g eq_refl (mini (List.concat (pv_rows g)) bounds) h1 (pv_rows g) O1 eq_refl) as (h2 & rows2 & V1 & V2 & V3 & V4 & V5 & V6).
  fold k in V1. rewrite V1. destruct (optimise (objective_at env M Rm g) g (mini (List.concat (pv_rows g)) bounds) (pv_rows g)) as [[[[|] x]|e] last]; cbn [fst snd] in V2 |- *; subst rows2.
  - pose proof (update_rel h2 est g last x V3 V4) as U. destruct (place_at g x) as [r|e].
    + destruct U as (h3 & U1 & U2 & U3 & U4 & U5). rewrite U1. destruct (get_last_rel st2 h3 est (with_rows g r) eq_refl U2) as (rr & h4 & G1 & G2 & G3 & G4). rewrite G1. cbn [fst snd].
      assert (K : forall a, a < List.length h -> nth a h4 [] = nth a h []).
      { intros a Ha. subst h4. rewrite app_nth1 by lia. rewrite U5 by (unfold addr; cbn; lia). rewrite V6 by (unfold addr; cbn; lia). auto. }
      split; [exact K|]. split; [subst h4; rewrite app_length; lia|]. split; [reflexivity|]. split.
      * right. exists est, (with_rows g r). split; [reflexivity|]. split; [reflexivity|]. split; [|reflexivity]. apply (orel_frame h3); [exact U2 | subst h4; rewrite app_length; lia |]. subst h4. apply app_nth1. cbn. lia.
      * exists rr. split; [reflexivity|]. split; [exact G2|]. rewrite G3. lia.
    + rewrite U. cbn [fst snd ms_M ms_est vs_M vs_last]. split; [intros a Ha; rewrite V6 by (cbn; lia); auto|]. split; [lia|]. split; [reflexivity|]. split; [|reflexivity]. right. exists est, (with_rows g last). auto.
  - split; [intros a Ha; rewrite V6 by (cbn; lia); auto|]. split; [lia|]. split; [reflexivity|]. split; [|reflexivity]. right. exists est, (with_rows g last). auto.
  - split; [intros a Ha; rewrite V6 by (cbn; lia); auto|]. split; [lia|]. split; [reflexivity|]. split; [|reflexivity]. right. exists est, (with_rows g last). auto.
Qed.

Lemma Forall2_nth_error {A B} (P : A -> B -> Prop) l l' : Forall2 P l l' -> forall i,
  match nth_error l i, nth_error l' i with Some a, Some b => P a b | None, None => True | _, _ => False end.
Proof. intros F. induction F; intros [|i]; cbn; auto. apply IHF. Qed.
Lemma Forall2_set_nth {A B} (P Q : A -> B -> Prop) l l' i b : Forall2 P l l' ->
  (forall j x y, nth_error l j = Some x -> nth_error l' j = Some y -> j <> i -> P x y -> Q x y) ->
  (forall x, nth_error l i = Some x -> Q x b) -> Forall2 Q l (set_nth l' i b).
Proof.
  intros F. revert i. induction F as [|x y l l' Hxy F IH]; intros i H1 H2; [destruct i; constructor|]. destruct i as [|i].
  - cbn [set_nth]. constructor; [apply H2; reflexivity|]. clear IH H2. assert (G : forall j u v, nth_error l j = Some u -> nth_error l' j = Some v -> P u v -> Q u v) by (intros j u v E1 E2; apply (H1 (S j)); auto). clear H1 Hxy.
    induction F as [|u v l l' Huv F IH]; constructor; [apply (G 0); auto | apply IH; intros j; apply (G (S j))].
  - cbn [set_nth]. constructor; [apply (H1 0); auto|]. apply IH; [intros j u v E1 E2 N; apply (H1 (S j)); auto | intros u E; apply H2; exact E].
Qed.
Lemma NoDup_snoc {A} (l : list A) x : NoDup l -> ~ In x l -> NoDup (l ++ [x]).
Proof. intros N H. apply NoDup_Add with (a := x) (l := l); [|split; auto]. rewrite <- (app_nil_r l) at 1. apply Add_app. Qed.

Lemma ml_step_rel env w s a : wrel w s -> fst (ml_step env w a) = fst (v_step env s a) /\ wrel (snd (ml_step env w a)) (snd (v_step env s a)).
Proof.
  intros (F & ND & HE & HM). pose proof (orels_addr _ _ _ F) as AD. destruct a as [c u dt rows | i q row | i | mini Rm i |]; unfold ml_step, v_step.
  - cbn [fst snd]. split; [reflexivity|]. assert (K : forall a, a < List.length (mw_h w) -> nth a (mw_h w ++ [rows]) [] = nth a (mw_h w) []) by (intros; now apply app_nth1).
    assert (LL : List.length (mw_h w) <= List.length (mw_h w ++ [rows])) by (rewrite app_length; lia).
    split; [|split; [|split; [|exact HM]]]; cbn [mw_h mw_objs mw_st vw_objs vw_st].
    + apply Forall2_app; [apply (orels_frame (mw_h w)); auto|]. constructor; [|constructor]. split; [cbn; rewrite app_length; simpl; lia|]. cbn. repeat (split; [reflexivity|]). unfold buf. cbn. rewrite app_nth2, Nat.sub_diag by lia. reflexivity.
    + rewrite map_app. apply NoDup_snoc; [exact ND|]. cbn [addr lo_pl p_addr]. intros X. apply AD in X. lia.
    + unfold est_rel in *. destruct (ms_est (mw_st w)) as [e|], (vs_last (vw_st s)) as [v|]; auto. destruct HE as (E1 & E2). split; [apply (orel_frame (mw_h w)); [exact E1 | exact LL | apply K, E1]|]. rewrite map_app. intros X. apply in_app_or in X. destruct X as [X|[X|[]]]; [auto|]. unfold addr in X. cbn in X. destruct E1 as (E1 & _). unfold addr in *. lia.
  - pose proof (Forall2_nth_error _ _ _ F i) as N. destruct (nth_error (mw_objs w) i) as [o|] eqn:Eo, (nth_error (vw_objs s) i) as [v|] eqn:Ev; try contradiction; [|cbn [fst snd]; split; [reflexivity | repeat split; assumption]].
    destruct N as (H1 & H2 & H3 & H4 & H5). rewrite H5, H4. destruct (Nat.leb_spec (List.length (pv_rows v)) q) as [Lq|Lq]; cbn [fst snd]; [split; [reflexivity | repeat split; assumption]|]. split; [reflexivity|].
    assert (K : forall a, a <> addr o -> nth a (set_location (mw_h w) (lo_pl o) q (cast (pv_dt v) row)) [] = nth a (mw_h w) []).
    { intros a Ha. unfold set_location. rewrite nth_set_row. unfold addr in Ha. destruct (Nat.eqb_spec a (p_addr (lo_pl o))); [contradiction | reflexivity]. }
    assert (LL : List.length (set_location (mw_h w) (lo_pl o) q (cast (pv_dt v) row)) = List.length (mw_h w)) by (unfold set_location; apply set_row_length).
    split; [|split; [exact ND | split; [|exact HM]]]; cbn [mw_h mw_objs mw_st vw_objs vw_st].
    + apply (Forall2_set_nth (orel (mw_h w))); [exact F | |].
      * intros j x y Ej Ey Nj Oxy. apply (orel_frame (mw_h w)); [exact Oxy | lia |]. apply K. intros X. apply Nj. assert (A1 : nth_error (map addr (mw_objs w)) j = Some (addr x)) by (now rewrite nth_error_map, Ej). assert (A2 : nth_error (map addr (mw_objs w)) i = Some (addr o)) by (now rewrite nth_error_map, Eo).
        rewrite X in A1. apply (proj1 (NoDup_nth_error _) ND); [apply nth_error_Some; congruence | congruence].
      * intros x Ex. rewrite Eo in Ex. injection Ex as <-. split; [lia|]. cbn [with_rows pv_class pv_units pv_dt pv_rows]. repeat (split; [assumption|]). unfold buf, set_location. rewrite set_row_buf by (unfold buf in H5; rewrite H5; exact Lq). unfold buf in H5. now rewrite H5.
    + unfold est_rel in *. destruct (ms_est (mw_st w)) as [e|], (vs_last (vw_st s)) as [v'|]; auto. destruct HE as (E1 & E2). split; [|exact E2]. apply (orel_frame (mw_h w)); [exact E1 | lia |]. apply K. intros X. apply E2. rewrite X. apply in_map. apply (nth_error_In _ _ Eo).
  - pose proof (Forall2_nth_error _ _ _ F i) as N. destruct (nth_error (mw_objs w) i) as [o|] eqn:Eo, (nth_error (vw_objs s) i) as [v|] eqn:Ev; try contradiction; cbn [fst snd]; [|split; [reflexivity | repeat split; assumption]].
    destruct N as (H1 & H2 & H3 & H4 & H5). rewrite H2, H3, H4, H5. split; [reflexivity | repeat split; assumption].
  - pose proof (Forall2_nth_error _ _ _ F i) as N. destruct (nth_error (mw_objs w) i) as [o|] eqn:Eo, (nth_error (vw_objs s) i) as [v|] eqn:Ev; try contradiction; [|cbn [fst snd]; split; [reflexivity | repeat split; assumption]].
    destruct (estimate_rel env mini (mw_st w) (vw_st s) Rm o v (mw_h w) N HM) as (st' & h' & E1 & E2 & K & LL & M' & EST & RES).
    destruct (ml_estimate env mini (mw_st w) Rm o (mw_h w)) as [[rm st1] h1]. cbn [fst snd] in E1, E2, RES. subst st1 h1. destruct (v_estimate env mini (vw_st s) Rm v) as [rv vst']. cbn [fst snd] in *.
    assert (F' : Forall2 (orel h') (mw_objs w) (vw_objs s)) by (apply (orels_frame (mw_h w)); auto).
    assert (EST' : forall extra, (forall x, In x extra -> x = S (List.length (mw_h w)) /\ (List.length (mw_h w) < List.length h')%nat) ->
      match ms_est st', vs_last vst' with None, None => True | Some e, Some ve => orel h' e ve /\ ~ In (addr e) (map addr (mw_objs w) ++ extra) | _, _ => False end).
    { intros extra HX. destruct EST as [(-> & -> & <-)|(e & ve & X1 & X2 & X3 & X4)].
      - unfold est_rel in HE. destruct (ms_est (mw_st w)) as [e|], (vs_last (vw_st s)) as [ve|]; auto. destruct HE as (Y1 & Y2). split; [exact Y1|]. intros X. apply in_app_or in X. destruct X as [X|X]; [auto|]. destruct (HX _ X) as (X' & XL). lia.
      - rewrite X1, X2. split; [exact X3|]. rewrite X4. intros X. apply in_app_or in X. destruct X as [X|X]; [apply AD in X; lia|]. destruct (HX _ X). lia. }
    destruct rv as [[b [r|]]|x].
    + destruct RES as (ro & -> & R1 & R2). cbn [fst snd]. split; [reflexivity|]. split; [|split; [|split; [|exact M']]]; cbn [mw_h mw_objs mw_st vw_objs vw_st].
      * apply Forall2_app; [exact F' | constructor; [exact R1 | constructor]].
      * rewrite map_app. apply NoDup_snoc; [exact ND|]. rewrite R2. intros X. apply AD in X. lia.
      * unfold est_rel. rewrite map_app. apply EST'. intros x [<-|[]]. split; [exact R2|]. destruct R1 as (R1 & _). unfold addr in R2. lia.
    + rewrite RES. cbn [fst snd]. split; [reflexivity|]. split; [exact F'|]. split; [exact ND|]. split; [|exact M']. cbn [mw_h mw_objs mw_st vw_objs vw_st]. unfold est_rel. rewrite <- (app_nil_r (map addr (mw_objs w))). apply EST'. intros x0 [].
    + rewrite RES. cbn [fst snd]. split; [reflexivity|]. split; [exact F'|]. split; [exact ND|]. split; [|exact M']. cbn [mw_h mw_objs mw_st vw_objs vw_st]. unfold est_rel. rewrite <- (app_nil_r (map addr (mw_objs w))). apply EST'. intros x0 [].
  - unfold est_rel in HE. destruct (ms_est (mw_st w)) as [e|] eqn:Ee, (vs_last (vw_st s)) as [v|] eqn:Ev; try contradiction.
    + destruct HE as (E1 & E2). destruct (get_last_rel (mw_st w) (mw_h w) e v Ee E1) as (r & h' & G1 & G2 & G3 & G4). rewrite G1. cbn [fst snd]. split; [reflexivity|].
      assert (K : forall a, a < List.length (mw_h w) -> nth a h' [] = nth a (mw_h w) []) by (intros; subst h'; now apply app_nth1). assert (LL : List.length (mw_h w) <= List.length h') by (subst h'; rewrite app_length; lia).
      split; [|split; [|split; [|exact HM]]]; cbn [mw_h mw_objs mw_st vw_objs vw_st].
      * apply Forall2_app; [apply (orels_frame (mw_h w)); auto | constructor; [exact G2 | constructor]].
      * rewrite map_app. apply NoDup_snoc; [exact ND|]. rewrite G3. intros X. apply AD in X. lia.
      * unfold est_rel. rewrite Ee, Ev. split; [apply (orel_frame (mw_h w)); [exact E1 | exact LL | apply K, E1]|]. rewrite map_app. intros X. apply in_app_or in X. destruct X as [X|[X|[]]]; [auto|]. rewrite G3 in X. destruct E1 as (E1 & _). unfold addr in X. lia.
    + unfold get_last_estimates. rewrite Ee. cbn [fst snd]. split; [reflexivity|]. split; [exact F|]. split; [exact ND|]. split; [|exact HM]. cbn [mw_h mw_objs mw_st vw_objs vw_st]. unfold est_rel. now rewrite Ee, Ev.
Qed.
Lemma ml_run_rel env acts : forall w s, wrel w s -> fst (ml_run env w acts) = fst (v_run env s acts).
Proof.
  induction acts as [|a acts IH]; intros w s H; [reflexivity|]. cbn [ml_run v_run]. destruct (ml_step_rel env w s a H) as (E & H'). destruct (ml_step env w a) as [v w1], (v_step env s a) as [v' s1]. cbn [fst snd] in E, H'. subst v'.
  specialize (IH w1 s1 H'). destruct (ml_run env w1 acts), (v_run env s1 acts). cbn [fst] in *. congruence.
Qed.
