From Verif Require Import Base_Np Base_Trig M_utils M_sources M_array S_array P_array M_heap S_heap.
Open Scope nat_scope.

Lemma set_nth_length {A} (l : list A) n x : List.length (set_nth l n x) = List.length l.
Proof. revert n; induction l as [|a l IH]; intros [|n]; simpl; auto. Qed.
Lemma nth_set_nth {A} (l : list A) n m x d : nth m (set_nth l n x) d = if Nat.eqb m n && Nat.ltb m (List.length l) then x else nth m l d.
Proof.
  revert n m; induction l as [|a l IH]; intros [|n] [|m]; simpl; auto.
  - destruct (Nat.eqb m n); reflexivity.
  - rewrite IH. reflexivity.
Qed.
Lemma nth_error_set_nth {A} (l : list A) n m x : nth_error (set_nth l n x) m = if Nat.eqb m n && Nat.ltb m (List.length l) then Some x else nth_error l m.
Proof.
  revert n m; induction l as [|a l IH]; intros [|n] [|m]; simpl; auto.
  - destruct (Nat.eqb m n); reflexivity.
  - rewrite IH. reflexivity.
Qed.
Lemma set_nth_app_last {A} (l : list A) y x : set_nth (l ++ [y]) (List.length l) x = l ++ [x].
Proof. induction l as [|a l IH]; simpl; [reflexivity | now rewrite IH]. Qed.

(** [grow h h' n0]: the objects numbered below [n0] and everything they refer to are untouched *)
Record frame (h h' : heap) : Prop := {
  fr_objs : forall n o, nth_error (h_objs h) n = Some o -> nth_error (h_objs h') n = Some o;
  fr_bufs : forall b, b < List.length (h_bufs h) -> get_buf h' b = get_buf h b;
  fr_nbufs : List.length (h_bufs h) <= List.length (h_bufs h');
  fr_dicts : forall n o, nth_error (h_objs h) n = Some o -> get_dict h' (o_dict o) = get_dict h (o_dict o)
}.
Lemma frame_refl h : frame h h. Proof. constructor; auto. Qed.
Lemma frame_trans h1 h2 h3 : frame h1 h2 -> frame h2 h3 -> frame h1 h3.
Proof.
  intros A B. constructor.
  - intros n o H. apply (fr_objs _ _ B), (fr_objs _ _ A), H.
  - intros b Hb. rewrite (fr_bufs _ _ B), (fr_bufs _ _ A); auto. pose proof (fr_nbufs _ _ A). lia.
  - pose proof (fr_nbufs _ _ A). pose proof (fr_nbufs _ _ B). lia.
  - intros n o H. rewrite (fr_dicts _ _ B n o), (fr_dicts _ _ A n o); auto. apply (fr_objs _ _ A), H.
Qed.
Lemma frame_obs h h' n a : wf_heap h -> frame h h' -> obs h n = Some a -> obs h' n = Some a.
Proof.
  intros W F H. unfold obs in *. destruct (nth_error (h_objs h) n) as [o|] eqn:E; [|discriminate]. rewrite (fr_objs _ _ F n o E). simpl in *.
  injection H as <-. unfold obs_of. rewrite (fr_bufs _ _ F), (fr_dicts _ _ F n o E); [reflexivity|]. apply (wh_loc h W). now apply nth_error_In in E.
Qed.
Lemma frame_idx h h' n x : wf_heap h -> frame h h' -> nth_error (h_objs h) n <> None -> obs_indices h n = x -> obs_indices h' n = x.
Proof.
  intros W F N H. unfold obs_indices in *. destruct (nth_error (h_objs h) n) as [o|] eqn:E; [|contradiction]. rewrite (fr_objs _ _ F n o E).
  destruct (o_idx o) as [i|] eqn:Ei; [|exact H]. simpl in *. rewrite (fr_bufs _ _ F); [exact H|]. apply (wh_idx h W o i); [now apply nth_error_In in E | exact Ei].
Qed.

Lemma get_buf_new h l b : b < List.length (h_bufs h) -> get_buf (fst (new_buf h l)) b = get_buf h b.
Proof. intros H. unfold get_buf, new_buf. simpl. now rewrite app_nth1. Qed.
Lemma new_buf_frame h l : frame h (fst (new_buf h l)).
Proof. constructor; simpl; auto; [intros; now apply get_buf_new | rewrite app_length; lia]. Qed.
Lemma new_buf_wf h l : wf_heap h -> wf_heap (fst (new_buf h l)).
Proof.
  intros [W1 W2 W3 W4]. constructor; simpl; auto; intros; rewrite app_length; simpl.
  - pose proof (W1 o H). lia.
  - pose proof (W2 o i H H0). lia.
Qed.

(** adding perturbations to the last object [n], whose dictionary no other object has *)
Lemma h_add_spec n ps : forall h ro o r h', wf_heap h -> nth_error (h_objs h) n = Some o -> h_add h n ps ro = (r, h') ->
  h_bufs h' = h_bufs h /\ h_objs h' = h_objs h /\ List.length (h_dicts h') = List.length (h_dicts h) /\
  (forall d, d <> o_dict o -> get_dict h' d = get_dict h d) /\
  match r with
  | Ok _ => add_perturbation_from_list (obs_of h o) ps ro = Ok (obs_of h' o)
  | Raise e => add_perturbation_from_list (obs_of h o) ps ro = Raise e
  end.
Proof.
  induction ps as [|p ps IH]; intros h ro o r h' W E H; cbn [h_add] in H.
  - injection H as <- <-. repeat split; auto.
  - rewrite E in H. cbn [add_perturbation_from_list]. destruct (is_applicable_to p (obs_of h o)) as [ap|x] eqn:EA.
    2:{ injection H as <- <-. repeat split; auto. }
    destruct ap; [|injection H as <- <-; repeat split; auto]. cbn [bind negb]. cbn [obs_of ar_perts].
    destruct (dmem pclass_eqb (get_dict h (o_dict o)) (class_of p) && ro)%bool eqn:ED.
    { injection H as <- <-. repeat split; auto. }
    set (h1 := set_dict h (o_dict o) (dset pclass_eqb (get_dict h (o_dict o)) (class_of p) p)) in *.
    assert (W1 : wf_heap h1).
    { destruct W as [W1 W2 W3 W4]. constructor; simpl; auto. intros q Hq. rewrite set_nth_length. auto. }
    assert (G : forall d, get_dict h1 d = if Nat.eqb d (o_dict o) then dset pclass_eqb (get_dict h (o_dict o)) (class_of p) p else get_dict h d).
    { intros d. unfold get_dict at 1, h1, set_dict. simpl. rewrite nth_set_nth. destruct (Nat.eqb_spec d (o_dict o)) as [->|]; [|reflexivity]. simpl.
      destruct (Nat.ltb_spec (o_dict o) (List.length (h_dicts h))) as [|L]; [reflexivity|]. pose proof (wh_dict h W o (nth_error_In _ _ E)). lia. }
    destruct (IH h1 ro o r h' W1 E H) as (A1 & A2 & A3 & A4 & A5). split; [exact A1|]. split; [exact A2|].
    split; [rewrite A3; apply set_nth_length|]. split.
    { intros d Hd. rewrite A4 by exact Hd. rewrite G. destruct (Nat.eqb_spec d (o_dict o)); [contradiction | reflexivity]. }
    assert (EO : obs_of h1 o = set_perts (obs_of h o) (dset pclass_eqb (get_dict h (o_dict o)) (class_of p) p)).
    { unfold obs_of, set_perts. simpl. f_equal. rewrite G, Nat.eqb_refl. reflexivity. }
    rewrite EO in A5. destruct r; exact A5.
Qed.
(** creating an object with a fresh dictionary, then adding perturbations *)
Lemma create_frame h o dicts n ps ro r h' : wf_heap h ->
  n = List.length (h_objs h) -> o_loc o < List.length (h_bufs h) -> (forall i, o_idx o = Some i -> i < List.length (h_bufs h)) ->
  o_dict o < List.length dicts -> List.length (h_dicts h) <= o_dict o ->
  (forall d, d < List.length (h_dicts h) -> nth d dicts [] = get_dict h d) ->
  h_add (Heap (h_bufs h) dicts (h_objs h ++ [o])) n ps ro = (r, h') ->
  wf_heap h' /\ frame h h' /\ h_objs h' = h_objs h ++ [o] /\ h_bufs h' = h_bufs h /\
  match r with
  | Ok _ => add_perturbation_from_list (obs_of (Heap (h_bufs h) dicts (h_objs h ++ [o])) o) ps ro = Ok (obs_of h' o)
  | Raise e => add_perturbation_from_list (obs_of (Heap (h_bufs h) dicts (h_objs h ++ [o])) o) ps ro = Raise e
  end.
Proof.
  intros W -> L I D1 D2 DD H. set (h1 := Heap (h_bufs h) dicts (h_objs h ++ [o])) in *.
  assert (LD : List.length (h_dicts h) <= List.length dicts) by lia.
  assert (W1 : wf_heap h1).
  { destruct W as [W1 W2 W3 W4]. constructor; simpl.
    - intros q Hq. apply in_app_iff in Hq as [Hq|[<-|[]]]; auto.
    - intros q i Hq Hi. apply in_app_iff in Hq as [Hq|[<-|[]]]; [exact (W2 q i Hq Hi) | auto].
    - intros q Hq. apply in_app_iff in Hq as [Hq|[<-|[]]]; [pose proof (W3 q Hq); lia | exact D1].
    - rewrite map_app. simpl. assert (F : ~ In (o_dict o) (map o_dict (h_objs h))).
      { intros Hi. apply in_map_iff in Hi as (q & Eq & Hq). pose proof (W3 q Hq). lia. }
      clear -W4 F. induction (map o_dict (h_objs h)) as [|x l IHl]; simpl; [constructor; [intros [] | constructor]|].
      inversion W4; subst. constructor; [|apply IHl; [assumption | intros Hi; apply F; now right]].
      rewrite in_app_iff. simpl. intros [Hx|[Hx|[]]]; [contradiction|]. apply F. left. auto. }
  assert (E1 : nth_error (h_objs h1) (List.length (h_objs h)) = Some o) by (simpl; rewrite nth_error_app2, Nat.sub_diag by lia; reflexivity).
  destruct (h_add_spec _ ps h1 ro o r h' W1 E1 H) as (A1 & A2 & A3 & A4 & A5).
  split; [|split; [|split; [|split]]].
  - destruct W1 as [V1 V2 V3 V4]. constructor; rewrite ?A1, ?A2, ?A3; auto.
  - constructor.
    + intros n q Hn. rewrite A2. simpl. rewrite nth_error_app1; [exact Hn|]. apply nth_error_Some. congruence.
    + intros b Hb. unfold get_buf. rewrite A1. reflexivity.
    + rewrite A1. simpl. lia.
    + intros n q Hn. pose proof (wh_dict h W q (nth_error_In _ _ Hn)) as Hq. rewrite A4 by lia. unfold get_dict at 1. simpl. apply DD. exact Hq.
  - exact A2.
  - exact A1.
  - exact A5.
Qed.
Lemma h_actual_frame ps : forall h b r h', wf_heap h -> b < List.length (h_bufs h) -> h_actual h b ps = (r, h') ->
  wf_heap h' /\ frame h h' /\ h_objs h' = h_objs h /\
  match r with
  | Ok b' => b' < List.length (h_bufs h') /\ perturb_locations ps (get_buf h b) = Ok (get_buf h' b') /\
             ((exists e k, In (LocErr e k) ps) -> List.length (h_bufs h) <= b') /\ ((forall e k, ~ In (LocErr e k) ps) -> b' = b)
  | Raise e => perturb_locations ps (get_buf h b) = Raise e
  end.
Proof.
  induction ps as [|p ps IH]; intros h b r h' W Hb H; cbn [h_actual perturb_locations] in *.
  - injection H as <- <-. split; [exact W|]. split; [apply frame_refl|]. split; [reflexivity|]. split; [exact Hb|]. split; [reflexivity|].
    split; [intros (e & k & []) | reflexivity].
  - assert (NL : (forall e k, p <> LocErr e k) -> h_actual h b ps = (r, h') -> wf_heap h' /\ frame h h' /\ h_objs h' = h_objs h /\
      match r with
      | Ok b' => b' < List.length (h_bufs h') /\ bind (perturb_sensor_locations p (get_buf h b)) (perturb_locations ps) = Ok (get_buf h' b') /\
             ((exists e k, In (LocErr e k) (p :: ps)) -> List.length (h_bufs h) <= b') /\ ((forall e k, ~ In (LocErr e k) (p :: ps)) -> b' = b)
      | Raise e => bind (perturb_sensor_locations p (get_buf h b)) (perturb_locations ps) = Raise e
      end).
    { intros N H1. destruct (IH h b r h' W Hb H1) as (A1 & A2 & A3 & A4). split; [exact A1|]. split; [exact A2|]. split; [exact A3|].
      assert (EP : perturb_sensor_locations p (get_buf h b) = Ok (get_buf h b)) by (destruct p; try reflexivity; now destruct (N e known)).
      rewrite EP. cbn [bind]. destruct r as [b'|e]; [|exact A4]. destruct A4 as (B1 & B2 & B3 & B4). split; [exact B1|]. split; [exact B2|]. split.
      - intros (e & k & [Hp|Hp]); [now destruct (N e k) | apply B3; eauto].
      - intros Hn. apply B4. intros e k Hp. apply (Hn e k). now right. }
    destruct p as [e k|g k|f k|P k|k]; try (apply NL; [discriminate | exact H]). clear NL.
    destruct (perturb_sensor_locations (LocErr e k) (get_buf h b)) as [l|x] eqn:EP; cbn [bind].
    + cbn [new_buf] in H. pose proof (new_buf_wf h l W) as W1. pose proof (new_buf_frame h l) as F1. cbn [new_buf fst] in W1, F1.
      set (h1 := Heap (h_bufs h ++ [l]) (h_dicts h) (h_objs h)) in *.
      assert (Hb1 : List.length (h_bufs h) < List.length (h_bufs h1)) by (simpl; rewrite app_length; simpl; lia).
      destruct (IH h1 _ r h' W1 Hb1 H) as (A1 & A2 & A3 & A4). split; [exact A1|]. split; [eapply frame_trans; eassumption|]. split; [exact A3|].
      assert (EB : get_buf h1 (List.length (h_bufs h)) = l) by (unfold get_buf; simpl; rewrite app_nth2, Nat.sub_diag by lia; reflexivity).
      rewrite EB in A4. destruct r as [b'|x]; [|exact A4]. destruct A4 as (B1 & B2 & B3 & B4). split; [exact B1|]. split; [exact B2|].
      split; [|intros Hn; exfalso; apply (Hn e k); now left]. intros _.
      assert (D : (forall e' k', ~ In (LocErr e' k') ps) \/ exists e' k', In (LocErr e' k') ps).
      { clear. induction ps as [|q ps IH]; [left; auto|]. destruct IH as [IH|(e' & k' & IH)]; [|right; exists e', k'; now right].
        destruct q; try (left; intros e' k' [X|X]; [discriminate | exact (IH _ _ X)]). right. eexists _, _. left. reflexivity. }
      destruct D as [D|D]; [rewrite (B4 D); lia | specialize (B3 D); lia].
    + injection H as <- <-. split; [exact W|]. split; [apply frame_refl|]. split; reflexivity.
Qed.

(** every action except a write preserves all that existed *)
Lemma step_frame h a r h' : wf_heap h -> step h a = (r, h') -> (forall b i j x, a <> AWrite b i j x) -> wf_heap h' /\ frame h h'.
Proof.
  intros W H N. destruct a as [b idx name ps e|n nm|n ps nm|n|n|n|l|b i j x]; cbn [step] in H.
  - destruct (negb (Nat.ltb b (List.length (h_bufs h))) || _)%bool eqn:C; [injection H as <- <-; split; [exact W | apply frame_refl]|].
    apply orb_false_iff in C as (C1 & C2). apply negb_false_iff, Nat.ltb_lt in C1. apply negb_false_iff in C2.
    cbn [new_obj new_dict h_bufs h_dicts h_objs] in H.
    destruct (h_add _ _ ps true) as (q, h3) eqn:E. apply create_frame in E; cbn [o_loc o_idx o_dict]; auto; try (rewrite ?app_length; simpl; lia).
    + destruct q; injection H as <- <-; split; apply E.
    + intros i ->. now apply Nat.ltb_lt.
    + intros d Hd. now rewrite app_nth1.
  - destruct (nth_error (h_objs h) n) as [o|] eqn:E; [|injection H as <- <-; split; [exact W | apply frame_refl]].
    unfold h_free_copy, new_obj, new_dict, set_obj in H. cbn [h_bufs h_dicts h_objs] in H. rewrite set_nth_app_last in H. injection H as <- <-.
    set (o' := AObj _ _ _ _ _).
    destruct (create_frame h o' (h_dicts h ++ [[]]) (List.length (h_objs h)) [] true (Ok tt) (Heap (h_bufs h) (h_dicts h ++ [[]]) (h_objs h ++ [o']))) as (A1 & A2 & _); auto; cbn [o_loc o_idx o_dict o'].
    + apply (wh_loc h W). now apply nth_error_In in E.
    + intros i Hi. apply (wh_idx h W o i); [now apply nth_error_In in E | exact Hi].
    + rewrite app_length. simpl. lia.
    + intros d Hd. now rewrite app_nth1.
  - destruct (nth_error (h_objs h) n) as [o|] eqn:E; [|injection H as <- <-; split; [exact W | apply frame_refl]].
    unfold h_free_copy, new_obj, new_dict, set_obj in H. cbn [h_bufs h_dicts h_objs] in H. rewrite !set_nth_app_last in H.
    destruct (h_add _ _ ps false) as (q, h3) eqn:EA. apply create_frame in EA; cbn [o_loc o_idx o_dict]; auto.
    + destruct q; injection H as <- <-; split; apply EA.
    + apply (wh_loc h W). now apply nth_error_In in E.
    + intros i Hi. apply (wh_idx h W o i); [now apply nth_error_In in E | exact Hi].
    + rewrite !app_length. simpl. lia.
    + rewrite app_length. simpl. lia.
    + intros d Hd. rewrite !app_nth1 by (rewrite ?app_length; simpl; lia). reflexivity.
  - destruct (nth_error (h_objs h) n) as [o|] eqn:E; injection H as <- <-; [|split; [exact W | apply frame_refl]].
    split; [apply (new_buf_wf h _ W) | apply new_buf_frame].
  - destruct (nth_error (h_objs h) n) as [o|] eqn:E; [|injection H as <- <-; split; [exact W | apply frame_refl]].
    destruct (h_actual h (o_loc o) _) as (q, h3) eqn:EA. apply h_actual_frame in EA; [|exact W | apply (wh_loc h W); now apply nth_error_In in E].
    destruct q; injection H as <- <-; split; apply EA.
  - destruct (nth_error (h_objs h) n) as [o|] eqn:E; [|injection H as <- <-; split; [exact W | apply frame_refl]].
    destruct (o_idx o); injection H as <- <-; [split; [apply (new_buf_wf h _ W) | apply new_buf_frame] | split; [exact W | apply frame_refl]].
  - injection H as <- <-. split; [apply (new_buf_wf h _ W) | apply new_buf_frame].
  - now destruct (N b i j x).
Qed.
Lemma write_wf h b i j x : wf_heap h -> wf_heap (snd (step h (AWrite b i j x))).
Proof. intros [W1 W2 W3 W4]. constructor; simpl; auto; intros; rewrite set_nth_length; eauto. Qed.
Lemma write_obs h b i j x n o : nth_error (h_objs h) n = Some o -> b <> o_loc o -> obs (snd (step h (AWrite b i j x))) n = obs h n.
Proof.
  intros E N. unfold obs. simpl. rewrite E. simpl. f_equal. unfold obs_of. f_equal. unfold get_buf. simpl. rewrite nth_set_nth.
  destruct (Nat.eqb_spec (o_loc o) b); [congruence | reflexivity].
Qed.
Lemma write_idx h b i j x n o : nth_error (h_objs h) n = Some o -> o_idx o <> Some b -> obs_indices (snd (step h (AWrite b i j x))) n = obs_indices h n.
Proof.
  intros E N. unfold obs_indices. simpl. rewrite E. destruct (o_idx o) as [q|]; [|reflexivity]. simpl. f_equal. unfold get_buf. simpl. rewrite nth_set_nth.
  destruct (Nat.eqb_spec q b); [congruence | reflexivity].
Qed.
Lemma action_write_dec a : (exists b i j x, a = AWrite b i j x) \/ (forall b i j x, a <> AWrite b i j x).
Proof. destruct a; try (right; discriminate). left. eauto. Qed.
(** what survives any run that does not write into the location array of the object *)
Lemma run_obs acts : forall h n o a, wf_heap h -> nth_error (h_objs h) n = Some o -> obs h n = Some a ->
  (forall b, b = o_loc o -> ~ writes_to acts b) -> obs (snd (run h acts)) n = Some a.
Proof.
  induction acts as [|c acts IH]; intros h n o a W E O Hw; [exact O|]. cbn [run]. destruct (step h c) as (r, h1) eqn:S. destruct (run h1 acts) as (rs, h2) eqn:Rn. simpl.
  assert (Hw' : forall b, b = o_loc o -> ~ writes_to acts b) by (intros b Hb (i & j & x & Hi); apply (Hw b Hb); exists i, j, x; now right).
  assert (G : wf_heap h1 /\ nth_error (h_objs h1) n = Some o /\ obs h1 n = Some a).
  { destruct (action_write_dec c) as [(b & i & j & x & ->)|N].
    - pose proof (write_wf h b i j x W) as W1. pose proof (write_obs h b i j x n o E) as W2. rewrite S in W1, W2. simpl in W1, W2.
      split; [exact W1|]. split; [cbn [step] in S; injection S as <- <-; exact E|]. rewrite W2; [exact O|]. intros Hb. apply (Hw b Hb). exists i, j, x. now left.
    - destruct (step_frame h c r h1 W S N) as (W1 & F). split; [exact W1|]. split; [exact (fr_objs _ _ F n o E) | exact (frame_obs h h1 n a W F O)]. }
  destruct G as (W1 & E1 & O1). specialize (IH h1 n o a W1 E1 O1 Hw'). rewrite Rn in IH. exact IH.
Qed.
Lemma run_wf acts : forall h, wf_heap h -> wf_heap (snd (run h acts)).
Proof.
  induction acts as [|c acts IH]; intros h W; [exact W|]. cbn [run]. destruct (step h c) as (r, h1) eqn:S. destruct (run h1 acts) as (rs, h2) eqn:Rn. simpl.
  assert (W1 : wf_heap h1).
  { destruct (action_write_dec c) as [(b & i & j & x & ->)|N]; [pose proof (write_wf h b i j x W) as H; rewrite S in H; exact H | exact (proj1 (step_frame h c r h1 W S N))]. }
  specialize (IH h1 W1). rewrite Rn in IH. exact IH.
Qed.
(** what a copy reports *)
Lemma perturbed_copy_obs h n a ps nm r h' : wf_heap h -> obs h n = Some a -> step h (APerturbedCopy n ps nm) = (r, h') ->
  match get_perturbed_copy a (PList ps) nm with
  | Ok b => exists n', r = RObj n' /\ n' <> n /\ obs h' n' = Some b
  | Raise e => r = RErr e
  end.
Proof.
  intros W O S. unfold obs in O. cbn [step] in S. destruct (nth_error (h_objs h) n) as [o|] eqn:E; [|discriminate]. simpl in O. injection O as <-.
  unfold h_free_copy, new_obj, new_dict, set_obj in S. cbn [h_bufs h_dicts h_objs] in S. rewrite !set_nth_app_last in S.
  pose proof (wh_dict h W o (nth_error_In _ _ E)) as HD.
  unfold get_dict in S. cbn [h_dicts] in S. rewrite app_nth1 in S by exact HD.
  destruct (h_add _ _ ps false) as (q, h3) eqn:EA. pose proof EA as EA'. apply create_frame in EA; cbn [o_loc o_idx o_dict]; auto.
  - destruct EA as (A1 & A2 & A3 & A4 & A5). unfold get_perturbed_copy, get_perturbation_free_copy, set_perts. cbn [parse_input_perturbations bind ar_loc ar_name ar_elem ar_perts obs_of].
    match type of A5 with match q with Ok _ => ?L _ _ = _ | Raise e => _ end => idtac | _ => idtac end.
    set (o' := AObj _ _ _ _ _) in *.
    assert (EO : obs_of (Heap (h_bufs h) ((h_dicts h ++ [[]]) ++ [nth (o_dict o) (h_dicts h) []]) (h_objs h ++ [o'])) o'
       = Array (get_buf h (o_loc o)) (match nm with None => o_name o | Some s => s end) (o_elem o) (get_dict h (o_dict o))).
    { unfold obs_of, o'. simpl. f_equal. unfold get_dict. simpl. rewrite app_nth2 by lia. rewrite Nat.sub_diag. reflexivity. }
    rewrite EO in A5. destruct q as [[]|e]; rewrite A5; injection S as <- <-; [|reflexivity].
    eexists. split; [reflexivity|]. split; [assert (n < List.length (h_objs h)) by (apply nth_error_Some; congruence); lia|].
    unfold obs. rewrite A3, nth_error_app2, Nat.sub_diag by lia. reflexivity.
  - apply (wh_loc h W). now apply nth_error_In in E.
  - intros i Hi. apply (wh_idx h W o i); [now apply nth_error_In in E | exact Hi].
  - rewrite !app_length. simpl. lia.
  - rewrite app_length. simpl. lia.
  - intros d Hd. rewrite !app_nth1 by (rewrite ?app_length; simpl; lia). reflexivity.
Qed.
Lemma free_copy_obs h n a nm r h' : wf_heap h -> obs h n = Some a -> step h (AFreeCopy n nm) = (r, h') ->
  exists n', r = RObj n' /\ n' <> n /\ obs h' n' = Some (get_perturbation_free_copy a nm).
Proof.
  intros W O S. unfold obs in O. cbn [step] in S. destruct (nth_error (h_objs h) n) as [o|] eqn:E; [|discriminate]. simpl in O. injection O as <-.
  unfold h_free_copy, new_obj, new_dict, set_obj in S. cbn [h_bufs h_dicts h_objs] in S. rewrite set_nth_app_last in S. injection S as <- <-.
  eexists. split; [reflexivity|]. split; [assert (n < List.length (h_objs h)) by (apply nth_error_Some; congruence); lia|].
  unfold obs. simpl. rewrite nth_error_app2, Nat.sub_diag by lia. simpl. f_equal. unfold obs_of, get_perturbation_free_copy. simpl. f_equal.
  unfold get_dict. simpl. now rewrite app_nth2, Nat.sub_diag by lia.
Qed.
Lemma reads_obs h n a r h' : wf_heap h -> obs h n = Some a ->
  (step h (AReadLocations n) = (r, h') -> exists b, r = RBuf b /\ get_buf h' b = ar_loc a) /\
  (step h (AReadActual n) = (r, h') -> match actual_element_locations a with Ok l => exists b, r = RBuf b /\ get_buf h' b = l | Raise e => r = RErr e end).
Proof.
  intros W O. unfold obs in O. cbn [step]. destruct (nth_error (h_objs h) n) as [o|] eqn:E; [|discriminate]. simpl in O. injection O as <-.
  split; intros S.
  - cbn [new_buf] in S. injection S as <- <-. eexists. split; [reflexivity|]. unfold get_buf at 1. simpl. now rewrite app_nth2, Nat.sub_diag by lia.
  - destruct (h_actual h (o_loc o) _) as (q, h3) eqn:EA. apply h_actual_frame in EA; [|exact W | apply (wh_loc h W); now apply nth_error_In in E].
    destruct EA as (_ & _ & _ & A). unfold actual_element_locations, perturbations. cbn [obs_of ar_perts ar_loc].
    destruct q as [b|e]; injection S as <- <-.
    + destruct A as (_ & A & _). rewrite A. eauto.
    + rewrite A. reflexivity.
Qed.
(** disciplined programs *)
Lemma step_objs h a r h' : step h a = (r, h') -> wf_heap h ->
  forall o, In o (h_objs h') -> In o (h_objs h) \/
    match a with
    | ANew b i _ _ _ => o_loc o = b /\ o_idx o = i
    | AFreeCopy n _ | APerturbedCopy n _ _ => exists p, In p (h_objs h) /\ o_loc o = o_loc p /\ o_idx o = o_idx p
    | _ => False
    end.
Proof.
  intros H W q Hq. destruct a as [b idx name ps e|n nm|n ps nm|n|n|n|l|b i j x]; cbn [step] in H.
  - destruct (negb (Nat.ltb b (List.length (h_bufs h))) || _)%bool eqn:C; [injection H as <- <-; now left|].
    apply orb_false_iff in C as (C1 & C2). apply negb_false_iff, Nat.ltb_lt in C1. apply negb_false_iff in C2.
    cbn [new_obj new_dict h_bufs h_dicts h_objs] in H.
    destruct (h_add _ _ ps true) as (q', h3) eqn:E. apply create_frame in E; cbn [o_loc o_idx o_dict]; auto; try (rewrite ?app_length; simpl; lia).
    + destruct E as (_ & _ & EO & _). assert (h' = h3) by (destruct q'; congruence). subst h'. rewrite EO in Hq. apply in_app_iff in Hq as [?|[<-|[]]]; [now left | right; split; reflexivity].
    + intros i ->. now apply Nat.ltb_lt.
    + intros d Hd. now rewrite app_nth1.
  - destruct (nth_error (h_objs h) n) as [o|] eqn:E; [|injection H as <- <-; now left].
    unfold h_free_copy, new_obj, new_dict, set_obj in H. cbn [h_bufs h_dicts h_objs] in H. rewrite set_nth_app_last in H. injection H as <- <-. simpl in Hq.
    apply in_app_iff in Hq as [?|[<-|[]]]; [now left | right; exists o; split; [now apply nth_error_In in E | split; reflexivity]].
  - destruct (nth_error (h_objs h) n) as [o|] eqn:E; [|injection H as <- <-; now left].
    unfold h_free_copy, new_obj, new_dict, set_obj in H. cbn [h_bufs h_dicts h_objs] in H. rewrite !set_nth_app_last in H.
    destruct (h_add _ _ ps false) as (q', h3) eqn:EA. apply create_frame in EA; cbn [o_loc o_idx o_dict]; auto.
    + destruct EA as (_ & _ & EO & _). assert (h' = h3) by (destruct q'; congruence). subst h'. rewrite EO in Hq.
      apply in_app_iff in Hq as [?|[<-|[]]]; [now left | right; exists o; split; [now apply nth_error_In in E | split; reflexivity]].
    + apply (wh_loc h W). now apply nth_error_In in E.
    + intros i Hi. apply (wh_idx h W o i); [now apply nth_error_In in E | exact Hi].
    + rewrite !app_length. simpl. lia.
    + rewrite app_length. simpl. lia.
    + intros d Hd. rewrite !app_nth1 by (rewrite ?app_length; simpl; lia). reflexivity.
  - left. destruct (nth_error (h_objs h) n) as [o|]; injection H as <- <-; exact Hq.
  - left. destruct (nth_error (h_objs h) n) as [o|] eqn:E; [|injection H as <- <-; exact Hq].
    destruct (h_actual h (o_loc o) _) as (q', h3) eqn:EA. apply h_actual_frame in EA; [|exact W | apply (wh_loc h W); now apply nth_error_In in E].
    destruct EA as (_ & _ & EO & _). assert (h' = h3) by (destruct q'; congruence). subst h'. now rewrite EO in Hq.
  - left. destruct (nth_error (h_objs h) n) as [o|]; [destruct (o_idx o)|]; injection H as <- <-; exact Hq.
  - left. injection H as <- <-. exact Hq.
  - left. injection H as <- <-. exact Hq.
Qed.
Lemma reads_writes_safe acts : forall h got, wf_heap h -> private h got -> reads_and_writes h got acts ->
  forall n a, obs h n = Some a -> obs (snd (run h acts)) n = Some a /\ obs_indices (snd (run h acts)) n = obs_indices h n.
Proof.
  induction acts as [|c acts IH]; intros h got W P D n a O; [auto|]. cbn [run]. cbn [reads_and_writes] in D. destruct D as (D1 & D2).
  destruct (step h c) as (r, h1) eqn:S. destruct (run h1 acts) as (rs, h2) eqn:Rn. cbn [snd fst] in *.
  assert (EX : exists o, nth_error (h_objs h) n = Some o) by (unfold obs in O; destruct (nth_error (h_objs h) n); [eauto | discriminate]).
  destruct EX as (o & E).
  assert (G : wf_heap h1 /\ obs h1 n = Some a /\ obs_indices h1 n = obs_indices h n /\ List.length (h_bufs h) <= List.length (h_bufs h1)).
  { destruct (action_write_dec c) as [(b & i & j & x & ->)|N].
    - pose proof (write_wf h b i j x W) as W1. pose proof (write_obs h b i j x n o E) as W2. pose proof (write_idx h b i j x n o E) as W3. rewrite S in W1, W2, W3. simpl in W1, W2, W3.
      destruct (proj2 P b o D1 (nth_error_In _ _ E)) as (N1 & N2). split; [exact W1|]. split; [rewrite W2; [exact O | congruence]|]. split; [apply W3; exact N2|].
      cbn [step] in S. injection S as <- <-. simpl. rewrite set_nth_length. lia.
    - destruct (step_frame h c r h1 W S N) as (W1 & F). split; [exact W1|]. split; [exact (frame_obs h h1 n a W F O)|]. split; [|exact (fr_nbufs _ _ F)].
      apply (frame_idx h h1 n _ W F); [congruence | reflexivity]. }
  destruct G as (W1 & O1 & I1 & LB).
  assert (OLD : forall b, In b got -> b < List.length (h_bufs h1) /\ forall q, In q (h_objs h1) -> o_loc q <> b /\ o_idx q <> Some b).
  { intros b Hb. split; [pose proof (proj1 P b Hb); lia|]. intros q Hq. destruct (step_objs h c r h1 S W q Hq) as [Hq'|Hc]; [exact (proj2 P b q Hb Hq')|].
    destruct c; try contradiction.
    - destruct Hc as (-> & ->). destruct D1 as (D1 & D3). split; [intros ->; contradiction | intros Hi; exact (D3 b Hi Hb)].
    - destruct Hc as (p & Hp & -> & ->). exact (proj2 P b p Hb Hp).
    - destruct Hc as (p & Hp & -> & ->). exact (proj2 P b p Hb Hp). }
  assert (PRIV : private h1 (received c r got)).
  { assert (P0 : private h1 got) by (split; intros; now apply OLD).
    assert (NEW : forall b, List.length (h_bufs h) <= b -> b < List.length (h_bufs h1) -> (forall q, In q (h_objs h1) -> In q (h_objs h)) -> private h1 (b :: got)).
    { intros b H1 H2 H3. split.
      - intros b' [<-|Hb]; [exact H2 | now apply OLD].
      - intros b' q [<-|Hb] Hq; [|now apply OLD]. apply H3 in Hq. split; [pose proof (wh_loc h W q Hq); lia|]. intros Hi. pose proof (wh_idx h W q _ Hq Hi). lia. }
    destruct c as [b idx name ps e|m nm|m ps nm|m|m|m|l|b i j x]; try exact P0; destruct r as [|m'|b'|x']; try exact P0; cbn [step] in S.
    - destruct (nth_error (h_objs h) m); [|discriminate]. cbn [new_buf] in S. injection S as <- <-. apply NEW; simpl; [lia | rewrite app_length; simpl; lia | auto].
    - destruct (nth_error (h_objs h) m) as [om|] eqn:Em; [|discriminate]. destruct (h_actual h (o_loc om) _) as (q', h3) eqn:EA.
      apply h_actual_frame in EA; [|exact W | apply (wh_loc h W); now apply nth_error_In in Em]. destruct EA as (_ & _ & EO & A).
      destruct q' as [bb|]; [|discriminate]. injection S as <- <-. destruct A as (A1 & _ & A2 & _). apply NEW; [apply A2 | exact A1 | rewrite EO; auto].
      destruct D1 as (am & e & k & Om & Hk). unfold obs in Om. rewrite Em in Om. injection Om as <-. exists e, k. exact Hk.
    - destruct (nth_error (h_objs h) m) as [om|] eqn:Em; [|discriminate]. destruct (o_idx om); [|discriminate]. cbn [new_buf] in S. injection S as <- <-.
      apply NEW; simpl; [lia | rewrite app_length; simpl; lia | auto]. }
  destruct (IH h1 _ W1 PRIV D2 n a O1) as (R1 & R2). rewrite Rn in R1, R2. simpl in R1, R2. split; [exact R1 | congruence].
Qed.
