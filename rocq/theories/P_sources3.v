From Coq Require Import Lra Sorting.Sorted Sorting.Permutation.
From Verif Require Import Base_Np Base_Trig M_utils S_utils P_utils M_sources S_sources P_sources P_sources2.
Open Scope R_scope.

Lemma cos_one_zero x : cos x = 1 -> sin x = 0 -> - (2 * PI) < x < 2 * PI -> x = 0.
Proof.
  intros HC HS B. pose proof PI_RGT_0. apply sin_eq_0_0 in HS as (k & ->).
  assert (K : (-2 < k < 2)%Z).
  { split; apply lt_IZR; simpl; nra. }
  assert (k = -1 \/ k = 0 \/ k = 1)%Z as [-> | [-> | ->]] by lia; [exfalso| simpl; ring | exfalso].
  - replace (IZR (-1) * PI) with (- PI) in HC by (simpl; ring). rewrite cos_neg, cos_PI in HC. lra.
  - rewrite Rmult_1_l, cos_PI in HC. lra.
Qed.
Lemma atan2_polar rho t : 0 < rho -> - PI < t <= PI -> atan2 (rho * sin t) (rho * cos t) = t.
Proof.
  intros Hr Ht. pose proof (atan2_cos (rho * sin t) (rho * cos t)) as HC. pose proof (atan2_sin (rho * sin t) (rho * cos t)) as HS.
  assert (E : sqrt (rho * cos t * (rho * cos t) + rho * sin t * (rho * sin t)) = rho).
  { replace (rho * cos t * (rho * cos t) + rho * sin t * (rho * sin t)) with (rho * rho * (Rsqr (sin t) + Rsqr (cos t))) by (unfold Rsqr; ring).
    rewrite sin2_cos2, Rmult_1_r. apply sqrt_square. lra. }
  rewrite E in *. pose proof (atan2_range (rho * sin t) (rho * cos t)) as B.
  apply Rmult_eq_reg_l in HC; [|lra]. apply Rmult_eq_reg_l in HS; [|lra].
  set (p := atan2 (rho * sin t) (rho * cos t)) in *.
  assert (p - t = 0); [|lra]. apply cos_one_zero.
  - rewrite cos_minus, HC, HS. pose proof (sin2_cos2 t). unfold Rsqr in *. lra.
  - rewrite sin_minus, HC, HS. lra.
  - lra.
Qed.
(** the phase of a complex number *)
Lemma Rleb_true x y : Rleb x y = true <-> x <= y.
Proof. unfold Rleb. destruct (Rle_dec x y); split; intros; try reflexivity; try discriminate; try contradiction; assumption. Qed.
Lemma sort_R_ascending l : ascending (sort_by Rleb l).
Proof.
  unfold ascending. assert (H : StronglySorted (fun x y => Rleb x y = true) (sort_by Rleb l)).
  { apply sort_by_sorted.
    - intros a b H. apply Rleb_true. unfold Rleb in H. destruct (Rle_dec a b); [discriminate|lra].
    - intros a b c H1 H2. apply (proj1 (Rleb_true _ _)) in H1, H2. apply Rleb_true. lra. }
  induction H as [|a q H IH F]; constructor; [exact IH|]. eapply Forall_impl; [|exact F]. intros b Hb. now apply Rleb_true.
Qed.
Lemma ascending_map f l : (forall x y, x <= y -> f x <= f y) -> ascending l -> ascending (map f l).
Proof.
  intros M H. induction H as [|a q H IH F]; simpl; constructor; [exact IH|]. apply Forall_map. eapply Forall_impl; [|exact F]. simpl. auto.
Qed.
Lemma sort_some l : sort_by oleb (map Some l) = map Some (sort_by Rleb l).
Proof.
  unfold sort_by. induction l as [|a l IH]; simpl; [reflexivity|]. rewrite IH. generalize (fold_right (ins_by Rleb) [] l). intros q.
  induction q as [|b q IHq]; simpl; [reflexivity|]. destruct (Rleb a b); simpl; [reflexivity | now rewrite IHq].
Qed.
Definition in_range1 (s : R) : Prop := -1 <= s <= 1.
Lemma arcsin_some l : Forall in_range1 l -> map np_arcsin l = map Some (map asin l).
Proof.
  intros H. rewrite map_map. apply map_ext_in. intros x Hx. rewrite Forall_forall in H. specialize (H x Hx). unfold np_arcsin.
  replace (Rleb (Rabs x) 1) with true; [reflexivity|]. symmetry. apply Rleb_true. apply Rabs_le. unfold in_range1 in H. lra.
Qed.
Lemma nan_ok l u : known_unit u -> Forall (valid_angle u) l -> mk_FF1_nan (map Some l) u = Ok (map Some l, u).
Proof.
  intros K V. unfold mk_FF1_nan. destruct (dget String.eqb VALID_RANGES_1D u) as [(lb, ub)|] eqn:E.
  - pose proof (proj2 (mk_FF1_ok (vec1 l) u (FF1 l u)) (conj (le_n 1) (conj K (conj V eq_refl)))) as H.
    unfold mk_FF1 in H. rewrite E in H. cbn [vec1 nd_ndim nd_shape nd_data List.length Nat.ltb Nat.leb] in H.
    destruct (existsb _ l || existsb _ l)%bool eqn:X in H; [discriminate|]. apply orb_false_iff in X as (X1 & X2).
    replace (existsb _ (map Some l)) with false; [reflexivity|]. symmetry. apply existsb_false_iff. intros o Ho. apply in_map_iff in Ho as (x & <- & Hx).
    apply orb_false_iff. split; [exact (proj1 (existsb_false_iff _ _) X1 x Hx) | exact (proj1 (existsb_false_iff _ _) X2 x Hx)].
  - exfalso. exact (proj1 (range_1d_none u) E K).
Qed.
(** all sines in range: the sorted list of the angles *)
Lemma from_z_sines z lam d0 u : known_unit u -> lam <> 0 -> d0 <> 0 ->
  Forall in_range1 (map (fun w : C => atan2 (Im w) (Re w) / (2 * PI * d0 / lam)) z) ->
  exists l, from_z z lam d0 u = Ok (map Some l, u) /\ ascending l /\ Forall (valid_angle u) l /\
    Permutation l (map (fun w : C => of_rad u (asin (atan2 (Im w) (Re w) / (2 * PI * d0 / lam)))) z).
Proof.
  intros K N1 N2 HR. pose proof PI_RGT_0 as HP. unfold from_z. rewrite (Reqb_neq _ _ N1), (Reqb_neq _ _ N2). set (s := map (fun w : C => _) z) in *.
  assert (PZ : forall (g : R -> R), map (fun w : C => g (atan2 (Im w) (Re w) / (2 * PI * d0 / lam))) z = map g s) by (intros; unfold s; now rewrite map_map).
  rewrite (PZ (fun x => of_rad u (asin x))).
  assert (VA : Forall (fun x => - (PI / 2) <= x <= PI / 2) (sort_by Rleb (map asin s))).
  { eapply Permutation_Forall; [symmetry; apply sort_by_perm|]. apply Forall_map. eapply Forall_impl; [|exact HR]. intros x Hx. simpl. apply asin_bound. }
  destruct K as [ -> | [ -> | -> ]]; cbn [String.eqb Ascii.eqb Bool.eqb].
  - rewrite arcsin_some, sort_some by exact HR. exists (sort_by Rleb (map asin s)).
    assert (V : Forall (valid_angle "rad") (sort_by Rleb (map asin s))) by (eapply Forall_impl; [|exact VA]; intros x Hx; left; auto).
    split; [apply nan_ok; [left; reflexivity | exact V]|]. split; [apply sort_R_ascending|]. split; [exact V|]. apply sort_by_perm.
  - rewrite arcsin_some, sort_some by exact HR. rewrite map_map. rewrite <- (map_map rad2deg Some). exists (map rad2deg (sort_by Rleb (map asin s))).
    assert (V : Forall (valid_angle "deg") (map rad2deg (sort_by Rleb (map asin s)))).
    { apply Forall_map. eapply Forall_impl; [|exact VA]. intros x Hx. right; left. split; [reflexivity|]. unfold rad2deg.
      assert (E : x * (180 / PI) * PI = x * 180) by (field; lra). split; apply (Rmult_le_reg_r PI); try lra; rewrite ?E; lra. }
    split; [apply nan_ok; [right; left; reflexivity | exact V]|].
    split; [apply ascending_map; [|apply sort_R_ascending]; intros x y Hxy; unfold rad2deg; apply Rmult_le_compat_r; [|exact Hxy]; left; apply Rdiv_lt_0_compat; lra|].
    split; [exact V|]. rewrite <- (map_map asin). cbn [of_rad String.eqb Ascii.eqb Bool.eqb].
    replace (map (fun x => of_rad "deg" x) (map asin s)) with (map rad2deg (map asin s)) by reflexivity. apply Permutation_map, sort_by_perm.
  - exists (sort_by Rleb s).
    assert (V : Forall (valid_angle "sin") (sort_by Rleb s)).
    { eapply Permutation_Forall; [symmetry; apply sort_by_perm|]. eapply Forall_impl; [|exact HR]. intros x Hx. right; right. split; [reflexivity | exact Hx]. }
    split; [apply nan_ok; [right; right; reflexivity | exact V]|]. split; [apply sort_R_ascending|]. split; [exact V|].
    eapply Permutation_trans; [apply sort_by_perm|]. replace (map (fun x => of_rad "sin" (asin x)) s) with s; [reflexivity|].
    symmetry. rewrite <- (map_id s) at 2. apply map_ext_in. intros x Hx. rewrite Forall_forall in HR. unfold of_rad. cbn. apply sin_asin. exact (HR x Hx).
Qed.
(** sorting options: the numbers in order, NaN last *)
Definition somes {A} (L : list (option A)) : list A := flat_map (fun o => match o with Some x => [x] | None => [] end) L.
Definition nones {A} (L : list (option A)) : nat := List.length (filter (fun o : option A => match o with None => true | _ => false end) L).
Lemma sort_oleb L : sort_by oleb L = map Some (sort_by Rleb (somes L)) ++ repeat None (nones L).
Proof.
  unfold sort_by. induction L as [|a L IH]; [reflexivity|]. cbn [fold_right]. rewrite IH. destruct a as [x|].
  - change (somes (Some x :: L)) with (x :: somes L). change (nones (Some x :: L)) with (nones L). cbn [fold_right]. generalize (fold_right (ins_by Rleb) [] (somes L)). intros q.
    induction q as [|b q IHq]; cbn [map app ins_by]; [destruct (nones L); reflexivity|]. cbn [oleb]. destruct (Rleb x b); cbn [map app]; [reflexivity | now rewrite IHq].
  - change (somes (None :: L)) with (somes L). change (nones (None :: L)) with (Datatypes.S (nones L)). generalize (fold_right (ins_by Rleb) [] (somes L)). intros q.
    induction q as [|b q IHq]; cbn [map app ins_by]; [destruct (nones L); reflexivity|]. cbn [oleb]. now rewrite IHq.
Qed.
Lemma somes_arcsin l : somes (map np_arcsin l) = map asin (filter (fun s => Rleb (Rabs s) 1) l).
Proof. induction l as [|a l IH]; [reflexivity|]. cbn [map filter]. unfold np_arcsin at 1. destruct (Rleb (Rabs a) 1); cbn [map]; [change (asin a :: somes (map np_arcsin l) = asin a :: map asin (filter (fun s => Rleb (Rabs s) 1) l)); now rewrite IH | exact IH]. Qed.
Lemma nones_arcsin l : nones (map np_arcsin l) = List.length (filter (fun s => negb (Rleb (Rabs s) 1)) l).
Proof. unfold nones. induction l as [|a l IH]; [reflexivity|]. cbn [map filter]. unfold np_arcsin at 1. destruct (Rleb (Rabs a) 1); cbn [negb List.length]; [exact IH | now rewrite IH]. Qed.
Lemma nan_ok_none l q u : known_unit u -> Forall (valid_angle u) l -> mk_FF1_nan (map Some l ++ repeat None q) u = Ok (map Some l ++ repeat None q, u).
Proof.
  intros K V. pose proof (nan_ok l u K V) as H. unfold mk_FF1_nan in *. destruct (dget String.eqb VALID_RANGES_1D u) as [(lb, ub)|]; [|discriminate]. rewrite existsb_app.
  destruct (existsb _ (map Some l)); [discriminate|]. cbn [orb]. replace (existsb _ (repeat None q)) with false; [reflexivity|]. induction q; [reflexivity | assumption].
Qed.
Lemma map_repeat_none {A B} (f : A -> B) n : map (option_map f) (repeat None n) = repeat None n.
Proof. induction n as [|n IH]; [reflexivity | cbn; now rewrite IH]. Qed.
Lemma from_z_general z lam d0 u : u = "rad"%string \/ u = "deg"%string -> lam <> 0 -> d0 <> 0 ->
  let sines := map (fun w : C => atan2 (Im w) (Re w) / (2 * PI * d0 / lam)) z in
  exists l q, from_z z lam d0 u = Ok (map Some l ++ repeat None q, u) /\ ascending l /\ Forall (valid_angle u) l /\
    Permutation l (map (fun s => of_rad u (asin s)) (filter (fun s => Rleb (Rabs s) 1) sines)) /\ q = List.length (filter (fun s => negb (Rleb (Rabs s) 1)) sines).
Proof.
  intros U N1 N2 s. pose proof PI_RGT_0 as HP. unfold from_z. rewrite (Reqb_neq _ _ N1), (Reqb_neq _ _ N2). fold s.
  set (f := filter (fun s => Rleb (Rabs s) 1) s).
  assert (VA : Forall (fun x => - (PI / 2) <= x <= PI / 2) (sort_by Rleb (map asin f))).
  { eapply Permutation_Forall; [symmetry; apply sort_by_perm|]. apply Forall_map, Forall_forall. intros x _. apply asin_bound. }
  destruct U as [ -> | -> ]; cbn [String.eqb Ascii.eqb Bool.eqb]; rewrite sort_oleb, somes_arcsin, nones_arcsin; fold f.
  - exists (sort_by Rleb (map asin f)), (List.length (filter (fun s => negb (Rleb (Rabs s) 1)) s)).
    assert (V : Forall (valid_angle "rad") (sort_by Rleb (map asin f))) by (eapply Forall_impl; [|exact VA]; intros x Hx; left; auto).
    split; [apply nan_ok_none; [left; reflexivity | exact V]|]. split; [apply sort_R_ascending|]. split; [exact V|]. split; [apply sort_by_perm | reflexivity].
  - exists (map rad2deg (sort_by Rleb (map asin f))), (List.length (filter (fun s => negb (Rleb (Rabs s) 1)) s)). rewrite map_app, map_map, <- (map_map rad2deg Some).
    rewrite map_repeat_none.
    assert (V : Forall (valid_angle "deg") (map rad2deg (sort_by Rleb (map asin f)))).
    { apply Forall_map. eapply Forall_impl; [|exact VA]. intros x Hx. right; left. split; [reflexivity|]. unfold rad2deg.
      assert (E : x * (180 / PI) * PI = x * 180) by (field; lra). split; apply (Rmult_le_reg_r PI); try lra; rewrite ?E; lra. }
    split; [apply nan_ok_none; [right; left; reflexivity | exact V]|].
    split; [apply ascending_map; [|apply sort_R_ascending]; intros x y Hxy; unfold rad2deg; apply Rmult_le_compat_r; [|exact Hxy]; left; apply Rdiv_lt_0_compat; lra|].
    split; [exact V|]. split; [|reflexivity]. rewrite <- (map_map asin (of_rad "deg")).
    replace (map (of_rad "deg") (map asin f)) with (map rad2deg (map asin f)) by reflexivity. apply Permutation_map, sort_by_perm.
Qed.
Lemma spacing_range d0 lam p : 0 < lam -> lam <= 2 * d0 -> - PI <= p <= PI -> in_range1 (p / (2 * PI * d0 / lam)).
Proof.
  intros Hl Hd Hp. pose proof PI_RGT_0 as HP. assert (Hc : PI <= 2 * PI * d0 / lam).
  { apply (Rmult_le_reg_r lam); [exact Hl|]. replace (2 * PI * d0 / lam * lam) with (PI * (2 * d0)) by (field; lra). nra. }
  set (c := 2 * PI * d0 / lam) in *. unfold in_range1. assert (Q : p / c * c = p) by (field; lra). split; apply (Rmult_le_reg_r c); try lra; rewrite ?Q; lra.
Qed.
(** recovery of known directions *)
Lemma from_z_recovers ts lam d0 u (rho : R -> R) : known_unit u -> 0 < lam -> 0 < d0 -> (forall t, In t ts -> 0 < rho t) ->
  Forall (fun t => - (PI / 2) <= t <= PI / 2 /\ - PI < 2 * PI * d0 / lam * sin t <= PI) ts ->
  exists l, from_z (map (fun t => (RtoC (rho t) * cis (2 * PI * d0 / lam * sin t))%C) ts) lam d0 u = Ok (map Some l, u) /\
    ascending l /\ Permutation l (map (of_rad u) ts).
Proof.
  intros K Hl Hd Hr HT. pose proof PI_RGT_0 as HP. set (c := 2 * PI * d0 / lam) in *.
  assert (Hc : 0 < c) by (unfold c; apply Rdiv_lt_0_compat; nra).
  assert (E : forall g : R -> R, map (fun w : C => g (atan2 (Im w) (Re w) / c)) (map (fun t => (RtoC (rho t) * cis (c * sin t))%C) ts) = map (fun t => g (sin t)) ts).
  { intros g. rewrite map_map. apply map_ext_in. intros t Ht. f_equal. rewrite Forall_forall in HT. destruct (HT t Ht) as (_ & B).
    replace (Im (RtoC (rho t) * cis (c * sin t))%C) with (rho t * sin (c * sin t)) by (cbn; ring).
    replace (Re (RtoC (rho t) * cis (c * sin t))%C) with (rho t * cos (c * sin t)) by (cbn; ring).
    rewrite atan2_polar by auto. field. lra. }
  destruct (from_z_sines (map (fun t => (RtoC (rho t) * cis (c * sin t))%C) ts) lam d0 u K ltac:(lra) ltac:(lra)) as (l & H1 & H2 & _ & H3).
  - fold c. rewrite (E (fun x => x)). apply Forall_map, Forall_forall. intros t _. unfold in_range1. pose proof (SIN_bound t). lra.
  - exists l. split; [exact H1|]. split; [exact H2|]. eapply Permutation_trans; [exact H3|]. fold c. rewrite (E (fun x => of_rad u (asin x))).
    replace (map (fun t => of_rad u (asin (sin t))) ts) with (map (of_rad u) ts); [reflexivity|].
    apply map_ext_in. intros t Ht. rewrite Forall_forall in HT. rewrite asin_sin; [reflexivity|]. apply HT. exact Ht.
Qed.

(** *** indexing *)
Lemma nth_set_row {A} (h : list (list A)) addr q v b : nth b (set_row h addr q v) [] =
  if Nat.eqb b addr then map (fun rb => if Nat.eqb (fst rb) q then v else snd rb) (combine (seq 0 (List.length (nth b h []))) (nth b h [])) else nth b h [].
Proof.
  unfold set_row. assert (G : forall (h : list (list A)) s, nth b (map (fun ab => if Nat.eqb (fst ab) addr
                 then map (fun rb => if Nat.eqb (fst rb) q then v else snd rb) (combine (seq 0 (List.length (snd ab))) (snd ab)) else snd ab)
      (combine (seq s (List.length h)) h)) [] = if Nat.eqb (s + b) addr then map (fun rb => if Nat.eqb (fst rb) q then v else snd rb) (combine (seq 0 (List.length (nth b h []))) (nth b h [])) else nth b h []).
  { induction b as [|b IH]; intros h0 s; destruct h0 as [|r h0]; cbn [List.length seq combine map nth fst snd].
    - destruct (Nat.eqb _ _); reflexivity.
    - rewrite Nat.add_0_r. destruct (Nat.eqb s addr); reflexivity.
    - destruct (Nat.eqb _ _); reflexivity.
    - rewrite IH. replace (S s + b)%nat with (s + S b)%nat by lia. reflexivity. }
  exact (G h 0%nat).
Qed.
Lemma nth_set_row_row {A} (h : list (list A)) addr q v i :
  nth_error (nth addr (set_row h addr q v) []) i = if Nat.eqb i q then option_map (fun _ => v) (nth_error (nth addr h []) i) else nth_error (nth addr h []) i.
Proof.
  rewrite nth_set_row, Nat.eqb_refl. generalize (nth addr h []). intros l. rewrite nth_error_map.
  assert (G : forall (l : list A) s, nth_error (combine (seq s (List.length l)) l) i = option_map (fun r => ((s + i)%nat, r)) (nth_error l i)).
  { clear. induction i as [|i IH]; intros [|r l] s; simpl; auto. - now rewrite Nat.add_0_r. - rewrite IH. destruct (nth_error l i); simpl; [f_equal; f_equal; lia | reflexivity]. }
  rewrite G. destruct (nth_error l i) as [r|]; simpl; destruct (Nat.eqb i q); reflexivity.
Qed.
Lemma set_row_length {A} (h : list (list A)) addr q v : List.length (set_row h addr q v) = List.length h.
Proof. unfold set_row. rewrite map_length, combine_length, seq_length. lia. Qed.

Lemma norm_index_spec n i : norm_index n i = (if (- Z.of_nat n <=? i) && (i <? Z.of_nat n) then Some (Z.to_nat (if i <? 0 then i + Z.of_nat n else i)) else None)%Z.
Proof.
  unfold norm_index. destruct (Z.ltb_spec i 0).
  - destruct (Z.ltb_spec (Z.of_nat n + i) 0); destruct (Z.leb_spec (- Z.of_nat n) i); destruct (Z.ltb_spec i (Z.of_nat n)); simpl; try lia; [reflexivity|]. f_equal. f_equal. lia.
  - destruct (Z.ltb_spec i (Z.of_nat n)); destruct (Z.leb_spec (- Z.of_nat n) i); simpl; try lia; reflexivity.
Qed.
Lemma flat_map_nth {A} (rows : list A) (d : A) sel : (forall i, In i sel -> (i < List.length rows)%nat) ->
  flat_map (fun q => match nth_error rows q with Some r => [r] | None => [] end) sel = map (fun i => nth i rows d) sel.
Proof.
  induction sel as [|i sel IH]; intros H; simpl; [reflexivity|]. rewrite IH by (intros; apply H; now right).
  rewrite (nth_error_nth' rows d) by (apply H; now left). reflexivity.
Qed.
Lemma getitem_rows {A} (h : list (list A)) p k sel (d : A) : (forall i, k <> KInt i) -> key_rows (List.length (buf h p)) k = Ok sel ->
  (forall i, In i sel -> (i < List.length (buf h p))%nat) -> (p_addr p < List.length h)%nat ->
  exists q h', getitem h p k = Ok (IPlacement q, h') /\ p_class q = p_class p /\ p_units q = p_units p /\ p_addr q <> p_addr p /\ (p_addr q < List.length h')%nat /\ (List.length h <= List.length h')%nat /\ buf h' q = map (fun i => nth i (buf h p) d) sel /\ (forall b, (b < List.length h)%nat -> nth b h' [] = nth b h []).
Proof.
  intros Hk Hs Hr Hp. unfold getitem. destruct k as [i|a b s|l|l|n|]; try (now destruct (Hk i)); rewrite Hs; cbn [bind];
  eexists _, _; (split; [reflexivity|]); (split; [reflexivity|]); (split; [reflexivity|]); cbn [p_addr]; (split; [lia|]); rewrite app_length; cbn [List.length];
  (split; [lia|]); (split; [lia|]); (split; [unfold buf at 1; cbn [p_addr]; rewrite app_nth2 by lia; rewrite Nat.sub_diag; cbn [nth]; now apply flat_map_nth | intros b' Hb; now rewrite app_nth1]).
Qed.
Lemma key_rows_list n l : (forall i, In i l -> (- Z.of_nat n <= i < Z.of_nat n)%Z) ->
  key_rows n (KIndexList l) = Ok (map (fun i => Z.to_nat (if i <? 0 then i + Z.of_nat n else i)%Z) l).
Proof.
  intros H. cbn [key_rows]. induction l as [|i l IH]; cbn [mapM map]; [reflexivity|]. rewrite norm_index_spec.
  pose proof (H i (or_introl eq_refl)). destruct (Z.leb_spec (- Z.of_nat n) i); [|lia]. destruct (Z.ltb_spec i (Z.of_nat n)); [|lia]. cbn [andb bind].
  rewrite IH by (intros; apply H; now right). reflexivity.
Qed.
Lemma key_rows_list_err n l : (exists i, In i l /\ ~ (- Z.of_nat n <= i < Z.of_nat n)%Z) -> key_rows n (KIndexList l) = Raise IndexError.
Proof.
  intros (i & Hi & Hb). cbn [key_rows]. induction l as [|j l IH]; [destruct Hi|]. cbn [mapM]. rewrite norm_index_spec.
  destruct (Z.leb_spec (- Z.of_nat n) j); destruct (Z.ltb_spec j (Z.of_nat n)); cbn [andb bind]; try reflexivity.
  destruct Hi as [->|Hi]; [lia|]. rewrite IH by exact Hi. reflexivity.
Qed.
(** positions of the true entries, in order *)
Lemma mask_rows n l : List.length l = n -> exists sel, key_rows n (KMask l) = Ok sel /\ StronglySorted lt sel /\
  forall i, In i sel <-> nth_error l i = Some true.
Proof.
  intros E. cbn [key_rows]. rewrite E, Nat.eqb_refl. cbn [negb bind]. eexists. split; [reflexivity|].
  assert (G : forall (l : list bool) s, StronglySorted lt (map fst (filter snd (combine (seq s (List.length l)) l))) /\
    forall i, In i (map fst (filter snd (combine (seq s (List.length l)) l))) <-> (s <= i)%nat /\ nth_error l (i - s) = Some true).
  { clear. induction l as [|b l IH]; intros s; cbn [List.length seq combine filter map].
    - split; [constructor|]. intros i. split; [intros [] | intros (_ & H)]. destruct (i - s)%nat; discriminate.
    - destruct (IH (S s)) as (S1 & S2). assert (S3 : forall i, In i (map fst (filter snd (combine (seq (S s) (List.length l)) l))) <-> (s < i)%nat /\ nth_error (b :: l) (i - s) = Some true).
      { intros i. rewrite S2. split; intros (A1 & A2); (split; [lia|]); replace (i - s)%nat with (S (i - S s)) in * by lia; exact A2. }
      destruct b; cbn [snd map fst].
      + split; [constructor; [exact S1|]; apply Forall_forall; intros i Hi; apply S3 in Hi; lia|].
        intros i. cbn [In]. rewrite S3. split; [intros [<-|(A1 & A2)]; [split; [lia|]; now rewrite Nat.sub_diag | split; [lia | exact A2]] |].
        intros (A1 & A2). destruct (Nat.eq_dec s i); [now left | right; split; [lia | exact A2]].
      + split; [exact S1|]. intros i. rewrite S3. split; intros (A1 & A2); (split; [|exact A2]); [lia|]. destruct (Nat.eq_dec s i) as [<-|]; [|lia]. rewrite Nat.sub_diag in A2. discriminate. }
  subst n. destruct (G l 0%nat) as (S1 & S2). split; [exact S1|]. intros i. rewrite S2. rewrite Nat.sub_0_r. split; [tauto | intros; split; [lia | assumption]].
Qed.
Lemma writes_other {A} (p q : placement) (ws : list (nat * A)) : forall h, p_addr p <> p_addr q -> buf (writes h q ws) p = buf h p.
Proof.
  induction ws as [|w ws IH]; intros h N; [reflexivity|]. cbn [writes fold_left]. etransitivity; [apply IH; exact N|].
  unfold buf, set_location. rewrite nth_set_row. destruct (Nat.eqb_spec (p_addr p) (p_addr q)); [contradiction | reflexivity].
Qed.
