(** Continuity of the conversion of shifts into directions. *)
From Coq Require Import Sorting.Sorted Sorting.Permutation Reals Ratan.
From Verif Require Import Base_Np Base_Lin Base_Trig P_utils S_utils M_utils M_sources P_sources P_sources3 S_sources M_subspace S_subspace P_cont4 Prop_invar2.
Open Scope R_scope.

Lemma cont_at f x : continuity_pt f x -> forall tol, 0 < tol -> exists e, 0 < e /\ forall y, Rabs (x - y) < e -> Rabs (f x - f y) < tol.
Proof.
  intros H tol Ht. destruct (H tol Ht) as (e & He & HH). exists e. split; [exact He|]. intros y Hy. destruct (Req_EM_T x y) as [->|N]; [rewrite Rminus_eq_0, Rabs_R0; exact Ht|].
  specialize (HH y). unfold dist in HH. simpl in HH. unfold R_dist in HH. rewrite (Rabs_minus_sym (f x)), (Rabs_minus_sym x) in *. apply HH. split; [|rewrite Rabs_minus_sym in Hy; rewrite Rabs_minus_sym; exact Hy]. split; [exact I|exact N].
Qed.
Lemma cis_norm p : (cis p * Cconj (cis p))%C = RtoC 1.
Proof. unfold cis, Cconj, Cmult, RtoC. cbn. f_equal; [|ring]. pose proof (sin2_cos2 p) as Q. unfold Rsqr in Q. lra. Qed.
Lemma arg_close p tol : - PI < p < PI -> 0 < tol -> exists e, 0 < e /\ forall w : C, (Cmod (cis p - w)%C < e)%R -> Rabs (p - atan2 (Im w) (Re w)) < tol.
Proof.
  intros Hp Ht. set (t := Rmin tol (Rmin (PI - p) (PI + p))). assert (Tp : 0 < t) by (apply Rmin_glb_lt; [|apply Rmin_glb_lt]; lra).
  assert (T1 : t <= tol) by apply Rmin_l. assert (T2 : t <= PI - p) by (unfold t; eapply Rle_trans; [apply Rmin_r|apply Rmin_l]). assert (T3 : t <= PI + p) by (unfold t; eapply Rle_trans; [apply Rmin_r|apply Rmin_r]).
  destruct (cont_at atan 0 (derivable_continuous_pt _ _ (derivable_pt_atan 0)) t Tp) as (e & He & H). rewrite atan_0 in H.
  exists (Rmin (1 / 2) (e / 2)). split; [apply Rmin_glb_lt; lra|]. intros w Hw.
  assert (W1 : Cmod (cis p - w)%C < 1 / 2) by (eapply Rlt_le_trans; [exact Hw|apply Rmin_l]). assert (W2 : Cmod (cis p - w)%C < e / 2) by (eapply Rlt_le_trans; [exact Hw|apply Rmin_r]).
  set (u := (w * Cconj (cis p))%C).
  assert (NU : Cmod (RtoC 1 - u)%C = Cmod (cis p - w)%C).
  { unfold u. rewrite <- (cis_norm p). replace (cis p * Cconj (cis p) - w * Cconj (cis p))%C with ((cis p - w) * Cconj (cis p))%C by ring. rewrite Cmod_mult.
    replace (Cmod (Cconj (cis p))) with 1; [ring|]. unfold Cmod, cis, Cconj. cbn [fst snd]. replace (cos p ^ 2 + (- sin p) ^ 2) with 1; [now rewrite sqrt_1|]. pose proof (sin2_cos2 p) as Q. unfold Rsqr in Q. lra. }
  assert (RE : Rabs (1 - Re u) <= Cmod (cis p - w)%C). { rewrite <- NU. pose proof (Rmax_Cmod (RtoC 1 - u)%C) as M. cbn in M. eapply Rle_trans; [|exact M]. apply Rmax_l. }
  assert (IM : Rabs (Im u) <= Cmod (cis p - w)%C). { rewrite <- NU. pose proof (Rmax_Cmod (RtoC 1 - u)%C) as M. cbn in M. eapply Rle_trans; [|exact M]. eapply Rle_trans; [|apply Rmax_r]. right. unfold Im. rewrite <- (Rabs_Ropp (snd u)). f_equal. unfold u; cbn; ring. }
  pose proof (Rle_abs (1 - Re u)) as RE'. assert (Pr : 1 / 2 < Re u) by lra.
  set (psi := atan (Im u / Re u)). assert (HP : Rabs psi < t).
  { unfold psi. specialize (H (Im u / Re u)). rewrite !Rminus_0_l, !Rabs_Ropp in H. apply H. unfold Rdiv. rewrite Rabs_mult, (Rabs_pos_eq (/ Re u)) by (left; apply Rinv_0_lt_compat; lra).
    apply (Rmult_lt_reg_r (Re u)); [lra|]. rewrite Rmult_assoc, Rinv_l, Rmult_1_r by lra. nra. }
  assert (PS : - t < psi < t) by (apply Rabs_def2 in HP; lra).
  set (rho := sqrt (Re u * Re u + Im u * Im u)). assert (Rp : 0 < rho) by (apply sqrt_lt_R0; nra).
  assert (A2 : atan2 (Im u) (Re u) = psi). { unfold atan2. destruct (total_order_T (Re u) 0) as [[?|?]|?]; [lra|lra|reflexivity]. }
  pose proof (atan2_cos (Im u) (Re u)) as QC. pose proof (atan2_sin (Im u) (Re u)) as QS. rewrite A2 in QC, QS. fold rho in QC, QS.
  assert (W : w = (u * cis p)%C). { unfold u. rewrite <- Cmult_assoc, (Cmult_comm (Cconj (cis p))), cis_norm, Cmult_1_r. reflexivity. }
  assert (WI : Im w = rho * sin (psi + p)). { transitivity (Im (u * cis p)%C); [now rewrite <- W|]. rewrite sin_plus. transitivity (rho * sin psi * cos p + rho * cos psi * sin p); [rewrite QC, QS; unfold Im, Re, Cmult, cis; cbn [fst snd]; ring|ring]. }
  assert (WR : Re w = rho * cos (psi + p)). { transitivity (Re (u * cis p)%C); [now rewrite <- W|]. rewrite cos_plus. transitivity (rho * cos psi * cos p - rho * sin psi * sin p); [rewrite QC, QS; unfold Im, Re, Cmult, cis; cbn [fst snd]; ring|ring]. }
  rewrite WI, WR, atan2_polar; [|exact Rp|lra]. replace (p - (psi + p)) with (- psi) by ring. rewrite Rabs_Ropp. lra.
Qed.
Lemma of_rad_cont u x : continuity_pt (of_rad u) x.
Proof.
  unfold of_rad. destruct (String.eqb u "rad"); [|destruct (String.eqb u "deg")].
  - apply derivable_continuous_pt, derivable_pt_id.
  - apply (continuity_pt_mult id (fct_cte (180 / PI))); [apply derivable_continuous_pt, derivable_pt_id|apply continuity_pt_const; intros ? ?; reflexivity].
  - apply continuity_sin.
Qed.
(** the direction of one shift *)
Definition dir_of (u : string) (c : R) (w : C) : R := of_rad u (asin (atan2 (Im w) (Re w) / c)).
Lemma dir_close u c t tol : 0 < c -> - (PI / 2) < t < PI / 2 -> - PI < c * sin t < PI -> 0 < tol ->
  exists e, 0 < e /\ forall w : C, Cmod (cis (c * sin t) - w)%C < e -> in_range1 (atan2 (Im w) (Re w) / c) /\ Rabs (of_rad u t - dir_of u c w) < tol.
Proof.
  intros Hc Hb Hp Ht. assert (Sb : -1 < sin t < 1).
  { pose proof (sin_increasing_1 (- (PI / 2)) t ltac:(lra) ltac:(lra) ltac:(lra) ltac:(lra) ltac:(lra)) as X. rewrite sin_neg, sin_PI2 in X.
    pose proof (sin_increasing_1 t (PI / 2) ltac:(lra) ltac:(lra) ltac:(lra) ltac:(lra) ltac:(lra)) as Y. rewrite sin_PI2 in Y. lra. }
  assert (AC : continuity_pt asin (sin t)) by (apply derivable_continuous_pt, derivable_pt_asin; lra).
  assert (AS : asin (sin t) = t) by (apply asin_sin; lra).
  assert (CC : continuity_pt (comp (of_rad u) asin) (sin t)) by (apply continuity_pt_comp; [exact AC|apply of_rad_cont]).
  destruct (cont_at _ _ CC tol Ht) as (e1 & p1 & H1). unfold comp in H1. rewrite AS in H1.
  set (e2 := Rmin e1 (Rmin (1 - sin t) (1 + sin t))). assert (p2 : 0 < e2) by (apply Rmin_glb_lt; [|apply Rmin_glb_lt]; lra).
  assert (T1 : e2 <= e1) by apply Rmin_l. assert (T2 : e2 <= 1 - sin t) by (unfold e2; eapply Rle_trans; [apply Rmin_r|apply Rmin_l]). assert (T3 : e2 <= 1 + sin t) by (unfold e2; eapply Rle_trans; [apply Rmin_r|apply Rmin_r]).
  destruct (arg_close (c * sin t) (c * e2) Hp ltac:(nra)) as (e & He & H). exists e. split; [exact He|]. intros w Hw. specialize (H w Hw).
  set (a := atan2 (Im w) (Re w)) in *. assert (Q : Rabs (sin t - a / c) < e2).
  { replace (sin t - a / c) with ((c * sin t - a) * / c) by (field; lra). rewrite Rabs_mult, (Rabs_pos_eq (/ c)) by (left; now apply Rinv_0_lt_compat).
    apply (Rmult_lt_reg_r c); [exact Hc|]. rewrite Rmult_assoc, Rinv_l, Rmult_1_r by lra. lra. }
  split.
  - apply Rabs_def2 in Q. unfold in_range1. lra.
  - unfold dir_of. fold a. apply H1. lra.
Qed.

(** *** ordering of matched lists *)
Lemma gap_list (l : list R) : exists s, 0 < s /\ forall a b, In a l -> In b l -> a < b -> s <= b - a.
Proof.
  destruct (list_eps (fun a s => forall b, In b l -> a < b -> s <= b - a) l) as (s & Hs & H).
  - intros a e e' _ L H b Hb N. specialize (H b Hb N). lra.
  - intros a _. destruct (list_eps (fun b s => a < b -> s <= b - a) l) as (s & Hs & H).
    + intros b e e' _ L H N. specialize (H N). lra.
    + intros b _. destruct (Rlt_dec a b) as [L|L]; [exists (b - a); split; [lra|intros; lra]|exists 1; split; [lra|tauto]].
    + exists s. split; [exact Hs|]. intros b Hb N. exact (H b Hb N).
  - exists s. split; [exact Hs|]. intros a b Ha Hb N. exact (H a Ha b Hb N).
Qed.
Lemma close_sorted l l' s t : (forall a b, In a l -> In b l -> a < b -> s <= b - a) -> 2 * t <= s -> StronglySorted Rlt l -> Forall2 (fun a b => Rabs (a - b) < t) l l' -> StronglySorted Rle l'.
Proof.
  intros S T SS F. induction F as [|a b l l' HA F IH]; [constructor|]. inversion SS as [|? ? S2 FA]; subst. constructor; [apply IH; auto; intros; apply S; auto; now right|].
  rewrite Forall_forall in *. intros b' Hb'. destruct (F2_in_r _ _ _ _ F Hb') as (a' & Ia & HA'). cbn beta in HA'. specialize (S a a' (or_introl eq_refl) (or_intror Ia) (FA a' Ia)).
  apply Rabs_def2 in HA, HA'. lra.
Qed.
Lemma from_z_cont ts lam d0 u tol : known_unit u -> 0 < lam -> 0 < d0 -> StronglySorted Rlt (map (of_rad u) ts) ->
  Forall (fun t => - (PI / 2) < t < PI / 2 /\ - PI < 2 * PI * d0 / lam * sin t < PI) ts -> 0 < tol ->
  exists e, 0 < e /\ forall z z0, Permutation z0 z -> Forall2 (fun a b => (Cmod (a - b)%C < e)%R) (map (fun t => cis (2 * PI * d0 / lam * sin t)) ts) z0 ->
    exists l, from_z z lam d0 u = Ok (map Some l, u) /\ ascending l /\ Forall2 (fun a b => Rabs (a - b) < tol) (map (of_rad u) ts) l.
Proof.
  intros K Hl Hd SS HT Ht. pose proof PI_RGT_0 as PP. set (c := 2 * PI * d0 / lam) in *. assert (Hc : 0 < c) by (unfold c; apply Rdiv_lt_0_compat; nra).
  destruct (gap_list (map (of_rad u) ts)) as (s & Hs & S). set (t0 := Rmin tol (s / 2)). assert (Tp : 0 < t0) by (apply Rmin_glb_lt; lra).
  assert (T1 : t0 <= tol) by apply Rmin_l. assert (T2 : t0 <= s / 2) by apply Rmin_r.
  destruct (list_eps (fun t e => forall w : C, Cmod (cis (c * sin t) - w)%C < e -> in_range1 (atan2 (Im w) (Re w) / c) /\ Rabs (of_rad u t - dir_of u c w) < t0) ts) as (e & He & H).
  - intros t e e' _ L H w Hw. apply H. lra.
  - intros t It. rewrite Forall_forall in HT. destruct (HT t It). now apply dir_close.
  - exists e. split; [exact He|]. intros z z0 PZ F.
    assert (F1 : Forall (fun w : C => in_range1 (atan2 (Im w) (Re w) / c)) z0 /\ Forall2 (fun a b => Rabs (a - b) < t0) (map (of_rad u) ts) (map (dir_of u c) z0)).
    { clear -F H. revert z0 F. induction ts as [|t ts IH]; intros z0 F; inversion F as [|? w ? z1 C1 F1]; subst; [split; constructor|].
      destruct (H t (or_introl eq_refl) w C1) as (h1 & h2). destruct (IH (fun t0 It => H t0 (or_intror It)) z1 F1) as (i1 & i2). split; constructor; assumption. }
    destruct F1 as (F1 & F2).
    destruct (from_z_sines z lam d0 u K ltac:(lra) ltac:(lra)) as (l & E & AL & _ & PL).
    { fold c. apply Forall_map. eapply Permutation_Forall; [exact PZ|]. exact F1. }
    fold c in PL. change (Permutation l (map (dir_of u c) z)) in PL.
    assert (Q : l = map (dir_of u c) z0).
    { apply (sorted_unique Rle); [intros; lra|exact AL|apply (close_sorted (map (of_rad u) ts) _ s t0); auto; lra|]. etransitivity; [exact PL|]. apply Permutation_map. now symmetry. }
    exists l. split; [exact E|]. split; [exact AL|]. rewrite Q. refine (F2_impl_in _ _ _ _ _ F2). intros a b _ X. lra.
Qed.
