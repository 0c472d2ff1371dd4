(** The valleys of a null spectrum sampled on a fine grid: one next to each source, all others higher. *)
From Coq Require Import Lra Lia Sorted Permutation.
From Verif Require Import Base_Np Base_Trig M_utils S_utils P_utils S_sources P_sources3 P_cont4 P_pipeline S_offgrid S_refine P_off1 P_off2 P_off3.
Open Scope R_scope.

Lemma ss_nth (l : list R) : StronglySorted Rlt l -> forall i j, (i < j < List.length l)%nat -> nth i l 0 < nth j l 0.
Proof.
  induction 1 as [|a l S IH F]; intros i j H; cbn [List.length] in H; [lia|]. destruct j as [|j]; [lia|]. destruct i as [|i]; cbn [nth].
  - rewrite Forall_forall in F. apply F, nth_In. lia.
  - apply IH. lia.
Qed.
Lemma near_or_all (l : list R) (x r : R) (g : R -> R) : (exists a, In a l /\ Rabs (x - g a) < r) \/ (forall a, In a l -> r <= Rabs (x - g a)).
Proof.
  induction l as [|b l [(a & I & H)|H]]; [right; intros a []|left; exists a; split; [now right|exact H]|].
  destruct (Rlt_le_dec (Rabs (x - g b)) r) as [L|L]; [left; exists b; split; [now left|exact L]|right; intros a [<-|I]; auto].
Qed.
Lemma forall2_exists {A B} (P : A -> B -> Prop) l : (forall a, In a l -> exists b, P a b) -> exists l', Forall2 P l l'.
Proof.
  induction l as [|a l IH]; intros H; [exists nil; constructor|]. destruct (H a (or_introl eq_refl)) as (b & Hb). destruct IH as (l' & Hl'); [intros; apply H; now right|]. exists (b :: l'). now constructor.
Qed.
Lemma forall2_sorted {A B} (P : A -> B -> Prop) (ra : A -> A -> Prop) (rb : B -> B -> Prop) l l' : Forall2 P l l' -> StronglySorted ra l ->
  (forall a b a' b', In a l -> In a' l -> P a b -> P a' b' -> ra a a' -> rb b b') -> StronglySorted rb l'.
Proof.
  induction 1 as [|a b l l' Hp F IH]; intros SS H; [constructor|]. inversion SS as [|? ? S1 S2]; subst. constructor.
  - apply IH; [exact S1|]. intros. eapply H; eauto; now right.
  - apply Forall_forall. intros b' Ib. clear IH. assert (X : exists a', In a' l /\ P a' b'). { clear - F Ib. induction F as [|x y l l' Q F IH]; [destruct Ib|]. destruct Ib as [<-|I]; [exists x; split; [now left|exact Q]|destruct (IH I) as (a' & I' & Q'); exists a'; split; [now right|exact Q']]. }
    destruct X as (a' & Ia & Pa). rewrite Forall_forall in S2. apply (H a b a' b'); [now left|now right|exact Hp|exact Pa|now apply S2].
Qed.
Lemma sort_strictly l : NoDup l -> StronglySorted Rlt (sort_by Rleb l).
Proof.
  intros ND. pose proof (sort_R_ascending l) as A. assert (N : NoDup (sort_by Rleb l)) by (apply (Permutation_NoDup (Permutation_sym (sort_by_perm Rleb l))), ND).
  unfold ascending in A. induction A as [|a s S IH F]; [constructor|]. inversion N; subst. constructor; [now apply IH|]. rewrite Forall_forall in *. intros b Ib. destruct (F b Ib) as [L| <-]; [exact L|contradiction].
Qed.

Lemma forall2_weaken {A B} (P Q : A -> B -> Prop) l l' : (forall a b, P a b -> Q a b) -> Forall2 P l l' -> Forall2 Q l l'.
Proof. intros H. induction 1; constructor; auto. Qed.
(** the grid points at the positions idx have one dip each between their neighbours, one for each direction; no two of them share a neighbour *)
Definition dips (V : R -> R) (tol : R) (angles truth : list R) (idx : list nat) : Prop :=
  StronglySorted (fun i j => (S i < j)%nat) idx /\ exists s, Permutation s truth /\ ascending s /\
    Forall2 (fun a i => (0 < i)%nat /\ (S i < List.length angles)%nat /\ dip V (nth (i - 1) angles 0) (nth (S i) angles 0) a tol) s idx.
Lemma ss_weaken {A} (P Q : A -> A -> Prop) l : (forall a b, P a b -> Q a b) -> StronglySorted P l -> StronglySorted Q l.
Proof. intros H. induction 1 as [|a l S0 IH F]; constructor; [exact IH|]. rewrite Forall_forall in *. auto. Qed.
Lemma dips_brackets V tol angles truth idx : dips V tol angles truth idx -> brackets tol angles truth idx.
Proof.
  intros (S0 & s & P & A & F). split; [eapply ss_weaken; [|exact S0]; intros; cbv beta in *; lia|]. exists s. split; [exact P|]. split; [exact A|]. eapply forall2_weaken; [|exact F].
  intros a i (H1 & H2 & (H3 & _)). auto.
Qed.
Section Core.
Variables (n : nat) (al be : nat -> nat -> R) (d lam : R) (u : string) (doas angles : list R) (lo hi r D tol step : R).
Let ph := phase d lam u.
Let c := 2 * PI / lam * d.
Let f := tq n al be.
Let N := List.length angles.
Let v (m : nat) : R := f (ph (nth m angles 0)).
Hypotheses (Hd : 0 < d) (Hl : 0 < lam) (Vl : valid_angle u lo) (Vh : valid_angle u hi) (R0 : 0 < r) (T0 : 0 <= tol) (ND : NoDup doas)
  (H1 : forall a, In a doas -> forall y, Rabs (y - ph a) <= r -> 0 < tq2 n al be y)
  (H2 : forall y, ph lo <= y <= ph hi -> (forall a, In a doas -> r / 4 <= Rabs (y - ph a)) -> D <= f y)
  (H3 : forall a, In a doas -> lo <= a <= hi /\ ph lo + r <= ph a <= ph hi - r)
  (H4 : forall a b, In a doas -> In b doas -> a < b -> ph a + 2 * r < ph b)
  (H5 : forall a, In a doas -> forall y, Rabs (y - ph a) <= c * step -> f y < D) (H6 : c * step <= r / 4)
  (H7 : forall a, In a doas -> forall x, lo <= x <= hi -> Rabs (ph x - ph a) <= r -> tol < Rabs (x - a) -> f (ph a) < f (ph x))
  (G : fine_grid lo hi step angles).

Let W (a : R) (m : nat) : Prop := (m < N)%nat /\ Rabs (ph (nth m angles 0) - ph a) <= r.
Lemma core_valid m : (m < N)%nat -> lo <= nth m angles 0 <= hi /\ valid_angle u (nth m angles 0).
Proof. intros Hm. assert (X : lo <= nth m angles 0 <= hi) by (apply G, nth_In; exact Hm). split; [exact X|]. now apply (valid_between u lo hi). Qed.
Lemma core_mono i j : (i < j < N)%nat -> ph (nth i angles 0) < ph (nth j angles 0).
Proof. intros H. apply phase_mono; try assumption; try (apply core_valid; lia). destruct G as (_ & SS & _). apply (ss_nth angles SS). exact H. Qed.
Lemma core_gap i : (S i < N)%nat -> ph (nth (S i) angles 0) <= ph (nth i angles 0) + r / 4.
Proof.
  intros H. destruct G as (_ & SS & _ & _ & _ & GP). pose proof (phase_lip d lam u Hd Hl (nth (S i) angles 0) (nth i angles 0) (proj2 (core_valid (S i) H)) (proj2 (core_valid i ltac:(lia)))) as L. fold c ph in L.
  pose proof (ss_nth angles SS i (S i) ltac:(fold N; lia)) as M. pose proof (GP i H) as GI. rewrite (Rabs_right (nth (S i) angles 0 - nth i angles 0)) in L by lra. pose proof (phase_pos d lam Hd Hl) as PC. fold c in PC.
  pose proof (Rle_abs (ph (nth (S i) angles 0) - ph (nth i angles 0))). assert (c * (nth (S i) angles 0 - nth i angles 0) <= c * step) by (apply Rmult_le_compat_l; lra). lra.
Qed.
Lemma core_first : (0 < N)%nat /\ ph (nth 0 angles 0) <= ph lo + r / 4.
Proof.
  destruct G as (NE & _ & _ & G1 & _). assert (P : (0 < N)%nat) by (unfold N; destruct angles; [congruence|cbn; lia]). split; [exact P|]. destruct (core_valid 0 P) as (X & V).
  pose proof (phase_lip d lam u Hd Hl (nth 0 angles 0) lo V Vl) as L. fold c ph in L. rewrite (Rabs_right (nth 0 angles 0 - lo)) in L by lra. pose proof (phase_pos d lam Hd Hl) as PC. fold c in PC.
  pose proof (Rle_abs (ph (nth 0 angles 0) - ph lo)). assert (c * (nth 0 angles 0 - lo) <= c * step) by (apply Rmult_le_compat_l; lra). lra.
Qed.
Lemma core_last : ph hi - r / 4 <= ph (nth (N - 1) angles 0).
Proof.
  destruct core_first as (P & _). destruct G as (_ & _ & _ & _ & G1 & _). fold N in G1. destruct (core_valid (N - 1) ltac:(lia)) as (X & V).
  pose proof (phase_lip d lam u Hd Hl hi (nth (N - 1) angles 0) Vh V) as L. fold c ph in L. rewrite (Rabs_right (hi - nth (N - 1) angles 0)) in L by lra. pose proof (phase_pos d lam Hd Hl) as PC. fold c in PC.
  pose proof (Rle_abs (ph hi - ph (nth (N - 1) angles 0))). assert (c * (hi - nth (N - 1) angles 0) <= c * step) by (apply Rmult_le_compat_l; lra). lra.
Qed.
Lemma core_qconvex a : In a doas -> qconvex v (W a).
Proof.
  intros Ia i j k H (i1 & i2) (j1 & j2) (k1 & k2). apply Rcomplements.Rabs_le_between in i2. apply Rcomplements.Rabs_le_between in k2. unfold v.
  apply (tq_qconvex n al be (ph a - r) (ph a + r)); [|lra|lra|apply core_mono; lia|apply core_mono; lia]. intros x Hx. apply (H1 a Ia). apply Rabs_le. lra.
Qed.
Lemma core_in m : (m < N)%nat -> v m < D -> exists a, In a doas /\ Rabs (ph (nth m angles 0) - ph a) < r / 4.
Proof.
  intros Hm Hv. destruct (near_or_all doas (ph (nth m angles 0)) (r / 4) ph) as [(a & Ia & H)|H]; [exists a; auto|exfalso].
  assert (D <= v m); [|lra]. apply H2; [|exact H]. destruct (core_valid m Hm) as (X & V). split; apply phase_le; (assumption || lra).
Qed.
Lemma core_deep a m : In a doas -> (m < N)%nat -> Rabs (ph (nth m angles 0) - ph a) < r / 4 -> deep N (W a) m.
Proof.
  intros Ia Hm H. apply Rabs_def2 in H. destruct (H3 a Ia) as (_ & B). destruct core_first as (P & F). pose proof core_last as L.
  assert (M2 : (2 <= m)%nat).
  { destruct m as [|[|m]]; [exfalso; lra| |lia]. exfalso. pose proof (core_gap 0 Hm). lra. }
  assert (M3 : (S (S m) < N)%nat).
  { destruct (Nat.lt_ge_cases (S (S m)) N) as [X|X]; [exact X|exfalso]. assert (m = (N - 1)%nat \/ S m = (N - 1)%nat) as [E|E] by lia; rewrite <- E in L; [lra|]. pose proof (core_gap m ltac:(lia)). lra. }
  split; [exact M2|]. split; [exact M3|]. pose proof (core_gap m ltac:(lia)) as g1. pose proof (core_gap (S m) ltac:(lia)) as g2. pose proof (core_gap (m - 1) ltac:(lia)) as g3. pose proof (core_gap (m - 2) ltac:(lia)) as g4.
  replace (S (m - 1)) with m in g3 by lia. replace (S (m - 2)) with (m - 1)%nat in g4 by lia.
  pose proof (core_mono m (S m) ltac:(lia)). pose proof (core_mono (S m) (S (S m)) ltac:(lia)). pose proof (core_mono (m - 1) m ltac:(lia)). pose proof (core_mono (m - 2) (m - 1) ltac:(lia)).
  repeat apply conj; try lia; apply Rabs_le; lra.
Qed.
Lemma core_unique a b m : In a doas -> In b doas -> W a m -> W b m -> a = b.
Proof.
  intros Ia Ib (_ & X) (_ & Y). apply Rcomplements.Rabs_le_between in X. apply Rcomplements.Rabs_le_between in Y.
  destruct (Rtotal_order a b) as [L|[E|L]]; [exfalso; pose proof (H4 a b Ia Ib L); lra|exact E|exfalso; pose proof (H4 b a Ib Ia L); lra].
Qed.
Lemma core_cover a : lo <= a <= hi -> exists m, (m < N)%nat /\ Rabs (nth m angles 0 - a) <= step.
Proof.
  intros Ha. destruct core_first as (P & _). destruct G as (_ & SS & _ & G1 & G2 & G3). fold N in G2, G3.
  assert (X : forall k, (k < N)%nat -> (exists m, (m < N)%nat /\ Rabs (nth m angles 0 - a) <= step) \/ nth k angles 0 < a).
  { induction k as [|k IH]; intros Hk.
    - destruct (Rlt_le_dec (nth 0 angles 0) a) as [L|L]; [now right|]. left. exists 0%nat. split; [exact Hk|]. apply Rabs_le. lra.
    - destruct (IH ltac:(lia)) as [E|L]; [now left|]. destruct (Rlt_le_dec (nth (S k) angles 0) a) as [L'|L']; [now right|]. left. exists (S k). split; [exact Hk|]. pose proof (G3 k Hk). apply Rabs_le. lra. }
  destruct (X (N - 1)%nat ltac:(lia)) as [E|L]; [exact E|]. exists (N - 1)%nat. split; [lia|]. apply Rabs_le. lra.
Qed.
(** one low valley next to each source *)
Definition low_at (a : R) (m : nat) : Prop := valley N v m /\ v m < D /\ Rabs (ph (nth m angles 0) - ph a) < r / 4 /\ (m < N)%nat.
Lemma core_exists a : In a doas -> exists m, low_at a m.
Proof.
  intros Ia. destruct (H3 a Ia) as (Ba & _). destruct (core_cover a Ba) as (q & Hq & Q).
  assert (Qc : Rabs (ph (nth q angles 0) - ph a) <= c * step).
  { eapply Rle_trans; [apply phase_lip; try assumption; [now apply core_valid|now apply (valid_between u lo hi)]|]. fold c. apply Rmult_le_compat_l; [left; apply (phase_pos d lam Hd Hl)|exact Q]. }
  set (Wb := fun m => Nat.ltb m N && (if Rle_lt_dec (Rabs (ph (nth m angles 0) - ph a)) r then true else false)).
  assert (WB : forall m, Wb m = true <-> W a m).
  { intros m. unfold Wb, W. rewrite andb_true_iff, Nat.ltb_lt. destruct (Rle_lt_dec (Rabs (ph (nth m angles 0) - ph a)) r); split; intros (x & y); split; auto; try discriminate; exfalso; lra. }
  destruct (valley_exists N v Wb D q) as (m & m1 & m2 & m3).
  - intros i j k H i1 j1 k1. apply (core_qconvex a Ia i j k H); now apply WB.
  - intros m Hm. apply WB in Hm. apply Hm.
  - intros m Wm Vm. apply WB in Wm. pose proof Wm as (Hm & _). destruct (core_in m Hm Vm) as (b & Ib & B). pose proof (core_deep b m Ib Hm B) as DP.
    assert (E : a = b) by (apply (core_unique a b m Ia Ib Wm); apply DP). subst b. destruct DP as (p1 & p2 & p3 & p4 & p5 & p6 & p7). unfold deep. rewrite !WB. tauto.
  - apply WB. split; [exact Hq|]. lra.
  - apply (H5 a Ia). exact Qc.
  - apply WB in m1. pose proof m1 as (Hm & _). destruct (core_in m Hm m2) as (b & Ib & B). pose proof (core_deep b m Ib Hm B) as DP.
    assert (E : a = b) by (apply (core_unique a b m Ia Ib m1); apply DP). subst b. exists m. repeat split; assumption.
Qed.
Lemma core_shape m : valley N v m -> v m < D -> exists a, In a doas /\ deep N (W a) m /\ v m < v (m - 1)%nat /\ v m <= v (S m).
Proof.
  intros Vy Vm.
  destruct (valley_shape N v (fun a : {a | In a doas} => W (proj1_sig a)) D m) as ((a & Ia) & DP & L1 & L2).
  - intros (a & Ia). now apply core_qconvex.
  - intros i Hi Li. destruct (core_in i Hi Li) as (a & Ia & B). exists (exist _ a Ia). now apply core_deep.
  - exact Vy.
  - exact Vm.
  - exists a. auto.
Qed.
Lemma core_one a m m' : low_at a m -> low_at a m' -> In a doas -> m = m'.
Proof.
  assert (X : forall m m', low_at a m -> low_at a m' -> In a doas -> (m < m')%nat -> False).
  { clear m m'. intros m m' (v1 & l1 & n1 & h1) (v2 & l2 & n2 & h2) Ia H.
    destruct (core_shape m v1 l1) as (b & Ib & DP & s1 & s2). destruct (core_shape m' v2 l2) as (b' & Ib' & DP' & s1' & s2').
    pose proof (core_deep a m Ia h1 n1) as E1. pose proof (core_deep a m' Ia h2 n2) as E2.
    apply (valley_unique v (W a) m m' (core_qconvex a Ia)); (assumption || apply E1 || apply E2). }
  intros A B Ia. destruct (Nat.lt_trichotomy m m') as [L|[E|L]]; [exfalso; eauto|exact E|exfalso; eauto].
Qed.
Lemma core_bracket a m : In a doas -> low_at a m -> (0 < m)%nat /\ (S m < N)%nat /\ nth (m - 1) angles 0 - tol <= a <= nth (S m) angles 0 + tol.
Proof.
  intros Ia (Vy & Vm & Nm & Hm). pose proof (core_deep a m Ia Hm Nm) as (p1 & p2 & p3 & p4 & p5 & p6 & p7). destruct (core_shape m Vy Vm) as (_ & _ & _ & s1 & s2). destruct (H3 a Ia) as (Ba & _).
  assert (Va : valid_angle u a) by now apply (valid_between u lo hi). destruct p4 as (q1 & q2). destruct p5 as (_ & q3). destruct p6 as (q4 & q5).
  pose proof q2 as q2'. pose proof q3 as q3'. pose proof q5 as q5'. apply Rcomplements.Rabs_le_between in q2'. apply Rcomplements.Rabs_le_between in q3'. apply Rcomplements.Rabs_le_between in q5'.
  split; [lia|]. split; [lia|]. split.
  - destruct (Rle_lt_dec (nth (m - 1) angles 0 - tol) a) as [L|L]; [exact L|exfalso]. destruct (core_valid (m - 1) ltac:(lia)) as (X & V).
    assert (B : f (ph a) < f (ph (nth (m - 1) angles 0))) by (apply (H7 a Ia); [exact X|exact q2|rewrite Rabs_right; lra]).
    assert (M : ph a < ph (nth (m - 1) angles 0)) by (apply phase_mono; (assumption || lra)).
    destruct (tq_qconvex n al be (ph a - r) (ph a + r) (ph a) (ph (nth (m - 1) angles 0)) (ph (nth m angles 0))) as [Q|Q]; [|lra|lra|exact M|apply core_mono; lia|fold f in Q; lra|fold f in Q; unfold v in s1; lra].
    intros x Hx. apply (H1 a Ia). apply Rabs_le. lra.
  - destruct (Rle_lt_dec a (nth (S m) angles 0 + tol)) as [L|L]; [exact L|exfalso]. destruct (core_valid (S m) q4) as (X & V).
    assert (B : f (ph a) < f (ph (nth (S m) angles 0))) by (apply (H7 a Ia); [exact X|exact q5|rewrite Rabs_left; lra]).
    assert (M : ph (nth (S m) angles 0) < ph a) by (apply phase_mono; (assumption || lra)).
    destruct (tq_qconvex n al be (ph a - r) (ph a + r) (ph (nth m angles 0)) (ph (nth (S m) angles 0)) (ph a)) as [Q|Q]; [|lra|lra|apply core_mono; lia|exact M|fold f in Q; unfold v in s2; lra|fold f in Q; lra].
    intros x Hx. apply (H1 a Ia). apply Rabs_le. lra.
Qed.
Lemma core_window a m : In a doas -> low_at a m -> (0 < m)%nat /\ (S m < N)%nat /\ Rabs (ph (nth (m - 1) angles 0) - ph a) <= r / 2 /\ Rabs (ph (nth (S m) angles 0) - ph a) <= r / 2.
Proof.
  intros Ia (Vy & Vm & Nm & Hm). pose proof (core_deep a m Ia Hm Nm) as (p1 & p2 & _). apply Rabs_def2 in Nm.
  pose proof (core_gap m ltac:(lia)) as g1. pose proof (core_gap (m - 1) ltac:(lia)) as g3. replace (S (m - 1)) with m in g3 by lia. pose proof (core_mono m (S m) ltac:(lia)). pose proof (core_mono (m - 1) m ltac:(lia)).
  split; [lia|]. split; [lia|]. split; apply Rabs_le; lra.
Qed.
Lemma core_dip a m : In a doas -> low_at a m -> (0 < m)%nat /\ (S m < N)%nat /\ dip (fun x => f (ph x)) (nth (m - 1) angles 0) (nth (S m) angles 0) a tol.
Proof.
  intros Ia La. destruct (core_bracket a m Ia La) as (B1 & B2 & B3). destruct (core_window a m Ia La) as (_ & _ & w1 & w2). split; [exact B1|]. split; [exact B2|].
  destruct (H3 a Ia) as (Ba & _). destruct (core_valid (m - 1) ltac:(lia)) as (X1 & V1). destruct (core_valid (S m) B2) as (X2 & V2). assert (Va : valid_angle u a) by now apply (valid_between u lo hi).
  set (b0 := nth (m - 1) angles 0) in *. set (b1 := nth (S m) angles 0) in *. apply Rcomplements.Rabs_le_between in w1. apply Rcomplements.Rabs_le_between in w2.
  assert (VX : forall x, lo <= x <= hi -> valid_angle u x) by (intros; now apply (valid_between u lo hi)).
  assert (LO : lo <= Rmin b0 a) by (apply Rmin_glb; lra). assert (HI : Rmax b1 a <= hi) by (apply Rmax_lub; lra).
  assert (PL : forall x, Rmin b0 a <= x -> x <= hi -> ph a - r / 2 <= ph x).
  { intros x L1 L2. unfold Rmin in L1, LO. destruct (Rle_dec b0 a).
    - assert (ph b0 <= ph x) by (apply phase_le; try assumption; apply VX; lra). lra.
    - assert (ph a <= ph x) by (apply phase_le; try assumption; apply VX; lra). lra. }
  assert (PH : forall x, lo <= x -> x <= Rmax b1 a -> ph x <= ph a + r / 2).
  { intros x L1 L2. unfold Rmax in L2, HI. destruct (Rle_dec b1 a).
    - assert (ph x <= ph a) by (apply phase_le; try assumption; apply VX; lra). lra.
    - assert (ph x <= ph b1) by (apply phase_le; try assumption; apply VX; lra). lra. }
  split; [exact B3|]. split.
  - intros x y z L1 L2 L3 L4.
    assert (Q : f (ph y) < f (ph x) \/ f (ph y) < f (ph z)).
    { apply (tq_qconvex n al be (ph a - r) (ph a + r)).
      - intros w Hw. apply (H1 a Ia). apply Rabs_le. lra.
      - pose proof (PL x L1 ltac:(lra)). lra.
      - pose proof (PH z ltac:(lra) L4). lra.
      - apply phase_mono; try assumption; apply VX; lra.
      - apply phase_mono; try assumption; apply VX; lra. }
    unfold Rmax. destruct (Rle_dec _ _); lra.
  - intros x (L1 & L2) L3. apply (H7 a Ia); [split; lra| |exact L3].
    pose proof (PL x ltac:(eapply Rle_trans; [apply Rmin_l|exact L1]) ltac:(lra)). pose proof (PH x ltac:(lra) ltac:(eapply Rle_trans; [exact L2|apply Rmax_l])). apply Rabs_le. lra.
Qed.
Lemma core_main : exists idx, dips (fun x => f (ph x)) tol angles doas idx /\ List.length idx = List.length doas /\ (forall i, In i idx -> valley N v i) /\
  forall i j, In i idx -> valley N v j -> ~ In j idx -> v i < v j.
Proof.
  set (s := sort_by Rleb doas). assert (PS : Permutation s doas) by apply sort_by_perm.
  assert (IS : forall a, In a s -> In a doas) by (intros a; apply (Permutation_in _ PS)).
  destruct (forall2_exists low_at s) as (idx & F). { intros a Ia. apply core_exists, IS, Ia. }
  assert (SI : StronglySorted (fun i j => (S i < j)%nat) idx).
  { assert (IDS : Forall2 (fun a i => In a s /\ low_at a i) s idx).
    { assert (X : forall l l', Forall2 low_at l l' -> incl l s -> Forall2 (fun a i => In a s /\ low_at a i) l l'). { induction 1 as [|x y l l' Q Fl IH]; intros IC; constructor; [split; [apply IC; now left|exact Q]|apply IH; intros z Iz; apply IC; now right]. } apply X; [exact F|apply incl_refl]. }
    apply (forall2_sorted _ Rlt (fun i j => (S i < j)%nat) s idx IDS (sort_strictly doas ND)). intros a i b j Ia Ib (_ & la) (_ & lb) L. pose proof (H4 a b (IS a Ia) (IS b Ib) L).
    destruct (core_window a i (IS a Ia) la) as (i1 & i2 & _ & i4). destruct (core_window b j (IS b Ib) lb) as (j1 & j2 & j3 & _). apply Rcomplements.Rabs_le_between in i4. apply Rcomplements.Rabs_le_between in j3.
    destruct (Nat.lt_ge_cases (S i) (j - 1)) as [E|E]; [lia|exfalso]. assert (ph (nth (j - 1) angles 0) <= ph (nth (S i) angles 0)); [|lra].
    destruct (Nat.eq_dec (j - 1) (S i)) as [->|NE]; [lra|]. left. apply core_mono. lia. }
  assert (FI : forall i, In i idx -> exists a, In a doas /\ low_at a i).
  { intros i Ii. assert (X : exists a, In a s /\ low_at a i). { clear - F Ii. induction F as [|x y l l' Q F IH]; [destruct Ii|]. destruct Ii as [<-|I]; [exists x; split; [now left|exact Q]|destruct (IH I) as (a' & I' & Q'); exists a'; split; [now right|exact Q']]. }
    destruct X as (a & Ia & X). exists a. split; [now apply IS|exact X]. }
  assert (FA : forall a, In a doas -> exists i, In i idx /\ low_at a i).
  { intros a Ia. apply (Permutation_in _ (Permutation_sym PS)) in Ia. clear - F Ia. induction F as [|x y l l' Q F IH]; [destruct Ia|]. destruct Ia as [<-|I]; [exists y; split; [now left|exact Q]|destruct (IH I) as (a' & I' & Q'); exists a'; split; [now right|exact Q']]. }
  exists idx. split; [|split; [|split]].
  - split; [exact SI|]. exists s. split; [exact PS|]. split; [apply sort_R_ascending|]. assert (F' : Forall2 (fun a i => In a s /\ low_at a i) s idx).
    { assert (X : forall l l', Forall2 low_at l l' -> incl l s -> Forall2 (fun a i => In a s /\ low_at a i) l l'). { induction 1 as [|x y l l' Q Fl IH]; intros IC; constructor; [split; [apply IC; now left|exact Q]|apply IH; intros z Iz; apply IC; now right]. } apply X; [exact F|apply incl_refl]. }
    eapply forall2_weaken; [|exact F']. intros a i (Ia & Q). apply core_dip; [now apply IS|exact Q].
  - rewrite <- (Permutation_length PS). symmetry. exact (F2_len _ _ _ F).
  - intros i Ii. destruct (FI i Ii) as (a & _ & Q). apply Q.
  - intros i j Ii Vj NI. destruct (FI i Ii) as (a & _ & (_ & L & _)). destruct (Rlt_le_dec (v j) D) as [L'|L']; [|lra]. exfalso. apply NI.
    destruct (core_shape j Vj L') as (b & Ib & DP & _). assert (Hj : (j < N)%nat) by (destruct DP as (_ & X & _); lia). destruct (core_in j Hj L') as (b' & Ib' & B').
    destruct (FA b' Ib') as (i' & Ii' & Q'). assert (Q : low_at b' j) by (repeat split; assumption). rewrite (core_one b' j i' Q Q' Ib'). exact Ii'.
Qed.
End Core.
