(** How fine the grid must be, and how close the noise projector, for one valley next to each source. *)
From Coq Require Import Lra Lia Sorted Permutation.
From Coquelicot Require Import Complex.
From Verif Require Import Base_Np Base_Trig Base_Lin M_utils S_utils P_utils S_sources S_subspace P_subspace P_cont P_cont4 P_pipeline S_offgrid S_refine P_off1 P_off2 P_off3 P_off4.
Open Scope R_scope.

(** the null spectrum f sampled on the grid has one valley next to each direction, lower than all others *)
Definition one_valley_each (d lam : R) (u : string) (doas : list R) (lo hi step tol : R) (f : R -> R) : Prop :=
  forall angles, fine_grid lo hi step angles -> let v m := f (phase d lam u (nth m angles 0)) in
    exists idx, dips (fun x => f (phase d lam u x)) tol angles doas idx /\ List.length idx = List.length doas /\ (forall i, In i idx -> valley (List.length angles) v i) /\
      forall i j, In i idx -> valley (List.length angles) v j -> ~ In j idx -> v i < v j.
Definition power (En : cmat) (x : R) : R := proj_power En (fun i => cpow (cis x) i).

Lemma valley_ext N v v' i : (forall m, v m = v' m) -> valley N v i -> valley N v' i.
Proof. intros E (l & r & a & b & c & D1 & D2 & D3). exists l, r. rewrite <- !E. repeat (split; [assumption|]). split; [intros; rewrite <- !E; now apply D1|]. split; assumption. Qed.
Lemma dip_ext V V' b0 b1 a tol : (forall x, V x = V' x) -> dip V b0 b1 a tol -> dip V' b0 b1 a tol.
Proof. intros E (H1 & H2 & H3). split; [exact H1|]. split; [intros x y z; rewrite <- !E; apply H2|intros x; rewrite <- !E; apply H3]. Qed.
Lemma dips_ext V V' tol angles truth idx : (forall x, V x = V' x) -> dips V tol angles truth idx -> dips V' tol angles truth idx.
Proof.
  intros E (S0 & s & P & A & F). split; [exact S0|]. exists s. split; [exact P|]. split; [exact A|]. eapply forall2_weaken; [|exact F]. intros a i (H1 & H2 & H3). split; [exact H1|]. split; [exact H2|]. now apply (dip_ext V).
Qed.
Lemma one_valley_ext d lam u doas lo hi step tol f g : (forall x, f x = g x) -> one_valley_each d lam u doas lo hi step tol f -> one_valley_each d lam u doas lo hi step tol g.
Proof.
  intros E H angles G. destruct (H angles G) as (idx & a & b & c & e). exists idx. split; [eapply dips_ext; [|exact a]; intros x; cbv beta; apply E|]. split; [exact b|]. split.
  - intros i Ii. eapply valley_ext; [|apply c; exact Ii]. intros m. apply E.
  - intros i j Ii Vj NI. rewrite <- !E. apply e; [exact Ii| |exact NI]. eapply valley_ext; [|exact Vj]. intros m. cbv beta. symmetry. apply E.
Qed.

Section Fine.
Variables (n : nat) (d lam : R) (u : string) (doas : list R) (lo hi : R) (al be : nat -> nat -> R).
Let ph := phase d lam u.
Let ps := map ph doas.
Let f0 := tq n al be.
Hypotheses (Hd : 0 < d) (Hl : 0 < lam) (FV : field_of_view d lam u lo hi) (IN : forall a, In a doas -> lo < a < hi) (ND : NoDup doas)
  (AZ : above_zeros ps f0) (Z0 : forall a, In a doas -> f0 (ph a) = 0).

Lemma fine_valid x : lo <= x <= hi -> valid_angle u x.
Proof. destruct FV as (_ & V1 & V2 & _). now apply valid_between. Qed.
Lemma fine_mono a b : lo <= a -> b <= hi -> a < b -> ph a < ph b.
Proof. intros. apply phase_mono; try assumption; apply fine_valid; lra. Qed.
Lemma fine_wide : ph hi - ph lo <= 2 * PI.
Proof.
  destruct FV as (_ & _ & _ & W). unfold ph, phase. replace (2 * PI / lam * d * sin (to_rad u hi) - 2 * PI / lam * d * sin (to_rad u lo)) with (2 * PI / lam * (d * (sin (to_rad u hi) - sin (to_rad u lo)))) by ring.
  pose proof PI_RGT_0. replace (2 * PI) with (2 * PI / lam * lam) at 2 by (field; lra). apply Rmult_le_compat_l; [left; apply Rdiv_lt_0_compat; lra|exact W].
Qed.
Lemma fine_inner p : In p ps -> ph lo < p < ph hi.
Proof. intros I. apply in_map_iff in I as (a & <- & Ia). pose proof (IN a Ia). split; apply fine_mono; lra. Qed.
Lemma fine_nodup : NoDup ps.
Proof.
  apply NoDup_map_in; [exact ND|]. intros a b Ia Ib E. pose proof (IN a Ia). pose proof (IN b Ib). destruct (Rtotal_order a b) as [L|[L|L]]; [exfalso|exact L|exfalso].
  - pose proof (fine_mono a b ltac:(lra) ltac:(lra) L). lra.
  - pose proof (fine_mono b a ltac:(lra) ltac:(lra) L). lra.
Qed.
Definition fine_floor := shape_floor ps (ph lo) (ph hi) f0 fine_wide fine_inner AZ.

Lemma fine_grids : exists step, 0 < step /\ one_valley_each d lam u doas lo hi step 0 f0 /\
  forall tol, 0 < tol -> exists tau, 0 < tau /\ forall al' be', (forall i j, (i < n)%nat -> (j < n)%nat -> Rabs (al i j - al' i j) <= tau /\ Rabs (be i j - be' i j) <= tau) ->
    one_valley_each d lam u doas lo hi step tol (tq n al' be').
Proof.
  destruct FV as (LH & VL & VH & _).
  (* radius *)
  destruct (list_eps (fun a e => forall y, Rabs (y - ph a) <= e -> e <= tq2 n al be y) doas) as (e1 & E1 & R1).
  { intros a e e' X1 X2 X3 y Hy. pose proof (X3 y ltac:(lra)). lra. }
  { intros a Ia. destruct (shape_growth ps (ph lo) (ph hi) f0 fine_wide fine_inner fine_nodup AZ (ph a) (in_map ph doas a Ia)) as (kap & q & K1 & K2 & K3).
    apply (tq_growth n al be (ph a) kap q K1 K2); [now apply Z0|]. intros y Hy. now apply K3. }
  destruct (list_eps (fun a e => ph lo + e <= ph a <= ph hi - e) doas) as (e2 & E2 & R2).
  { intros a e e' X1 X2 X3. lra. }
  { intros a Ia. pose proof (fine_inner (ph a) (in_map ph doas a Ia)). exists (Rmin (ph a - ph lo) (ph hi - ph a)). split; [apply Rmin_glb_lt; lra|]. pose proof (Rmin_l (ph a - ph lo) (ph hi - ph a)). pose proof (Rmin_r (ph a - ph lo) (ph hi - ph a)). lra. }
  destruct (list_eps (fun ab e => fst ab < snd ab -> ph (fst ab) + 2 * e < ph (snd ab)) (list_prod doas doas)) as (e3 & E3 & R3).
  { intros a e e' X1 X2 X3 L. pose proof (X3 L). lra. }
  { intros (a, b) I. apply in_prod_iff in I as (Ia & Ib). cbn [fst snd]. pose proof (IN a Ia). pose proof (IN b Ib). destruct (Rlt_le_dec a b) as [L|L]; [|exists 1; split; [lra|intros; lra]].
    pose proof (fine_mono a b ltac:(lra) ltac:(lra) L). exists ((ph b - ph a) / 3). split; [lra|]. intros _. lra. }
  set (r := Rmin e1 (Rmin e2 e3)). assert (R0 : 0 < r) by (apply Rmin_glb_lt; [exact E1|apply Rmin_glb_lt; assumption]).
  assert (r1 : r <= e1) by apply Rmin_l. assert (r2 : r <= e2) by (eapply Rle_trans; [apply Rmin_r|apply Rmin_l]). assert (r3 : r <= e3) by (eapply Rle_trans; [apply Rmin_r|apply Rmin_r]). clearbody r.
  destruct (fine_floor (r / 4) ltac:(lra)) as (D & HD & FD).
  destruct (list_eps (fun a e => forall y, Rabs (y - ph a) <= e -> f0 y < D / 4) doas) as (e4 & E4 & R4).
  { intros a e e' X1 X2 X3 y Hy. apply X3. lra. }
  { intros a Ia. destruct (tq_cont n al be (ph a) (D / 4) ltac:(lra)) as (e & He & H). exists (e / 2). split; [lra|]. intros y Hy. pose proof (H y ltac:(lra)) as X. fold f0 in X. rewrite (Z0 a Ia), Rminus_0_r in X. apply Rcomplements.Rabs_lt_between in X. lra. }
  set (c := 2 * PI / lam * d). assert (C0 : 0 < c) by apply (phase_pos d lam Hd Hl).
  set (step := Rmin (r / 4) e4 / c). assert (S0 : 0 < step) by (apply Rdiv_lt_0_compat; [apply Rmin_glb_lt; lra|exact C0]).
  assert (CS : c * step = Rmin (r / 4) e4) by (unfold step; field; lra). pose proof (Rmin_l (r / 4) e4) as CS1. pose proof (Rmin_r (r / 4) e4) as CS2. rewrite <- CS in CS1, CS2. clearbody step. clear CS.
  (* the interface of the core *)
  assert (H3 : forall a, In a doas -> lo <= a <= hi /\ ph lo + r <= ph a <= ph hi - r). { intros a Ia. pose proof (IN a Ia). pose proof (R2 a Ia). lra. }
  assert (H4 : forall a b, In a doas -> In b doas -> a < b -> ph a + 2 * r < ph b). { intros a b Ia Ib L. pose proof (R3 (a, b) (in_prod _ _ _ _ Ia Ib) L) as X. cbn [fst snd] in X. lra. }
  assert (FAR : forall a e, In a doas -> 0 < e -> exists D1, 0 < D1 /\ forall x, lo <= x <= hi -> Rabs (ph x - ph a) <= r -> e <= Rabs (ph x - ph a) -> D1 <= f0 (ph x)).
  { intros a e Ia He. destruct (fine_floor (Rmin e r) ltac:(apply Rmin_glb_lt; assumption)) as (D1 & P1 & F1). exists D1. split; [exact P1|]. intros x Hx Hr Hex. apply F1.
    - split; apply phase_le; try assumption; try apply fine_valid; lra.
    - intros p Ip. apply in_map_iff in Ip as (b & <- & Ib). pose proof (Rmin_l e r). pose proof (Rmin_r e r). apply Rcomplements.Rabs_le_between in Hr.
      destruct (Rtotal_order a b) as [L|[<-|L]]; [pose proof (H4 a b Ia Ib L); rewrite Rabs_left; lra|lra|pose proof (H4 b a Ib Ia L); rewrite Rabs_right; lra]. }
  exists step. split; [exact S0|]. split.
  - (* exact *)
    intros angles G. cbv zeta.
    apply (core_main n al be d lam u doas angles lo hi r (D / 4) 0 step); try assumption; try lra.
    + intros a Ia y Hy. fold ph in Hy. pose proof (R1 a Ia y ltac:(lra)). lra.
    + intros y Hy FY. apply Rle_trans with D; [lra|]. apply FD; [exact Hy|]. intros p Ip. apply in_map_iff in Ip as (a & <- & Ia). now apply FY.
    + intros a Ia y Hy. apply (R4 a Ia). fold ph c in Hy. lra.
    + intros a Ia x Hx Hr Hxa. fold ph f0 in Hr |- *. rewrite Z0 by exact Ia.
      assert (PP : 0 < Rabs (ph x - ph a)).
      { apply Rabs_pos_lt. pose proof (IN a Ia). destruct (Rtotal_order x a) as [L|[->|L]]; [pose proof (fine_mono x a ltac:(lra) ltac:(lra) L); lra|rewrite Rminus_eq_0, Rabs_R0 in Hxa; lra|pose proof (fine_mono a x ltac:(lra) ltac:(lra) L); lra]. }
      destruct (FAR a _ Ia PP) as (D1 & P1 & F1). pose proof (F1 x Hx Hr ltac:(lra)). lra.
  - (* close projectors *)
    intros tol Ht.
    destruct (list_eps (fun a D1 => forall x, lo <= x <= hi -> Rabs (ph x - ph a) <= r -> tol < Rabs (x - a) -> D1 <= f0 (ph x)) doas) as (D1 & P1 & F1).
    { intros a e e' X1 X2 X3 x Y1 Y2 Y3. pose proof (X3 x Y1 Y2 Y3). lra. }
    { intros a Ia. pose proof (IN a Ia). destruct (phase_apart d lam u Hd Hl lo hi a tol VL VH ltac:(lra) Ht) as (e & He & HE). destruct (FAR a e Ia He) as (D1 & P1 & F1). exists D1. split; [exact P1|].
      intros x Hx Hr Hxa. apply F1; [exact Hx|exact Hr|]. apply HE; [exact Hx|lra]. }
    set (B := INR n * (INR n * (2 * 1)) + INR n * (INR n * (2 * (INR n * (INR n * 1)))) + 1). pose proof (pos_INR n) as N0.
    assert (N1 : 0 <= INR n * INR n) by (apply Rmult_le_pos; exact N0). assert (N2 : 0 <= INR n * INR n * (INR n * INR n)) by (apply Rmult_le_pos; exact N1). assert (B0 : 0 < B) by (unfold B; nra).
    set (m := Rmin (D / 4) (Rmin (D1 / 4) (r / 2))). assert (M0 : 0 < m) by (repeat apply Rmin_glb_lt; lra).
    assert (m1 : m <= D / 4) by apply Rmin_l. assert (m2 : m <= D1 / 4) by (eapply Rle_trans; [apply Rmin_r|apply Rmin_l]). assert (m3 : m <= r / 2) by (eapply Rle_trans; [apply Rmin_r|apply Rmin_r]). clearbody m.
    set (tau := m / B). assert (T0 : 0 < tau) by (now apply Rdiv_lt_0_compat). assert (TB : tau * B = m) by (unfold tau; field; lra).
    exists tau. split; [exact T0|]. intros al' be' CL.
    assert (V0 : forall x, Rabs (tq n al be x - tq n al' be' x) <= m).
    { intros x. eapply Rle_trans; [apply tq_close; exact CL|]. rewrite <- TB. unfold B. nra. }
    assert (V2 : forall x, Rabs (tq2 n al be x - tq2 n al' be' x) <= m).
    { intros x. eapply Rle_trans; [apply tq_close; apply td_close; apply td_close; exact CL|]. rewrite <- TB. unfold B. nra. }
    intros angles G. cbv zeta.
    apply (core_main n al' be' d lam u doas angles lo hi r (D / 2) tol step); try assumption; try lra.
    + intros a Ia y Hy. fold ph in Hy. pose proof (R1 a Ia y ltac:(lra)). pose proof (V2 y) as X. apply Rcomplements.Rabs_le_between in X. lra.
    + intros y Hy FY. assert (D <= f0 y). { apply FD; [exact Hy|]. intros p Ip. apply in_map_iff in Ip as (a & <- & Ia). now apply FY. }
      unfold f0 in H. pose proof (V0 y) as X. apply Rcomplements.Rabs_le_between in X. lra.
    + intros a Ia y Hy. fold ph c in Hy. pose proof (R4 a Ia y ltac:(lra)) as Z. unfold f0 in Z. pose proof (V0 y) as X. apply Rcomplements.Rabs_le_between in X. lra.
    + intros a Ia x Hx Hr Hxa. fold ph in Hr |- *. pose proof (F1 a Ia x Hx Hr Hxa) as Z. pose proof (Z0 a Ia) as Za. unfold f0 in Z, Za.
      pose proof (V0 (ph x)) as X. pose proof (V0 (ph a)) as X0. apply Rcomplements.Rabs_le_between in X. apply Rcomplements.Rabs_le_between in X0. lra.
Qed.
End Fine.

(** close matrices have close coefficients *)
Lemma near_coef (X Y : cmat) n tau : nr X = n -> nc X = n -> near tau X Y -> forall i j, (i < n)%nat -> (j < n)%nat ->
  Rabs (Re (ent X i j) - Re (ent Y i j)) <= tau /\ Rabs (- Im (ent X i j) - - Im (ent Y i j)) <= tau.
Proof.
  intros N1 N2 (_ & _ & NR) i j Hi Hj. pose proof (NR i j ltac:(lia) ltac:(lia)) as X0.
  set (q := ent X i j) in *. set (q' := ent Y i j) in *. destruct q as (a1, b1), q' as (a2, b2). pose proof (Rmax_Cmod ((a1, b1) - (a2, b2))%C) as Y0. cbn [Re Im fst snd Cminus Cplus Copp] in *.
  pose proof (Rmax_l (Rabs (a1 + - a2)) (Rabs (b1 + - b2))). pose proof (Rmax_r (Rabs (a1 + - a2)) (Rabs (b1 + - b2))). split; [replace (a1 - a2) with (a1 + - a2) by ring; lra|]. replace (- b1 - - b2) with (- (b1 + - b2)) by ring. rewrite Rabs_Ropp. lra.
Qed.
(** the null spectrum *)
Lemma fine_powers n d lam u doas lo hi (En : cmat) : 0 < d -> 0 < lam -> field_of_view d lam u lo hi -> (forall a, In a doas -> lo < a < hi) -> NoDup doas ->
  nr En = n -> above_zeros (map (phase d lam u) doas) (power En) -> (forall a, In a doas -> power En (phase d lam u a) = 0) ->
  exists step, 0 < step /\ one_valley_each d lam u doas lo hi step 0 (power En) /\
    forall tol, 0 < tol -> exists tau, 0 < tau /\ forall al be, (forall i j, (i < n)%nat -> (j < n)%nat -> Rabs (Re (ent (En *m mher En) i j) - al i j) <= tau /\ Rabs (- Im (ent (En *m mher En) i j) - be i j) <= tau) ->
      one_valley_each d lam u doas lo hi step tol (tq n al be).
Proof.
  intros Hd Hl FV IN ND NE (kap & Hk & AZ) Z0. set (al := fun i j => Re (ent (En *m mher En) i j)). set (be := fun i j => - Im (ent (En *m mher En) i j)).
  assert (PT : forall x, power En x = tq n al be x) by (intros x; apply power_tq, NE).
  destruct (fine_grids n d lam u doas lo hi al be Hd Hl FV IN ND) as (step & S0 & EXA & APP).
  - exists kap. split; [exact Hk|]. intros x. rewrite <- PT. apply AZ.
  - intros a Ia. rewrite <- PT. now apply Z0.
  - exists step. split; [exact S0|]. split; [apply (one_valley_ext d lam u doas lo hi step 0 (tq n al be)); [intros x; symmetry; apply PT|exact EXA]|].
    intros tol Ht. destruct (APP tol Ht) as (tau & Htau & H). exists tau. split; [exact Htau|]. intros al' be' CL. apply H. exact CL.
Qed.
Lemma noise_facts n d lam u doas lo hi (En : cmat) : 0 < d -> 0 < lam -> field_of_view d lam u lo hi -> (forall a, In a doas -> lo < a < hi) -> NoDup doas -> (List.length doas < n)%nat ->
  nr En = n -> orthonormal En -> (forall a, proj_power En a = 0 <-> in_span (ula_matrix n (map (zof d lam u) doas)) a) ->
  above_zeros (map (phase d lam u) doas) (power En) /\ (forall a, In a doas -> power En (phase d lam u a) = 0).
Proof.
  intros Hd Hl FV IN ND Lk NE ON NS. set (ps := map (phase d lam u) doas).
  assert (EZ : map cis ps = map (zof d lam u) doas) by (unfold ps; rewrite map_map; reflexivity).
  assert (NZ : NoDup (map cis ps)) by (apply (shape_nodup ps _ _ (fine_wide d lam u lo hi Hl FV) (fine_inner d lam u doas lo hi Hd Hl FV IN) (fine_nodup d lam u doas lo hi Hd Hl FV IN ND))).
  assert (NS' : forall a, proj_power En a = 0 <-> in_span (ula_matrix n (map cis ps)) a) by (intros a; rewrite EZ; apply NS).
  assert (Lp : (List.length ps < n)%nat) by (unfold ps; now rewrite map_length).
  split; [exact (noise_above n ps En NZ NE ON Lp NS')|]. intros a Ia. apply (noise_zero n ps En NS'). unfold ps. now apply in_map.
Qed.
Lemma fine_noise n d lam u doas lo hi (En : cmat) : 0 < d -> 0 < lam -> field_of_view d lam u lo hi -> (forall a, In a doas -> lo < a < hi) -> NoDup doas -> (List.length doas < n)%nat ->
  nr En = n -> orthonormal En -> (forall a, proj_power En a = 0 <-> in_span (ula_matrix n (map (zof d lam u) doas)) a) ->
  exists step, 0 < step /\ one_valley_each d lam u doas lo hi step 0 (power En) /\
    forall tol, 0 < tol -> exists tau, 0 < tau /\ forall En', nr En' = n -> near tau (En *m mher En) (En' *m mher En') -> one_valley_each d lam u doas lo hi step tol (power En').
Proof.
  intros Hd Hl FV IN ND Lk NE ON NS. destruct (noise_facts n d lam u doas lo hi En Hd Hl FV IN ND Lk NE ON NS) as (AZ & Z0).
  destruct (fine_powers n d lam u doas lo hi En Hd Hl FV IN ND NE AZ Z0) as (step & S0 & EXA & APP). exists step. split; [exact S0|]. split; [exact EXA|].
  intros tol Ht. destruct (APP tol Ht) as (tau & Htau & H). exists tau. split; [exact Htau|]. intros En' NE' NR.
  apply (one_valley_ext d lam u doas lo hi step tol (tq n (fun i j => Re (ent (En' *m mher En') i j)) (fun i j => - Im (ent (En' *m mher En') i j)))); [intros; symmetry; now apply power_tq|].
  apply H. apply (near_coef (En *m mher En) (En' *m mher En') n tau); [exact NE|exact NE|exact NR].
Qed.
