(** Valleys of a sampled function that is strictly quasi-convex near each of its small values. *)
From Coq Require Import Reals Lra Lia List Sorted Permutation Arith.
Import ListNotations.
Open Scope R_scope.
Open Scope nat_scope.

(** a valley of v on 0..N-1: the midpoint of a maximal interval of equal samples, strictly lower than both neighbours *)
Definition valley (N : nat) (v : nat -> R) (i : nat) : Prop := exists l r : nat, 0 < l <= r /\ S r < N /\ i = Nat.div (l + r) 2 /\
  (forall j, l <= j <= r -> v j = v l) /\ (v l < v (l - 1)%nat)%R /\ (v l < v (S r))%R.
(** strictly quasi-convex on the positions in W *)
Definition qconvex (v : nat -> R) (W : nat -> Prop) : Prop := forall a b c, a < b < c -> W a -> W b -> W c -> (v b < v a \/ v b < v c)%R.
(** m and its neighbours up to distance two are positions in W *)
Definition deep (N : nat) (W : nat -> Prop) (m : nat) : Prop := 2 <= m /\ S (S m) < N /\ W (m - 2) /\ W (m - 1) /\ W m /\ W (S m) /\ W (S (S m)).

Lemma half_same l : Nat.div (l + l) 2 = l. Proof. replace (l + l) with (l * 2) by lia. now apply Nat.div_mul. Qed.
Lemma half_next l : Nat.div (l + S l) 2 = l. Proof. replace (l + S l) with (1 + l * 2) by lia. rewrite Nat.div_add by lia. reflexivity. Qed.

(** first minimum over a decidable set of positions below n *)
Lemma first_min (v : nat -> R) (W : nat -> bool) n : (exists q, q < n /\ W q = true) ->
  exists m, m < n /\ W m = true /\ (forall j, j < n -> W j = true -> (v m <= v j)%R) /\ (forall j, j < m -> W j = true -> (v m < v j)%R).
Proof.
  induction n as [|n IH]; intros (q & Hq & Wq); [lia|].
  destruct (W n) eqn:Wn.
  - destruct (existsb W (seq 0 n)) eqn:X.
    + apply existsb_exists in X as (q' & Iq & Wq'). apply in_seq in Iq. destruct IH as (m & m1 & m2 & m3 & m4); [exists q'; split; [lia|exact Wq']|].
      destruct (Rle_lt_dec (v m) (v n)) as [L|L].
      * exists m. repeat (split; [lia || assumption|]). split; [|exact m4]. intros j Hj Wj. destruct (Nat.eq_dec j n) as [->|]; [exact L|apply m3; [lia|exact Wj]].
      * exists n. split; [lia|]. split; [exact Wn|]. split.
        { intros j Hj Wj. destruct (Nat.eq_dec j n) as [->|]; [lra|]. pose proof (m3 j ltac:(lia) Wj). lra. }
        { intros j Hj Wj. pose proof (m3 j Hj Wj). lra. }
    + assert (NX : forall j, j < n -> W j = true -> False).
      { intros j Hj Wj. assert (existsb W (seq 0 n) = true) by (apply existsb_exists; exists j; split; [apply in_seq; lia|exact Wj]). congruence. }
      exists n. split; [lia|]. split; [exact Wn|]. split.
      { intros j Hj Wj. destruct (Nat.eq_dec j n) as [->|]; [lra|]. exfalso. apply (NX j); [lia|exact Wj]. }
      { intros j Hj Wj. exfalso. now apply (NX j). }
  - destruct IH as (m & m1 & m2 & m3 & m4). { exists q. split; [|exact Wq]. destruct (Nat.eq_dec q n) as [->|]; [congruence|lia]. }
    exists m. split; [lia|]. split; [exact m2|]. split; [|exact m4]. intros j Hj Wj. destruct (Nat.eq_dec j n) as [->|]; [congruence|apply m3; [lia|exact Wj]].
Qed.

Lemma valley_exists N v (W : nat -> bool) D q : qconvex v (fun m => W m = true) -> (forall m, W m = true -> m < N) ->
  (forall m, W m = true -> (v m < D)%R -> deep N (fun m => W m = true) m) -> W q = true -> (v q < D)%R ->
  exists m, W m = true /\ (v m < D)%R /\ valley N v m.
Proof.
  intros QC WN DP Wq Vq. destruct (first_min v W N) as (m & m1 & m2 & m3 & m4); [exists q; split; [now apply WN|exact Wq]|].
  assert (Vm : (v m < D)%R) by (pose proof (m3 q (WN q Wq) Wq); lra). destruct (DP m m2 Vm) as (d1 & d2 & d3 & d4 & d5 & d6 & d7).
  exists m. split; [exact m2|]. split; [exact Vm|]. pose proof (m4 (m - 1) ltac:(lia) d4) as L. pose proof (m3 (S m) (WN _ d6) d6) as U.
  destruct (Req_dec (v (S m)) (v m)) as [E|NE].
  - exists m, (S m). split; [lia|]. split; [exact d2|]. split; [symmetry; apply half_next|]. split.
    { intros j Hj. assert (j = m \/ j = S m) as [-> | ->] by lia; [reflexivity|exact E]. }
    split; [exact L|]. destruct (QC m (S m) (S (S m)) ltac:(lia) d5 d6 d7) as [X|X]; lra.
  - exists m, m. split; [lia|]. split; [lia|]. split; [symmetry; apply half_same|]. split.
    { intros j Hj. replace j with m by lia. reflexivity. }
    split; [exact L|lra].
Qed.

(** a low valley is low, and not higher than its neighbours *)
Lemma valley_shape {I : Type} N v (W : I -> nat -> Prop) D i : (forall a, qconvex v (W a)) -> (forall m, m < N -> (v m < D)%R -> exists a, deep N (W a) m) ->
  valley N v i -> (v i < D)%R -> exists a, deep N (W a) i /\ (v i < v (i - 1)%nat)%R /\ (v i <= v (S i))%R.
Proof.
  intros QC DP (l & r & L1 & L2 & -> & C1 & L3 & L4) V.
  assert (Vl : (v l < D)%R). { rewrite <- (C1 (Nat.div (l + r) 2)); [exact V|]. split; [apply Nat.div_le_lower_bound; lia|apply Nat.div_le_upper_bound; lia]. }
  destruct (DP l ltac:(lia) Vl) as (a & Da). pose proof Da as (d1 & d2 & d3 & d4 & d5 & d6 & d7).
  assert (R1 : r <= S l).
  { destruct (Nat.le_gt_cases r (S l)) as [X|X]; [exact X|]. exfalso. pose proof (C1 (S l) ltac:(lia)) as e1. pose proof (C1 (S (S l)) ltac:(lia)) as e2.
    destruct (QC a l (S l) (S (S l)) ltac:(lia) d5 d6 d7); lra. }
  assert (E : Nat.div (l + r) 2 = l) by (assert (r = l \/ r = S l) as [-> | ->] by lia; [apply half_same|apply half_next]).
  rewrite E. exists a. split; [exact Da|]. split; [exact L3|]. assert (r = l \/ r = S l) as [-> | ->] by lia; [lra|]. rewrite (C1 (S l)) by lia. lra.
Qed.
Lemma valley_unique v (W : nat -> Prop) i i' : qconvex v W -> W i -> W (S i) -> W (i' - 1) -> W i' -> (v i <= v (S i))%R -> (v i' < v (i' - 1)%nat)%R -> i < i' -> False.
Proof.
  intros QC w1 w2 w3 w4 L1 L2 H. destruct (Nat.eq_dec i' (S i)) as [->|NE].
  - replace (S i - 1) with i in L2 by lia. lra.
  - destruct (QC i (S i) i' ltac:(lia) w1 w2 w4) as [X|X]; [lra|].
    destruct (Nat.eq_dec (i' - 1) (S i)) as [E|NE2]; [rewrite E in *; lra|].
    destruct (QC i (i' - 1) i' ltac:(lia) w1 w3 w4) as [Y|Y]; lra.
Qed.
