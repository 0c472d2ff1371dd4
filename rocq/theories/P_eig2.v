(** The contracts of eigh, solve and eigvals are satisfiable: explicit routines for orders up to 2 (eigh) and 1. *)
From Coq Require Import Sorting.Sorted FunctionalExtensionality.
From Verif Require Import Base_Np Base_Lin S_subspace.
Open Scope C_scope.

Definition eigh2 (A : cmat) : res (list R * cmat) :=
  match nr A with
  | 0%nat => Ok ([], Mat 0 0 (fun _ _ => RtoC 0))
  | 1%nat => Ok ([Re (ent A 0 0)], mid 1)
  | _ =>
    let a := Re (ent A 0 0) in let c := Re (ent A 1 1) in let b := ent A 0 1 in
    if Req_EM_T (Cnorm2 b) 0 then
      if Rle_dec a c then Ok ([a; c], mid 2) else Ok ([c; a], Mat 2 2 (fun i j => if Nat.eqb i j then RtoC 0 else RtoC 1))
    else
      let dl := ((a - c) / 2)%R in let r := sqrt (dl * dl + Cnorm2 b) in
      let l1 := ((a + c) / 2 - r)%R in let l2 := ((a + c) / 2 + r)%R in
      let n l := (/ sqrt (Cnorm2 b + (l - a) * (l - a)))%R in
      Ok ([l1; l2], Mat 2 2 (fun i j => let l := match j with 0%nat => l1 | _ => l2 end in
                                        match i with 0%nat => b * RtoC (n l) | _ => RtoC ((l - a) * n l) end))
  end.
Definition solve1 (G B : cmat) : res cmat := Ok (Mat (nr G) (nc B) (fun i j => ent B i j / ent G 0 0)).
Definition eigvals1 (A : cmat) : res (list C) := Ok (match nr A with 0%nat => [] | _ => [ent A 0 0] end).

Lemma inv_sqrt_sq x : (0 < x)%R -> (/ sqrt x * / sqrt x = / x)%R.
Proof. intros H. rewrite <- Rinv_mult. now rewrite sqrt_sqrt by lra. Qed.
Definition E2 (b : C) (a l1 l2 n1 n2 : R) : cmat :=
  Mat 2 2 (fun i j => match i with 0%nat => b * RtoC (match j with 0%nat => n1 | _ => n2 end) | _ => RtoC (match j with 0%nat => (l1 - a) * n1 | _ => (l2 - a) * n2 end) end).
Lemma eig2_gen e b1 b2 a c l1 l2 n1 n2 : let N2 := (b1 * b1 + b2 * b2)%R in
  e 0%nat 0%nat = (a, 0%R) -> e 1%nat 1%nat = (c, 0%R) -> e 0%nat 1%nat = (b1, b2) -> e 1%nat 0%nat = (b1, (- b2)%R) -> (l1 <= l2)%R ->
  (n1 * n1 * (N2 + (l1 - a) * (l1 - a)) = 1)%R -> (n2 * n2 * (N2 + (l2 - a) * (l2 - a)) = 1)%R -> (N2 + (l1 - a) * (l2 - a) = 0)%R ->
  (N2 + c * (l1 - a) = l1 * (l1 - a))%R -> (N2 + c * (l2 - a) = l2 * (l2 - a))%R ->
  eigh_ok (Mat 2 2 e) [l1; l2] (E2 (b1, b2) a l1 l2 n1 n2).
Proof.
  intros N2 Ea Ec Eb Q2 HL S1 S2 O V1 V2. unfold N2 in *. unfold eigh_ok. cbn [nr nc ent E2 mher]. repeat split; try reflexivity.
  - repeat (apply SSorted_cons || apply SSorted_nil || apply Forall_cons || apply Forall_nil); exact HL.
  - intros [|[|i]] [|[|j]] Hi Hj; cbn in Hi, Hj; try lia; apply C_eq; cbn; try ring.
    + rewrite <- S1. ring.
    + transitivity (n1 * n2 * (b1 * b1 + b2 * b2 + (l1 - a) * (l2 - a)))%R; [ring | rewrite O; ring].
    + transitivity (n1 * n2 * (b1 * b1 + b2 * b2 + (l1 - a) * (l2 - a)))%R; [ring | rewrite O; ring].
    + rewrite <- S2. ring.
  - intros [|[|i]] [|[|j]] Hi Hj; cbn in Hi, Hj; try lia; cbn; rewrite ?Q2, ?Ea, ?Ec, ?Eb; apply C_eq; cbn; try ring.
    + transitivity (n1 * (b1 * b1 + b2 * b2 + c * (l1 - a)))%R; [ring | rewrite V1; ring].
    + transitivity (n2 * (b1 * b1 + b2 * b2 + c * (l2 - a)))%R; [ring | rewrite V2; ring].
Qed.
Lemma eigh2_contract : eigh_contract 2 eigh2.
Proof.
  intros [n m e] (HS & HH) HN. cbn [nr nc ent] in *. subst m. unfold eigh2, eigh_ok. cbn [nr nc ent]. destruct n as [|[|[|n]]]; [| | |lia].
  - exists [], (Mat 0 0 (fun _ _ => RtoC 0)). split; [reflexivity|]. repeat split; try constructor; intros i j Hi; cbn in Hi; lia.
  - exists [Re (e 0%nat 0%nat)], (mid 1). split; [reflexivity|]. repeat split; try (repeat constructor).
    + intros [|i] [|j] Hi Hj; cbn in Hi, Hj; try lia. apply C_eq; cbn; ring.
    + intros [|i] [|j] Hi Hj; cbn in Hi, Hj; try lia.
      pose proof (HH 0%nat 0%nat ltac:(lia) ltac:(lia)) as Q. apply (f_equal Im) in Q. cbn. destruct (e 0%nat 0%nat) as (x, y). cbn in *. apply C_eq; cbn; nra.
  - pose proof (f_equal Im (HH 0%nat 0%nat ltac:(lia) ltac:(lia))) as Q0. pose proof (f_equal Im (HH 1%nat 1%nat ltac:(lia) ltac:(lia))) as Q1. pose proof (HH 1%nat 0%nat ltac:(lia) ltac:(lia)) as Q2.
    destruct (e 0%nat 0%nat) as (a, a') eqn:Ea. destruct (e 1%nat 1%nat) as (c, c') eqn:Ec. destruct (e 0%nat 1%nat) as (b1, b2) eqn:Eb. cbn in Q0, Q1.
    assert (a' = 0)%R as -> by lra. assert (c' = 0)%R as -> by lra. clear Q0 Q1. cbn [Re Im fst snd]. set (N2 := Cnorm2 (b1, b2)).
    assert (EN : N2 = (b1 * b1 + b2 * b2)%R) by (unfold N2, Cnorm2; cbn; ring).
    destruct (Req_EM_T N2 0) as [Z|Z].
    + assert (b1 = 0 /\ b2 = 0)%R as (-> & ->) by (rewrite EN in Z; nra). destruct (Rle_dec a c) as [L|L].
      * exists [a; c], (mid 2). split; [reflexivity|]. repeat split; try reflexivity.
        -- repeat (apply SSorted_cons || apply SSorted_nil || apply Forall_cons || apply Forall_nil); exact L.
        -- intros [|[|i]] [|[|j]] Hi Hj; cbn in Hi, Hj; try lia; apply C_eq; cbn; ring.
        -- intros [|[|i]] [|[|j]] Hi Hj; cbn in Hi, Hj; try lia; cbn; rewrite ?Q2, ?Ea, ?Ec, ?Eb; apply C_eq; cbn; ring.
      * exists [c; a], (Mat 2 2 (fun i j => if Nat.eqb i j then RtoC 0 else RtoC 1)). split; [reflexivity|]. repeat split; try reflexivity.
        -- repeat (apply SSorted_cons || apply SSorted_nil || apply Forall_cons || apply Forall_nil); lra.
        -- intros [|[|i]] [|[|j]] Hi Hj; cbn in Hi, Hj; try lia; apply C_eq; cbn; ring.
        -- intros [|[|i]] [|[|j]] Hi Hj; cbn in Hi, Hj; try lia; cbn; rewrite ?Q2, ?Ea, ?Ec, ?Eb; apply C_eq; cbn; ring.
    + assert (PN : (0 < N2)%R) by (rewrite EN in *; nra). set (dl := ((a - c) / 2)%R). set (r := sqrt (dl * dl + N2)).
      assert (Rr : (r * r = dl * dl + N2)%R) by (apply sqrt_sqrt; nra). assert (R0 : (0 <= r)%R) by apply sqrt_pos.
      set (l1 := ((a + c) / 2 - r)%R). set (l2 := ((a + c) / 2 + r)%R).
      set (n1 := (/ sqrt (N2 + (l1 - a) * (l1 - a)))%R). set (n2 := (/ sqrt (N2 + (l2 - a) * (l2 - a)))%R).
      assert (P1 : (0 < N2 + (l1 - a) * (l1 - a))%R) by (pose proof (Rle_0_sqr (l1 - a)) as SQ; unfold Rsqr in SQ; lra). assert (P2 : (0 < N2 + (l2 - a) * (l2 - a))%R) by (pose proof (Rle_0_sqr (l2 - a)) as SQ; unfold Rsqr in SQ; lra).
      assert (S1 : (n1 * n1 * (N2 + (l1 - a) * (l1 - a)) = 1)%R) by (unfold n1; rewrite inv_sqrt_sq by exact P1; field; lra).
      assert (S2 : (n2 * n2 * (N2 + (l2 - a) * (l2 - a)) = 1)%R) by (unfold n2; rewrite inv_sqrt_sq by exact P2; field; lra).
      assert (O : (N2 + (l1 - a) * (l2 - a) = 0)%R) by (replace ((l1 - a) * (l2 - a))%R with (dl * dl - r * r)%R by (unfold l1, l2, dl; field); rewrite Rr; ring).
      assert (V1 : (N2 + c * (l1 - a) = l1 * (l1 - a))%R) by (assert ((l1 - a) * (l1 - c) = r * r - dl * dl)%R by (unfold l1, dl; field); lra).
      assert (V2 : (N2 + c * (l2 - a) = l2 * (l2 - a))%R) by (assert ((l2 - a) * (l2 - c) = r * r - dl * dl)%R by (unfold l2, dl; field); lra).
      exists [l1; l2], (E2 (b1, b2) a l1 l2 n1 n2). split.
      * do 3 f_equal. unfold E2. f_equal. apply functional_extensionality. intros i. apply functional_extensionality. intros j. destruct i, j; reflexivity.
      * apply (eig2_gen e b1 b2 a c l1 l2 n1 n2); try assumption; try (rewrite <- EN; assumption); try exact Q2; unfold l1, l2; lra.
Qed.
Lemma solve1_contract : solve_contract 1 solve1.
Proof.
  intros [n n' g] [b1 b2 b] HS HN HI HB. cbn [nr nc] in *. subst. unfold solve1. cbn [nr nc ent]. eexists. split; [reflexivity|]. repeat split; cbn [nr nc].
  intros i j Hi Hj. cbn [mmul nr nc ent] in *. destruct n' as [|[|n]]; try lia. destruct i; [|lia]. cbn. assert (N : g 0%nat 0%nat <> RtoC 0).
  { intros Z. apply (RtoC_neq_0 1); [lra|]. apply (HI (fun _ => RtoC 1)) with (j := 0%nat); [|cbn; lia]. intros [|i] Hi'; cbn in Hi'; [|lia]. cbn. rewrite Z. ring. }
  field. exact N.
Qed.
Lemma eigvals1_contract : eigvals_contract 1 eigvals1.
Proof.
  intros [n n' g] HS HN. cbn [nr nc] in *. subst. unfold eigvals1. cbn [nr ent]. eexists. split; [reflexivity|]. destruct n' as [|[|n]]; [| |lia].
  - split; [reflexivity|]. intros z. split; [intros []|]. intros (v & (i & Hi & _) & _). cbn in Hi. lia.
  - split; [reflexivity|]. intros z. split.
    + intros [<-|[]]. exists (fun _ => RtoC 1). split; [exists 0%nat; split; [cbn; lia | apply RtoC_neq_0; lra]|]. intros [|i] Hi; cbn in Hi; [|lia]. cbn. ring.
    + intros (v & (i & Hi & Nv) & H). cbn in Hi. assert (i = 0%nat) by lia. subst. specialize (H 0%nat ltac:(cbn; lia)). cbn in H. left. rewrite Cplus_0_l in H.
      assert (X : (g 0%nat 0%nat - z) * v 0%nat = RtoC 0) by (replace ((g 0%nat 0%nat - z) * v 0%nat) with (g 0%nat 0%nat * v 0%nat - z * v 0%nat) by ring; rewrite H; ring).
      destruct (Cmult_0 _ _ X) as [Y|Y]; [|contradiction]. replace (g 0%nat 0%nat) with (g 0%nat 0%nat - z + z) by ring. rewrite Y. ring.
Qed.
