(** An exact solver (Gaussian elimination): the contracts of solve, inv and pinv are satisfiable for every size. *)
From Verif Require Import Base_Np Base_Lin S_perf.
Open Scope C_scope.

Fixpoint find_pivot (n : nat) (c : nat -> C) : option nat :=
  match n with 0%nat => None | S p => if Ceq_dec (c p) (RtoC 0) then find_pivot p c else Some p end.
Lemma find_pivot_some n c p : find_pivot n c = Some p -> (p < n)%nat /\ c p <> RtoC 0.
Proof. induction n as [|q IH]; [discriminate|]. cbn. destruct (Ceq_dec (c q) (RtoC 0)); [intros H; destruct (IH H); auto with arith | intros [= <-]; split; [lia | assumption]]. Qed.
Lemma find_pivot_none n c : find_pivot n c = None -> forall i, (i < n)%nat -> c i = RtoC 0.
Proof. induction n as [|q IH]; [intros; lia|]. cbn. destruct (Ceq_dec (c q) (RtoC 0)) as [E|E]; [|discriminate]. intros H i Hi. destruct (Nat.eq_dec i q) as [->|N]; [exact E | apply IH; [exact H | lia]]. Qed.
(** unknown n-1 is eliminated with a pivot row *)
Fixpoint gauss (n : nat) (G : nat -> nat -> C) (b : nat -> C) : option (nat -> C) :=
  match n with
  | 0%nat => Some (fun _ => RtoC 0)
  | S q =>
    match find_pivot (S q) (fun i => G i q) with
    | None => None
    | Some p =>
      match gauss q (fun i j => G (skip p i) j - G (skip p i) q / G p q * G p j) (fun i => b (skip p i) - G (skip p i) q / G p q * b p) with
      | None => None
      | Some x => let t := (b p - csum q (fun j => G p j * x j)) / G p q in Some (fun j => if Nat.eqb j q then t else x j)
      end
    end
  end.
Lemma unskip_inv p i : i <> p -> skip p (unskip p i) = i.
Proof. intros H. unfold skip, unskip. destruct (Nat.ltb_spec i p); [destruct (Nat.ltb_spec i p); lia|]. destruct (Nat.ltb_spec (i - 1) p); lia. Qed.
Lemma unskip_lt p i n : (i < S n)%nat -> (p < S n)%nat -> i <> p -> (unskip p i < n)%nat.
Proof. intros. unfold unskip. destruct (Nat.ltb_spec i p); lia. Qed.
Lemma gauss_sound n : forall G b x, gauss n G b = Some x -> forall i, (i < n)%nat -> csum n (fun j => G i j * x j) = b i.
Proof.
  induction n as [|q IH]; intros G b x H i Hi; [lia|]. cbn [gauss] in H. destruct (find_pivot (S q) (fun i => G i q)) as [p|] eqn:EP; [|discriminate]. apply find_pivot_some in EP as (Hp & NP).
  set (G' := fun i j => G (skip p i) j - G (skip p i) q / G p q * G p j) in *. set (b' := fun i => b (skip p i) - G (skip p i) q / G p q * b p) in *.
  destruct (gauss q G' b') as [y|] eqn:EG; [|discriminate]. injection H as <-. set (t := (b p - csum q (fun j => G p j * y j)) / G p q).
  assert (S1 : forall r, csum (S q) (fun j => G r j * (if Nat.eqb j q then t else y j)) = csum q (fun j => G r j * y j) + G r q * t).
  { intros r. change (csum (S q) ?f) with (csum q f + f q). cbv beta. rewrite Nat.eqb_refl. f_equal. apply csum_ext. intros j Hj. destruct (Nat.eqb_spec j q); [lia | reflexivity]. }
  rewrite S1. destruct (Nat.eq_dec i p) as [->|N]; [unfold t; field; exact NP|].
  pose proof (IH G' b' y EG (unskip p i) (unskip_lt p i q Hi Hp N)) as E. unfold G', b' in E. rewrite unskip_inv in E by exact N.
  rewrite (csum_ext q _ (fun j => G i j * y j - G i q / G p q * (G p j * y j))) in E by (intros; field; exact NP). rewrite csum_minus, csum_scal in E.
  replace (csum q (fun j => G i j * y j)) with (csum q (fun j => G i j * y j) - G i q / G p q * csum q (fun j => G p j * y j) + G i q / G p q * csum q (fun j => G p j * y j)) by ring.
  rewrite E. unfold t. field. exact NP.
Qed.
Lemma gauss_complete n : forall G b, (forall x, (forall i, (i < n)%nat -> csum n (fun j => G i j * x j) = RtoC 0) -> forall j, (j < n)%nat -> x j = RtoC 0) -> exists x, gauss n G b = Some x.
Proof.
  induction n as [|q IH]; intros G b HI; [eexists; reflexivity|]. cbn [gauss]. destruct (find_pivot (S q) (fun i => G i q)) as [p|] eqn:EP.
  - apply find_pivot_some in EP as (Hp & NP). edestruct IH as (y & ->); [|eexists; reflexivity]. intros x Hx j Hj.
    set (t := - (csum q (fun j => G p j * x j) / G p q)).
    assert (HJ : (if Nat.eqb j q then t else x j) = RtoC 0).
    + refine (HI (fun j => if Nat.eqb j q then t else x j) _ j _); [|lia]. intros i Hi. change (csum (S q) ?f) with (csum q f + f q). cbv beta. rewrite Nat.eqb_refl. rewrite (csum_ext q _ (fun j => G i j * x j)) by (intros r Hr; destruct (Nat.eqb_spec r q); [lia | reflexivity]).
      destruct (Nat.eq_dec i p) as [->|N]; [unfold t; field; exact NP|].
      pose proof (Hx (unskip p i) (unskip_lt p i q Hi Hp N)) as E. cbv beta in E. rewrite unskip_inv in E by exact N.
      rewrite (csum_ext q _ (fun j => G i j * x j - G i q / G p q * (G p j * x j))) in E by (intros; field; exact NP). rewrite csum_minus, csum_scal in E. rewrite <- E. unfold t. field. exact NP.
    + destruct (Nat.eqb_spec j q); [lia | exact HJ].
  - exfalso. apply (RtoC_neq_0 1); [lra|]. assert (HJ : (if Nat.eqb q q then RtoC 1 else RtoC 0) = RtoC 0).
    + refine (HI (fun j => if Nat.eqb j q then RtoC 1 else RtoC 0) _ q _); [|lia]. intros i Hi. rewrite (csum_single (S q) _ q ltac:(lia)); [rewrite Nat.eqb_refl, (find_pivot_none _ _ EP i Hi); ring|]. intros r Hr Nr. destruct (Nat.eqb_spec r q); [contradiction | ring].
    + rewrite Nat.eqb_refl in HJ. exact HJ.
Qed.
Lemma gauss_total n G b b' : gauss n G b = None -> gauss n G b' = None.
Proof.
  revert G b b'. induction n as [|q IH]; intros G b b'; cbn [gauss]; [discriminate|]. destruct (find_pivot (S q) (fun i => G i q)) as [p|]; [|reflexivity].
  match goal with |- match gauss q ?G' ?c with _ => _ end = None -> match gauss q _ ?c' with _ => _ end = None => destruct (gauss q G' c) eqn:E1; [discriminate|]; intros _; now rewrite (IH G' c c' E1) end.
Qed.

Definition solve0 (G B : cmat) : res cmat :=
  if (Nat.eqb (nr G) (nc G) && Nat.eqb (nr B) (nr G))%bool then
    match gauss (nr G) (ent G) (fun _ => RtoC 0) with
    | None => Raise LinAlgError
    | Some _ => Ok (Mat (nr G) (nc B) (fun i j => match gauss (nr G) (ent G) (fun r => ent B r j) with Some x => x i | None => RtoC 0 end))
    end
  else Raise LinAlgError.
Lemma solve0_exact : solve_exact solve0.
Proof.
  split.
  - intros G B X. unfold solve0. destruct (Nat.eqb_spec (nr G) (nc G)) as [E1|]; [|discriminate]. destruct (Nat.eqb_spec (nr B) (nr G)) as [E2|]; [|discriminate]. cbn [andb].
    destruct (gauss (nr G) (ent G) (fun _ => RtoC 0)) eqn:E0; [|discriminate]. intros [= <-]. cbn [nr nc]. repeat split; try assumption; try (now symmetry); cbn [nr nc mmul].
    intros i j Hi Hj. cbn [ent]. destruct (gauss (nr G) (ent G) (fun r => ent B r j)) as [x|] eqn:Ej; [|rewrite (gauss_total _ _ _ (fun _ => RtoC 0) Ej) in E0; discriminate].
    cbn [mmul ent nc]. rewrite <- E1. rewrite (csum_ext _ _ (fun r => ent G i r * x r)) by (intros r Hr; now rewrite Ej). exact (gauss_sound _ _ _ _ Ej i Hi).
  - intros G B E1 E2 HI. unfold solve0. rewrite (proj2 (Nat.eqb_eq _ _) E1), (proj2 (Nat.eqb_eq _ _) E2). cbn [andb].
    destruct (gauss_complete (nr G) (ent G) (fun _ => RtoC 0)) as (x & ->); [|eexists; reflexivity]. intros x Hx j Hj. apply (HI x); [|lia]. intros i Hi. unfold mvec. rewrite <- E1. now apply Hx.
Qed.
Definition cinv0 (G : cmat) : res cmat := solve0 G (mid (nr G)).
Lemma cinv0_exact : cinv_exact cinv0.
Proof.
  split.
  - intros G X H. apply (proj1 solve0_exact) in H as (H1 & H2 & H3 & H4 & H5). cbn [mid nc] in H4. auto.
  - intros G E HI. now apply (proj2 solve0_exact).
Qed.
Definition rinv0 (G : rmat) : res rmat := let! X := cinv0 (mofR G) in Ok (mre X).
Lemma inj_mofR G : rinj G -> inj (mofR G).
Proof.
  intros H x Hx j Hj. cbn [mofR mmap nr nc] in *. apply C_eq.
  - refine (H (fun j => Re (x j)) _ j Hj). intros i Hi. specialize (Hx i Hi). apply (f_equal Re) in Hx. unfold mvec in Hx. cbn [mofR mmap nc ent] in Hx. rewrite csum_Re in Hx. change (Re (RtoC 0)) with 0%R in Hx. rewrite <- Hx. apply rsum_ext. intros r Hr. rewrite Re_mult. cbn. ring.
  - refine (H (fun j => Im (x j)) _ j Hj). intros i Hi. specialize (Hx i Hi). apply (f_equal Im) in Hx. unfold mvec in Hx. cbn [mofR mmap nc ent] in Hx. rewrite csum_Im in Hx. change (Im (RtoC 0)) with 0%R in Hx. rewrite <- Hx. apply rsum_ext. intros r Hr. rewrite Im_mult. cbn. ring.
Qed.
Lemma rinv0_exact : rinv_exact rinv0.
Proof.
  split.
  - intros G X. unfold rinv0. destruct (cinv0 (mofR G)) as [Y|e] eqn:E; [|discriminate]. cbn [bind]. intros [= <-]. apply (proj1 cinv0_exact) in E as (H1 & H2 & H3 & (_ & _ & H4)). cbn [mofR mmap nr nc mre] in *. repeat split; try assumption.
    intros i j Hi Hj. specialize (H4 i j Hi ltac:(cbn [mmul nc]; rewrite H3; exact Hj)). apply (f_equal Re) in H4. cbn [mmul ent nc] in H4. rewrite csum_Re in H4. rewrite H1. transitivity (Re (ent (mid (nr G)) i j)).
    + rewrite <- H4. apply rsum_ext. intros r Hr. rewrite Re_mult. cbn. ring.
    + cbn [mid ent]. unfold rident. now destruct (Nat.eqb i j).
  - intros G E HI. unfold rinv0. destruct (proj2 cinv0_exact (mofR G) E (inj_mofR G HI)) as (X & ->). eexists. reflexivity.
Qed.
