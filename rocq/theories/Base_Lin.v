(** Linear algebra over C: kernels of wide matrices, injective square matrices, orthonormal families, Cauchy-Schwarz. *)
From Coq Require Import Sorting.Sorted.
From Verif Require Export Base_Mat.
Open Scope C_scope.

Definition skip (j0 j : nat) : nat := if Nat.ltb j j0 then j else S j.
Lemma csum_skip n j0 f : (j0 < S n)%nat -> csum (S n) f = f j0 + csum n (fun j => f (skip j0 j)).
Proof.
  intros H. replace (S n) with (j0 + S (n - j0))%nat by lia. rewrite csum_app, csum_S_l. rewrite Nat.add_0_r.
  replace n with (j0 + (n - j0))%nat at 2 by lia. rewrite csum_app.
  rewrite (csum_ext j0 (fun j => f (skip j0 j)) f) by (intros i Hi; unfold skip; destruct (Nat.ltb_spec i j0); [reflexivity | lia]).
  rewrite (csum_ext (n - j0) (fun i => f (skip j0 (j0 + i))) (fun i => f (j0 + S i)%nat)) by (intros i Hi; unfold skip; destruct (Nat.ltb_spec (j0 + i) j0); [lia | f_equal; lia]).
  ring.
Qed.
Definition unskip (j0 j : nat) : nat := if Nat.ltb j j0 then j else (j - 1)%nat.
Lemma unskip_skip j0 j : unskip j0 (skip j0 j) = j.
Proof. unfold unskip, skip. destruct (Nat.ltb_spec j j0); [destruct (Nat.ltb_spec j j0); lia|]. destruct (Nat.ltb_spec (S j) j0); lia. Qed.
Lemma skip_neq j0 j : skip j0 j <> j0. Proof. unfold skip. destruct (Nat.ltb_spec j j0); lia. Qed.
Lemma skip_lt n j0 j : (j < n)%nat -> (skip j0 j < S n)%nat. Proof. unfold skip. destruct (Nat.ltb_spec j j0); lia. Qed.

Lemma nonzero_dec n (x : nat -> C) : (forall j, (j < n)%nat -> x j = RtoC 0) \/ exists j, (j < n)%nat /\ x j <> RtoC 0.
Proof.
  induction n as [|p IHp]; [left; intros; lia|]. destruct IHp as [H|(j & Hj & N)]; [|right; exists j; split; [lia | exact N]].
  destruct (Ceq_dec (x p) (RtoC 0)) as [E|N]; [left; intros j Hj; destruct (Nat.eq_dec j p); [now subst | apply H; lia] | right; exists p; split; [lia | exact N]].
Qed.
(** fewer equations than unknowns: a non-trivial solution *)
Lemma kernel_exists k : forall n (B : nat -> nat -> C), (k < n)%nat ->
  exists x, (exists j, (j < n)%nat /\ x j <> RtoC 0) /\ forall i, (i < k)%nat -> csum n (fun j => B i j * x j) = RtoC 0.
Proof.
  induction k as [|k IH]; intros n B Hn.
  - exists (fun _ => RtoC 1). split; [exists 0%nat; split; [exact Hn | apply RtoC_neq_0; lra]|]. intros; lia.
  - destruct n as [|n]; [lia|].
    pose proof (nonzero_dec (S n) (B k)) as D.
    destruct D as [Z|(j0 & Hj0 & N)].
    + destruct (IH (S n) B ltac:(lia)) as (x & Hx & H). exists x. split; [exact Hx|]. intros i Hi. destruct (Nat.eq_dec i k) as [->|Ni]; [|apply H; lia].
      apply csum_0. intros j Hj. rewrite Z by exact Hj. ring.
    + set (B' := fun i j => B i (skip j0 j) - B i j0 * B k (skip j0 j) / B k j0).
      destruct (IH n B' ltac:(lia)) as (x & (j1 & Hj1 & Nx) & H).
      set (t := - (csum n (fun j => B k (skip j0 j) * x j) / B k j0)).
      exists (fun j => if Nat.eqb j j0 then t else x (unskip j0 j)). split.
      { exists (skip j0 j1). split; [now apply skip_lt|]. destruct (Nat.eqb_spec (skip j0 j1) j0) as [E|_]; [now apply skip_neq in E|]. now rewrite unskip_skip. }
      assert (G : forall i, csum (S n) (fun j => B i j * (if Nat.eqb j j0 then t else x (unskip j0 j))) = B i j0 * t + csum n (fun j => B i (skip j0 j) * x j)).
      { intros i. rewrite (csum_skip n j0) by exact Hj0. rewrite Nat.eqb_refl. f_equal. apply csum_ext. intros j Hj.
        destruct (Nat.eqb_spec (skip j0 j) j0) as [E|_]; [now apply skip_neq in E|]. now rewrite unskip_skip. }
      intros i Hi. rewrite G. destruct (Nat.eq_dec i k) as [->|Ni].
      * unfold t. field. exact N.
      * specialize (H i ltac:(lia)). unfold B' in H.
        rewrite (csum_ext n _ (fun j => B i (skip j0 j) * x j - B i j0 / B k j0 * (B k (skip j0 j) * x j))) in H by (intros; field; exact N).
        rewrite csum_minus, csum_scal in H. rewrite <- H. unfold t. field. exact N.
Qed.

(** injective matrices *)
Definition inj (A : cmat) : Prop := forall x, (forall i, (i < nr A)%nat -> mvec A x i = RtoC 0) -> forall j, (j < nc A)%nat -> x j = RtoC 0.
Lemma inj_surj A : nr A = nc A -> inj A -> forall y, exists x, forall i, (i < nr A)%nat -> mvec A x i = y i.
Proof.
  intros Hs HI y. set (n := nr A). destruct (kernel_exists n (S n) (fun i j => if Nat.eqb j n then y i else ent A i j) ltac:(lia)) as (x & (j & Hj & N) & H).
  assert (G : forall i, (i < n)%nat -> mvec A x i + y i * x n = RtoC 0).
  { intros i Hi. rewrite <- (H i Hi). change (csum (S n) ?f) with (csum n f + f n). unfold mvec. rewrite <- Hs. fold n. rewrite Nat.eqb_refl. f_equal.
    apply csum_ext. intros q Hq. destruct (Nat.eqb_spec q n); [lia | reflexivity]. }
  destruct (Ceq_dec (x n) (RtoC 0)) as [E|N'].
  - exfalso. apply N. destruct (Nat.eq_dec j n) as [->|Nj]; [exact E|]. apply HI; [|lia]. intros i Hi. fold n in Hi. rewrite <- (G i Hi), E. ring.
  - exists (fun q => - (x q / x n)). intros i Hi. fold n in Hi. unfold mvec. rewrite (csum_ext _ _ (fun q => (- / x n) * (ent A i q * x q))) by (intros; field; exact N').
    rewrite csum_scal. fold (mvec A x i). replace (mvec A x i) with (- (y i * x n)) by (rewrite <- (Cplus_0_r (- (y i * x n))), <- (G i Hi); ring). field. exact N'.
Qed.
(** a left inverse makes a matrix injective, and for square matrices it is a right inverse too *)
Lemma mvec_mmul A B x i : mvec (A *m B) x i = mvec A (mvec B x) i.
Proof.
  unfold mvec. cbn [mmul nc ent]. rewrite (csum_ext (nc B) _ (fun j => csum (nc A) (fun q => ent A i q * (ent B q j * x j)))).
  2:{ intros j Hj. rewrite <- csum_scal_r. apply csum_ext. intros; ring. }
  rewrite csum_swap. apply csum_ext. intros q Hq. now rewrite csum_scal.
Qed.
Lemma mvec_mid n x i : (i < n)%nat -> mvec (mid n) x i = x i.
Proof.
  intros Hi. unfold mvec. cbn [mid nc ent]. rewrite (csum_single n _ i Hi). { rewrite Nat.eqb_refl. ring. }
  intros j Hj Nj. destruct (Nat.eqb_spec i j); [lia | ring].
Qed.
Lemma mvec_eq A B x i : A ==m B -> (i < nr A)%nat -> mvec A x i = mvec B x i.
Proof. intros (H1 & H2 & H3) Hi. unfold mvec. rewrite <- H2. apply csum_ext. intros j Hj. now rewrite H3. Qed.
Lemma mvec_ext A x y i : (forall j, (j < nc A)%nat -> x j = y j) -> mvec A x i = mvec A y i.
Proof. intros H. unfold mvec. apply csum_ext. intros j Hj. now rewrite H. Qed.
Lemma mvec_0 A x i : (forall j, (j < nc A)%nat -> x j = RtoC 0) -> mvec A x i = RtoC 0.
Proof. intros H. unfold mvec. apply csum_0. intros j Hj. rewrite H by exact Hj. ring. Qed.
Lemma left_inv_inj A B n : B *m A ==m mid n -> nc B = nr A -> inj A.
Proof.
  intros H Hd x Hx j Hj. pose proof H as (H1 & H2 & _). cbn [mmul mid nr nc] in H1, H2. rewrite <- (mvec_mid n x j) by lia. rewrite <- (mvec_eq _ _ x j H) by (cbn; lia). rewrite mvec_mmul.
  apply mvec_0. intros i Hi. apply Hx. lia.
Qed.
Definition unit_vec (j : nat) : nat -> C := fun i => if Nat.eqb i j then RtoC 1 else RtoC 0.
Lemma mvec_unit A i j : (j < nc A)%nat -> mvec A (unit_vec j) i = ent A i j.
Proof.
  intros Hj. unfold mvec, unit_vec. rewrite (csum_single _ _ j Hj). { rewrite Nat.eqb_refl. ring. }
  intros q Hq Nq. destruct (Nat.eqb_spec q j); [lia | ring].
Qed.
Lemma mmul_ent_mvec A B i j : ent (A *m B) i j = mvec A (fun r => ent B r j) i. Proof. reflexivity. Qed.
Lemma left_inv_right A B n : nr A = n -> nc A = n -> nr B = n -> nc B = n -> B *m A ==m mid n -> A *m B ==m mid n.
Proof.
  intros A1 A2 B1 B2 H. assert (HI : inj A) by (apply (left_inv_inj A B n H); congruence).
  split; [cbn; congruence|]. split; [cbn; congruence|]. intros i j Hi Hj. cbn [mmul nr nc] in Hi, Hj.
  destruct (inj_surj A ltac:(congruence) HI (unit_vec j)) as (x & Hx).
  rewrite mmul_ent_mvec. 
  assert (Eb : forall r, (r < n)%nat -> ent B r j = x r).
  { intros r Hr. rewrite <- (mvec_mid n x r) by exact Hr. rewrite <- (mvec_eq _ _ x r H) by (cbn; lia). rewrite mvec_mmul. rewrite (mvec_ext B (mvec A x) (unit_vec j)) by (intros q Hq; apply Hx; lia). symmetry. apply mvec_unit. lia. }
  rewrite (mvec_ext A _ x) by (intros r Hr; apply Eb; lia). rewrite Hx by lia. unfold unit_vec. cbn [mid ent]. reflexivity.
Qed.
(** too many columns cannot be injective *)
Lemma inj_wide A : inj A -> (nc A <= nr A)%nat.
Proof.
  intros HI. destruct (Nat.le_gt_cases (nc A) (nr A)) as [H|H]; [exact H|]. exfalso.
  destruct (kernel_exists (nr A) (nc A) (ent A) H) as (x & (j & Hj & N) & Hx). apply N. now apply HI.
Qed.
Lemma inj_mmul A B : nc A = nr B -> inj A -> inj B -> inj (A *m B).
Proof. intros Hd HA HB x Hx. apply HB. intros i Hi. apply HA; [|lia]. intros r Hr. rewrite <- mvec_mmul. apply Hx. exact Hr. Qed.
Lemma inj_eq A B : A ==m B -> inj A -> inj B.
Proof. intros HE HI x Hx j Hj. pose proof HE as (H1 & H2 & _). apply HI; [|lia]. intros i Hi. rewrite (mvec_eq _ _ x i HE Hi). apply Hx. lia. Qed.

(** the Hermitian inner product *)
Definition vdot (n : nat) (x y : nat -> C) : C := csum n (fun i => Cconj (x i) * y i).
Lemma vdot_self n x : vdot n x x = RtoC (vnorm2 n x).
Proof. unfold vdot, vnorm2. rewrite <- csum_RtoC. apply csum_ext. intros. apply Cconj_mult_norm2. Qed.
Lemma vdot_conj n x y : Cconj (vdot n x y) = vdot n y x.
Proof. unfold vdot. rewrite csum_conj. apply csum_ext. intros. rewrite Cmult_conj, Cconj_conj. ring. Qed.
Lemma vdot_mvec_her A x y : vdot (nr A) x (mvec A y) = vdot (nc A) (mvec (mher A) x) y.
Proof.
  unfold vdot, mvec. cbn [mher nc ent]. rewrite (csum_ext (nr A) _ (fun i => csum (nc A) (fun j => Cconj (x i) * ent A i j * y j))).
  2:{ intros i Hi. rewrite <- csum_scal. apply csum_ext. intros; ring. }
  rewrite csum_swap. apply csum_ext. intros j Hj. rewrite csum_conj, <- csum_scal_r. apply csum_ext. intros i Hi. rewrite Cmult_conj, Cconj_conj. ring.
Qed.

(** sesquilinear forms x^H A y of psd matrices *)
Definition bform (A : cmat) (x y : nat -> C) : C := csum (nr A) (fun i => csum (nc A) (fun j => Cconj (x i) * ent A i j * y j)).
Lemma bform_qform A x : bform A x x = qform A x. Proof. reflexivity. Qed.
Lemma bform_lin A x y z a b : bform A x (fun j => a * y j + b * z j) = a * bform A x y + b * bform A x z.
Proof. unfold bform. rewrite <- !csum_scal, <- csum_plus. apply csum_ext. intros i Hi. rewrite <- !csum_scal, <- csum_plus. apply csum_ext. intros; ring. Qed.
Lemma bform_alin A x y z a b : bform A (fun j => a * x j + b * y j) z = Cconj a * bform A x z + Cconj b * bform A y z.
Proof. unfold bform. rewrite <- !csum_scal, <- csum_plus. apply csum_ext. intros i Hi. rewrite <- !csum_scal, <- csum_plus. apply csum_ext. intros. rewrite Cplus_conj, !Cmult_conj. ring. Qed.
Lemma bform_conj A x y : hermitian A -> bform A y x = Cconj (bform A x y).
Proof.
  intros [Hs He]. unfold bform. rewrite <- Hs. rewrite csum_conj. rewrite csum_swap. apply csum_ext. intros i Hi. rewrite csum_conj. apply csum_ext. intros j Hj.
  rewrite !Cmult_conj, Cconj_conj. rewrite (He j i Hj Hi). ring.
Qed.
Lemma cauchy_schwarz A x y : psd A -> (Cnorm2 (bform A x y) <= Re (qform A x) * Re (qform A y))%R.
Proof.
  intros [HH HP]. set (qx := Re (qform A x)). set (qy := Re (qform A y)). set (c := bform A x y).
  assert (Ex : bform A x x = RtoC qx) by (rewrite bform_qform; now apply qform_real). assert (Ey : bform A y y = RtoC qy) by (rewrite bform_qform; now apply qform_real).
  assert (Eyx : bform A y x = Cconj c) by (now apply bform_conj).
  assert (G : forall a b, (0 <= Re (Cconj a * (a * RtoC qx + b * c) + Cconj b * (a * Cconj c + b * RtoC qy))%C)%R).
  { intros a b. pose proof (HP (fun j => a * x j + b * y j)) as H. rewrite <- bform_qform, bform_alin, !bform_lin, Ex, Ey, Eyx in H. exact H. }
  assert (Hx : (0 <= qx)%R) by apply HP. assert (Hy : (0 <= qy)%R) by apply HP.
  assert (Expand : forall t : R, (0 <= t * t * qx - 2 * t * Cnorm2 c + Cnorm2 c * qy)%R).
  { intros t. specialize (G (RtoC t) (- Cconj c)). replace (t * t * qx - 2 * t * Cnorm2 c + Cnorm2 c * qy)%R with
      (Re (Cconj (RtoC t) * (RtoC t * RtoC qx + - Cconj c * c) + Cconj (- Cconj c) * (RtoC t * Cconj c + - Cconj c * RtoC qy))); [exact G|].
    destruct c as [c1 c2]. unfold Cnorm2. cbn. ring. }
  pose proof (Cnorm2_nonneg c) as Hc. destruct Hx as [Hx|Hx].
  - specialize (Expand (Cnorm2 c / qx)%R). replace (Cnorm2 c / qx * (Cnorm2 c / qx) * qx - 2 * (Cnorm2 c / qx) * Cnorm2 c + Cnorm2 c * qy)%R with (Cnorm2 c * (qx * qy - Cnorm2 c) / qx)%R in Expand by (field; lra).
    destruct (Rle_dec (Cnorm2 c) (qx * qy)) as [L|L]; [exact L|]. exfalso. destruct Hc as [Hc|Hc].
    + assert (Cnorm2 c * (qx * qy - Cnorm2 c) / qx < 0)%R; [|lra]. apply (Rmult_lt_reg_r qx); [exact Hx|]. unfold Rdiv. rewrite Rmult_assoc, Rinv_l, Rmult_1_r by lra. rewrite Rmult_0_l. nra.
    + assert (0 <= qx * qy)%R by (apply Rmult_le_pos; lra). lra.
  - rewrite <- Hx in *. destruct Hc as [Hc|Hc]; [|rewrite <- Hc; lra]. exfalso. specialize (Expand (qy + 1)%R). nra.
Qed.
Lemma pd_inj A : pd A -> inj A.
Proof.
  intros [HH HP] x Hx j Hj. destruct (Ceq_dec (x j) (RtoC 0)) as [E|N]; [exact E|]. exfalso. destruct HH as [Hs _].
  specialize (HP x (ex_intro _ j (conj (eq_ind _ (fun n => j < n)%nat Hj _ (eq_sym Hs)) N))).
  assert (Z : qform A x = RtoC 0); [|rewrite Z in HP; cbn in HP; lra].
  unfold qform. apply csum_0. intros i Hi. rewrite (csum_ext _ _ (fun q => Cconj (x i) * (ent A i q * x q))) by (intros; ring). rewrite csum_scal. fold (mvec A x i). rewrite Hx by exact Hi. ring.
Qed.

(** *** numpy.linalg.eigh: real eigenvalues in ascending order and an orthonormal eigenbasis (columns) *)
Definition eigh_ok (A : cmat) (w : list R) (E : cmat) : Prop :=
  let n := nr A in nr A = nc A /\ nr E = n /\ nc E = n /\ List.length w = n /\ StronglySorted Rle w /\
  mher E *m E ==m mid n /\ A *m E ==m E *m mdiag n (fun i => RtoC (nth i w 0%R)).
Definition col (E : cmat) (j : nat) : nat -> C := fun i => ent E i j.
Lemma eigh_vec A w E j : eigh_ok A w E -> (j < nr A)%nat -> forall i, (i < nr A)%nat -> mvec A (col E j) i = RtoC (nth j w 0%R) * ent E i j.
Proof.
  intros (Hs & E1 & E2 & L & S & U & V) Hj i Hi. destruct V as (_ & _ & V). specialize (V i j Hi ltac:(cbn; lia)). rewrite mmul_ent_mvec in V. unfold col. rewrite V.
  cbn [mmul ent nc mdiag]. rewrite E2. rewrite (csum_single _ _ j Hj). { rewrite Nat.eqb_refl. ring. } intros q Hq Nq. destruct (Nat.eqb_spec q j); [lia | ring].
Qed.
Lemma eigh_orth A w E p q : eigh_ok A w E -> (p < nr A)%nat -> (q < nr A)%nat -> vdot (nr A) (col E p) (col E q) = if Nat.eqb p q then RtoC 1 else RtoC 0.
Proof.
  intros (Hs & E1 & E2 & L & S & U & V) Hp Hq. destruct U as (_ & _ & U). specialize (U p q ltac:(cbn; lia) ltac:(cbn; lia)). cbn [mmul mher mid nc ent] in U. rewrite E1 in U. exact U.
Qed.
Lemma eigh_right A w E : eigh_ok A w E -> E *m mher E ==m mid (nr A).
Proof. intros (Hs & E1 & E2 & L & S & U & V). apply left_inv_right; cbn; auto. Qed.
(** expansion in the eigenbasis *)
Lemma eigh_expand A w E x i : eigh_ok A w E -> (i < nr A)%nat -> x i = csum (nr A) (fun j => vdot (nr A) (col E j) x * ent E i j).
Proof.
  intros H Hi. pose proof (eigh_right A w E H) as HR. destruct H as (Hs & E1 & E2 & L & S & U & V). rewrite <- (mvec_mid (nr A) x i) at 1 by exact Hi.
  rewrite <- (mvec_eq _ _ x i HR) by (cbn; lia). rewrite mvec_mmul. unfold mvec at 1. rewrite E2. apply csum_ext. intros j Hj. rewrite Cmult_comm. f_equal. unfold mvec, vdot, col. cbn [mher nc ent]. now rewrite E1.
Qed.
Lemma sorted_nth w i j : StronglySorted Rle w -> (i <= j)%nat -> (j < List.length w)%nat -> (nth i w 0 <= nth j w 0)%R.
Proof.
  intros S. revert i j. induction S as [|a w S IH F]; intros i j Hij Hj; [cbn in Hj; lia|]. destruct i as [|i], j as [|j]; cbn [nth List.length] in *; try lia; [lra | | apply IH; lia].
  rewrite Forall_forall in F. apply F, nth_In. lia.
Qed.
