(** Facts about complete programs, continued: covariance transformations that keep the model structure. *)
From Coq Require Import Lra Sorted Permutation.
From Verif Require Import Base_Np Base_Trig Base_Lin S_model S_subspace P_subspace.
Open Scope C_scope.

Lemma mmul_chain4 (A P : cmat) : nr P = nc A -> nc P = nc A -> hermitian P ->
  (A *m P *m mher A) *m (A *m P *m mher A) ==m A *m (mher (A *m P) *m (A *m P)) *m mher A.
Proof.
  intros P1 P2 HP. apply hermitian_mher in HP.
  rewrite (mmul_assoc (A *m P) (mher A)).
  assert (E1 : mher (A *m P) ==m P *m mher A) by (rewrite mher_mmul by congruence; apply mmul_eq_l; exact HP).
  rewrite (mmul_assoc A (mher (A *m P) *m (A *m P)) (mher A)). rewrite (mmul_assoc A P). apply mmul_eq_r; [cbn; congruence|].
  rewrite (mmul_assoc (mher (A *m P))). rewrite (mmul_eq_l _ _ (A *m P *m mher A) E1). rewrite (mmul_assoc P (mher A)). reflexivity.
Qed.
(** the Gram square of a model covariance is again a model covariance of the same sources *)
Lemma gram_exact (D Sm A P : cmat) (s c : R) : exact_cov D A P s -> inj A -> pd P -> (0 <= s)%R -> (0 < c)%R ->
  Sm ==m mscal (RtoC c) (D *m mher D) -> exists P', exact_cov Sm A P' (c * (s * s)) /\ pd P'.
Proof.
  intros (P1 & P2 & E) HA HP Hs Hc ES. set (X := A *m P *m mher A) in *. set (G := A *m P).
  set (P' := mscal (RtoC c) (mher G *m G +m mscal (RtoC (2 * s)) P)). exists P'.
  assert (HX : hermitian X).
  { eapply hermitian_eq; [apply mmul_eq_l, mmul_eq_l, mher_mher|]. apply hermitian_congr; [cbn; congruence | apply HP]. }
  set (D0 := X +m mscal (RtoC s) (mid (nr A))) in *.
  assert (HD0 : hermitian D0) by (apply hermitian_madd; [reflexivity | exact HX | apply hermitian_mscal, hermitian_mid]).
  assert (EX : X *m X ==m A *m (mher G *m G) *m mher A) by (apply mmul_chain4; [exact P1 | exact P2 | apply HP]).
  assert (ED : D *m mher D ==m D0 *m D0).
  { assert (HD : hermitian D) by (eapply hermitian_eq; [symmetry; exact E | exact HD0]). apply hermitian_mher in HD. rewrite (mmul_eq_r D (mher D) D); [|cbn; reflexivity | exact HD]. apply mmul_eq; [|exact E | exact E]. destruct E as (E1 & E2 & _). cbn in E1, E2. congruence. }
  assert (F1 : D0 *m D0 ==m X *m D0 +m mscal (RtoC s) (mid (nr A)) *m D0) by (apply mmul_add_l; reflexivity).
  assert (F2 : X *m D0 ==m X *m X +m X *m mscal (RtoC s) (mid (nr A))) by (apply mmul_add_r).
  assert (F3 : X *m mscal (RtoC s) (mid (nr A)) ==m mscal (RtoC s) X).
  { rewrite mscal_mmul_r. pose proof (mmul_id_r X (nr A) eq_refl) as (H1 & H2 & H3). split; [exact H1|]. split; [exact H2|]. intros i j Hi Hj. cbn [mscal ent]. now rewrite H3. }
  assert (F4 : mscal (RtoC s) (mid (nr A)) *m D0 ==m mscal (RtoC s) D0).
  { rewrite mscal_mmul_l. pose proof (mmul_id_l D0 (nr A) eq_refl) as (H1 & H2 & H3). split; [exact H1|]. split; [exact H2|]. intros i j Hi Hj. cbn [mscal ent]. now rewrite H3. }
  assert (T : A *m P' *m mher A ==m mscal (RtoC c) (A *m (mher G *m G) *m mher A +m mscal (RtoC (2 * s)) X)).
  { assert (T1 : A *m P' ==m mscal (RtoC c) (A *m (mher G *m G) +m mscal (RtoC (2 * s)) (A *m P))).
    { unfold P'. rewrite mscal_mmul_r. pose proof (mmul_add_r A (mher G *m G) (mscal (RtoC (2 * s)) P)) as (H1 & H2 & H3). pose proof (mscal_mmul_r (RtoC (2 * s)) A P) as (K1 & K2 & K3).
      split; [reflexivity|]. split; [reflexivity|]. intros i j Hi Hj. cbn [mscal ent]. rewrite H3 by assumption. cbn [madd ent]. f_equal. f_equal. apply K3; [exact Hi|]. cbn in Hj |- *. lia. }
    rewrite (mmul_eq_l _ _ (mher A) T1). rewrite mscal_mmul_l.
    pose proof (mmul_add_l (A *m (mher G *m G)) (mscal (RtoC (2 * s)) (A *m P)) (mher A) eq_refl eq_refl) as (H1 & H2 & H3).
    pose proof (mscal_mmul_l (RtoC (2 * s)) (A *m P) (mher A)) as (K1 & K2 & K3).
    split; [reflexivity|]. split; [reflexivity|]. intros i j Hi Hj. cbn [mscal ent] in *. rewrite H3 by assumption. cbn [madd ent]. f_equal. f_equal. apply K3; assumption. }
  split.
  - split; [cbn; congruence|]. split; [cbn; congruence|].
    transitivity (mscal (RtoC c) (D *m mher D)); [exact ES|]. pose proof (fun i j => meq_ent _ _ i j ED) as e0.
    destruct E as (E1 & E2 & _). cbn in E1, E2. split; [exact E1|]. split; [exact E1|]. intros i j Hi Hj. cbn in Hi, Hj. rewrite E1 in Hi, Hj.
    cbn [mscal madd ent]. rewrite (meq_ent _ _ i j T) by (cbn; assumption). cbn [mscal ent]. rewrite e0 by (cbn; lia). rewrite (meq_ent _ _ i j F1) by (cbn; assumption). cbn [madd ent].
    rewrite (meq_ent _ _ i j F2) by (cbn; assumption). cbn [madd ent]. rewrite (meq_ent _ _ i j F3), (meq_ent _ _ i j F4) by (cbn; assumption). rewrite (meq_ent _ _ i j EX) by (cbn; assumption).
    cbn [madd mscal mid ent]. unfold D0. cbn [madd mscal mid ent]. rewrite !RtoC_mult. replace (RtoC 2) with (RtoC 1 + RtoC 1) by (rewrite <- RtoC_plus; f_equal; ring). destruct (Nat.eqb i j); ring.
  - split.
    + apply hermitian_mscal, hermitian_madd; [cbn; congruence | apply hermitian_gram | apply hermitian_mscal, HP].
    + intros x Hx. unfold P'. rewrite qform_mscal, qform_madd, qform_mscal, qform_gram by (cbn; congruence). rewrite (qform_real P) by apply HP. rewrite <- !RtoC_mult, <- RtoC_plus, <- RtoC_mult. cbn [Re fst RtoC].
      apply Rmult_lt_0_compat; [exact Hc|]. assert (Hx' : exists i, (i < nr P)%nat /\ x i <> RtoC 0) by (destruct Hx as (i & Hi & Nx); exists i; split; [cbn in Hi; lia | exact Nx]).
      pose proof (proj2 HP x Hx') as Q. assert (V : (0 < vnorm2 (nr G) (mvec G x))%R).
      { pose proof (vnorm2_nonneg (nr G) (mvec G x)) as [L|Z]; [exact L|]. exfalso. symmetry in Z. pose proof (vnorm2_0 _ _ Z) as Y. destruct Hx' as (i & Hi & Nx). apply Nx. apply (pd_inj P HP); [|lia]. intros r Hr. apply HA; [|lia]. intros q Hq. rewrite <- mvec_mmul. apply Y. exact Hq. }
      nra.
Qed.
