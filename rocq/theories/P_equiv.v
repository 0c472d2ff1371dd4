(** Bounds are unchanged (up to a known rescaling) when the columns of the steering matrix are permuted and
    multiplied by unit-modulus factors and the derivatives are rescaled. *)
From Verif Require Import Base_Np Base_Trig Base_Lin S_utils M_utils M_sources S_sources M_array S_array P_utils P_sources P_array2
  M_perf S_perf P_perf P_perf2.
Open Scope C_scope.

Record bij (k : nat) (pi rho : nat -> nat) : Prop := {
  bj_pi : forall j, (j < k)%nat -> (pi j < k)%nat;
  bj_rho : forall j, (j < k)%nat -> (rho j < k)%nat;
  bj_l : forall j, (j < k)%nat -> rho (pi j) = j;
  bj_r : forall j, (j < k)%nat -> pi (rho j) = j }.

Section Real.
Open Scope R_scope.
Lemma rsum_reindex k pi rho f : bij k pi rho -> rsum k (fun j => f (pi j)) = rsum k f.
Proof.
  intros B.
  transitivity (rsum k (fun j => rsum k (fun l => rident l (pi j) * f l))).
  { apply rsum_ext. intros j Hj. symmetry. apply (rsum_rident_l k (pi j) f). apply B, Hj. }
  rewrite rsum_swap. apply rsum_ext. intros l Hl.
  rewrite (rsum_single k _ (rho l)).
  - rewrite (bj_r _ _ _ B l Hl). unfold rident. rewrite Nat.eqb_refl. ring.
  - apply B, Hl.
  - intros j Hj Hn. unfold rident. destruct (Nat.eqb_spec l (pi j)) as [E|E]; [|ring].
    exfalso. apply Hn. rewrite E. symmetry. apply (bj_l _ _ _ B j Hj).
Qed.
Lemma inv_unique S X Y i j : rsym S -> inv_of S X -> inv_of S Y -> (i < nr S)%nat -> (j < nr S)%nat -> ent X i j = ent Y i j.
Proof.
  intros Sy IX IY Hi Hj. pose proof (inv_sym S X Sy IX) as (_ & SX). destruct IX as (_ & n1 & _ & IX). destruct IY as (_ & _ & _ & IY).
  rewrite n1 in SX.
  transitivity (rsum (nr S) (fun b => rsum (nr S) (fun a => ent X i a * ent S a b) * ent Y b j)).
  - transitivity (rsum (nr S) (fun a => ent X i a * rident a j)); [symmetry; apply rsum_rident_r, Hj|].
    transitivity (rsum (nr S) (fun a => rsum (nr S) (fun b => ent X i a * ent S a b * ent Y b j))).
    + apply rsum_ext. intros a Ha. rewrite <- (IY a j Ha Hj), <- rsum_scal. apply rsum_ext. intros; ring.
    + rewrite rsum_swap. apply rsum_ext. intros b Hb. rewrite Rmult_comm, <- rsum_scal. apply rsum_ext. intros; ring.
  - transitivity (rsum (nr S) (fun b => rident b i * ent Y b j)); [|apply (rsum_rident_l (nr S) i (fun b => ent Y b j)), Hi].
    apply rsum_ext. intros b Hb. f_equal. rewrite <- (IX b i Hb Hi). apply rsum_ext. intros a Ha.
    rewrite (SX i a Hi Ha), (proj2 Sy a b Ha Hb). ring.
Qed.
(** the inverse of a permuted and rescaled matrix *)
Lemma inv_similar S S' X X' s pi rho : bij (nr S) pi rho -> nr S' = nr S -> rsym S' -> inv_of S X -> inv_of S' X' ->
  (forall i, (i < nr S)%nat -> s i <> 0) ->
  (forall i j, (i < nr S)%nat -> (j < nr S)%nat -> ent S' i j = s i * s j * ent S (pi i) (pi j)) ->
  forall i j, (i < nr S)%nat -> (j < nr S)%nat -> s i * s j * ent X' i j = ent X (pi i) (pi j).
Proof.
  intros B n Sy IX IX' Hs HS i j Hi Hj.
  set (Y := Mat (nr S) (nr S) (fun i j => / s i * / s j * ent X (pi i) (pi j)) : rmat).
  assert (IY : inv_of S' Y).
  { destruct IX as (q1 & q2 & q3 & IX). destruct IX' as (w1 & _).
    split; [exact w1|]. split; [cbn; symmetry; exact n|]. split; [cbn; symmetry; exact n|].
    rewrite n. intros a b Ha Hb.
    transitivity (rsum (nr S) (fun r => s a * / s b * (ent S (pi a) (pi r) * ent X (pi r) (pi b)))).
    - apply rsum_ext. intros r Hr. cbn [ent Y]. rewrite HS by assumption. field. split; apply Hs; assumption.
    - rewrite rsum_scal, (rsum_reindex (nr S) pi rho (fun r => ent S (pi a) r * ent X r (pi b)) B).
      rewrite IX by (apply B; assumption). unfold rident.
      destruct (Nat.eqb_spec a b) as [->|N].
      + rewrite Nat.eqb_refl. field. apply Hs, Hb.
      + destruct (Nat.eqb_spec (pi a) (pi b)) as [E|E]; [|ring]. exfalso. apply N.
        rewrite <- (bj_l _ _ _ B a Ha), <- (bj_l _ _ _ B b Hb), E. reflexivity. }
  rewrite (inv_unique S' X' Y i j Sy IX' IY) by (rewrite n; assumption). cbn [ent Y]. field. split; apply Hs; assumption.
Qed.
Lemma rinj_similar S S' X s pi rho : bij (nr S) pi rho -> nr S' = nr S -> nc S' = nr S -> rsym S -> inv_of S X ->
  (forall i, (i < nr S)%nat -> s i <> 0) ->
  (forall i j, (i < nr S)%nat -> (j < nr S)%nat -> ent S' i j = s i * s j * ent S (pi i) (pi j)) -> rinj S'.
Proof.
  intros B n n2 Sy IX Hs HS x Hx. rewrite n in Hx. rewrite n2 in Hx |- *.
  pose proof (inv_sym S X Sy IX) as (_ & SX). destruct IX as (q1 & q2 & q3 & IX). rewrite q2 in SX.
  (* y_l = s_{rho l} x_{rho l} satisfies S y = 0 *)
  set (y := fun l => s (rho l) * x (rho l)).
  assert (Hy : forall i, (i < nr S)%nat -> rsum (nr S) (fun l => ent S i l * y l) = 0).
  { intros i Hi. pose proof (Hx (rho i) (bj_rho _ _ _ B i Hi)) as E.
    assert (E2 : s (rho i) * rsum (nr S) (fun l => ent S i l * y l) = 0).
    { rewrite <- E, <- (rsum_reindex (nr S) pi rho (fun l => ent S i l * y l) B), <- rsum_scal. apply rsum_ext. intros j Hj.
      rewrite HS by (try apply B; assumption). rewrite (bj_r _ _ _ B i Hi). unfold y. rewrite (bj_l _ _ _ B j Hj). ring. }
    apply Rmult_integral in E2. destruct E2 as [E2|E2]; [|exact E2]. exfalso. revert E2. apply Hs, B, Hi. }
  assert (Y0 : forall l, (l < nr S)%nat -> y l = 0).
  { intros l Hl. transitivity (rsum (nr S) (fun b => rident b l * y b)); [symmetry; apply (rsum_rident_l (nr S) l y), Hl|].
    transitivity (rsum (nr S) (fun b => rsum (nr S) (fun a => ent X l a * ent S a b * y b))).
    - apply rsum_ext. intros b Hb. rewrite <- (IX b l Hb Hl), Rmult_comm, <- rsum_scal. apply rsum_ext. intros a Ha.
      rewrite (SX l a Hl Ha), (proj2 Sy a b Ha Hb). ring.
    - rewrite rsum_swap. apply rsum_0. intros a Ha. transitivity (ent X l a * rsum (nr S) (fun b => ent S a b * y b)).
      + rewrite <- rsum_scal. apply rsum_ext. intros; ring.
      + rewrite (Hy a Ha). ring. }
  intros j Hj. pose proof (Y0 (pi j) (bj_pi _ _ _ B j Hj)) as E. unfold y in E. rewrite (bj_l _ _ _ B j Hj) in E.
  apply Rmult_integral in E. destruct E as [E|E]; [|exact E]. exfalso. revert E. apply Hs, Hj.
Qed.
End Real.

(** monomial matrix *)
Definition mono (k : nat) (pi : nat -> nat) (c : nat -> C) : cmat := Mat k k (fun i j => if Nat.eqb i (pi j) then c j else RtoC 0).

Section Mono.
Variables (k : nat) (pi rho : nat -> nat) (c : nat -> C).
Hypothesis B : bij k pi rho.
Hypothesis U : forall j, (j < k)%nat -> Cconj (c j) * c j = RtoC 1.
Let T := mono k pi c.
Lemma mono_mul_r A i j : nc A = k -> (j < k)%nat -> ent (A *m T) i j = ent A i (pi j) * c j.
Proof.
  intros n Hj. cbn [ent mmul]. rewrite n, (csum_single k _ (pi j)).
  - unfold T, mono. cbn [ent]. rewrite Nat.eqb_refl. reflexivity.
  - apply B, Hj.
  - intros i' Hi' N. unfold T, mono. cbn [ent]. apply Nat.eqb_neq in N. rewrite N. ring.
Qed.
Lemma mono_mul_l A i j : nr A = k -> (i < k)%nat -> ent (mher T *m A) i j = Cconj (c i) * ent A (pi i) j.
Proof.
  intros n Hi. cbn [ent mmul mher nc nr T mono]. rewrite (csum_single k _ (pi i)).
  - rewrite Nat.eqb_refl. reflexivity.
  - apply B, Hi.
  - intros i' Hi' N. apply Nat.eqb_neq in N. rewrite N, Cconj_0. ring.
Qed.
Lemma mono_unit_l : mher T *m T ==m mid k.
Proof.
  split; [reflexivity|]. split; [reflexivity|]. intros i j Hi Hj. cbn in Hi, Hj.
  rewrite mono_mul_l by (reflexivity || exact Hi). cbn [ent T mono mid].
  destruct (Nat.eqb_spec (pi i) (pi j)) as [E|E].
  - assert (i = j) as -> by (rewrite <- (bj_l _ _ _ B i Hi), <- (bj_l _ _ _ B j Hj), E; reflexivity). rewrite Nat.eqb_refl. apply U, Hj.
  - destruct (Nat.eqb_spec i j) as [->|]; [congruence|ring].
Qed.
Lemma mono_unit_r : T *m mher T ==m mid k.
Proof.
  split; [reflexivity|]. split; [reflexivity|]. intros i j Hi Hj. cbn in Hi, Hj. cbn [ent mmul mher T mono mid nc].
  rewrite (csum_single k _ (rho i)).
  - rewrite (bj_r _ _ _ B i Hi), Nat.eqb_refl. destruct (Nat.eqb_spec j i) as [->|N].
    + rewrite Nat.eqb_refl. rewrite Cmult_comm. apply U, B, Hi.
    + destruct (Nat.eqb_spec i j) as [->|]; [congruence|]. rewrite Cconj_0. ring.
  - apply B, Hi.
  - intros q Hq N. destruct (Nat.eqb_spec i (pi q)) as [E|E]; [|ring]. exfalso. apply N. rewrite E. symmetry. apply (bj_l _ _ _ B q Hq).
Qed.
Lemma mono_conj M i j : nr M = k -> nc M = k -> (i < k)%nat -> (j < k)%nat -> ent (mher T *m M *m T) i j = Cconj (c i) * c j * ent M (pi i) (pi j).
Proof.
  intros n1 n2 Hi Hj. rewrite mono_mul_r by (assumption || exact Hj). rewrite mono_mul_l by assumption. ring.
Qed.
End Mono.

Lemma mul_inv_unique M N1 N2 n : nr M = n -> nc M = n -> nr N1 = n -> nr N2 = n -> M *m N1 ==m mid n -> nc N1 = n -> M *m N2 ==m mid n -> nc N2 = n -> N1 ==m N2.
Proof.
  intros m1 m2 a1 b1 E1 a2 E2 b2.
  pose proof (left_inv_right N1 M n a1 a2 m1 m2 E1) as L1.
  rewrite <- (mmul_id_r N1 n) by (symmetry; exact a2).
  rewrite (mmul_eq_r N1 (mid n) (M *m N2) a2 ltac:(symmetry; exact E2)).
  rewrite <- mmul_assoc. rewrite (mmul_eq_l _ _ N2 L1). apply mmul_id_l. symmetry; exact b1.
Qed.

Section Sim.
Variables (k : nat) (pi rho : nat -> nat) (c t : nat -> C) (s : nat -> R).
Hypothesis B : bij k pi rho.
Hypothesis U : forall j, (j < k)%nat -> Cconj (c j) * c j = RtoC 1.
Hypothesis Sn : forall j, (j < k)%nat -> s j <> 0%R.
Variables A D A' D' : cmat.
Hypothesis nA : nc A = k. Hypothesis nD : nc D = k. Hypothesis nA' : nc A' = k. Hypothesis nD' : nc D' = k.
Hypothesis mD : nr D = nr A. Hypothesis mA' : nr A' = nr A. Hypothesis mD' : nr D' = nr A.
Hypothesis EA : forall i j, (i < nr A)%nat -> (j < k)%nat -> ent A' i j = c j * ent A i (pi j).
Hypothesis ED : forall i j, (i < nr A)%nat -> (j < k)%nat -> ent D' i j = c j * (RtoC (s j) * ent D i (pi j) + t j * ent A i (pi j)).
Let T := mono k pi c.
Let TTr : T *m mher T ==m mid k := mono_unit_r k pi rho c B U.
Let TTl : mher T *m T ==m mid k := mono_unit_l k pi rho c B U.
Lemma sim_A : A' ==m A *m T.
Proof.
  split; [exact mA'|]. split; [exact nA'|]. intros i j Hi Hj. rewrite mA' in Hi. rewrite nA' in Hj.
  unfold T. rewrite (mono_mul_r k pi rho c B A i j nA Hj), EA by assumption. ring.
Qed.
Lemma sim_A_back : A ==m A' *m mher T.
Proof.
  rewrite (mmul_eq_l _ _ (mher T) sim_A). rewrite mmul_assoc.
  rewrite (mmul_eq_r A _ (mid k)) by (try exact nA; exact TTr).
  symmetry. apply mmul_id_r. symmetry; exact nA.
Qed.
Lemma sim_inj : inj A -> inj A'.
Proof.
  intros I. apply (Base_Lin.inj_eq (A *m T)); [symmetry; exact sim_A|].
  apply inj_mmul; [exact nA|exact I|]. apply (left_inv_inj T (mher T) k); [|reflexivity]. exact TTl.
Qed.
Lemma sim_proj Pi : orth_projector_onto A Pi -> orth_projector_onto A' Pi.
Proof.
  intros [[s1 s2] Id He Fi (X & x1 & x2 & EX)]. split.
  - rewrite mA'. split; assumption.
  - exact Id.
  - exact He.
  - rewrite (mmul_eq_r Pi A' (A *m T)) by (try exact sim_A; rewrite mA'; exact s2).
    rewrite <- mmul_assoc. rewrite (mmul_eq_l _ _ T Fi). symmetry. exact sim_A.
  - exists (mher T *m X). split; [rewrite nA'; reflexivity|]. split; [rewrite mA'; exact x2|].
    rewrite EX. rewrite (mmul_eq_l _ _ X sim_A_back), mmul_assoc. reflexivity.
Qed.
Definition hh (Pi DD : cmat) (i j : nat) : C := bform (mid (nr DD) -m Pi) (col DD i) (col DD j).
Lemma bform_ext_lt M x y x' y' : (forall i, (i < nr M)%nat -> x i = x' i) -> (forall i, (i < nc M)%nat -> y i = y' i) -> bform M x y = bform M x' y'.
Proof.
  intros Hx Hy. apply csum_ext. intros i Hi. apply csum_ext. intros j Hj. rewrite Hx, Hy by assumption. reflexivity.
Qed.
Lemma perp_A_r Pi j x : orth_projector_onto A Pi -> (j < k)%nat -> bform (mid (nr A) -m Pi) x (col A j) = RtoC 0.
Proof.
  intros O Hj. apply csum_0. intros i Hi. cbn in Hi.
  transitivity (Cconj (x i) * ent ((mid (nr A) -m Pi) *m A) i j).
  - cbn [ent mmul msub mid nc]. rewrite <- csum_scal. apply csum_ext. intros q Hq. unfold col. ring.
  - destruct (op_shape _ _ O) as (s1 & s2).
    assert (E : (mid (nr A) -m Pi) *m A ==m A -m A).
    { rewrite mmul_sub_l by (cbn; symmetry; assumption). apply msub_eq; cbn; try reflexivity; try (symmetry; exact s1).
      - apply mmul_id_l. reflexivity.
      - apply (op_fix _ _ O). }
    rewrite (meq_ent _ _ i j E) by (cbn; first [exact Hi|rewrite nA; exact Hj]). cbn. ring.
Qed.
Lemma perp_A_l Pi j x : orth_projector_onto A Pi -> (j < k)%nat -> bform (mid (nr A) -m Pi) (col A j) x = RtoC 0.
Proof.
  intros O Hj. destruct (op_shape _ _ O) as (s1 & s2).
  rewrite (bform_conj _ x (col A j)). { rewrite perp_A_r by assumption. apply Cconj_0. }
  apply hermitian_msub; [cbn; symmetry; exact s1|apply hermitian_mid|]. apply hermitian_mher, (op_herm _ _ O).
Qed.
Lemma sim_h Pi i j : orth_projector_onto A Pi -> (i < k)%nat -> (j < k)%nat ->
  hh Pi D' i j = RtoC (s i * s j) * (Cconj (c i) * c j) * hh Pi D (pi i) (pi j).
Proof.
  intros O Hi Hj. unfold hh. rewrite mD', mD. destruct (op_shape _ _ O) as (s1 & s2).
  rewrite (bform_ext_lt _ _ _ (fun r => (c i * RtoC (s i)) * col D (pi i) r + (c i * t i) * col A (pi i) r)
                              (fun r => (c j * RtoC (s j)) * col D (pi j) r + (c j * t j) * col A (pi j) r)).
  - rewrite bform_lin, !bform_alin, !perp_A_r by (try exact O; try (apply B; assumption)).
    rewrite perp_A_l by (try exact O; apply B; assumption).
    rewrite Cmult_conj, Cconj_RtoC, RtoC_mult. ring.
  - cbn. intros r Hr. unfold col. rewrite ED by assumption. ring.
  - cbn. intros r Hr. unfold col. rewrite ED by assumption. ring.
Qed.
Lemma sim_info Pi Q Q' i j : orth_projector_onto A Pi -> (i < k)%nat -> (j < k)%nat ->
  (forall i j, (i < k)%nat -> (j < k)%nat -> ent Q' i j = Cconj (c i) * c j * ent Q (pi i) (pi j)) ->
  ent (info_matrix D' Pi Q') i j = (s i * s j * ent (info_matrix D Pi Q) (pi i) (pi j))%R.
Proof.
  intros O Hi Hj HQ. unfold info_matrix. cbn [ent]. fold (hh Pi D' i j). fold (hh Pi D (pi i) (pi j)).
  rewrite sim_h, HQ by assumption.
  replace (RtoC (s i * s j) * (Cconj (c i) * c j) * hh Pi D (pi i) (pi j) * (Cconj (c j) * c i * ent Q (pi j) (pi i)))
    with ((Cconj (c i) * c i) * (Cconj (c j) * c j) * (RtoC (s i * s j) * (hh Pi D (pi i) (pi j) * ent Q (pi j) (pi i)))) by ring.
  rewrite !U by assumption. rewrite Cmult_1_l, Cmult_1_l, Re_mult, Re_RtoC, Im_RtoC. ring.
Qed.

(** covariances of the same waveforms *)
Variables P P' : cmat.
Hypothesis nP : nr P = k /\ nc P = k. Hypothesis nP' : nr P' = k /\ nc P' = k.
Hypothesis EP : forall i j, (i < k)%nat -> (j < k)%nat -> ent P' i j = Cconj (c i) * c j * ent P (pi i) (pi j).
Lemma sim_P : P' ==m mher T *m P *m T.
Proof.
  split; [apply nP'|]. split; [apply nP'|]. intros i j Hi Hj. rewrite (proj1 nP') in Hi. rewrite (proj2 nP') in Hj.
  unfold T. rewrite (mono_conj k pi rho c B P i j (proj1 nP) (proj2 nP) Hi Hj). apply EP; assumption.
Qed.
Lemma sim_P_herm : hermitian P -> hermitian P'.
Proof.
  intros H. apply (hermitian_eq (mher T *m P *m T)); [symmetry; exact sim_P|]. apply hermitian_congr; [symmetry; apply nP|exact H].
Qed.
Lemma sim_P_psd : psd P -> psd P'.
Proof.
  intros H. apply (psd_eq (mher T *m P *m T)); [symmetry; exact sim_P|]. apply psd_congr; [symmetry; apply nP|exact H].
Qed.
Lemma conj_mul M N : nc M = k -> nr N = k -> (mher T *m M *m T) *m (mher T *m N *m T) ==m mher T *m (M *m N) *m T.
Proof.
  intros m n.
  assert (E : T *m (mher T *m (N *m T)) ==m N *m T).
  { rewrite <- mmul_assoc. rewrite (mmul_eq_l _ _ (N *m T) TTr). apply mmul_id_l. cbn. symmetry; exact n. }
  rewrite (mmul_assoc (mher T *m M) T).
  rewrite (mmul_eq_r (mher T *m M) _ (N *m T)).
  - rewrite <- (mmul_assoc (mher T *m M) N T). apply mmul_eq_l, mmul_assoc.
  - cbn. exact m.
  - rewrite <- E. apply mmul_eq_r; [reflexivity|]. apply mmul_assoc.
Qed.
(** the signal part of the covariance is the same *)
Lemma sim_cov : A' *m P' *m mher A' ==m A *m P *m mher A.
Proof.
  assert (H : mher A' ==m mher T *m mher A).
  { transitivity (mher (A *m T)); [|apply mher_mmul; exact nA]. split; [cbn; rewrite nA'; reflexivity|]. split; [cbn; exact mA'|].
    intros i j Hi Hj. cbn in Hi, Hj. cbn [mher ent]. f_equal. apply (meq_ent _ _ j i sim_A); assumption. }
  assert (E1 : P' *m mher A' ==m mher T *m (P *m mher A)).
  { rewrite (mmul_eq P' (mher T *m P *m T) (mher A') (mher T *m mher A)) by (try exact sim_P; try exact H; cbn; rewrite nA'; apply nP').
    rewrite (mmul_assoc (mher T *m P) T).
    rewrite (mmul_eq_r (mher T *m P) (T *m (mher T *m mher A)) (mher A)).
    - apply mmul_assoc.
    - cbn. apply nP.
    - rewrite <- mmul_assoc. rewrite (mmul_eq_l _ _ (mher A) TTr). apply mmul_id_l. cbn. symmetry; exact nA. }
  rewrite mmul_assoc. rewrite (mmul_eq_r A' _ _) by (try exact E1; rewrite nA'; symmetry; apply nP').
  rewrite (mmul_eq_l _ _ _ sim_A). rewrite !mmul_assoc. apply mmul_eq_r; [exact nA|].
  rewrite <- (mmul_assoc T (mher T)). rewrite (mmul_eq_l _ _ _ TTr). apply mmul_id_l. cbn. symmetry; apply nP.
Qed.
Lemma sim_W Z Z' sigma : psd P -> (0 < sigma)%R -> nr Z = nr A -> nc Z = k -> nr Z' = nr A -> nc Z' = k ->
  (A *m P *m mher A +m mscal (RtoC sigma) (mid (nr A))) *m Z ==m A ->
  (A' *m P' *m mher A' +m mscal (RtoC sigma) (mid (nr A'))) *m Z' ==m A' ->
  forall i j, (i < k)%nat -> (j < k)%nat -> ent (P' *m (mher A' *m Z') *m P') i j = Cconj (c i) * c j * ent (P *m (mher A *m Z) *m P) (pi i) (pi j).
Proof.
  intros Hp Hs z1 z2 z1' z2' EZ EZ'.
  assert (HZ : Z' ==m Z *m T).
  { set (Rm := A *m P *m mher A +m mscal (RtoC sigma) (mid (nr A))) in *.
    assert (I : inj Rm) by (apply cov_inj; [rewrite nA; apply nP|exact Hp|exact Hs]).
    assert (E' : Rm *m Z' ==m A').
    { rewrite <- EZ' at 1. apply mmul_eq_l. unfold Rm. apply madd_eq; [cbn; reflexivity|cbn; reflexivity|symmetry; exact sim_cov|]. rewrite mA'. reflexivity. }
    assert (E2 : Rm *m (Z *m T) ==m A').
    { rewrite <- mmul_assoc. rewrite (mmul_eq_l _ _ T EZ). symmetry. exact sim_A. }
    split; [cbn; congruence|]. split; [cbn; exact z2'|]. intros i j Hi Hj.
    cut (ent Z' i j - ent (Z *m T) i j = RtoC 0). { intros E. replace (ent Z' i j) with (ent Z' i j - ent (Z *m T) i j + ent (Z *m T) i j) by ring. rewrite E. ring. }
    apply (I (fun i => ent Z' i j - ent (Z *m T) i j)); [|cbn; rewrite <- z1'; exact Hi].
    intros r Hr. rewrite z2' in Hj. cbn in Hr.
    pose proof (meq_ent _ _ r j E' Hr ltac:(cbn; rewrite z2'; exact Hj)) as F1.
    pose proof (meq_ent _ _ r j E2 Hr ltac:(cbn; exact Hj)) as F2.
    unfold mvec. transitivity (ent (Rm *m Z') r j - ent (Rm *m (Z *m T)) r j); [|rewrite F1, F2; ring].
    cbn [ent mmul]. rewrite <- csum_minus. apply csum_ext. intros; cbn [ent mmul]; ring. }
  assert (HG : mher A' *m Z' ==m mher T *m (mher A *m Z) *m T).
  { assert (H : mher A' ==m mher T *m mher A).
    { transitivity (mher (A *m T)); [|apply mher_mmul; exact nA]. split; [cbn; rewrite nA'; reflexivity|]. split; [cbn; exact mA'|].
      intros i j Hi Hj. cbn in Hi, Hj. cbn [mher ent]. f_equal. apply (meq_ent _ _ j i sim_A); assumption. }
    rewrite (mmul_eq (mher A') (mher T *m mher A) Z' (Z *m T) ltac:(cbn; congruence) H HZ). rewrite <- (mmul_assoc (mher T *m mher A)). apply mmul_eq_l, mmul_assoc. }
  assert (HW : P' *m (mher A' *m Z') *m P' ==m mher T *m (P *m (mher A *m Z) *m P) *m T).
  { rewrite (mmul_eq (P' *m (mher A' *m Z')) (mher T *m (P *m (mher A *m Z)) *m T) P' (mher T *m P *m T)).
    - apply conj_mul; [cbn; exact z2|apply nP].
    - cbn. rewrite z2'. symmetry; apply nP'.
    - rewrite (mmul_eq P' _ (mher A' *m Z') _ ltac:(cbn; rewrite nA'; apply nP') sim_P HG). apply conj_mul; [apply nP|cbn; exact nA].
    - exact sim_P. }
  intros i j Hi Hj. rewrite (meq_ent _ _ i j HW) by (cbn; first [rewrite (proj1 nP'); exact Hi|rewrite (proj2 nP'); exact Hj]).
  apply (mono_conj k pi rho c B); cbn; try assumption; apply nP.
Qed.
(** the matrix of the MUSIC error covariance *)
Lemma sim_inverse_P Pv Pv' : nr Pv = k -> nc Pv = k -> nr Pv' = k -> nc Pv' = k -> P *m Pv ==m mid k -> P' *m Pv' ==m mid k -> Pv' ==m mher T *m Pv *m T.
Proof.
  intros a1 a2 b1 b2 E E'. apply (mul_inv_unique P' Pv' (mher T *m Pv *m T) k); cbn; try assumption; try apply nP'; try reflexivity.
  rewrite (mmul_eq_l _ _ _ sim_P). rewrite conj_mul by (assumption || apply nP).
  rewrite (mmul_eq_l _ (mher T *m mid k) T (mmul_eq_r (mher T) (P *m Pv) (mid k) (eq_sym (proj1 nP)) E)).
  rewrite (mmul_eq_l _ (mher T) T (mmul_id_r (mher T) k eq_refl)). exact TTl.
Qed.
Lemma sim_inverse_G Gv Gv' : nr Gv = k -> nc Gv = k -> nr Gv' = k -> nc Gv' = k -> mher A *m A *m Gv ==m mid k -> mher A' *m A' *m Gv' ==m mid k -> Gv' ==m mher T *m Gv *m T.
Proof.
  intros a1 a2 b1 b2 E E'. apply (mul_inv_unique (mher A' *m A') Gv' (mher T *m Gv *m T) k); cbn; try assumption; try reflexivity.
  assert (H : mher A' ==m mher T *m mher A).
  { transitivity (mher (A *m T)); [|apply mher_mmul; exact nA]. split; [cbn; rewrite nA'; reflexivity|]. split; [cbn; exact mA'|].
    intros i j Hi Hj. cbn in Hi, Hj. cbn [mher ent]. f_equal. apply (meq_ent _ _ j i sim_A); assumption. }
  assert (HG : mher A' *m A' ==m mher T *m (mher A *m A) *m T).
  { rewrite (mmul_eq (mher A') (mher T *m mher A) A' (A *m T) eq_refl H sim_A). rewrite <- (mmul_assoc (mher T *m mher A)). apply mmul_eq_l, mmul_assoc. }
  rewrite (mmul_eq_l _ _ _ HG). rewrite conj_mul by (cbn; assumption).
  rewrite (mmul_eq_l _ (mher T *m mid k) T (mmul_eq_r (mher T) (mher A *m A *m Gv) (mid k) (eq_sym nA) E)).
  rewrite (mmul_eq_l _ (mher T) T (mmul_id_r (mher T) k eq_refl)). exact TTl.
Qed.
Lemma sim_B Pv Pv' Gv Gv' sigma : nr Pv = k -> nc Pv = k -> nr Pv' = k -> nc Pv' = k -> P *m Pv ==m mid k -> P' *m Pv' ==m mid k ->
  nr Gv = k -> nc Gv = k -> nr Gv' = k -> nc Gv' = k -> mher A *m A *m Gv ==m mid k -> mher A' *m A' *m Gv' ==m mid k ->
  forall i j, (i < k)%nat -> (j < k)%nat -> ent (Pv' +m mscal (RtoC sigma) (Pv' *m Gv' *m Pv')) i j
    = Cconj (c i) * c j * ent (Pv +m mscal (RtoC sigma) (Pv *m Gv *m Pv)) (pi i) (pi j).
Proof.
  intros a1 a2 b1 b2 E E' g1 g2 h1 h2 F F'.
  pose proof (sim_inverse_P Pv Pv' a1 a2 b1 b2 E E') as HP. pose proof (sim_inverse_G Gv Gv' g1 g2 h1 h2 F F') as HG.
  assert (HM : Pv' *m Gv' *m Pv' ==m mher T *m (Pv *m Gv *m Pv) *m T).
  { rewrite (mmul_eq (Pv' *m Gv') (mher T *m (Pv *m Gv) *m T) Pv' (mher T *m Pv *m T)).
    - apply conj_mul; [cbn; exact g2|exact a1].
    - cbn. congruence.
    - rewrite (mmul_eq Pv' _ Gv' _ ltac:(congruence) HP HG). apply conj_mul; assumption.
    - exact HP. }
  intros i j Hi Hj. cbn [ent madd mscal].
  rewrite (meq_ent _ _ i j HP) by congruence. rewrite (meq_ent _ _ i j HM) by (cbn; congruence).
  unfold T. rewrite (mono_conj k pi rho c B Pv i j) by assumption. rewrite (mono_conj k pi rho c B (Pv *m Gv *m Pv) i j) by assumption. ring.
Qed.
End Sim.
