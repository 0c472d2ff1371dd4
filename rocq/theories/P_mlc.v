(** How the residual of a least-squares fit bounds the error of the directions: uniform linear arrays. *)
From Coq Require Import Sorting.Permutation.
From Verif Require Import Base_Np Base_Lin M_utils S_utils S_subspace S_stable P_utils P_subspace P_subspace2 P_subspace3 P_spectral P_perf3 P_ml3 P_ml4 P_stable P_cont4.
Open Scope C_scope.

(** the product of the distances of z from the points of l *)
Definition dist_prod (z : C) (l : list C) : R := fold_right (fun w x => (Cnorm2 (z - w)%C * x)%R) 1%R l.
Definition cprod_at (z : C) (l : list C) : C := fold_right (fun w x => (z - w) * x) (RtoC 1) l.
Lemma dist_prod_norm z l : Cnorm2 (cprod_at z l) = dist_prod z l.
Proof. induction l as [|w l IH]; cbn [cprod_at dist_prod fold_right]; [unfold Cnorm2; cbn; ring|]. fold (cprod_at z l) (dist_prod z l). now rewrite Cnorm2_mult, IH. Qed.

Lemma Cnorm2_sub_le a b : (Cnorm2 (a - b)%C <= 2 * Cnorm2 a + 2 * Cnorm2 b)%R.
Proof. unfold Cnorm2. destruct a as (a1, a2), b as (b1, b2). cbn. pose proof (pow2_ge_0 (a1 + b1)). pose proof (pow2_ge_0 (a2 + b2)). nra. Qed.
Lemma Cnorm2_one z : Cmod z = 1%R -> Cnorm2 z = 1%R.
Proof. intros H. unfold Cmod in H. unfold Cnorm2. assert (E : (fst z ^ 2 + snd z ^ 2 = 1)%R) by (rewrite <- (sqrt_sqrt (fst z ^ 2 + snd z ^ 2)), H; [ring | pose proof (pow2_ge_0 (fst z)); pose proof (pow2_ge_0 (snd z)); lra]). unfold Re, Im. lra. Qed.

(** the coefficients of the monic polynomial with the roots l (on the unit circle), lowest degree first *)
Lemma annihilator l : (forall w, In w l -> Cmod w = 1%R) -> exists h : nat -> C,
  (forall i, (List.length l < i)%nat -> h i = RtoC 0) /\
  (forall m z, (List.length l < m)%nat -> csum m (fun i => h i * cpow z i) = cprod_at z l) /\
  (forall m, (vnorm2 m h <= 4 ^ List.length l)%R).
Proof.
  induction l as [|w l IH]; intros H.
  - exists (fun i => if Nat.eqb i 0 then RtoC 1 else RtoC 0). split; [intros [|i] Hi; [cbn in Hi; lia | reflexivity]|]. split.
    + intros m z Hm. rewrite (csum_single m _ 0); [|exact Hm|].
      * cbn. ring.
      * intros i Hi Ni. destruct (Nat.eqb_spec i 0); [lia|]. ring.
    + intros [|m]; [cbn; lra|]. unfold vnorm2. rewrite rsum_S_l. cbn [Nat.eqb]. rewrite (rsum_ext _ _ (fun _ => 0%R)) by (intros; unfold Cnorm2; cbn; ring). rewrite rsum_const. cbn [pow List.length]. unfold Cnorm2. cbn. lra.
  - destruct IH as (h & H0 & HE & HN); [intros; apply H; now right|]. pose proof (H w (or_introl eq_refl)) as Hw.
    set (sh := fun i => match i with O => RtoC 0 | S i' => h i' end). exists (fun i => sh i - w * h i). split; [|split].
    + intros [|i] Hi; [lia|]. cbn [List.length] in Hi. unfold sh. rewrite !H0 by lia. ring.
    + intros m z Hm. cbn [List.length] in Hm. destruct m as [|m]; [lia|]. rewrite (csum_ext _ _ (fun i => sh i * cpow z i - w * (h i * cpow z i))) by (intros; ring). rewrite csum_minus, csum_scal, HE by lia.
      rewrite csum_S_l. cbn [sh]. rewrite (csum_ext _ _ (fun i => z * (h i * cpow z i))) by (intros; cbn [sh cpow]; ring). rewrite csum_scal, HE by lia. cbn [cprod_at fold_right]. fold (cprod_at z l). ring.
    + intros m. assert (SH : (vnorm2 m sh <= 4 ^ List.length l)%R).
      { destruct m as [|m]; [apply (HN 0%nat)|]. unfold vnorm2. rewrite rsum_S_l. cbn [sh]. replace (Cnorm2 (RtoC 0)) with 0%R by (unfold Cnorm2; cbn; ring). rewrite Rplus_0_l. apply (HN m). }
      pose proof (HN m) as HM. apply Rle_trans with (rsum m (fun i => 2 * Cnorm2 (sh i) + 2 * Cnorm2 (h i))%R).
      * unfold vnorm2. apply rsum_le. intros i Hi. pose proof (Cnorm2_sub_le (sh i) (w * h i)) as X. rewrite Cnorm2_mult, (Cnorm2_one w Hw), Rmult_1_l in X. exact X.
      * rewrite rsum_plus, !rsum_scal. unfold vnorm2 in SH, HM. cbn [List.length pow]. lra.
Qed.

Section Resid.
  Variables (B P : cmat).
  Hypothesis OP : orth_projector_onto B P.
  Let m := nr B.
  Let Q := mid m -m P.
  Lemma q_sym i j : (i < m)%nat -> (j < m)%nat -> Cconj (ent Q j i) = ent Q i j.
  Proof. intros Hi Hj. exact (meq_ent _ _ i j (q_herm B P OP) Hi Hj). Qed.
  (** squared distance of a from the span of B *)
  Definition resid (a : nat -> C) : R := vnorm2 m (mvec Q a).
  Lemma col_q_norm l : (l < m)%nat -> (vnorm2 m (col Q l) <= 1)%R.
  Proof.
    intros Hl. assert (E : ent Q l l = RtoC (vnorm2 m (col Q l))).
    { rewrite <- vdot_self. etransitivity; [symmetry; exact (meq_ent _ _ l l (q_idem B P OP) Hl Hl)|]. cbn [mmul ent]. unfold vdot, col. change (nc (mid (nr B) -m P)) with m. apply csum_ext. intros i Hi. now rewrite q_sym by assumption. }
    assert (L : (Cnorm2 (ent Q l l) <= vnorm2 m (col Q l))%R) by (unfold vnorm2; apply (rsum_ge m (fun i => Cnorm2 (col Q l i)) l Hl); intros; apply Cnorm2_nonneg).
    rewrite E in L. unfold Cnorm2 in L. cbn in L. pose proof (vnorm2_nonneg m (col Q l)). nra.
  Qed.
  Lemma trace_cols S : nr S = m -> nc S = m -> mtrace (Q *m S) = csum m (fun l => qform S (col Q l)).
  Proof.
    intros H1 H2. unfold Q, m. rewrite (q_trace B P OP S H1 H2). unfold mtrace. cbn [mmul mher nr nc]. apply csum_ext. intros l Hl. apply congr_diag; [symmetry; exact H1 | congruence | exact Hl].
  Qed.
  Lemma trace_close S S' : nr S = m -> nc S = m -> nr S' = m -> nc S' = m -> (Rabs (Re (mtrace (Q *m S)) - Re (mtrace (Q *m S'))) <= INR m * distance S S')%R.
  Proof.
    intros H1 H2 H3 H4. rewrite !trace_cols by assumption. rewrite !csum_Re. rewrite <- rsum_minus.
    assert (G : forall n, (n <= m)%nat -> (Rabs (rsum n (fun l => Re (qform S (col Q l)) - Re (qform S' (col Q l)))%R) <= INR n * distance S S')%R).
    { induction n as [|n IH]; intros Hn; [cbn [rsum INR]; rewrite Rabs_R0; lra|]. cbn [rsum]. rewrite S_INR. eapply Rle_trans; [apply Rabs_triang|].
      pose proof (IH ltac:(lia)). pose proof (qform_close S S' (col Q n) ltac:(congruence) ltac:(congruence) ltac:(congruence)) as X. rewrite H1 in X. pose proof (col_q_norm n ltac:(lia)). pose proof (distance_nonneg S S'). pose proof (vnorm2_nonneg m (col Q n)). nra. }
    apply G. lia.
  Qed.
  (** a source covariance with floor p: the residual of every column is seen in the trace *)
  Lemma resid_floor A0 P0 p c : nr A0 = m -> nr P0 = nc A0 -> nc P0 = nc A0 -> (0 <= p)%R -> (forall x, (p * vnorm2 (nr P0) x <= Re (qform P0 x))%R) -> (c < nc A0)%nat ->
    (p * resid (col A0 c) <= Re (mtrace (Q *m (A0 *m P0 *m mher A0))))%R.
  Proof.
    intros H1 H2 H3 Hp HF Hc. rewrite trace_cols by (cbn [mmul mher nr nc]; exact H1). rewrite csum_Re.
    assert (QF : forall y, qform (A0 *m P0 *m mher A0) y = qform P0 (mvec (mher A0) y)).
    { intros y. assert (EQ : A0 *m P0 *m mher A0 ==m mher (mher A0) *m P0 *m mher A0) by (apply mmul_eq_l, mmul_eq_l; symmetry; apply mher_mher). rewrite (qform_eq _ _ y EQ). apply qform_congr; cbn [mher nr]; congruence. }
    unfold resid, vnorm2. rewrite <- rsum_scal. apply rsum_le. intros l Hl. rewrite QF. eapply Rle_trans; [|apply HF]. apply Rmult_le_compat_l; [exact Hp|].
    rewrite H2. unfold vnorm2. pose proof (rsum_ge (nc A0) (fun j => Cnorm2 (mvec (mher A0) (col Q l) j)) c Hc (fun j _ => Cnorm2_nonneg _)) as X. cbn beta in X. eapply Rle_trans; [|exact X]. right.
    rewrite <- Cnorm2_conj. f_equal. unfold mvec. rewrite csum_conj. cbn [mher nc ent]. rewrite H1. change (nc Q) with m. apply csum_ext. intros i Hi. unfold col. rewrite !Cmult_conj. rewrite (q_sym i l) by assumption. ring.
  Qed.
  (** trace of the complementary projector: at least m - k for k columns *)
  Lemma q_trace_ge k B' : orth_projector_onto B' P -> nr B' = m -> inj B' -> (nc B' <= k)%nat -> (INR m - INR k <= Re (mtrace Q))%R.
  Proof. intros OP' H1 HI HK. pose proof (q_trace_val B' P OP' HI) as T. rewrite H1 in T. unfold Q. rewrite T. apply le_INR in HK. cbn [Re RtoC fst]. lra. Qed.
End Resid.

(** only the set of candidate points matters for the projector *)
Lemma projector_nodup m zs P : orth_projector_onto (ula_matrix m zs) P -> orth_projector_onto (ula_matrix m (nodup Ceq_dec zs)) P.
Proof.
  intros OP. pose proof (op_shape _ _ OP) as (S1 & S2). cbn [ula_matrix nr] in S1, S2. constructor.
  - split; assumption.
  - apply (op_idem _ _ OP).
  - apply (op_herm _ _ OP).
  - split; [exact S1|]. split; [reflexivity|]. intros i j Hi Hj. cbn [mmul ula_matrix nr nc ent] in *. rewrite S1 in Hi.
    assert (I : In (nth j (nodup Ceq_dec zs) (RtoC 0)) zs) by (apply (nodup_In Ceq_dec); now apply nth_In). destruct (In_nth zs _ (RtoC 0) I) as (c & Hc & Ec).
    pose proof (meq_ent _ _ i c (op_fix _ _ OP)) as F. cbn [mmul ula_matrix nr nc ent] in F. rewrite S1 in F. rewrite <- Ec. now apply F.
  - destruct (op_range _ _ OP) as (X & X1 & X2 & EX). cbn [ula_matrix nr nc] in X1, X2. set (nd := nodup Ceq_dec zs).
    exists (Mat (List.length nd) m (fun a j => csum (List.length zs) (fun c => if Ceq_dec (nth a nd (RtoC 0)) (nth c zs (RtoC 0)) then ent X c j else RtoC 0))).
    split; [reflexivity|]. split; [reflexivity|]. etransitivity; [exact EX|]. split; [reflexivity|]. split; [exact X2|]. intros i j Hi Hj. cbn [mmul ula_matrix nr nc ent] in *.
    rewrite (csum_ext (List.length nd) _ (fun a => csum (List.length zs) (fun c => if Ceq_dec (nth a nd (RtoC 0)) (nth c zs (RtoC 0)) then cpow (nth c zs (RtoC 0)) i * ent X c j else RtoC 0))).
    2: { intros a Ha. rewrite <- csum_scal. apply csum_ext. intros c Hc. destruct (Ceq_dec _ _) as [->|]; ring. }
    rewrite csum_swap. apply csum_ext. intros c Hc. assert (I : In (nth c zs (RtoC 0)) nd) by (apply (nodup_In Ceq_dec); now apply nth_In). destruct (In_nth nd _ (RtoC 0) I) as (a & Ha & Ea).
    rewrite (csum_single _ _ a); [|exact Ha|].
    + rewrite Ea. destruct (Ceq_dec _ _); [reflexivity|congruence].
    + intros b Hb Nb. destruct (Ceq_dec _ _) as [E|]; [|reflexivity]. exfalso. apply Nb. rewrite <- Ea in E. apply (NoDup_nth nd (RtoC 0)); auto. apply NoDup_nodup.
Qed.
Lemma q_trace_ula m zs P : orth_projector_onto (ula_matrix m zs) P -> (List.length zs <= m)%nat -> (INR m - INR (List.length zs) <= Re (mtrace (mid m -m P)))%R.
Proof.
  intros OP Hk. assert (L : (List.length (nodup Ceq_dec zs) <= List.length zs)%nat) by (apply NoDup_incl_length; [apply NoDup_nodup|]; intros x Hx; now apply (nodup_In Ceq_dec)).
  apply (q_trace_ge (ula_matrix m zs) P (List.length zs) (ula_matrix m (nodup Ceq_dec zs))); [now apply projector_nodup | reflexivity | apply ula_inj; [apply NoDup_nodup | lia] | exact L].
Qed.

(** the distance of a steering vector from the span of others is at least the product of the distances of the phases *)
Lemma resid_ula m zs P z : orth_projector_onto (ula_matrix m zs) P -> (List.length zs < m)%nat -> (forall w, In w zs -> Cmod w = 1%R) ->
  (dist_prod z zs <= 4 ^ List.length zs * resid (ula_matrix m zs) P (fun i => cpow z i))%R.
Proof.
  intros OP Hk H1. destruct (annihilator zs H1) as (h & _ & HE & HN). set (v := fun i => Cconj (h i)). set (a := fun i => cpow z i). set (Q := mid m -m P). pose proof (op_shape _ _ OP) as (S1 & S2). cbn [ula_matrix nr] in S1, S2.
  assert (VA : forall w, vdot m v (fun i => cpow w i) = cprod_at w zs). { intros w. unfold vdot, v. rewrite (csum_ext _ _ (fun i => h i * cpow w i)) by (intros; now rewrite Cconj_conj). apply HE. exact Hk. }
  assert (PV : forall i, (i < m)%nat -> mvec P v i = RtoC 0).
  { destruct (op_range _ _ OP) as (X & X1 & X2 & EX). cbn [ula_matrix nr nc] in X1, X2. intros i Hi.
    assert (PH : P ==m mher X *m mher (ula_matrix m zs)). { etransitivity; [symmetry; apply (op_herm _ _ OP)|]. etransitivity; [|apply mher_mmul; cbn [ula_matrix nc]; congruence]. destruct EX as (E1 & E2 & E3). split; [exact E2|]. split; [exact E1|]. intros p q Hp Hq. cbn [mher nr nc] in Hp, Hq. change (Cconj (ent P q p) = Cconj (ent (ula_matrix m zs *m X) q p)). f_equal. now apply E3. }
    rewrite (mvec_eq _ _ v i PH) by lia. rewrite mvec_mmul. unfold mvec at 1. apply csum_0. intros c Hc. cbn [mher nc] in Hc. rewrite X1 in Hc.
    assert (Z : mvec (mher (ula_matrix m zs)) v c = RtoC 0).
    { change (mvec (mher (ula_matrix m zs)) v c) with (csum m (fun i => Cconj (cpow (nth c zs (RtoC 0)) i) * v i)). assert (E : csum m (fun i => Cconj (cpow (nth c zs (RtoC 0)) i) * v i) = Cconj (vdot m v (fun i => cpow (nth c zs (RtoC 0)) i))) by (rewrite vdot_conj; reflexivity). rewrite E, VA.
      assert (Zp : forall l w, In w l -> cprod_at w l = RtoC 0). { induction l as [|u l IH]; intros w I; [destruct I|]. cbn [cprod_at fold_right]. fold (cprod_at w l). destruct I as [->|I]; [ring | rewrite (IH w I); ring]. }
      rewrite Zp by now apply nth_In. apply Cconj_0. }
    rewrite Z. ring. }
  assert (QV : forall i, (i < m)%nat -> mvec Q v i = v i). { intros i Hi. etransitivity; [exact (q_mvec (ula_matrix m zs) P OP v i Hi)|]. rewrite PV by exact Hi. ring. }
  assert (E : cprod_at z zs = vdot m v (mvec Q a)).
  { rewrite <- VA. change (vdot m v a = vdot (nr Q) v (mvec Q a)). rewrite vdot_mvec_her. change (nc Q) with m. unfold vdot. apply csum_ext. intros i Hi. do 2 f_equal. symmetry. etransitivity; [exact (mvec_eq _ Q v i (q_herm _ P OP) Hi)|]. now apply QV. }
  rewrite <- dist_prod_norm, E. eapply Rle_trans; [apply vdot_cs|]. apply Rmult_le_compat_r; [apply vnorm2_nonneg|]. unfold v. rewrite vnorm2_conj. apply HN.
Qed.
