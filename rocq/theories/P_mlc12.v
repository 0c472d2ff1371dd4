(** The objectives are bounded below, so that points with a nearly smallest objective exist. *)
From Coq Require Import Lra Sorting.Permutation Sorting.Sorted.
From Verif Require Import Base_Np Base_Trig Base_Lin M_utils M_sources S_sources P_sources M_array S_array M_designs S_designs P_designs M_coarray M_heap M_grid M_core M_ml S_utils S_subspace S_stable S_ml S_invar3 P_utils P_subspace P_subspace2 P_subspace3 P_spectral P_perf3 P_perf5 P_ml P_ml2 P_ml3 P_ml4 P_ml5 P_ml6 P_ml7 Prop_ml Prop_ml4 P_oracles P_stable P_stable2 P_stable3 P_pipeline P_signals S_mlc P_mlc P_mlc2 P_mlc5 P_mlc6 P_mlc8 P_mlc9 P_mlc10.
Open Scope C_scope.

Definition at_least (L : R) (v : option R) : Prop := match v with None => True | Some y => (L <= y)%R end.
(** a function that is bounded below has points that are minimal up to eps *)
Lemma approx_min {X : Type} (D : X -> Prop) (f : X -> option R) L eps : (exists x, D x) -> (forall x, D x -> at_least L (f x)) -> (0 < eps)%R -> exists x, D x /\ forall y, D y -> as_good eps (f x) (f y).
Proof.
  intros (x0 & D0) HB He. destruct (Classical_Prop.classic (exists x y, D x /\ f x = Some y)) as [(x1 & y1 & D1 & F1)|N].
  - set (V := fun t => exists x y, D x /\ f x = Some y /\ t = (- y)%R). destruct (completeness V) as (l & UB & LU).
    + exists (- L)%R. intros t (x & y & Dx & Fx & ->). specialize (HB x Dx). rewrite Fx in HB. cbn in HB. lra.
    + exists (- y1)%R, x1, y1. auto.
    + destruct (Classical_Prop.classic (exists x y, D x /\ f x = Some y /\ (l - eps <= - y)%R)) as [(x & y & Dx & Fx & Hx)|N].
      * exists x. split; [exact Dx|]. intros z Dz. rewrite Fx. destruct (f z) as [w|] eqn:Fz; cbn; [|exact I]. specialize (UB (- w)%R ltac:(exists z, w; auto)). lra.
      * exfalso. assert (X1 : (l <= l - eps)%R); [|lra]. apply LU. intros t (x & y & Dx & Fx & ->). destruct (Rle_lt_dec (l - eps) (- y)) as [H|H]; [exfalso; apply N; exists x, y; auto|lra].
  - exists x0. split; [exact D0|]. intros y Dy. destruct (f y) as [w|] eqn:Fy; [exfalso; apply N; exists y, w; auto|]. now destruct (f x0).
Qed.

(** values of the three objectives *)
Lemma trace_below m S : nr S = m -> nc S = m -> forall B P, orth_projector_onto B P -> nr B = m -> (- (INR m * distance S (Mat m m (fun _ _ => RtoC 0))) <= Re (mtrace ((mid m -m P) *m S)))%R.
Proof.
  intros S1 S2 B P OP B1. pose proof (trace_close B P OP S (Mat m m (fun _ _ => RtoC 0)) ltac:(congruence) ltac:(congruence) ltac:(cbn; congruence) ltac:(cbn; congruence)) as H. rewrite B1 in H.
  replace (mtrace ((mid m -m P) *m Mat m m (fun _ _ => RtoC 0))) with (RtoC 0) in H.
  - cbn [Re RtoC fst] in H. apply Rcomplements.Rabs_le_between in H. lra.
  - unfold mtrace, mmul. cbn [ent nr nc msub mid]. symmetry. apply csum_0. intros i Hi. apply csum_0. intros j Hj. ring.
Qed.
Lemma conc_floor m zs P (Rm : cmat) t x : orth_projector_onto (ula_matrix m zs) P -> (List.length zs < m)%nat -> hermitian Rm -> nr Rm = m -> (0 <= t)%R -> (forall x, (t * vnorm2 m x <= Re (qform Rm x))%R) ->
  (t * vnorm2 m x <= Re (qform (concentrated P Rm m (List.length zs)) x))%R.
Proof.
  intros OP Hk HH R1 Ht HF. rewrite (conc_q _ P m OP eq_refl Rm (List.length zs) x HH R1 Hk). rewrite (pyth _ P m OP eq_refl x). pose proof (HF (mvec P x)) as F1.
  assert (Kp : (0 < INR (m - List.length zs))%R) by (apply lt_0_INR; lia). assert (R2 : nc Rm = m) by (rewrite <- R1; symmetry; apply HH).
  assert (NE : (t <= noise_est P m Rm (List.length zs))%R).
  { unfold noise_est. apply (Rmult_le_reg_r (INR (m - List.length zs))); [exact Kp|]. unfold Rdiv. rewrite Rmult_assoc, Rinv_l, Rmult_1_r by lra.
    pose proof (trace_cols (ula_matrix m zs) P OP Rm R1 R2) as E. cbn [ula_matrix nr] in E. pose proof (f_equal Re E) as E'. cbn beta in E'. rewrite csum_Re in E'.
    pose proof (trace_cols (ula_matrix m zs) P OP (mid m) eq_refl eq_refl) as EI. cbn [ula_matrix nr] in EI. pose proof (f_equal Re EI) as EI'. cbn beta in EI'. rewrite csum_Re in EI'.
    assert (TI : mtrace ((mid m -m P) *m mid m) = mtrace (mid m -m P)). { apply mtrace_eq; [reflexivity|]. apply mmul_id_r. cbn. reflexivity. }
    pose proof (q_trace_ula m zs P OP ltac:(lia)) as QT. rewrite <- TI in QT. rewrite E'. rewrite EI' in QT.
    assert (t * rsum m (fun i => Re (qform (mid m) (col (mid m -m P) i))) <= rsum m (fun i => Re (qform Rm (col (mid m -m P) i))))%R.
    { rewrite <- rsum_scal. apply rsum_le. intros i Hi. rewrite qform_mid. cbn [Re RtoC fst]. apply HF. }
    rewrite minus_INR by lia. apply Rle_trans with (t * rsum m (fun i => Re (qform (mid m) (col (mid m -m P) i))))%R; [apply Rmult_le_compat_l; assumption|assumption]. }
  assert (0 <= vnorm2 m (mvec (mid m -m P) x))%R by apply vnorm2_nonneg. nra.
Qed.
Lemma nll_below env M st (Rm : cmat) m k : ar_size (ml_array env) = m -> ml_routines env -> hermitian Rm -> nr Rm = m -> (1 <= k < m)%nat -> (ml_kind env = AML -> pd Rm) -> prepare_M env st Rm k = Ok M ->
  exists L, forall A zs v, A ==m ula_matrix m zs -> List.length zs = k -> nll env M A Rm k = Ok v -> at_least L v.
Proof.
  intros Sz ((Hp & _) & He & Hr & _) HH R1 Hk PD HM. rewrite Sz in Hr. assert (R2 : nc Rm = m) by (rewrite <- R1; symmetry; apply HH). unfold prepare_M, nll in *. rewrite Sz in *. destruct (ml_kind env) eqn:Kd.
  - (* AML *)
    specialize (PD eq_refl). destruct (pd_floor Rm PD ltac:(lia)) as (t & Tp & HF). rewrite R1 in HF. exists (INR m * ln t)%R. intros A zs v EA LZ V. destruct (aml_matrix (ml_pinv env) m k A Rm) as [H1|] eqn:E1; [|discriminate]. cbn [bind] in V.
    destruct (aml_ok _ m _ _ _ _ Hp (meq_nr _ _ EA) HH R1 (proj2 Hk) E1) as (P & OP & Q1). apply (op_meq _ _ _ EA) in OP. destruct (conc_h _ P m OP eq_refl Rm k HH R1 (proj2 Hk)) as (C1 & N1). destruct (eigh_ref_ok _ C1) as (mu & F & _ & OF).
    assert (MU : forall i, (i < m)%nat -> (t <= nth i mu 0)%R).
    { intros i Hi. destruct (eig_val _ mu F i C1 OF ltac:(congruence)) as (-> & U). rewrite N1 in U. rewrite <- (Rmult_1_r t), <- U. subst k. apply conc_floor; try assumption; [lia|lra]. }
    assert (QS1 : concentrated P Rm m k ==m H1) by now symmetry. assert (NH1 : nr H1 = m) by (rewrite (meq_nr _ _ Q1); exact N1).
    rewrite (aml_value_pos (ml_slogdet env) m H1 mu F (slogdet_regular_ok _ _ Hr) NH1 (hermitian_eq _ _ QS1 C1) (eigh_ok_eq _ _ _ _ QS1 OF)) in V by (intros i Hi; specialize (MU i Hi); lra).
    injection V as <-. cbn. unfold logdet. rewrite <- rsum_const. apply rsum_le. intros i Hi. specialize (MU i Hi). destruct MU as [MU|<-]; [left; apply ln_increasing; lra|right; reflexivity].
  - (* CML *)
    exists (- (INR m * distance Rm (Mat m m (fun _ _ => RtoC 0))))%R. intros A zs v EA LZ V. destruct (cml_ok _ m A Rm v Hp (meq_nr _ _ EA) R1 R2 V) as (P & OP & ->). cbn. exact (trace_below m Rm R1 R2 A P OP (meq_nr _ _ EA)).
  - (* WSF *)
    destruct (He Rm HH ltac:(lia)) as (w & E & Ew & OE). pose proof OE as (_ & o2 & o3 & o4 & _).
    destruct (wsf_ok (ml_eigh env) m Rm k w E Ew ltac:(congruence) ltac:(congruence) ltac:(congruence) Hk) as (M0 & EM & _ & EQ). rewrite EM in HM. cbn [bind] in HM. injection HM as <-.
    assert (M1 : nr M0 = m) by (rewrite (meq_nr _ _ EQ); reflexivity || (cbn; congruence)). assert (M2 : nc M0 = m) by (rewrite (meq_nc _ _ EQ); reflexivity || (cbn; congruence)).
    exists (- (INR m * distance M0 (Mat m m (fun _ _ => RtoC 0))))%R. intros A zs v EA LZ V. destruct (cml_ok _ m A M0 v Hp (meq_nr _ _ EA) M1 M2 V) as (P & OP & ->). cbn. exact (trace_below m M0 M1 M2 A P OP (meq_nr _ _ EA)).
Qed.
