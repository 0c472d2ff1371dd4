(** Near-optimal CML and WSF fits have directions near the true ones. *)
From Coq Require Import Sorting.Permutation Sorting.Sorted.
From Verif Require Import Base_Np Base_Lin M_utils S_utils S_subspace S_stable S_ml P_utils P_subspace P_subspace2 P_subspace3 P_spectral P_perf3 P_ml3 P_ml4 P_stable P_stable2 P_stable3 P_cont4 P_mlc.
Open Scope C_scope.

(** small product of distances for every true point: the points match *)
Lemma dist_prod_pow z l t : (0 <= t)%R -> (forall w, In w l -> (t <= Cmod (z - w)%C)%R) -> ((t * t) ^ List.length l <= dist_prod z l)%R.
Proof.
  intros Ht. induction l as [|w l IH]; intros H; [cbn; lra|]. cbn [List.length pow dist_prod fold_right]. fold (dist_prod z l).
  apply Rmult_le_compat; [nra | apply pow_le; nra | | apply IH; intros; apply H; now right].
  pose proof (H w (or_introl eq_refl)) as X. pose proof (P_invar.Cmod_sq (z - w)%C) as E. rewrite <- E. nra.
Qed.
Lemma matching zs tol : NoDup zs -> (0 < tol)%R -> exists tau, (0 < tau)%R /\ forall zs', List.length zs' = List.length zs -> (forall z, In z zs -> (dist_prod z zs' < tau)%R) ->
  exists z0, Permutation z0 zs' /\ Forall2 (fun a b => (Cmod (a - b)%C < tol)%R) zs z0.
Proof.
  intros ND Ht. destruct (separation zs) as (s & Hs & S). set (t := Rmin tol (s / 2)). assert (Tp : (0 < t)%R) by (apply Rmin_glb_lt; lra).
  exists ((t * t) ^ List.length zs)%R. split; [apply pow_lt; nra|]. intros zs' L H.
  destruct (choose_close zs zs' t) as (l0 & F).
  { intros a Ha. destruct (Classical_Prop.classic (exists b, In b zs' /\ (Cmod (a - b)%C < t)%R)) as [X|N]; [exact X|]. exfalso. specialize (H a Ha).
    assert (X : ((t * t) ^ List.length zs' <= dist_prod a zs')%R) by (apply dist_prod_pow; [lra|]; intros w Hw; apply Rnot_lt_le; intros C; apply N; eauto). rewrite L in X. lra. }
  assert (F' : Forall2 (fun a b => (Cmod (a - b)%C < t)%R) zs l0) by (apply (F2_impl_in _ _ _ _ (fun a b _ HP => proj2 HP) F)).
  exists l0. split.
  - apply NoDup_Permutation_bis; [apply (close_nodup zs l0 s t); auto; unfold t; pose proof (Rmin_r tol (s / 2)); lra|rewrite L, <- (F2_len _ _ _ F); lia|].
    intros b Hb. destruct (F2_in_r _ _ _ _ F Hb) as (a & _ & I & _). exact I.
  - refine (F2_impl_in _ _ _ _ _ F'). intros a b _ HP. cbn beta in HP. pose proof (Rmin_l tol (s / 2)). unfold t in HP. lra.
Qed.

(** *** CML *)
Lemma cml_gap m zs zs' (Rm Rm' P0 P P' : cmat) s p eta : NoDup zs -> List.length zs' = List.length zs -> (List.length zs < m)%nat -> (forall w, In w zs' -> Cmod w = 1%R) ->
  exact_cov Rm (ula_matrix m zs) P0 s -> (0 <= s)%R -> (0 <= p)%R -> (forall x, (p * vnorm2 (nr P0) x <= Re (qform P0 x))%R) ->
  nr Rm' = m -> nc Rm' = m -> orth_projector_onto (ula_matrix m zs) P -> orth_projector_onto (ula_matrix m zs') P' ->
  (Re (mtrace ((mid m -m P') *m Rm')) <= Re (mtrace ((mid m -m P) *m Rm')) + eta)%R ->
  forall z, In z zs -> (p * dist_prod z zs' <= 4 ^ List.length zs * (2 * INR m * distance Rm Rm' + eta))%R.
Proof.
  intros ND L Hk U HX Hs Hp HF R1 R2 OP OP' HL z Hz. set (A := ula_matrix m zs) in *. destruct (ex_dims Rm A P0 s HX) as (D1 & D2). cbn [A ula_matrix nr] in D1, D2. pose proof HX as (X1 & X2 & ER). cbn [A ula_matrix nc] in X1, X2.
  assert (TR : forall B Pb, orth_projector_onto B Pb -> nr B = m -> Re (mtrace ((mid m -m Pb) *m Rm)) = (Re (mtrace ((mid m -m Pb) *m (A *m P0 *m mher A))) + s * Re (mtrace (mid m -m Pb)))%R).
  { intros B Pb OB HB. set (Q := mid m -m Pb). rewrite (mtrace_eq (Q *m Rm) (Q *m (A *m P0 *m mher A) +m mscal (RtoC s) Q)).
    - rewrite mtrace_sum by reflexivity. rewrite Re_plus. f_equal. rewrite mtrace_mscal. destruct (mtrace Q) as (q1, q2). cbn. ring.
    - cbn [Q mmul msub mid nr nc]. congruence.
    - etransitivity; [apply mmul_eq_r; [cbn [Q msub mid nc]; congruence | exact ER]|]. etransitivity; [apply mmul_add_r|].
      apply madd_eq; [reflexivity | reflexivity | reflexivity|]. etransitivity; [apply mscal_mmul_r|]. apply mscal_eq. apply mmul_id_r. reflexivity. }
  pose proof (trace_close _ P OP Rm Rm' D1 D2 R1 R2) as T0. pose proof (trace_close _ P' OP' Rm Rm' D1 D2 R1 R2) as T1. cbn [A ula_matrix nr] in T0, T1. rewrite (TR _ P OP eq_refl) in T0. rewrite (TR _ P' OP' eq_refl) in T1.
  pose proof (q_trace_ula m zs' P' OP' ltac:(lia)) as Q1. pose proof (q_trace_val A P OP (ula_inj m zs ND ltac:(lia))) as Q0. cbn [A ula_matrix nr nc] in Q0. fold A in Q0. rewrite Q0 in T0. cbn [Re RtoC fst] in T0.
  assert (F0 : Re (mtrace ((mid m -m P) *m (A *m P0 *m mher A))) = 0%R).
  { assert (Z : (mid m -m P) *m (A *m P0 *m mher A) ==m Mat m m (fun _ _ => RtoC 0)).
    { split; [reflexivity|]. split; [reflexivity|]. intros i j Hi Hj. cbn [mmul msub mid nr] in Hi. rewrite mmul_ent_mvec. cbn [ent]. refine (proj1 (q_span A P OP (fun l => ent (A *m P0 *m mher A) l j)) _ i Hi).
      exists (fun c => ent (P0 *m mher A) c j). intros q Hq. rewrite (meq_ent _ _ q j (mmul_assoc A P0 (mher A))); [reflexivity | exact Hq | exact Hj]. }
    rewrite (mtrace_eq _ (Mat m m (fun _ _ => RtoC 0))) by (reflexivity || exact Z). unfold mtrace. cbn [nr ent]. rewrite csum_0 by reflexivity. reflexivity. }
  destruct (In_nth zs z (RtoC 0) Hz) as (c & Hc & Ec).
  pose proof (resid_floor (ula_matrix m zs') P' OP' A P0 p c eq_refl ltac:(cbn [A ula_matrix nc]; congruence) ltac:(cbn [A ula_matrix nc]; congruence) Hp HF Hc) as RF. cbn [ula_matrix nr] in RF. fold A in RF.
  pose proof (resid_ula m zs' P' z OP' ltac:(lia) U) as RU. assert (EC : resid (ula_matrix m zs') P' (col A c) = resid (ula_matrix m zs') P' (fun i => cpow z i)).
  { unfold resid. apply vnorm2_ext. intros i Hi. apply mvec_ext. intros j Hj. unfold col. cbn [A ula_matrix ent]. now rewrite Ec. }
  rewrite EC in RF. apply Rcomplements.Rabs_le_between in T0. apply Rcomplements.Rabs_le_between in T1. rewrite F0 in T0. rewrite L in Q1, RU.
  set (r := resid _ _ _) in *. pose proof (pow_lt 4 (List.length zs) ltac:(lra)) as F4.
  assert (SQ : (s * (INR m - INR (List.length zs)) <= s * Re (mtrace (mid m -m P')))%R) by (apply Rmult_le_compat_l; assumption).
  assert (G : (p * r <= 2 * INR m * distance Rm Rm' + eta)%R) by lra.
  apply Rle_trans with (p * (4 ^ List.length zs * r))%R; [now apply Rmult_le_compat_l|]. replace (p * (4 ^ List.length zs * r))%R with (4 ^ List.length zs * (p * r))%R by ring. apply Rmult_le_compat_l; lra.
Qed.

Lemma cml_conv m zs (Rm P0 : cmat) s tol : NoDup zs -> (1 <= List.length zs < m)%nat -> exact_cov Rm (ula_matrix m zs) P0 s -> pd P0 -> (0 <= s)%R -> (0 < tol)%R ->
  exists eps, (0 < eps)%R /\ forall (Rm' P P' : cmat) zs', nr Rm' = m -> nc Rm' = m -> (distance Rm Rm' < eps)%R -> List.length zs' = List.length zs -> (forall w, In w zs' -> Cmod w = 1%R) ->
    orth_projector_onto (ula_matrix m zs) P -> orth_projector_onto (ula_matrix m zs') P' -> (Re (mtrace ((mid m -m P') *m Rm')) <= Re (mtrace ((mid m -m P) *m Rm')) + eps)%R ->
    exists z0, Permutation z0 zs' /\ Forall2 (fun a b => (Cmod (a - b)%C < tol)%R) zs z0.
Proof.
  intros ND Hk HX HP Hs Ht. pose proof HX as (X1 & X2 & _). cbn [ula_matrix nc] in X1, X2. destruct (pd_floor P0 HP ltac:(lia)) as (p & Pp & HF). destruct (matching zs tol ND Ht) as (tau & Tp & HM).
  pose proof (pow_lt 4 (List.length zs) ltac:(lra)) as F4. assert (Mp : (0 < 2 * INR m + 1)%R) by (pose proof (pos_INR m); lra). set (K := (4 ^ List.length zs * (2 * INR m + 1))%R). assert (Kp : (0 < K)%R) by (unfold K; now apply Rmult_lt_0_compat).
  exists (p * tau / K)%R. assert (E0 : (0 < p * tau / K)%R) by (apply Rdiv_lt_0_compat; [now apply Rmult_lt_0_compat | exact Kp]). split; [exact E0|].
  intros Rm' P P' zs' R1 R2 HD L U OP OP' HL. apply HM; [exact L|]. intros z Hz.
  pose proof (cml_gap m zs zs' Rm Rm' P0 P P' s p _ ND L ltac:(lia) U HX Hs ltac:(lra) HF R1 R2 OP OP' HL z Hz) as G.
  apply Rmult_lt_reg_l with p; [exact Pp|]. eapply Rle_lt_trans; [exact G|]. apply Rlt_le_trans with (K * (p * tau / K))%R; [|right; field; lra].
  set (e := (p * tau / K)%R) in *. clearbody e. unfold K. rewrite (Rmult_assoc (4 ^ List.length zs)). apply Rmult_lt_compat_l; [exact F4|]. rewrite Rmult_plus_distr_r. assert (X : (0 < 2 * INR m)%R) by (assert (0 < INR m)%R by (apply lt_0_INR; lia); lra). pose proof (Rmult_lt_compat_l _ _ _ X HD). lra.
Qed.
