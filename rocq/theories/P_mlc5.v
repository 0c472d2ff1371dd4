(** From points on the unit circle to directions; near-optimal objective values of the estimators. *)
From Coq Require Import Lra Sorting.Permutation Sorting.Sorted.
From Verif Require Import Base_Np Base_Trig Base_Lin M_utils M_sources S_sources P_sources P_sources3 M_array M_coarray M_heap M_grid M_core M_ml S_utils S_subspace S_stable S_ml S_invar3 P_utils P_subspace P_subspace2 P_subspace3 P_spectral P_perf3 P_ml3 P_ml4 P_ml6 P_oracles P_stable P_stable2 P_stable3 P_cont4 P_cont6 P_pipeline S_cont S_mlc P_mlc P_mlc2 P_mlc3 P_mlc4.
Open Scope C_scope.

Definition matched (tol : R) (zs zs' : list C) : Prop := exists z0, Permutation z0 zs' /\ Forall2 (fun a b => (Cmod (a - b)%C < tol)%R) zs z0.
(** candidates whose objective is nearly that of the true directions are near them *)
Definition zconv (kind : mlkind) (m : nat) (zs : list C) (Rm : cmat) : Prop := forall tol, (0 < tol)%R -> exists eps, (0 < eps)%R /\
  forall env st M (Rm' A A' : cmat) zs' v v', ml_kind env = kind -> ar_size (ml_array env) = m -> ml_routines env -> hermitian Rm' -> nr Rm' = m -> (distance Rm Rm' < eps)%R ->
    List.length zs' = List.length zs -> (forall w, In w zs' -> Cmod w = 1%R) -> prepare_M env st Rm' (List.length zs) = Ok M -> A ==m ula_matrix m zs -> A' ==m ula_matrix m zs' ->
    nll env M A Rm' (List.length zs) = Ok v -> nll env M A' Rm' (List.length zs) = Ok v' -> as_good eps v' v -> matched tol zs zs'.

Lemma op_meq A B P : A ==m B -> orth_projector_onto A P -> orth_projector_onto B P.
Proof.
  intros E OP. pose proof (meq_nr _ _ E) as E1. pose proof (meq_nc _ _ E) as E2. destruct OP as [s i h f (X & x1 & x2 & x3)]. destruct s as (s1 & s2). constructor.
  - split; congruence.
  - exact i.
  - exact h.
  - transitivity (P *m A); [apply mmul_eq_r; [congruence|now symmetry]|]. transitivity A; assumption.
  - exists X. split; [congruence|]. split; [congruence|]. transitivity (A *m X); [exact x3|]. now apply mmul_eq_l.
Qed.

Lemma zconv_cml m zs (Rm P0 : cmat) s : NoDup zs -> (1 <= List.length zs < m)%nat -> exact_cov Rm (ula_matrix m zs) P0 s -> pd P0 -> (0 <= s)%R -> zconv CML m zs Rm.
Proof.
  intros ND Hk HX HP Hs tol Ht. destruct (cml_conv m zs Rm P0 s tol ND Hk HX HP Hs Ht) as (eps & ep & H). exists eps. split; [exact ep|].
  intros env st M Rm' A A' zs' v v' K Hm ((Hp & _) & _) HH R1 D L U _ EA EA' V V' G. unfold nll in V, V'. rewrite K, Hm in V, V'. assert (R2 : nc Rm' = m) by (rewrite <- R1; symmetry; apply HH).
  destruct (cml_ok _ m _ _ _ Hp (meq_nr _ _ EA) R1 R2 V) as (P & OP & ->). destruct (cml_ok _ m _ _ _ Hp (meq_nr _ _ EA') R1 R2 V') as (P' & OP' & ->).
  exact (H Rm' P P' zs' R1 R2 D L U (op_meq _ _ _ EA OP) (op_meq _ _ _ EA' OP') G).
Qed.
Lemma zconv_wsf m zs (Rm P0 : cmat) s : NoDup zs -> (forall z, In z zs -> Cmod z = 1%R) -> (1 <= List.length zs < m)%nat -> exact_cov Rm (ula_matrix m zs) P0 s -> pd P0 -> (0 <= s)%R -> zconv WSF m zs Rm.
Proof.
  intros ND U0 Hk HX HP Hs tol Ht. destruct (wsf_conv m zs Rm P0 s tol ND U0 Hk HX HP Hs Ht) as (eps & ep & H). exists eps. split; [exact ep|].
  intros env st M Rm' A A' zs' v v' K Hm ((Hp & _) & Hg & _) HH R1 D L U HM EA EA' V V' G. rewrite Hm in Hg. unfold nll in V, V'. rewrite K, Hm in V, V'.
  unfold prepare_M in HM. rewrite K, Hm in HM. destruct (Hg Rm' HH ltac:(lia)) as (w & E & Ew & OE). pose proof OE as (_ & o2 & o3 & o4 & _).
  destruct (wsf_ok (ml_eigh env) m Rm' (List.length zs) w E Ew ltac:(congruence) ltac:(congruence) ltac:(congruence) Hk) as (M0 & EM & _ & EQ). rewrite EM in HM. cbn [bind] in HM. injection HM as <-.
  fold (wsf_fit w E m (List.length zs)) in EQ. assert (M1 : nr M0 = m) by (rewrite (meq_nr _ _ EQ); cbn; congruence). assert (M2 : nc M0 = m) by (rewrite (meq_nc _ _ EQ); cbn; congruence).
  destruct (cml_ok _ m _ _ _ Hp (meq_nr _ _ EA) M1 M2 V) as (P & OP & ->). destruct (cml_ok _ m _ _ _ Hp (meq_nr _ _ EA') M1 M2 V') as (P' & OP' & ->).
  assert (TR : forall Q, nr Q = m -> nc Q = m -> mtrace ((mid m -m Q) *m M0) = mtrace ((mid m -m Q) *m wsf_fit w E m (List.length zs))).
  { intros Q q1 q2. apply mtrace_eq; [cbn; congruence|]. apply mmul_eq_r; [cbn; congruence|exact EQ]. }
  destruct (op_shape _ _ OP) as (p1 & p2). destruct (op_shape _ _ OP') as (p1' & p2'). pose proof (meq_nr _ _ EA) as a1. pose proof (meq_nr _ _ EA') as a1'. cbn [ula_matrix nr] in a1, a1'.
  cbn [as_good] in G. rewrite !TR in G by congruence. exact (H Rm' P P' zs' w E HH R1 D OE L U (op_meq _ _ _ EA OP) (op_meq _ _ _ EA' OP') G).
Qed.

(** *** directions *)
Lemma cis_m1 p : (- PI <= p <= PI)%R -> cis p <> RtoC (-1) -> (- PI < p < PI)%R.
Proof.
  intros Hp N. destruct (Req_dec p PI) as [->|]. { exfalso. apply N. unfold cis. rewrite cos_PI, sin_PI. reflexivity. }
  destruct (Req_dec p (- PI)) as [->|]. { exfalso. apply N. unfold cis. rewrite cos_neg, sin_neg, cos_PI, sin_PI. unfold RtoC. f_equal. ring. } lra.
Qed.
Lemma cand_close u c t tol : (0 < c)%R -> (c <= PI)%R -> (- (PI / 2) < t < PI / 2)%R -> (- PI < c * sin t < PI)%R -> (0 < tol)%R ->
  exists e, (0 < e)%R /\ forall t', (- (PI / 2) <= t' <= PI / 2)%R -> (Cmod (cis (c * sin t) - cis (c * sin t'))%C < e)%R -> (Rabs (of_rad u t - of_rad u t') < tol)%R.
Proof.
  intros Hc Hc' Hb Hp Ht. destruct (dir_close u c t tol Hc Hb Hp Ht) as (e & He & H). pose proof PI_RGT_0 as PP.
  assert (N : (cis (c * sin t) - RtoC (-1))%C <> RtoC 0).
  { intros Z. assert (E : cis (c * sin t) = cis PI). { transitivity (cis (c * sin t) - RtoC (-1) + RtoC (-1))%C; [ring|]. rewrite Z. unfold cis. rewrite cos_PI, sin_PI. unfold RtoC, Cplus; cbn. f_equal; ring. }
    assert (E2 : (c * sin t = PI)%R); [|lra]. unfold cis in E. injection E as E1 E3. rewrite cos_PI in E1. 
    destruct (Rle_dec 0 (c * sin t)) as [P|P].
    - rewrite <- (acos_cos (c * sin t)), E1, <- cos_PI, acos_cos by lra. reflexivity.
    - exfalso. assert (X : (acos (cos (- (c * sin t))) = - (c * sin t))%R) by (apply acos_cos; lra). rewrite cos_neg, E1, <- cos_PI, acos_cos in X by lra. lra. }
  assert (NP : (0 < Cmod (cis (c * sin t) - RtoC (-1))%C)%R) by now apply Cmod_gt_0.
  exists (Rmin e (Cmod (cis (c * sin t) - RtoC (-1))%C)). split; [now apply Rmin_glb_lt|]. intros t' Ht' D.
  assert (D1 : (Cmod (cis (c * sin t) - cis (c * sin t'))%C < e)%R) by (eapply Rlt_le_trans; [exact D|apply Rmin_l]).
  assert (SB : (-1 <= sin t' <= 1)%R) by apply SIN_bound.
  assert (R : (- PI < c * sin t' < PI)%R). { apply cis_m1; [nra|]. intros E. rewrite E in D. pose proof (Rmin_r e (Cmod (cis (c * sin t) - RtoC (-1))%C)). lra. }
  destruct (H _ D1) as (_ & Q). unfold dir_of in Q. unfold cis, Re, Im in Q. cbn [fst snd] in Q. rewrite <- (Rmult_1_l (sin (c * sin t'))), <- (Rmult_1_l (cos (c * sin t'))), (atan2_polar 1 (c * sin t')) in Q by lra.
  replace (c * sin t' / c)%R with (sin t') in Q by (field; lra). rewrite asin_sin in Q by exact Ht'. exact Q.
Qed.
Lemma directions_close d lam u doas tol : (0 < d)%R -> (0 < lam)%R -> (2 * d <= lam)%R -> Forall (valid_angle u) doas -> in_view d 1 lam u doas -> (0 < tol)%R ->
  exists e, (0 < e)%R /\ forall cand, Forall (valid_angle u) cand -> matched e (map (zof d lam u) doas) (map (zof d lam u) cand) -> close_to tol doas cand.
Proof.
  intros Hd Hl H2 V IV Ht. pose proof PI_RGT_0 as PP. set (c := (2 * PI * d / lam)%R). assert (Hc : (0 < c)%R) by (unfold c; apply Rdiv_lt_0_compat; nra).
  assert (Hc' : (c <= PI)%R). { unfold c. apply Rmult_le_reg_r with lam; [exact Hl|]. replace (2 * PI * d / lam * lam)%R with (PI * (2 * d))%R by (field; lra). nra. }
  assert (ZC : forall a, zof d lam u a = cis (c * sin (to_rad u a))) by (intros a; unfold zof, c; f_equal; field; lra).
  assert (X : exists e, (0 < e)%R /\ forall a, In a doas -> forall a', valid_angle u a' -> (Cmod (zof d lam u a - zof d lam u a')%C < e)%R -> (Rabs (a - a') < tol)%R).
  { destruct (list_eps (fun a e => forall a', valid_angle u a' -> (Cmod (zof d lam u a - zof d lam u a')%C < e)%R -> (Rabs (a - a') < tol)%R) doas) as (e & He & H).
    - intros a e e' _ Le Q a' Va' D. apply Q; [exact Va'|lra].
    - intros a Ia. rewrite Forall_forall in V. destruct (IV a Ia) as (T & W). change (INR 1) with 1%R in W. rewrite Rmult_1_r in W.
      assert (W' : (- PI < c * sin (to_rad u a) < PI)%R). { unfold c. replace (2 * PI * d / lam * sin (to_rad u a))%R with ((2 * PI / lam) * (d * sin (to_rad u a)))%R by (field; lra).
        assert (0 < 2 * PI / lam)%R by (apply Rdiv_lt_0_compat; lra). assert (2 * PI / lam * (lam / 2) = PI)%R by (field; lra). split; nra. }
      destruct (cand_close u c (to_rad u a) tol Hc Hc' T W' Ht) as (e & He & Q). exists e. split; [exact He|]. intros a' Va' D. rewrite !ZC in D.
      pose proof (Q _ (to_rad_range _ _ Va') D) as Y. rewrite !of_to_rad in Y; auto.
    - exists e. split; [exact He|]. intros a Ia. now apply H. }
  destruct X as (e & He & H). exists e. split; [exact He|]. intros cand VC (z0 & PZ & FZ). destruct (Permutation_map_inv _ _ PZ) as (c0 & -> & PC0); pose proof PC0 as PC.
  assert (F : Forall2 (fun a b => (Rabs (a - b) < tol)%R) doas c0).
  { assert (VC0 : Forall (valid_angle u) c0) by (apply Forall_forall; intros a Ia; rewrite Forall_forall in VC; apply VC; now apply (Permutation_in _ (Permutation_sym PC))).
    clear - H FZ VC0. revert c0 FZ VC0. induction doas as [|a l IH]; intros [|b c0] FZ VC0; cbn [map] in FZ; inversion FZ as [|x y xs ys Hh Ht']; subst; constructor.
    - inversion VC0; subst. apply H; [now left|assumption|assumption].
    - inversion VC0; subst. apply IH; [intros; apply H; [now right|assumption|assumption]|assumption|assumption]. }
  assert (F' : Forall2 (fun b a => (Rabs (a - b) < tol)%R) c0 doas) by (clear - F; induction F; constructor; auto).
  destruct (Permutation_Forall2 (Permutation_sym PC) F') as (s & PS & FS). exists s. split; [now symmetry|]. clear - FS. induction FS; constructor; auto.
Qed.
