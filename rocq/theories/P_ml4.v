(** Objectives of the ML estimators. *)
From Coq Require Import Sorting.Sorted.
From Verif Require Import Base_Np Base_Lin M_utils M_core M_ml S_utils S_subspace S_ml P_utils P_subspace P_subspace2 P_subspace3 P_core2 P_perf2 P_perf3 P_perf5 P_ml3.
Open Scope C_scope.

Lemma mscal_eq c A B : A ==m B -> mscal c A ==m mscal c B.
Proof. intros (H1 & H2 & H3). split; [exact H1|]. split; [exact H2|]. intros i j Hi Hj. cbn [mscal ent]. now rewrite H3. Qed.
Lemma projm_pinv solve pinv A P : pinv_ok pinv -> projm solve pinv true true A = Ok P -> orth_projector_onto A P.
Proof.
  intros Hp H. refine (projm_correct (fun _ _ => Raise LinAlgError) pinv true true A P _ Hp _ H); [intros ? ? ? X; discriminate X | discriminate].
Qed.
Lemma projm_pinv_ok solve pinv A X : pinv A = Ok X -> pinv_ok pinv -> exists P, projm solve pinv true true A = Ok P /\ nr P = nr A /\ nc P = nr A.
Proof. intros E Hp. destruct (Hp A X E) as (X1 & X2 & _). unfold projm. rewrite E. cbn [bind]. rewrite matmul_ok by congruence. eexists. split; [reflexivity|]. cbn [mmul nr nc]. auto. Qed.
Lemma np_trace_sq X : nr X = nc X -> np_trace X = mtrace X.
Proof. intros H. unfold np_trace, mtrace. now rewrite <- H, Nat.min_id. Qed.

Lemma cml_ok pinv m B S v : pinv_ok pinv -> nr B = m -> nr S = m -> nc S = m -> cml_value pinv m B S = Ok v ->
  exists P, orth_projector_onto B P /\ v = Some (Re (mtrace ((mid m -m P) *m S))).
Proof.
  intros Hp HB H1 H2 H. unfold cml_value in H. destruct (projm _ pinv true true B) as [P|] eqn:EP; [|discriminate]. pose proof (projm_pinv _ _ _ _ Hp EP) as OP. exists P. split; [exact OP|]. destruct (op_shape _ _ OP) as (S1 & S2). cbn [bind] in H. unfold eye_minus in H.
  rewrite S1, S2, HB, Nat.eqb_refl in H. cbn [andb negb bind] in H. rewrite matmul_ok in H by (cbn [msub mid nc]; congruence). cbn [bind] in H. rewrite np_trace_sq in H by (cbn [mmul msub mid nr nc]; congruence). congruence.
Qed.
Lemma cml_defined pinv m B S X : pinv_ok pinv -> pinv B = Ok X -> nr B = m -> nr S = m -> exists v, cml_value pinv m B S = Ok (Some v).
Proof.
  intros Hp EX HB H1. destruct (projm_pinv_ok (fun _ _ => Raise LinAlgError) pinv B X EX Hp) as (P & EP & S1 & S2). unfold cml_value. rewrite EP. cbn [bind]. unfold eye_minus. rewrite S1, S2, HB, Nat.eqb_refl. cbn [andb negb bind]. rewrite matmul_ok by (cbn [msub mid nc]; congruence). cbn [bind]. eexists. reflexivity.
Qed.

(** exact covariance *)
Lemma exact_resid Rm A P0 s B P : exact_cov Rm A P0 s -> nr B = nr A -> orth_projector_onto B P -> inj B ->
  mtrace ((mid (nr A) -m P) *m Rm) = mtrace ((mid (nr A) -m P) *m (A *m P0 *m mher A)) + RtoC (s * (INR (nr A) - INR (nc B))).
Proof.
  intros (E1 & E2 & ER) HB OP HI. destruct (op_shape _ _ OP) as (S1 & S2). set (Q := mid (nr A) -m P).
  rewrite (mtrace_eq (Q *m Rm) (Q *m (A *m P0 *m mher A) +m mscal (RtoC s) Q)).
  - rewrite mtrace_sum by reflexivity. f_equal. rewrite mtrace_mscal. pose proof (q_trace_val B P OP HI) as T. rewrite HB in T. fold Q in T. rewrite T, <- RtoC_mult. reflexivity.
  - cbn [Q mmul msub mid nr nc]. pose proof (meq_nc _ _ ER) as X. cbn in X. congruence.
  - etransitivity; [apply mmul_eq_r; [cbn [Q msub mid nc]; pose proof (meq_nr _ _ ER) as X; cbn in X; congruence | exact ER]|]. etransitivity; [apply mmul_add_r|].
    apply madd_eq; [reflexivity | reflexivity | reflexivity|]. etransitivity; [apply mscal_mmul_r|]. apply mscal_eq. apply mmul_id_r. reflexivity.
Qed.

(** *** WSF *)
Lemma rsum_fold l : fold_right Rplus 0%R l = rsum (List.length l) (fun i => nth i l 0%R).
Proof. induction l as [|a l IH]; [reflexivity|]. cbn [fold_right List.length]. rewrite IH, rsum_S_l. reflexivity. Qed.
Lemma pslice_tail {A} (l : list A) k : (1 <= k <= List.length l)%nat -> pslice l (Some (- Z.of_nat k)%Z) None = skipn (List.length l - k) l.
Proof. intros H. unfold pslice, slice_bounds. rewrite clip_neg by lia. apply firstn_all2. rewrite skipn_length. lia. Qed.
Lemma pslice_head {A} (l : list A) k : (1 <= k)%nat -> pslice l None (Some (- Z.of_nat k)%Z) = firstn (List.length l - k) l.
Proof. intros H. unfold pslice, slice_bounds. rewrite clip_neg by lia. now rewrite Nat.sub_0_r. Qed.
Lemma nth_skipn' {A} (l : list A) n i d : nth i (skipn n l) d = nth (n + i) l d.
Proof. revert l; induction n as [|n IH]; intros [|a l]; simpl; auto. destruct i; reflexivity. Qed.
Lemma nth_firstn' {A} (l : list A) n i d : (i < n)%nat -> nth i (firstn n l) d = nth i l d.
Proof. revert n i; induction l as [|a l IH]; intros [|n] [|i] H; simpl; auto; try lia. apply IH. lia. Qed.
Definition Es_of (E : cmat) (m k : nat) : cmat := Mat m k (fun i j => ent E i (m - k + j)).
Lemma wsf_ok eigh m Rm k w E : eigh Rm = Ok (w, E) -> List.length w = m -> nr E = m -> nc E = m -> (1 <= k < m)%nat ->
  exists M, wsf_matrix eigh m Rm k = Ok M /\ M ==m wsf_sum w E m k /\
    M ==m Es_of E m k *m mdiag k (fun c => RtoC (wsf_weight (noise_mean w m k) (nth (m - k + c) w 0%R))) *m mher (Es_of E m k).
Proof.
  intros EE LW E1 E2 Hk. unfold wsf_matrix. rewrite EE. cbn [bind]. rewrite pslice_tail, pslice_head by lia. rewrite LW.
  assert (NM : (fold_right Rplus 0 (firstn (m - k) w) / IZR (Z.of_nat m - Z.of_nat k))%R = noise_mean w m k).
  { unfold noise_mean. rewrite rsum_fold, firstn_length, LW, Nat.min_l by lia. rewrite (rsum_ext _ _ (fun i => nth i w 0%R)) by (intros i Hi; now apply nth_firstn'). f_equal. rewrite INR_IZR_INZ. do 2 f_equal. lia. }
  rewrite NM. unfold col_slice, slice_bounds. rewrite E2, clip_neg by lia. cbn [nr nc ent]. replace (m - (m - k))%nat with k by lia. rewrite map_length, skipn_length, LW. replace (m - (m - k))%nat with k by lia. rewrite Nat.eqb_refl. cbn [negb].
  set (wt := fun c => wsf_weight (noise_mean w m k) (nth (m - k + c) w 0%R)).
  assert (W : forall c, (c < k)%nat -> nth c (map (fun x : R => ((x - noise_mean w m k) * (x - noise_mean w m k) / x)%R) (skipn (m - k) w)) 0%R = wt c).
  { intros c Hc. rewrite (nth_indep _ 0%R ((fun x : R => ((x - noise_mean w m k) * (x - noise_mean w m k) / x)%R) 0%R)) by (rewrite map_length, skipn_length; lia). rewrite (map_nth (fun x : R => ((x - noise_mean w m k) * (x - noise_mean w m k) / x)%R)), nth_skipn'. reflexivity. }
  rewrite matmul_ok by reflexivity. eexists. split; [reflexivity|]. split.
  - split; [exact E1|]. split; [exact E1|]. cbn [mmul mher nr nc ent wsf_sum]. intros i j Hi Hj. apply csum_ext. intros c Hc. rewrite W by exact Hc. unfold wt. ring.
  - split; [exact E1|]. split; [exact E1|]. cbn [mmul mher nr nc]. intros i j Hi Hj. rewrite E1 in Hi, Hj.
    pose proof (meq_ent _ _ i j (mmul_eq_l _ _ (mher (Es_of E m k)) (mmul_diag_r k (fun c => RtoC (wt c)) (Es_of E m k) eq_refl)) Hi Hj) as X. unfold wt in X. rewrite X. cbn [mmul mher Es_of nr nc ent]. apply csum_ext. intros c Hc. rewrite W by exact Hc. reflexivity.
Qed.

Lemma noise_mean_exact w m k s : (k < m)%nat -> (forall j, (j < m - k)%nat -> nth j w 0%R = s) -> noise_mean w m k = s.
Proof. intros Hk H. unfold noise_mean. rewrite (rsum_ext _ _ (fun _ => s)) by exact H. rewrite rsum_const. field. apply not_0_INR. lia. Qed.

(** the span of the signal eigenvectors of an exact covariance is that of the steering matrix *)
Lemma in_span_trans A B a : (forall c, (c < nc A)%nat -> in_span B (col A c)) -> nr A = nr B -> in_span A a -> in_span B a.
Proof.
  intros H E (x & Hx). assert (G : forall n, (n <= nc A)%nat -> exists y, forall i, (i < nr B)%nat -> csum n (fun c => ent A i c * x c) = mvec B y i).
  { induction n as [|n IH]; intros Hn; [exists (fun _ => RtoC 0); intros i Hi; rewrite mvec_0 by reflexivity; reflexivity|]. destruct IH as (y & Hy); [lia|]. destruct (H n ltac:(lia)) as (z & Hz). exists (fun j => RtoC 1 * y j + x n * z j). intros i Hi. rewrite mvec_lin. cbn [csum]. rewrite Hy by exact Hi. rewrite <- Hz by exact Hi. unfold col. ring. }
  destruct (G (nc A) (Nat.le_refl _)) as (y & Hy). exists y. intros i Hi. rewrite <- Hy by exact Hi. rewrite Hx by lia. reflexivity.
Qed.
Lemma signal_span Rm A P s w E : exact_cov Rm A P s -> inj A -> pd P -> eigh_ok Rm w E -> let Es := Es_of E (nr A) (nc A) in
  (forall j, (j < nc A)%nat -> in_span A (col Es j)) /\ (forall c, (c < nc A)%nat -> in_span Es (col A c)).
Proof.
  intros HX HA HP HE Es. pose proof (inj_wide A HA) as WI. split.
  - intros j Hj. destruct (ex_signal_span Rm A P s w E HX HA HP HE (nr A - nc A + j) ltac:(lia)) as (y & Hy). exists y. intros i Hi. apply Hy. exact Hi.
  - intros c Hc. destruct HX as (P1 & P2 & ER). assert (NR : nr Rm = nr A) by (rewrite (meq_nr _ _ ER); reflexivity).
    exists (fun j => vdot (nr A) (col E (nr A - nc A + j)) (col A c)). intros i Hi. change (i < nr A)%nat in Hi. rewrite (eigh_expand Rm w E (col A c) i HE) by lia. rewrite NR. replace (nr A) with ((nr A - nc A) + nc A)%nat at 1 by lia. rewrite csum_app. rewrite csum_0.
    + rewrite Cplus_0_l. unfold mvec. cbn [Es Es_of nc ent]. apply csum_ext. intros j Hj. ring.
    + intros j Hj. rewrite <- vdot_conj. rewrite (ex_noise_orth Rm A P s w E (conj P1 (conj P2 ER)) HP HE j c) by assumption. rewrite Cconj_0. ring.
Qed.
