(** AML: the matrix H and the value of the objective; bound and the value at the true directions. *)
From Verif Require Import Base_Np Base_Lin M_utils M_core M_ml S_utils S_subspace S_ml P_utils P_subspace P_subspace2 P_subspace3 P_perf2 P_perf3 P_perf5 P_ml3 P_ml4 P_ml5 P_ml6.
Open Scope C_scope.

Lemma aml_ok pinv m k B Rm H : pinv_ok pinv -> nr B = m -> hermitian Rm -> nr Rm = m -> (k < m)%nat -> aml_matrix pinv m k B Rm = Ok H ->
  exists P, orth_projector_onto B P /\ H ==m concentrated P Rm m k.
Proof.
  intros Hp HB HR R1 Hkm E. unfold aml_matrix in E. destruct (projm _ pinv true true B) as [P|] eqn:EP; [|discriminate]. pose proof (projm_pinv _ _ _ _ Hp EP) as OP. exists P. split; [exact OP|]. destruct (op_shape _ _ OP) as (S1 & S2). cbn [bind] in E. unfold eye_minus in E.
  assert (R2 : nc Rm = m) by (rewrite <- R1; symmetry; apply HR).
  rewrite S1, S2, HB, Nat.eqb_refl in E. cbn [andb negb bind] in E. rewrite matmul_ok in E by congruence. cbn [bind] in E. rewrite matmul_ok in E by (cbn [mmul nc]; congruence). cbn [bind] in E. rewrite matmul_ok in E by (cbn [msub mid nc]; congruence). cbn [bind] in E.
  rewrite np_trace_sq in E by (cbn [mmul msub mid nr nc]; congruence). fold (concentrated P Rm m k) in E. set (K := concentrated P Rm m k) in *. injection E as <-.
  assert (KH : hermitian K) by (unfold K; rewrite (conc_eq B P Rm m k OP HB HR R1 Hkm); apply (conc_herm B P Rm m k OP HB HR R1)).
  assert (Kr : nr K = nc K) by apply KH.
  split; [reflexivity|]. split; [reflexivity|]. intros i j Hi Hj. cbn [mscal madd mher ent nr nc] in *. destruct KH as (_ & KH). rewrite (KH j i) by congruence.
  rewrite Cconj_conj. unfold RtoC, Cmult, Cplus. apply injective_projections; cbn [fst snd]; field.
Qed.
Lemma aml_defined pinv m k B Rm X : pinv_ok pinv -> pinv B = Ok X -> nr B = m -> nr Rm = m -> nc Rm = m -> exists H, aml_matrix pinv m k B Rm = Ok H.
Proof.
  intros Hp EX HB R1 R2. destruct (projm_pinv_ok (fun _ _ => Raise LinAlgError) pinv B X EX Hp) as (P & EP & S1 & S2). unfold aml_matrix. rewrite EP. cbn [bind]. unfold eye_minus. rewrite S1, S2, HB, Nat.eqb_refl. cbn [andb negb bind].
  rewrite matmul_ok by congruence. cbn [bind]. rewrite matmul_ok by (cbn [mmul nc]; congruence). cbn [bind]. rewrite matmul_ok by (cbn [msub mid nc]; congruence). cbn [bind]. eexists. reflexivity.
Qed.
Lemma eigh_ok_eq X Y w E : X ==m Y -> eigh_ok X w E -> eigh_ok Y w E.
Proof.
  intros EQ HE. pose proof (meq_nr _ _ EQ) as N1. pose proof (meq_nc _ _ EQ) as N2. unfold eigh_ok in *. cbv zeta in *. rewrite <- N1, <- N2. destruct HE as (A1 & A2 & A3 & A4 & A5 & A6 & A7). repeat (split; [assumption|]).
  etransitivity; [apply mmul_eq_l; symmetry; exact EQ | exact A7].
Qed.
(** the positive definite case *)
Lemma aml_value_ok slogdet m H mu F P B Rm k : slogdet_ok m slogdet -> orth_projector_onto B P -> nr B = m -> pd Rm -> nr Rm = m -> (k < m)%nat -> inj B -> nc B = k ->
  H ==m concentrated P Rm m k -> eigh_ok H mu F ->
  aml_value slogdet H = Ok (Some (logdet mu m)) /\ (forall i, (i < m)%nat -> (0 < nth i mu 0)%R).
Proof.
  intros HS OP HB HPD R1 Hkm HI Hk EH HE. pose proof (conc_eq B P Rm m k OP HB (proj1 HPD) R1 Hkm) as CE. assert (HE' : eigh_ok (concentrated P Rm m k) mu F) by (apply (eigh_ok_eq H); assumption).
  rewrite CE in HE', EH. pose proof (b_mu B P Rm m k OP HB R1 Hkm HPD HI Hk mu F HE') as MU. assert (NH : nr H = m) by (rewrite (meq_nr _ _ EH); apply (conc_dims B P Rm m k OP HB)).
  assert (HH : hermitian H) by (eapply hermitian_eq; [symmetry; exact EH | apply (conc_herm B P Rm m k OP HB (proj1 HPD) R1)]).
  split; [|exact MU]. unfold aml_value. rewrite (HS H mu F NH HH HE) by (rewrite NH; exact MU). cbn [bind]. rewrite NH. unfold cle0. cbn [Re Im RtoC fst snd]. unfold Rltb, Reqb. destruct (Rlt_dec 1 0); [lra|]. destruct (Req_EM_T 1 0); [lra|]. reflexivity.
Qed.
(** the positive semidefinite case *)
Lemma conc_psd B P Rm m k : orth_projector_onto B P -> nr B = m -> psd Rm -> nr Rm = m -> (k < m)%nat -> psd (concentrated P Rm m k).
Proof.
  intros OP HB HP R1 Hkm. pose proof HP as (HR & HQ). rewrite (conc_eq B P Rm m k OP HB HR R1 Hkm). split; [exact (conc_herm B P Rm m k OP HB HR R1)|].
  intros x. pose proof (conc_qform B P Rm m k OP HB HR R1 x) as E. cbv zeta in E. rewrite E. rewrite <- RtoC_mult. unfold Re at 1. cbn [fst Cplus RtoC]. fold (Re (qform Rm (mvec P x))).
  pose proof (HQ (mvec P x)) as Q1. pose proof (resid_nonneg B P OP Rm HP ltac:(congruence)) as (N & _). rewrite HB in N. assert (D : (0 < INR (m - k))%R) by (apply lt_0_INR; lia).
  assert (0 <= Re (mtrace ((mid m -m P) *m Rm)) / INR (m - k))%R by (apply Rmult_le_pos; [exact N | left; now apply Rinv_0_lt_compat]).
  pose proof (vnorm2_nonneg m (mvec (mid m -m P) x)). nra.
Qed.
Lemma aml_value_singular slogdet m H : slogdet_zero m slogdet -> nr H = m -> hermitian H -> singular m H -> aml_value slogdet H = Ok None.
Proof.
  intros HS H1 H2 X. destruct (HS H H1 H2 X) as (y & E). unfold aml_value. rewrite E. cbn [bind]. unfold cle0. cbn [Re Im RtoC fst snd]. unfold Rltb, Reqb, Rleb. destruct (Rlt_dec 0 0); [reflexivity|]. destruct (Req_EM_T 0 0); [|lra]. destruct (Rle_dec 0 0); [reflexivity | lra].
Qed.
Lemma aml_value_pos slogdet m H mu F : slogdet_ok m slogdet -> nr H = m -> hermitian H -> eigh_ok H mu F -> (forall i, (i < m)%nat -> (0 < nth i mu 0)%R) -> aml_value slogdet H = Ok (Some (logdet mu m)).
Proof.
  intros HS NH HH HE MU. unfold aml_value. rewrite (HS H mu F NH HH HE) by (rewrite NH; exact MU). cbn [bind]. rewrite NH. unfold cle0. cbn [Re Im RtoC fst snd]. unfold Rltb, Reqb. destruct (Rlt_dec 1 0); [lra|]. destruct (Req_EM_T 1 0); [lra|]. reflexivity.
Qed.
Lemma singular_eq n X Y : X ==m Y -> nr X = n -> singular n Y -> singular n X.
Proof. intros E N (x & Hx & Z). exists x. split; [exact Hx|]. intros i Hi. rewrite (mvec_eq X Y x i E) by lia. now apply Z. Qed.
(** a matrix A P A^H of rank below its order is singular *)
Lemma low_rank_singular A P m : nr A = m -> (nc A < m)%nat -> nr P = nc A -> nc P = nc A -> singular m (A *m P *m mher A +m mscal (RtoC 0) (mid m)).
Proof.
  intros H1 H2 P1 P2. destruct (kernel_exists (nc A) m (fun i j => ent (mher A) i j) H2) as (x & Nx & Z). exists x. split; [exact Nx|]. intros i Hi.
  rewrite mvec_madd by (cbn [mmul mher mscal mid nr nc]; congruence). rewrite mvec_mscal, mvec_mmul. rewrite (mvec_0 (A *m P)); [ring|]. cbn [mmul nc]. intros j Hj. rewrite P2 in Hj. unfold mvec. cbn [mher nc nr]. rewrite H1. exact (Z j Hj).
Qed.
Lemma aml_bound B P Rm m k mu F w E : orth_projector_onto B P -> nr B = m -> pd Rm -> nr Rm = m -> (k < m)%nat -> inj B -> nc B = k ->
  eigh_ok (concentrated P Rm m k) mu F -> eigh_ok Rm w E -> (logdet w m <= logdet mu m)%R.
Proof.
  intros OP HB HPD R1 Hkm HI Hk HE HW. pose proof (conc_eq B P Rm m k OP HB (proj1 HPD) R1 Hkm) as CE. rewrite CE in HE. set (Cc := _ +m _) in HE.
  assert (D1 : nr Cc = m) by apply (conc_dims B P Rm m k OP HB). assert (CPD : pd Cc) by apply (conc_pd B P Rm m k OP HB (proj1 HPD) R1 Hkm HPD HI Hk).
  pose proof (b_mu B P Rm m k OP HB R1 Hkm HPD HI Hk mu F HE) as MU. pose proof (b_sum B P Rm m k OP HB R1 Hkm HPD HI Hk mu F HE) as BS.
  assert (OF : forall p q, (p < m)%nat -> (q < m)%nat -> vdot m (col F p) (col F q) = if Nat.eqb p q then RtoC 1 else RtoC 0).
  { intros p q Hp Hq. pose proof (eigh_orth Cc mu F p q HE) as O. rewrite D1 in O. now apply O. }
  assert (PF : forall x, rsum m (fun j => Cnorm2 (vdot m (col F j) x)) = vnorm2 m x).
  { intros x. pose proof (parseval Cc mu F x (proj1 CPD) HE) as PV. rewrite D1 in PV. exact PV. }
  assert (LD : (logdet w m <= rsum m (fun i => ln (Re (qform Rm (col F i)))))%R).
  { unfold logdet. rewrite <- R1. apply (logdet_diag Rm w E F HPD HW); rewrite R1; assumption. }
  apply (Rle_trans _ _ _ LD). unfold logdet.
  assert (rp : forall i, (i < m)%nat -> (0 < Re (qform Rm (col F i)))%R).
  { intros i Hi. apply (proj2 HPD). destruct (nonzero_dec (nr Rm) (col F i)) as [Z|N]; [|exact N]. exfalso. rewrite R1 in Z. assert (O := OF i i Hi Hi). rewrite Nat.eqb_refl, vdot_self in O. injection O as O. unfold vnorm2 in O. rewrite rsum_0 in O; [lra|]. intros q Hq. rewrite (Z q Hq). unfold Cnorm2. cbn. ring. }
  apply Rle_trans with (rsum m (fun i => ln (nth i mu 0) + (Re (qform Rm (col F i)) / nth i mu 0 - 1))%R).
  - apply rsum_le. intros i Hi. pose proof (rp i Hi). pose proof (MU i Hi). pose proof (ln_le_sub (Re (qform Rm (col F i)) / nth i mu 0)%R ltac:(apply Rdiv_lt_0_compat; auto)) as L. rewrite Rcomplements.ln_div in L by auto. lra.
  - right. rewrite rsum_plus, (rsum_ext _ (fun i => (Re (qform Rm (col F i)) / nth i mu 0 - 1)%R) (fun i => Re (qform Rm (col F i)) / nth i mu 0 + (-1))%R) by (intros; ring). rewrite rsum_plus, BS, rsum_const. ring.
Qed.
(** log det does not depend on the decomposition *)
Lemma logdet_le X w E w' E' : pd X -> eigh_ok X w E -> eigh_ok X w' E' -> (logdet w (nr X) <= logdet w' (nr X))%R.
Proof.
  intros HP HE HE'. unfold logdet. eapply Rle_trans; [apply (logdet_diag X w E E' HP HE)|].
  - intros p q Hp Hq. now apply (eigh_orth X w' E').
  - intros x. apply (parseval X w' E' x (proj1 HP) HE').
  - right. apply rsum_ext. intros i Hi. f_equal. rewrite <- bform_qform, bform_vdot. rewrite (vdot_ext _ _ (col E' i) _ (fun r => RtoC (nth i w' 0%R) * col E' i r)); [|reflexivity | intros r Hr; rewrite (eigh_vec X w' E' i HE' Hi r Hr); reflexivity]. rewrite vdot_scal, (eigh_orth X w' E' i i HE' Hi Hi), Nat.eqb_refl, Cmult_1_r. reflexivity.
Qed.
Lemma logdet_unique X w E w' E' : pd X -> eigh_ok X w E -> eigh_ok X w' E' -> logdet w (nr X) = logdet w' (nr X).
Proof. intros HP HE HE'. apply Rle_antisym; [apply (logdet_le X w E w' E') | apply (logdet_le X w' E' w E)]; assumption. Qed.
(** exact covariance: at the true directions H = R *)
Lemma conc_exact Rm A P0 s P : exact_cov Rm A P0 s -> hermitian Rm -> orth_projector_onto A P -> inj A -> (nc A < nr A)%nat -> concentrated P Rm (nr A) (nc A) ==m Rm.
Proof.
  intros HX HR OP HI Hkm. set (m := nr A) in *. set (k := nc A) in *. assert (HAm : nr A = m) by reflexivity. assert (HAk : nc A = k) by reflexivity. destruct (op_shape _ _ OP) as (S1 & S2). fold m in S1, S2. pose proof HX as (X1 & X2 & X3). destruct (ex_dims Rm A P0 s HX) as (D1 & D2). fold m in D1, D2. fold k in X1, X2.
  set (S := A *m P0 *m mher A) in *. assert (PS : P *m S ==m S). { unfold S. etransitivity; [symmetry; apply mmul_assoc|]. apply mmul_eq_l. etransitivity; [symmetry; apply mmul_assoc|]. apply mmul_eq_l. apply (op_fix _ _ OP). }
  assert (AP : mher A *m P ==m mher A). { assert (Z : mher (P *m A) ==m mher A). { pose proof (op_fix _ _ OP) as F. split; [cbn [mher mmul nr nc]; reflexivity|]. split; [cbn [mher mmul nr nc]; exact S1|]. intros i j Hi Hj. cbn [mher nr nc mmul] in Hi, Hj. change (Cconj (ent (P *m A) j i) = Cconj (ent A j i)). rewrite (meq_ent _ _ j i F) by (cbn [mmul nr nc]; assumption). reflexivity. }
    etransitivity; [|exact Z]. symmetry. etransitivity; [apply mher_mmul; congruence|]. apply mmul_eq_r; [cbn [mher nr nc]; congruence | apply (op_herm _ _ OP)]. }
  assert (PR : P *m Rm ==m S +m mscal (RtoC s) P). { etransitivity; [apply mmul_eq_r; [congruence | exact X3]|]. etransitivity; [apply mmul_add_r|]. split; [cbn [madd mmul nr]; exact S1|]. split; [cbn [madd mmul nc S mher]; reflexivity|]. intros i j Hi Hj. cbn [madd mmul nr nc] in Hi, Hj. cbn [madd ent]. f_equal.
    - apply (meq_ent _ _ i j PS); cbn [mmul nr nc]; assumption.
    - rewrite (meq_ent _ _ i j (mscal_mmul_r (RtoC s) P (mid (nr A)))) by (cbn [mscal mmul mid nr nc S mher] in *; auto). cbn [mscal ent]. f_equal. apply (meq_ent _ _ i j (mmul_id_r P (nr A) ltac:(symmetry; exact S2))); cbn [mmul mid nr nc S mher] in *; auto. }
  assert (PRP : P *m Rm *m P ==m S +m mscal (RtoC s) P). { etransitivity; [apply mmul_eq_l, PR|]. etransitivity; [apply mmul_add_l; cbn [mscal S mmul mher nr nc]; congruence|]. split; [reflexivity|]. split; [cbn [madd mmul nc S mher]; exact S2|]. intros i j Hi Hj. cbn [madd mmul nr nc] in Hi, Hj. cbn [madd ent]. f_equal.
    - assert (SP : S *m P ==m S) by (unfold S; etransitivity; [apply mmul_assoc|]; apply mmul_eq_r; [cbn [mmul mher nr nc]; congruence | exact AP]). apply (meq_ent _ _ i j SP); cbn [mmul nr nc]; assumption.
    - rewrite (meq_ent _ _ i j (mscal_mmul_l (RtoC s) P P)) by (cbn [mscal mmul mid nr nc S mher] in *; congruence || auto). cbn [mscal ent]. f_equal. apply (meq_ent _ _ i j (op_idem _ _ OP)); cbn [mmul nr nc S mher] in *; congruence || auto. }
  assert (TR : mtrace ((mid m -m P) *m Rm) / RtoC (INR (m - k)) = RtoC s).
  { unfold m. rewrite (exact_resid Rm A P0 s A P HX eq_refl OP HI). fold m k S. rewrite (mtrace_eq _ (Mat m m (fun _ _ => RtoC 0))); [|cbn [mmul msub mid nr nc S mher]; reflexivity |].
    - unfold mtrace at 1. cbn [nr ent]. rewrite csum_0 by reflexivity. rewrite <- minus_INR by lia. rewrite Cplus_0_l, RtoC_mult. unfold Cdiv. rewrite <- Cmult_assoc, Cinv_r. ring. intros Z0. injection Z0 as Z0. revert Z0. apply not_0_INR. lia.
    - etransitivity; [apply mmul_sub_l; cbn [mid nr nc]; congruence|]. split; [reflexivity|]. split; [reflexivity|]. intros i j Hi Hj. cbn [msub ent mmul mid nr nc] in Hi, Hj |- *. change (csum (nc P) (fun k0 => ent P i k0 * ent S k0 j)) with (ent (P *m S) i j). rewrite (meq_ent _ _ i j PS) by (cbn [mmul nr nc]; congruence). change (csum m (fun k0 => (if Nat.eqb i k0 then RtoC 1 else RtoC 0) * ent S k0 j)) with (ent (mid m *m S) i j). rewrite (meq_ent _ _ i j (mmul_id_l S m eq_refl)) by (cbn [mmul mid nr nc]; auto). ring. }
  unfold concentrated. rewrite TR. etransitivity; [|symmetry; exact X3]. split; [cbn [madd mmul nr S]; exact S1|]. split; [cbn [madd mmul nc S mher]; exact S2|]. intros i j Hi Hj. cbn [madd mmul nr nc] in Hi, Hj. cbn [madd ent]. rewrite (meq_ent _ _ i j PRP) by (cbn [mmul nr nc]; assumption). cbn [madd mscal msub mid ent]. fold m. ring.
Qed.
