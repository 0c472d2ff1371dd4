(** The Fisher information matrix of crb_stouc_farfield_1d. *)
From Coquelicot Require Import Hierarchy Derive AutoDerive.
From Verif Require Import Base_Np Base_Lin Base_Trig M_utils M_sources M_array S_utils S_sources S_array S_model P_utils P_array2 P_array3 M_perf S_perf P_perf P_perf2 P_subspace3 P_model P_sources.
Open Scope C_scope.

Lemma mtrace_outer m Q u v : nr Q = m -> nc Q = m -> mtrace (Q *m outer m u v) = bform Q v u.
Proof.
  intros E1 E2. unfold mtrace, bform. cbn [mmul nr ent]. rewrite E1, E2. apply csum_ext. intros i Hi. apply csum_ext. intros j Hj. cbn [outer ent]. ring.
Qed.
Lemma sb_outer m Q a b c d : nr Q = m -> nc Q = m -> slepian_bangs Q (outer m a b) (outer m c d) = bform Q b c * bform Q d a.
Proof.
  intros E1 E2. unfold slepian_bangs.
  transitivity (mtrace (mscal (bform Q b c) (Q *m outer m a d))).
  - unfold mtrace. cbn [mmul nr mscal]. apply csum_ext. intros i Hi. cbn [mmul ent nc mscal]. rewrite E2. cbn [outer ent nc].
    rewrite (csum_ext m _ (fun r => csum m (fun s => ent Q i s * a s) * Cconj (b r) * (csum m (fun s => ent Q r s * c s) * Cconj (d i)))).
    2:{ intros r Hr. rewrite (csum_ext m (fun q => ent Q i q * (a q * Cconj (b r))) (fun q => ent Q i q * a q * Cconj (b r))) by (intros; ring). rewrite csum_scal_r. f_equal. rewrite <- csum_scal_r. apply csum_ext. intros; ring. }
    unfold bform. rewrite E1, E2.
    rewrite (csum_ext m (fun q => ent Q i q * (a q * Cconj (d i))) (fun q => ent Q i q * a q * Cconj (d i))) by (intros; ring). rewrite csum_scal_r.
    rewrite (csum_ext m (fun i0 => csum m (fun j => Cconj (b i0) * ent Q i0 j * c j)) (fun i0 => Cconj (b i0) * csum m (fun j => ent Q i0 j * c j))) by (intros; rewrite <- csum_scal; apply csum_ext; intros; ring).
    rewrite (csum_ext m _ (fun r => (csum m (fun q => ent Q i q * a q) * Cconj (d i)) * (Cconj (b r) * csum m (fun s => ent Q r s * c s)))) by (intros; ring). rewrite csum_scal. ring.
  - unfold mtrace. cbn [mscal nr ent]. rewrite csum_scal. f_equal. exact (mtrace_outer m Q a d E1 E2).
Qed.
Lemma mtrace_sum A B : nr A = nr B -> mtrace (A +m B) = mtrace A + mtrace B.
Proof. intros E. unfold mtrace. cbn [madd nr ent]. rewrite csum_plus, E. reflexivity. Qed.
Lemma mtrace_mscal c A : mtrace (mscal c A) = c * mtrace A.
Proof. unfold mtrace. cbn [mscal nr ent]. apply csum_scal. Qed.
Lemma sb_scal_l Q X Y c : slepian_bangs Q (mscal c X) Y = c * slepian_bangs Q X Y.
Proof.
  unfold slepian_bangs. rewrite <- mtrace_mscal. unfold mtrace. cbn [mmul mscal nr]. apply csum_ext. intros i Hi. cbn [mmul mscal ent nc]. rewrite <- csum_scal. apply csum_ext. intros r Hr.
  rewrite (csum_ext _ (fun q => ent Q i q * (c * ent X q r)) (fun q => c * (ent Q i q * ent X q r))) by (intros; ring). rewrite csum_scal. ring.
Qed.
Lemma sb_add_l Q X X' Y : nc X = nc X' -> slepian_bangs Q (X +m X') Y = slepian_bangs Q X Y + slepian_bangs Q X' Y.
Proof.
  intros E. unfold slepian_bangs, mtrace. cbn [mmul madd nr]. rewrite <- csum_plus. apply csum_ext. intros i Hi. cbn [mmul madd ent nc]. rewrite <- E, <- csum_plus. apply csum_ext. intros r Hr.
  rewrite (csum_ext _ (fun q => ent Q i q * (ent X q r + ent X' q r)) (fun q => ent Q i q * ent X q r + ent Q i q * ent X' q r)) by (intros; ring). rewrite csum_plus. ring.
Qed.
Lemma sb_comm m Q X Y : nr Q = m -> nc Q = m -> nr X = m -> nc X = m -> nr Y = m -> nc Y = m -> slepian_bangs Q X Y = slepian_bangs Q Y X.
Proof. intros. unfold slepian_bangs. apply mtrace_mmul_comm; cbn [mmul nr nc]; congruence. Qed.
Lemma sb_id m Q u v : nr Q = m -> nc Q = m -> slepian_bangs Q (outer m u v) (mid m) = bform (Q *m Q) v u.
Proof.
  intros E1 E2. unfold slepian_bangs. rewrite mtrace_mmul_comm by (cbn; congruence).
  assert (E : Q *m mid m *m (Q *m outer m u v) ==m Q *m Q *m outer m u v).
  { etransitivity; [apply mmul_eq_l, mmul_id_r; congruence|]. symmetry. apply mmul_assoc. }
  rewrite (mtrace_eq (Q *m mid m *m (Q *m outer m u v)) (Q *m Q *m outer m u v)); [apply mtrace_outer; cbn; congruence | cbn; congruence | exact E].
Qed.
Lemma bform_bil Q A B i j : nr A = nr Q -> nr B = nc Q -> ent (mher A *m Q *m B) i j = bform Q (col A i) (col B j).
Proof.
  intros E1 E2. unfold bform, col. cbn [mmul mher ent nc]. rewrite E1. rewrite csum_swap. apply csum_ext. intros r Hr. rewrite <- csum_scal_r. reflexivity.
Qed.
Lemma conj_add (z : C) : z + Cconj z = RtoC (2 * Re z).
Proof. destruct z as [x y]. apply C_eq; cbn; ring. Qed.
Lemma real_of_conj (z : C) : Cconj z = z -> z = RtoC (Re z).
Proof. intros H. apply C_eq; [reflexivity|]. apply (f_equal Im) in H. rewrite Im_conj in H. cbn. lra. Qed.
Lemma inverse_her n Rm Q : nr Rm = n -> hermitian Rm -> nr Q = n -> nc Q = n -> Rm *m Q ==m mid n -> mher Q ==m Q.
Proof.
  intros E1 HR Q1 Q2 E. assert (E2 : nc Rm = n) by (rewrite <- (proj1 HR); exact E1).
  assert (L : mher Q *m Rm ==m mid n).
  { transitivity (mher (Rm *m Q)).
    - symmetry. etransitivity; [apply mher_mmul; congruence|]. apply mmul_eq_r; [cbn; congruence | now apply hermitian_mher].
    - destruct E as (e1 & e2 & e3). repeat split; cbn [mher nr nc] in *; try assumption. intros i j Hi Hj. cbn [mher ent]. rewrite e3 by assumption. cbn [mid ent]. rewrite Nat.eqb_sym. destruct (Nat.eqb i j); apply Cconj_RtoC. }
  transitivity (mher Q *m (Rm *m Q)).
  - symmetry. etransitivity; [apply mmul_eq_r; [cbn; congruence | exact E]|]. apply mmul_id_r. cbn. congruence.
  - etransitivity; [symmetry; apply mmul_assoc|]. etransitivity; [apply mmul_eq_l, L|]. apply mmul_id_l. congruence.
Qed.
Lemma stouc_cov A pr sigma : (Mat (nr A) (nc A) (fun i j => ent A i j * RtoC (pr j))) *m mher A +m mscal (RtoC sigma) (mid (nr A)) ==m model_cov A pr sigma.
Proof.
  unfold model_cov. apply madd_eq; [reflexivity | reflexivity | | reflexivity]. apply mmul_eq_l. symmetry. apply mmul_diag_r. reflexivity.
Qed.
Lemma model_cov_herm A pr sigma : hermitian (model_cov A pr sigma).
Proof.
  unfold model_cov. apply hermitian_madd; [reflexivity| |apply hermitian_mscal, hermitian_mid].
  eapply hermitian_eq; [apply mmul_eq_l, mmul_eq_l, mher_mher|]. apply hermitian_congr; [reflexivity|]. split; [reflexivity|]. intros i j _ _. cbn [mdiag ent]. rewrite Nat.eqb_sym. destruct (Nat.eqb_spec j i); [subst; now rewrite Cconj_RtoC | now rewrite Cconj_0].
Qed.

Section Fim.
  Variables (m k : nat) (A D Q : cmat) (pr : nat -> R).
  Hypotheses (A1 : nr A = m) (A2 : nc A = k) (D1 : nr D = m) (D2 : nc D = k) (Q1 : nr Q = m) (Q2 : nc Q = m) (QH : mher Q ==m Q).
  Let QHer : hermitian Q. Proof. apply hermitian_mher, QH. Qed.
  Lemma bform_flip x y : Cconj (bform Q x y) = bform Q y x.
  Proof. symmetry. now apply bform_conj. Qed.
  Lemma QQ_her : hermitian (Q *m Q).
  Proof. eapply hermitian_eq; [apply mmul_eq_l, QH | apply hermitian_gram]. Qed.
  Lemma sb_tt i j : (i < k)%nat -> (j < k)%nat ->
    slepian_bangs Q (dcov A D pr i) (dcov A D pr j) = RtoC (2 * Re ((bform Q (col D j) (col D i) * bform Q (col A i) (col A j) + Cconj (bform Q (col D i) (col A j)) * bform Q (col A i) (col D j)) * (RtoC (pr i) * RtoC (pr j)))%C)%R.
  Proof.
    intros Hi Hj. unfold dcov. cbv zeta. rewrite A1, A2. rewrite (proj2 (Nat.ltb_lt _ _) Hi), (proj2 (Nat.ltb_lt _ _) Hj).
    rewrite sb_scal_l, sb_add_l by reflexivity. rewrite !(sb_comm m Q (outer _ _ _)) by (assumption || reflexivity). rewrite !sb_scal_l, !sb_add_l by reflexivity. rewrite !sb_outer by assumption.
    set (x1 := bform Q (col D i) (col D j)). rewrite <- (bform_flip (col D i) (col D j)). fold x1.
    set (x2 := bform Q (col A i) (col A j)). rewrite <- (bform_flip (col A i) (col A j)). fold x2.
    set (x3 := bform Q (col A i) (col D j)). rewrite <- (bform_flip (col A i) (col D j)). fold x3.
    set (x4 := bform Q (col D i) (col A j)). rewrite <- (bform_flip (col D i) (col A j)). fold x4.
    rewrite <- conj_add. rewrite !Cmult_conj, !Cplus_conj, !Cmult_conj, !Cconj_conj, !Cconj_RtoC. ring.
  Qed.
  Lemma sb_tp i j : (i < k)%nat -> (j < k)%nat ->
    slepian_bangs Q (dcov A D pr i) (dcov A D pr (k + j)) = RtoC (2 * Re (Cconj (bform Q (col D i) (col A j)) * (RtoC (pr i) * bform Q (col A i) (col A j)))%C)%R.
  Proof.
    intros Hi Hj. unfold dcov. cbv zeta. rewrite A1, A2. rewrite (proj2 (Nat.ltb_lt _ _) Hi), (proj2 (Nat.ltb_ge (k + j) k)), (proj2 (Nat.ltb_lt (k + j) (2 * k))) by lia. replace (k + j - k)%nat with j by lia.
    rewrite sb_scal_l, sb_add_l by reflexivity. rewrite !sb_outer by assumption.
    set (x2 := bform Q (col A i) (col A j)). rewrite <- (bform_flip (col A i) (col A j)). fold x2.
    set (x4 := bform Q (col D i) (col A j)). rewrite <- (bform_flip (col D i) (col A j)). fold x4.
    rewrite <- conj_add. rewrite !Cmult_conj, !Cconj_conj, !Cconj_RtoC. ring.
  Qed.
  Lemma sb_pp i j : (i < k)%nat -> (j < k)%nat ->
    slepian_bangs Q (dcov A D pr (k + i)) (dcov A D pr (k + j)) = RtoC (Cnorm2 (bform Q (col A i) (col A j))).
  Proof.
    intros Hi Hj. unfold dcov. cbv zeta. rewrite A1, A2. rewrite !(proj2 (Nat.ltb_ge (k + _) k)), !(proj2 (Nat.ltb_lt (k + _) (2 * k))) by lia. replace (k + j - k)%nat with j by lia. replace (k + i - k)%nat with i by lia.
    rewrite !sb_outer by assumption. rewrite <- (bform_flip (col A i) (col A j)). apply Cmult_conj_norm2.
  Qed.
  Lemma sb_ts i : (i < k)%nat ->
    slepian_bangs Q (dcov A D pr i) (dcov A D pr (2 * k)) = RtoC (2 * Re (RtoC (pr i) * bform (Q *m Q) (col D i) (col A i))%C)%R.
  Proof.
    intros Hi. unfold dcov. cbv zeta. rewrite A1, A2. rewrite (proj2 (Nat.ltb_lt _ _) Hi), (proj2 (Nat.ltb_ge (2 * k) k)), (Nat.ltb_irrefl (2 * k)) by lia.
    rewrite sb_scal_l, sb_add_l by reflexivity. rewrite !sb_id by assumption. rewrite (bform_conj _ (col D i) (col A i) QQ_her).
    set (x := bform (Q *m Q) (col D i) (col A i)). rewrite <- conj_add. rewrite !Cmult_conj, !Cconj_RtoC. ring.
  Qed.
  Lemma sb_ps i : (i < k)%nat ->
    slepian_bangs Q (dcov A D pr (k + i)) (dcov A D pr (2 * k)) = RtoC (Re (bform (Q *m Q) (col A i) (col A i))).
  Proof.
    intros Hi. unfold dcov. cbv zeta. rewrite A1, A2. rewrite !(proj2 (Nat.ltb_ge (k + _) k)), !(proj2 (Nat.ltb_lt (k + _) (2 * k))), (proj2 (Nat.ltb_ge (2 * k) k)), (Nat.ltb_irrefl (2 * k)) by lia. replace (k + i - k)%nat with i by lia.
    rewrite !sb_id by assumption. apply real_of_conj. symmetry. apply bform_conj, QQ_her.
  Qed.
  Lemma sb_ss : slepian_bangs Q (dcov A D pr (2 * k)) (dcov A D pr (2 * k)) = RtoC (Re (mtrace (Q *m Q))).
  Proof.
    unfold dcov. cbv zeta. rewrite A1, A2. rewrite (proj2 (Nat.ltb_ge (2 * k) k)), (Nat.ltb_irrefl (2 * k)) by lia. unfold slepian_bangs.
    rewrite (mtrace_eq _ (Q *m Q)); [| cbn; congruence | apply mmul_eq; [cbn; congruence | apply mmul_id_r; congruence | apply mmul_id_r; congruence]].
    apply real_of_conj. unfold mtrace. rewrite csum_conj. cbn [mmul nr]. apply csum_ext. intros i Hi. symmetry. apply (proj2 QQ_her); cbn; exact Hi.
  Qed.
End Fim.

Lemma fim_inv cinv m A D pl pr sigma F : cinv_exact cinv -> nr A = m -> nc A = List.length pl -> nr D = m -> nc D = List.length pl ->
  (forall i, (i < List.length pl)%nat -> nth i pl (RtoC 0) = RtoC (pr i)) -> fim_stouc cinv m A D pl sigma = Ok F ->
  exists Q, nr Q = m /\ nc Q = m /\ mher Q ==m Q /\ model_cov A pr sigma *m Q ==m mid m /\ nr F = (2 * List.length pl + 1)%nat /\ nc F = (2 * List.length pl + 1)%nat /\
    (forall r c, (r < nr F)%nat -> (c < nr F)%nat -> ~ ((nc A <= r < 2 * nc A)%nat /\ (nc A <= c < 2 * nc A)%nat) -> RtoC (ent F r c) = slepian_bangs Q (dcov A D pr r) (dcov A D pr c)) /\
    (forall i j, (i < nc A)%nat -> (j < nc A)%nat -> let z := bform Q (col A i) (col A j) in
      ent F (nc A + i) (nc A + j) = Re (z * z) /\ slepian_bangs Q (dcov A D pr (nc A + i)) (dcov A D pr (nc A + j)) = RtoC (Cnorm2 z)).
Proof.
  intros CO A1 A2 D1 D2 HP H. unfold fim_stouc in H. set (k := List.length pl) in *.
  apply bind_Ok_inv in H as (RR & HRR & H). apply matmul_inv in HRR as (_ & ->). apply bind_Ok_inv in H as (R0 & HR & H). apply (proj1 CO) in HR as (I1 & I2 & I3 & I4). cbn [madd mmul nr nc mher] in I1, I2, I3. rewrite A1 in I2, I3.
  set (C0 := model_cov A pr sigma).
  assert (EC : Mat (nr A) (nc A) (fun i j => ent A i j * nth j pl (RtoC 0)) *m mher A +m mscal (RtoC sigma) (mid m) ==m C0).
  { etransitivity; [|apply stouc_cov]. rewrite A1. apply madd_eq; [reflexivity | exact A1 | | reflexivity]. apply mmul_eq_l. repeat split. intros i j Hi Hj. cbn [ent nc] in *. rewrite HP by congruence. reflexivity. }
  assert (E0 : C0 *m R0 ==m mid m).
  { etransitivity; [apply mmul_eq_l; symmetry; exact EC|]. etransitivity; [exact I4|]. cbn [madd mmul nr]. rewrite A1. reflexivity. }
  assert (H0 : mher R0 ==m R0) by (apply (inverse_her m C0); [exact A1 | apply model_cov_herm | assumption | assumption | exact E0]).
  set (Q := mscal (RtoC (/ 2)) (R0 +m mher R0)) in *.
  assert (EQ : Q ==m R0).
  { destruct H0 as (h1 & h2 & h3). unfold Q. repeat split. intros i j Hi Hj. cbn [mscal madd nr nc ent] in *. rewrite h3 by (cbn [mher nr nc]; lia). rewrite <- (Cmult_1_l (ent R0 i j)) at 3. replace (RtoC 1) with (RtoC (/ 2) * RtoC 2) by (rewrite <- RtoC_mult; f_equal; lra). replace (RtoC 2) with (RtoC 1 + RtoC 1) by (rewrite <- RtoC_plus; f_equal; lra). ring. }
  assert (N1 : nr Q = m) by exact I2. assert (N2 : nc Q = m) by exact I3. clearbody Q.
  assert (HQ : mher Q ==m Q).
  { transitivity (mher R0); [|etransitivity; [exact H0 | symmetry; exact EQ]]. destruct EQ as (e1 & e2 & e3). repeat split; cbn [mher nr nc] in *; try assumption. intros i j Hi Hj. cbn [mher ent]. rewrite e3 by assumption. reflexivity. }
  assert (EI : C0 *m Q ==m mid m) by (etransitivity; [apply mmul_eq_r; [cbn; congruence | exact EQ] | exact E0]).
  do 8 (let X := fresh "X" in let E := fresh "E" in apply bind_Ok_inv in H as (X & E & H); apply matmul_inv in E as (_ & ->)).
  apply (f_equal (fun x => match x with Ok y => y | _ => F end)) in H. cbv beta iota in H. subst F. exists Q. do 4 (split; [assumption|]). split; [reflexivity|]. split; [reflexivity|].
  assert (B1 : forall i j, ent (mher D *m Q *m D) i j = bform Q (col D i) (col D j)) by (intros; apply bform_bil; congruence).
  assert (B2 : forall i j, ent (mher D *m Q *m A) i j = bform Q (col D i) (col A j)) by (intros; apply bform_bil; congruence).
  assert (B3 : forall i j, ent (mher A *m Q *m D) i j = bform Q (col A i) (col D j)) by (intros; apply bform_bil; congruence).
  assert (B4 : forall i j, ent (mher A *m Q *m A) i j = bform Q (col A i) (col A j)) by (intros; apply bform_bil; congruence).
  assert (B5 : forall (X : cmat) j, csum m (fun i => Cconj (ent X i j) * ent (Q *m Q *m A) i j) = bform (Q *m Q) (col X j) (col A j)).
  { intros X j. unfold bform, col. cbn [mmul nr nc]. rewrite N1, N2. apply csum_ext. intros i Hi. cbn [mmul ent nc]. rewrite N2, <- csum_scal. apply csum_ext. intros r Hr. ring. }
  cbn [nr nc ent]. rewrite A2. split.
  - intros r c Hr Hc NB. assert (SZ : forall r, nr (dcov A D pr r) = m /\ nc (dcov A D pr r) = m).
    { intros q. unfold dcov. cbv zeta. destruct (Nat.ltb q (nc A)); [split; exact A1|]. destruct (Nat.ltb q (2 * nc A)); split; exact A1. }
    assert (SC : forall r c, slepian_bangs Q (dcov A D pr r) (dcov A D pr c) = slepian_bangs Q (dcov A D pr c) (dcov A D pr r)) by (intros x y; destruct (SZ x), (SZ y); now apply (sb_comm m)).
    destruct (Nat.ltb_spec r k) as [Lr|Lr]; [|destruct (Nat.ltb_spec r (2 * k)) as [Lr'|Lr']].
    + destruct (Nat.ltb_spec c k) as [Lc|Lc]; [|destruct (Nat.ltb_spec c (2 * k)) as [Lc'|Lc']].
      * rewrite (sb_tt m k A D Q pr) by assumption. rewrite B1, B2, B3, B4, !HP by assumption. reflexivity.
      * transitivity (slepian_bangs Q (dcov A D pr r) (dcov A D pr (k + (c - k)))); [|now replace (k + (c - k))%nat with c by lia]. rewrite (sb_tp m k A D Q pr) by (assumption || lia). rewrite B2, B4, !HP by assumption. reflexivity.
      * replace c with (2 * k)%nat by lia. rewrite (sb_ts m k A D Q pr) by (assumption || lia). rewrite B5, HP by assumption. reflexivity.
    + destruct (Nat.ltb_spec c k) as [Lc|Lc]; [|destruct (Nat.ltb_spec c (2 * k)) as [Lc'|Lc']].
      * rewrite SC. transitivity (slepian_bangs Q (dcov A D pr c) (dcov A D pr (k + (r - k)))); [|now replace (k + (r - k))%nat with r by lia]. rewrite (sb_tp m k A D Q pr) by (assumption || lia). rewrite B2, B4, !HP by assumption. reflexivity.
      * exfalso. apply NB. lia.
      * replace c with (2 * k)%nat by lia. transitivity (slepian_bangs Q (dcov A D pr (k + (r - k))) (dcov A D pr (2 * k))); [|now replace (k + (r - k))%nat with r by lia]. rewrite (sb_ps m k A D Q pr) by (assumption || lia). rewrite B5. reflexivity.
    + replace r with (2 * k)%nat by lia. destruct (Nat.ltb_spec c k) as [Lc|Lc]; [|destruct (Nat.ltb_spec c (2 * k)) as [Lc'|Lc']].
      * rewrite SC. rewrite (sb_ts m k A D Q pr) by (assumption || lia). rewrite B5, HP by assumption. reflexivity.
      * rewrite SC. transitivity (slepian_bangs Q (dcov A D pr (k + (c - k))) (dcov A D pr (2 * k))); [|now replace (k + (c - k))%nat with c by lia]. rewrite (sb_ps m k A D Q pr) by (assumption || lia). rewrite B5. reflexivity.
      * replace c with (2 * k)%nat by lia. rewrite (sb_ss m k A D Q pr) by (assumption || lia). reflexivity.
  - intros i j Hi Hj. cbv zeta. rewrite (sb_pp m k A D Q pr) by assumption. split; [|reflexivity].
    rewrite !(proj2 (Nat.ltb_ge (k + _) k)), !(proj2 (Nat.ltb_lt (k + _) (2 * k))) by lia. replace (k + i - k)%nat with i by lia. replace (k + j - k)%nat with j by lia.
    rewrite !B4. rewrite (bform_flip Q HQ). reflexivity.
Qed.

(** dcov is the derivative of the model covariance *)
Lemma cderiv_conj f x d : cderiv f x d -> cderiv (fun t => Cconj (f t)) x (Cconj d).
Proof.
  intros (H1 & H2). split.
  - apply is_derive_ext with (fun t => Re (f t)); [intros; now rewrite Re_conj|]. rewrite Re_conj. exact H1.
  - apply is_derive_ext with (fun t => opp (Im (f t))); [intros; now rewrite Im_conj|]. rewrite Im_conj. exact (is_derive_opp (fun t => Im (f t)) x _ H2).
Qed.
Lemma cderiv_mult f g x d e : cderiv f x d -> cderiv g x e -> cderiv (fun t => f t * g t) x (d * g x + f x * e).
Proof.
  intros (H1 & H2) (H3 & H4).
  assert (M : forall (a b : R -> R) da db, is_derive a x da -> is_derive b x db -> is_derive (fun t => (a t * b t)%R) x (da * b x + a x * db)%R).
  { intros a b da db Ha Hb. exact (is_derive_mult a b x da db Ha Hb). }
  split.
  - apply is_derive_ext with (fun t => Re (f t) * Re (g t) - Im (f t) * Im (g t))%R; [intros; now rewrite Re_mult|].
    replace (Re (d * g x + f x * e)) with ((Re d * Re (g x) + Re (f x) * Re e) - (Im d * Im (g x) + Im (f x) * Im e))%R by (rewrite Re_plus, !Re_mult; ring).
    apply (is_derive_minus (K := R_AbsRing) (V := R_NormedModule)); apply M; assumption.
  - apply is_derive_ext with (fun t => Re (f t) * Im (g t) + Im (f t) * Re (g t))%R; [intros; now rewrite Im_mult|].
    replace (Im (d * g x + f x * e)) with ((Re d * Im (g x) + Re (f x) * Im e) + (Im d * Re (g x) + Im (f x) * Re e))%R by (rewrite Im_plus, !Im_mult; ring).
    apply (is_derive_plus (K := R_AbsRing) (V := R_NormedModule)); apply M; assumption.
Qed.
Lemma steering_same_col a l l' u lam sel fl A D A' D' j : wf_array a -> scalar_isotropic a -> (j < List.length l)%nat -> (j < List.length l')%nat -> nth j l 0%R = nth j l' 0%R ->
  steering_matrix a (FF1 l u) lam true sel fl = Ok (Flat A, D) -> steering_matrix a (FF1 l' u) lam true sel fl = Ok (Flat A', D') -> nr A = nr A' ->
  forall i, (i < nr A)%nat -> ent A i j = ent A' i j.
Proof.
  intros W I Hj Hj' E H H' EN i Hi.
  destruct (steering_select a (FF1 l u) lam true sel fl (Flat A) D [j] W I ltac:(intros q [<-|[]]; exact Hj) H) as (A1 & B1 & DA1 & F1 & F2 & F3 & _).
  destruct (steering_select a (FF1 l' u) lam true sel fl (Flat A') D' [j] W I ltac:(intros q [<-|[]]; exact Hj') H') as (A2 & B2 & DA2 & G1 & G2 & G3 & _).
  injection F1 as <-. injection G1 as <-. unfold select_sources in F2, G2. cbn [map] in F2, G2. rewrite E in F2. rewrite F2 in G2. injection G2 as <- _.
  destruct F3 as (_ & _ & F3). destruct G3 as (_ & _ & G3). transitivity (ent B1 i 0%nat); [symmetry; apply (F3 i 0%nat); cbn; lia | apply (G3 i 0%nat); cbn; lia].
Qed.
Lemma cov_deriv_theta a l u lam k p sigma St DA : wf_array a -> (k < List.length l)%nat ->
  steering_matrix a (FF1 l u) lam true "all" false = Ok (St, DA) ->
  exists A D : R -> cmat, (forall t, steering_matrix a (FF1 (upd l k t) u) lam true "all" false = Ok (Flat (A t), [D t])) /\
    forall x i j, (i < ar_size a)%nat -> (j < ar_size a)%nat -> (u = "sin"%string -> ar_ndim a = 1%nat \/ (-1 < x < 1)%R) ->
      (u = "sin"%string -> (forall e kn, ~ In (LocErr e kn) (perturbations a)) \/ (-1 < x < 1)%R) ->
      cderiv (fun t => ent (model_cov (A t) p sigma) i j) x (ent (dcov (A x) (D x) p k) i j).
Proof.
  intros W Hk H. pose proof (steering_der_iso _ _ _ _ _ _ H) as I. destruct (steering_deriv a l u lam "all" false k St DA W I Hk H) as (A & D & HA & HD).
  exists A, D. split; [exact HA|]. intros x i j Hi Hj C1 C2.
  assert (SH : forall t, nr (A t) = ar_size a /\ nc (A t) = List.length l /\ nr (D t) = ar_size a /\ nc (D t) = List.length l).
  { intros t. pose proof (steering_shape a (upd l k t) u lam _ _ _ W (HA t)) as Q. rewrite upd_length in Q. exact Q. }
  pose proof (HD x i Hi C1 C2) as Di. pose proof (HD x j Hj C1 C2) as Dj.
  assert (CST : forall t r q, (r < List.length l)%nat -> (q < ar_size a)%nat -> r <> k -> ent (A t) q r = ent (A x) q r).
  { intros t r q Hr Hq N. destruct (SH t) as (S1 & _). destruct (SH x) as (S2 & _). refine (steering_same_col a _ _ u lam _ _ _ _ _ _ r W I _ _ _ (HA t) (HA x) _ q _); rewrite ?upd_length; try assumption; try congruence.
    rewrite !upd_nth_other by assumption. reflexivity. }
  apply (cderiv_ext (fun t => csum (List.length l) (fun r => RtoC (p r) * (ent (A t) i r * Cconj (ent (A t) j r))) + (if Nat.eqb i j then RtoC sigma else RtoC 0))).
  { intros t. rewrite model_cov_ent. destruct (SH t) as (_ & -> & _). f_equal. apply csum_ext. intros; ring. }
  assert (EV : ent (dcov (A x) (D x) p k) i j = csum (List.length l) (fun r => if Nat.eqb r k then RtoC (p r) * (ent (D x) i r * Cconj (ent (A x) j r) + ent (A x) i r * Cconj (ent (D x) j r)) else RtoC 0) + RtoC 0).
  { rewrite (csum_single _ _ k Hk) by (intros r Hr N; destruct (Nat.eqb_spec r k); [contradiction | reflexivity]). rewrite Nat.eqb_refl. unfold dcov. cbv zeta. destruct (SH x) as (S1 & S2 & _). rewrite S1, S2, (proj2 (Nat.ltb_lt _ _) Hk).
    cbn [mscal madd outer ent]. unfold col. ring. }
  rewrite EV. apply cderiv_plus; [|apply cderiv_const]. apply cderiv_csum. intros r Hr. destruct (Nat.eqb_spec r k) as [->|N].
  - apply cderiv_scal. apply cderiv_mult; [exact Di | apply cderiv_conj; exact Dj].
  - apply (cderiv_ext (fun _ => RtoC (p r) * (ent (A x) i r * Cconj (ent (A x) j r)))); [|apply cderiv_const]. intros t. rewrite !(CST t r) by assumption. reflexivity.
Qed.
Lemma cov_deriv_p A D p sigma r x i j : (r < nc A)%nat ->
  cderiv (fun t => ent (model_cov A (fun q => if Nat.eqb q r then t else p q) sigma) i j) x (ent (dcov A D p (nc A + r)) i j).
Proof.
  intros Hr. apply (cderiv_ext (fun t => csum (nc A) (fun q => (ent A i q * Cconj (ent A j q)) * RtoC (if Nat.eqb q r then t else p q)) + (if Nat.eqb i j then RtoC sigma else RtoC 0))).
  { intros t. rewrite model_cov_ent. f_equal. apply csum_ext. intros; ring. }
  assert (EV : ent (dcov A D p (nc A + r)) i j = csum (nc A) (fun q => (ent A i q * Cconj (ent A j q)) * (if Nat.eqb q r then RtoC 1 else RtoC 0)) + RtoC 0).
  { rewrite (csum_single _ _ r Hr) by (intros q Hq N; destruct (Nat.eqb_spec q r); [contradiction | ring]). rewrite Nat.eqb_refl. unfold dcov. cbv zeta. rewrite (proj2 (Nat.ltb_ge (nc A + r) (nc A))), (proj2 (Nat.ltb_lt (nc A + r) (2 * nc A))) by lia. replace (nc A + r - nc A)%nat with r by lia. cbn [outer ent]. unfold col. ring. }
  rewrite EV. apply cderiv_plus; [|apply cderiv_const]. apply cderiv_csum. intros q Hq. apply cderiv_scal. destruct (Nat.eqb q r); [|apply cderiv_const].
  split; cbn [Re Im RtoC fst snd]; [exact (is_derive_id x) | apply (is_derive_const (V := R_NormedModule))].
Qed.
Lemma cov_deriv_sigma A D p x i j : cderiv (fun t => ent (model_cov A p t) i j) x (ent (dcov A D p (2 * nc A)) i j).
Proof.
  apply (cderiv_ext (fun t => csum (nc A) (fun k => RtoC (p k) * ent A i k * Cconj (ent A j k)) + (if Nat.eqb i j then RtoC 1 else RtoC 0) * RtoC t)).
  { intros t. rewrite model_cov_ent. f_equal. destruct (Nat.eqb i j); ring. }
  replace (ent (dcov A D p (2 * nc A)) i j) with (RtoC 0 + (if Nat.eqb i j then RtoC 1 else RtoC 0) * RtoC 1).
  2:{ unfold dcov. cbv zeta. rewrite (proj2 (Nat.ltb_ge (2 * nc A) (nc A))), (Nat.ltb_irrefl (2 * nc A)) by lia. cbn [mid ent]. ring. }
  apply cderiv_plus; [apply cderiv_const|]. apply cderiv_scal. split; cbn [Re Im RtoC fst snd]; [exact (is_derive_id x) | apply (is_derive_const (V := R_NormedModule))].
Qed.

Lemma fim_sym cinv m A D pl pr sigma F : cinv_exact cinv -> nr A = m -> nc A = List.length pl -> nr D = m -> nc D = List.length pl ->
  (forall i, (i < List.length pl)%nat -> nth i pl (RtoC 0) = RtoC (pr i)) -> fim_stouc cinv m A D pl sigma = Ok F -> rsym F.
Proof.
  intros CO A1 A2 D1 D2 HP H. destruct (fim_inv cinv m A D pl pr sigma F CO A1 A2 D1 D2 HP H) as (Q & N1 & N2 & QH & _ & F1 & F2 & FB & FP).
  split; [congruence|]. intros r c Hr Hc.
  assert (SZ : forall r, nr (dcov A D pr r) = m /\ nc (dcov A D pr r) = m).
  { intros q. unfold dcov. cbv zeta. destruct (Nat.ltb q (nc A)); [split; exact A1|]. destruct (Nat.ltb q (2 * nc A)); split; exact A1. }
  destruct (Nat.ltb_spec r (nc A)) as [L1|L1]; [|destruct (Nat.ltb_spec r (2 * nc A)) as [L2|L2]; [destruct (Nat.ltb_spec c (nc A)) as [L3|L3]; [|destruct (Nat.ltb_spec c (2 * nc A)) as [L4|L4]]|]].
  3: { destruct (FP (r - nc A)%nat (c - nc A)%nat ltac:(lia) ltac:(lia)) as (E1 & _). destruct (FP (c - nc A)%nat (r - nc A)%nat ltac:(lia) ltac:(lia)) as (E2 & _).
       replace (nc A + (r - nc A))%nat with r in * by lia. replace (nc A + (c - nc A))%nat with c in * by lia. rewrite E1, E2. rewrite <- (bform_flip Q QH (col A (r - nc A))). rewrite <- Cmult_conj, Re_conj. reflexivity. }
  all: apply RtoC_inj; rewrite !FB by (assumption || lia); destruct (SZ r), (SZ c); now apply (sb_comm m).
Qed.
Section Stouc.
  Variables (cinv : cmat -> res cmat) (rinv : rmat -> res rmat).
  Hypotheses (CO : cinv_exact cinv) (RO : rinv_exact rinv).
  Lemma stouc_inv a l u lam p sigma N mode o : wf_array a -> crb_stouc_farfield_1d cinv rinv a (FF1 l u) lam p sigma N mode = Ok o ->
    exists A D pa F V, steering_matrix a (FF1 l u) lam true "all" false = Ok (Flat A, [D]) /\ nr A = ar_size a /\ nc A = List.length l /\ nr D = ar_size a /\ nc D = List.length l /\
      unify_p_to_vector p (List.length l) = Ok pa /\ (exists n, nd_shape pa = [n]) /\ fim_stouc cinv (ar_size a) A D (nd_data pa) sigma = Ok F /\ inv_of F V /\
      reduce_output_matrix (symmetrised (rscal (/ N) (Mat (List.length l) (List.length l) (ent V)))) mode = Ok o /\
      (forall N' mode', crb_stouc_farfield_1d cinv rinv a (FF1 l u) lam p sigma N' mode' = reduce_output_matrix (symmetrised (rscal (/ N') (Mat (List.length l) (List.length l) (ent V)))) mode').
  Proof.
    intros W H. unfold crb_stouc_farfield_1d in *. cbn [src_size] in *. apply bind_Ok_inv in H as (pa & Hpa & H). apply bind_Ok_inv in H as ((A & D) & HS & H).
    apply bind_Ok_inv in H as (p0 & Hp & H). apply bind_Ok_inv in H as (F & HF & H). apply bind_Ok_inv in H as (V & HV & H).
    exists A, D, pa, F, V. pose proof (steering_AD_inv _ _ _ _ _ _ HS) as HS'. destruct (steering_shape a l u lam _ A D W HS') as (N1 & N2 & N3 & N4).
    unfold as_vector in Hp. destruct (nd_shape pa) as [|n [|]] eqn:ES; try discriminate. injection Hp as <-.
    do 6 (split; [assumption|]). split; [now exists n|]. split; [exact HF|]. split; [exact (rinv_inv_of rinv _ _ RO HV)|]. split; [exact H|].
    intros N' md'. rewrite Hpa. cbn [bind]. rewrite HS. cbn [bind]. unfold as_vector. rewrite ES. cbn [bind]. rewrite HF. cbn [bind]. rewrite HV. reflexivity.
  Qed.
End Stouc.
