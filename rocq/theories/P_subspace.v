(** Proofs about exact covariances and subspaces. *)
From Coq Require Import Sorting.Sorted Sorting.Permutation.
From Verif Require Import Base_Np Base_Mem Base_Lin Base_Trig M_utils M_core P_core2 M_subspace S_subspace.
Open Scope C_scope.

Lemma csum_mono_0 n (f : nat -> C) : (forall i, (i < n)%nat -> f i = RtoC 0) -> csum n f = RtoC 0. Proof. apply csum_0. Qed.
Lemma mvec_madd A B x i : nr A = nr B -> nc A = nc B -> mvec (A +m B) x i = mvec A x i + mvec B x i.
Proof. intros H1 H2. unfold mvec. cbn [madd nc ent]. rewrite <- H2, <- csum_plus. apply csum_ext. intros; ring. Qed.
Lemma mvec_mscal c A x i : mvec (mscal c A) x i = c * mvec A x i.
Proof. unfold mvec. cbn [mscal nc ent]. rewrite <- csum_scal. apply csum_ext. intros; ring. Qed.
Lemma mvec_lin A x y a b i : mvec A (fun j => a * x j + b * y j) i = a * mvec A x i + b * mvec A y i.
Proof. unfold mvec. rewrite <- !csum_scal, <- csum_plus. apply csum_ext. intros; ring. Qed.
Lemma mvec_scal A x a i : mvec A (fun j => a * x j) i = a * mvec A x i.
Proof. unfold mvec. rewrite <- csum_scal. apply csum_ext. intros; ring. Qed.
Lemma mvec_sum A n (c : nat -> C) (y : nat -> nat -> C) i : mvec A (fun r => csum n (fun q => c q * y q r)) i = csum n (fun q => c q * mvec A (y q) i).
Proof.
  unfold mvec. rewrite (csum_ext (nc A) _ (fun j => csum n (fun q => c q * (ent A i j * y q j)))).
  2:{ intros j Hj. rewrite <- csum_scal. apply csum_ext. intros; ring. }
  rewrite csum_swap. apply csum_ext. intros q Hq. now rewrite csum_scal.
Qed.
Lemma vdot_sum n N (c : nat -> C) (y : nat -> nat -> C) x : vdot N x (fun r => csum n (fun q => c q * y q r)) = csum n (fun q => c q * vdot N x (y q)).
Proof.
  unfold vdot. rewrite (csum_ext N _ (fun i => csum n (fun q => c q * (Cconj (x i) * y q i)))).
  2:{ intros j Hj. rewrite <- csum_scal. apply csum_ext. intros; ring. }
  rewrite csum_swap. apply csum_ext. intros q Hq. now rewrite csum_scal.
Qed.
Lemma vdot_ext n x x' y y' : (forall i, (i < n)%nat -> x i = x' i) -> (forall i, (i < n)%nat -> y i = y' i) -> vdot n x y = vdot n x' y'.
Proof. intros H1 H2. unfold vdot. apply csum_ext. intros i Hi. now rewrite H1, H2. Qed.
Lemma vdot_scal n x y c : vdot n x (fun i => c * y i) = c * vdot n x y.
Proof. unfold vdot. rewrite <- csum_scal. apply csum_ext. intros; ring. Qed.
Lemma bform_vdot A x y : bform A x y = vdot (nr A) x (mvec A y).
Proof. unfold bform, vdot, mvec. apply csum_ext. intros i Hi. rewrite <- csum_scal. apply csum_ext. intros; ring. Qed.

Section Exact.
  Variables (Rm A P : cmat) (s : R) (w : list R) (E : cmat).
  Hypothesis HX : exact_cov Rm A P s.
  Hypothesis HA : inj A.
  Hypothesis HP : pd P.
  Hypothesis HE : eigh_ok Rm w E.
  Let m := nr A.
  Let k := nc A.
  Lemma ex_dims : nr Rm = m /\ nc Rm = m.
  Proof. destruct HX as (P1 & P2 & H1 & H2 & _). cbn [madd mmul mher nr nc] in H1, H2. split; assumption. Qed.
  Lemma ex_mvec x i : (i < m)%nat -> mvec Rm x i = mvec A (mvec P (mvec (mher A) x)) i + RtoC s * x i.
  Proof.
    intros Hi. destruct ex_dims as [D1 D2]. destruct HX as (P1 & P2 & H). rewrite (mvec_eq _ _ x i H) by lia. rewrite mvec_madd by (cbn; reflexivity). rewrite mvec_mscal. f_equal.
    - rewrite mvec_mmul, mvec_mmul. reflexivity.
    - f_equal. apply mvec_mid. exact Hi.
  Qed.
  Definition amp (j : nat) : nat -> C := mvec (mher A) (col E j).
  Lemma ex_eig j : (j < m)%nat -> RtoC (nth j w 0%R) = qform P (amp j) + RtoC s.
  Proof.
    intros Hj. destruct ex_dims as [D1 D2]. pose proof (eigh_orth Rm w E j j HE) as HO. rewrite D1 in HO. specialize (HO Hj Hj). rewrite Nat.eqb_refl in HO.
    replace (RtoC (nth j w 0%R)) with (vdot m (col E j) (mvec Rm (col E j))).
    2:{ rewrite (vdot_ext m _ (col E j) _ (fun i => RtoC (nth j w 0%R) * col E j i)) by (auto; intros i Hi; apply (eigh_vec Rm w E j HE); rewrite D1; assumption). rewrite vdot_scal, HO. ring. }
    rewrite (vdot_ext m _ (col E j) _ (fun i => RtoC 1 * mvec A (mvec P (amp j)) i + RtoC s * col E j i)).
    2:{ auto. } 2:{ intros i Hi. rewrite ex_mvec by exact Hi. fold (amp j). ring. }
    replace (vdot m (col E j) (fun i => RtoC 1 * mvec A (mvec P (amp j)) i + RtoC s * col E j i)) with (vdot m (col E j) (mvec A (mvec P (amp j))) + RtoC s * vdot m (col E j) (col E j)).
    2:{ unfold vdot. rewrite <- csum_scal, <- csum_plus. apply csum_ext. intros; ring. }
    rewrite HO. unfold m. rewrite vdot_mvec_her. fold (amp j). rewrite <- bform_qform, bform_vdot. destruct HX as (P1 & _). rewrite P1. ring.
  Qed.
  Lemma ex_amp_0 j : (j < m)%nat -> nth j w 0%R = s -> forall c, (c < k)%nat -> amp j c = RtoC 0.
  Proof.
    intros Hj Ew c Hc. destruct (Ceq_dec (amp j c) (RtoC 0)) as [Z|N]; [exact Z|]. exfalso. destruct HP as [_ HP']. destruct HX as (P1 & _).
    specialize (HP' (amp j) (ex_intro _ c (conj (eq_ind_r (fun n => c < n)%nat Hc P1) N))). pose proof (ex_eig j Hj) as H. rewrite Ew in H.
    apply (f_equal Re) in H. rewrite Re_plus, Re_RtoC in H. lra.
  Qed.
  Lemma ex_ge j : (j < m)%nat -> (s <= nth j w 0)%R.
  Proof.
    intros Hj. pose proof (ex_eig j Hj) as H. apply (f_equal Re) in H. rewrite Re_plus, !Re_RtoC in H.
    assert (0 <= Re (qform P (amp j)))%R; [|lra]. destruct HP as [HH HP'].
    destruct (nonzero_dec (nr P) (amp j)) as [Z|X]; [|left; now apply HP'].
    unfold qform. rewrite csum_0; [right; reflexivity|]. intros i Hi. apply csum_0. intros q Hq. rewrite (Z i Hi), Cconj_RtoC. ring.
  Qed.
  (** eigenvectors with an eigenvalue above s lie in the span of A *)
  Lemma ex_above j : (j < m)%nat -> (s < nth j w 0)%R -> exists y, forall i, (i < m)%nat -> ent E i j = mvec A y i.
  Proof.
    intros Hj Hw. destruct ex_dims as [D1 D2]. set (t := (nth j w 0 - s)%R). assert (Ht : RtoC t <> RtoC 0) by (apply RtoC_neq_0; unfold t; lra).
    exists (fun r => / RtoC t * mvec P (amp j) r). intros i Hi. rewrite mvec_scal.
    pose proof (eigh_vec Rm w E j HE ltac:(rewrite D1; exact Hj) i ltac:(rewrite D1; exact Hi)) as H. rewrite ex_mvec in H by exact Hi. fold (amp j) in H. unfold col at 1 in H.
    assert (G : mvec A (mvec P (amp j)) i = RtoC t * ent E i j).
    { replace (mvec A (mvec P (amp j)) i) with (mvec A (mvec P (amp j)) i + RtoC s * ent E i j - RtoC s * ent E i j) by ring. rewrite H. unfold t. rewrite RtoC_minus. ring. }
    rewrite G. field. exact Ht.
  Qed.
  Lemma ex_noise_level j : (j < m - k)%nat -> nth j w 0%R = s.
  Proof.
    intros Hj. destruct (Rle_lt_or_eq_dec _ _ (ex_ge j ltac:(lia))) as [Hlt|Heq]; [|now symmetry]. exfalso. destruct ex_dims as [D1 D2].
    assert (HS : StronglySorted Rle w) by apply HE. assert (HL : List.length w = m) by (destruct HE as (_ & _ & _ & L & _); lia).
    assert (AB : forall q, (q < m - j)%nat -> exists y, forall i, (i < m)%nat -> ent E i (j + q) = mvec A y i).
    { intros q Hq. apply ex_above; [lia|]. apply (Rlt_le_trans _ _ _ Hlt). apply sorted_nth; [exact HS | lia | lia]. }
    assert (Y : exists y : nat -> nat -> C, forall q, (q < m - j)%nat -> forall i, (i < m)%nat -> ent E i (j + q) = mvec A (y q) i).
    { clear -AB. induction (m - j)%nat as [|n IH]; [exists (fun _ _ => RtoC 0); intros; lia|]. destruct IH as (y & Hy); [intros q Hq; apply AB; lia|]. destruct (AB n ltac:(lia)) as (y' & Hy').
      exists (fun q => if Nat.eqb q n then y' else y q). intros q Hq i Hi. destruct (Nat.eqb_spec q n) as [->|N]; [now apply Hy' | apply Hy; [lia | exact Hi]]. }
    destruct Y as (y & Hy). destruct (kernel_exists k (m - j) (fun r q => y q r)) as (c & (q0 & Hq0 & N) & HK); [lia|].
    apply N.
    assert (Z : forall i, (i < m)%nat -> csum (m - j) (fun q => c q * ent E i (j + q)) = RtoC 0).
    { intros i Hi. rewrite (csum_ext _ _ (fun q => c q * mvec A (y q) i)) by (intros q Hq; rewrite (Hy q Hq i Hi); reflexivity). rewrite <- mvec_sum. apply mvec_0. intros r Hr.
      rewrite (csum_ext _ _ (fun q => y q r * c q)) by (intros; ring). apply HK. exact Hr. }
    assert (V0 : vdot m (col E (j + q0)) (fun i => csum (m - j) (fun q => c q * col E (j + q) i)) = RtoC 0).
    { unfold vdot. apply csum_0. intros i Hi. unfold col at 2. rewrite Z by exact Hi. ring. }
    rewrite (vdot_sum (m - j) m c (fun q => col E (j + q))) in V0. rewrite (csum_single _ _ q0 Hq0) in V0.
    - pose proof (eigh_orth Rm w E (j + q0) (j + q0) HE ltac:(lia) ltac:(lia)) as HO. rewrite D1, Nat.eqb_refl in HO. rewrite HO in V0. rewrite <- V0. ring.
    - intros q Hq Nq. pose proof (eigh_orth Rm w E (j + q0) (j + q) HE ltac:(lia) ltac:(lia)) as HO. rewrite D1 in HO. rewrite HO. destruct (Nat.eqb_spec (j + q0) (j + q)); [lia | ring].
  Qed.
  (** the m-k noise eigenvectors are orthogonal to every column of A *)
  Lemma ex_noise_orth j c : (j < m - k)%nat -> (c < k)%nat -> vdot m (col A c) (col E j) = RtoC 0.
  Proof. intros Hj Hc. pose proof (ex_amp_0 j ltac:(lia) (ex_noise_level j Hj) c Hc) as H. exact H. Qed.
  Lemma ex_k_le : (k <= m)%nat. Proof. exact (inj_wide A HA). Qed.
  Lemma ex_signal_level j : (m - k <= j < m)%nat -> (s < nth j w 0)%R.
  Proof.
    intros Hj. destruct (Rle_lt_or_eq_dec _ _ (ex_ge j ltac:(lia))) as [Hlt|Heq]; [exact Hlt|]. exfalso. destruct ex_dims as [D1 D2].
    assert (HS : StronglySorted Rle w) by apply HE. assert (HL : List.length w = m) by (destruct HE as (_ & _ & _ & L & _); lia).
    assert (Z : forall q c, (q <= j)%nat -> (c < k)%nat -> vdot m (col A c) (col E q) = RtoC 0).
    { intros q c Hq Hc. change (amp q c = RtoC 0). apply ex_amp_0; [lia | | exact Hc]. apply Rle_antisym; [rewrite Heq; apply sorted_nth; [exact HS | exact Hq | lia] | apply ex_ge; lia]. }
    destruct (kernel_exists (m - 1 - j) k (fun q c => vdot m (col E (j + 1 + q)) (col A c))) as (x & (c0 & Hc0 & N) & HK); [lia|].
    apply N. apply HA; [|exact Hc0]. intros i Hi. fold m in Hi. rewrite (eigh_expand Rm w E (mvec A x) i HE) by lia. rewrite D1. apply csum_0. intros q Hq.
    assert (Q : vdot m (col E q) (mvec A x) = RtoC 0); [|rewrite Q; ring].
    rewrite (vdot_ext m _ (col E q) _ (fun r => csum k (fun c => x c * col A c r))); [|auto|intros r Hr; unfold mvec, col; apply csum_ext; intros; ring]. rewrite (vdot_sum k m x (fun c => col A c)).
    destruct (Nat.le_gt_cases q j) as [L|L].
    - apply csum_0. intros c Hc. rewrite <- (vdot_conj m (col A c) (col E q)), (Z q c L Hc), Cconj_RtoC. ring.
    - rewrite <- (HK (q - (j + 1))%nat) by lia. apply csum_ext. intros c Hc. replace (j + 1 + (q - (j + 1)))%nat with q by lia. ring.
  Qed.
  (** the last k eigenvectors span exactly the columns of A *)
  Lemma ex_signal_span j : (m - k <= j < m)%nat -> exists y, forall i, (i < m)%nat -> ent E i j = mvec A y i.
  Proof. intros Hj. apply ex_above; [lia|]. now apply ex_signal_level. Qed.
  Lemma ex_span_iff a : (forall j, (j < m - k)%nat -> vdot m (col E j) a = RtoC 0) <-> in_span A a.
  Proof.
    destruct ex_dims as [D1 D2]. split.
    - intros H.
      assert (Y : exists y : nat -> nat -> C, forall j, (m - k <= j < m)%nat -> forall i, (i < m)%nat -> ent E i j = mvec A (y j) i).
      { assert (G : forall n, exists y : nat -> nat -> C, forall j, (m - k <= j < m)%nat -> (j < n)%nat -> forall i, (i < m)%nat -> ent E i j = mvec A (y j) i).
        { induction n as [|n IH]; [exists (fun _ _ => RtoC 0); intros; lia|]. destruct IH as (y & Hy). destruct (le_lt_dec (m - k) n) as [L1|L1]; [destruct (le_lt_dec m n) as [L2|L2]|].
          - exists y. intros j Hj Hn. apply Hy; [exact Hj | lia].
          - destruct (ex_signal_span n ltac:(lia)) as (y' & Hy'). exists (fun q => if Nat.eqb q n then y' else y q). intros j Hj Hn i Hi.
            destruct (Nat.eqb_spec j n) as [->|N]; [now apply Hy' | apply Hy; [exact Hj | lia | exact Hi]].
          - exists y. intros j Hj Hn. apply Hy; [exact Hj | lia]. }
        destruct (G m) as (y & Hy). exists y. intros j Hj. apply Hy; lia. }
      destruct Y as (y & Hy). exists (fun r => csum m (fun j => vdot m (col E j) a * (if Nat.ltb j (m - k) then RtoC 0 else y j r))). intros i Hi. fold m in Hi.
      rewrite (eigh_expand Rm w E a i HE) by lia. rewrite D1.
      rewrite (mvec_sum A m (fun j => vdot m (col E j) a) (fun j r => if Nat.ltb j (m - k) then RtoC 0 else y j r)). apply csum_ext. intros j Hj.
      destruct (Nat.ltb_spec j (m - k)) as [L|L]; [rewrite H by exact L; ring|]. f_equal. apply Hy; [lia | exact Hi].
    - intros (x & Hx) j Hj. rewrite (vdot_ext m _ (col E j) _ (fun r => csum k (fun c => x c * col A c r))); [|auto|intros r Hr; rewrite Hx by exact Hr; unfold mvec, col; apply csum_ext; intros; ring].
      rewrite (vdot_sum k m x (fun c => col A c)). apply csum_0. intros c Hc. rewrite <- (vdot_conj m (col A c) (col E j)), (ex_noise_orth j c Hj Hc), Cconj_RtoC. ring.
  Qed.
End Exact.

(** *** Vandermonde *)
Lemma cpow_S z n : cpow z (S n) = z * cpow z n. Proof. reflexivity. Qed.
Lemma cpow_add z a b : cpow z (a + b) = cpow z a * cpow z b.
Proof. induction a as [|a IH]; cbn [Nat.add cpow]; [ring|]. rewrite IH. ring. Qed.
Lemma cpow_mul z a b : cpow z (a * b) = cpow (cpow z a) b.
Proof. induction b as [|b IH]; [now rewrite Nat.mul_0_r|]. rewrite Nat.mul_succ_r, Nat.add_comm, cpow_add, IH. reflexivity. Qed.
Lemma cpow_neq_0 z n : z <> RtoC 0 -> cpow z n <> RtoC 0.
Proof. intros H. induction n as [|n IH]; cbn; [apply RtoC_neq_0; lra | now apply Cmult_neq_0]. Qed.
Lemma cpow_cis t n : cpow (cis t) n = cis (INR n * t).
Proof. induction n as [|n IH]; [cbn [cpow INR]; rewrite Rmult_0_l; now rewrite cis_0|]. cbn [cpow]. rewrite IH, <- cis_plus, S_INR. f_equal. ring. Qed.
Lemma vandermonde k : forall (z x : nat -> C) (s : nat), (forall a b, (a < k)%nat -> (b < k)%nat -> z a = z b -> a = b) -> (forall c, (c < k)%nat -> (s = 0)%nat \/ z c <> RtoC 0) ->
  (forall i, (i < k)%nat -> csum k (fun c => cpow (z c) (s + i) * x c) = RtoC 0) -> forall c, (c < k)%nat -> x c = RtoC 0.
Proof.
  induction k as [|k IH]; intros z x s D NZ H c Hc; [lia|].
  assert (Y : forall c, (c < k)%nat -> x c * (z c - z k) = RtoC 0).
  { apply (IH z (fun c => x c * (z c - z k)) s).
    - intros a b Ha Hb. apply D; lia.
    - intros q Hq. apply NZ. lia.
    - intros i Hi. pose proof (H (S i) ltac:(lia)) as H1. pose proof (H i ltac:(lia)) as H0.
      assert (G : csum (S k) (fun c => cpow (z c) (s + S i) * x c) - z k * csum (S k) (fun c => cpow (z c) (s + i) * x c) = RtoC 0) by (rewrite H1, H0; ring).
      rewrite <- csum_scal, <- csum_minus in G. change (csum (S k) ?f) with (csum k f + f k) in G. cbv beta in G.
      replace (cpow (z k) (s + S i) * x k - z k * (cpow (z k) (s + i) * x k)) with (RtoC 0) in G by (replace (s + S i)%nat with (S (s + i)) by lia; rewrite cpow_S; ring).
      rewrite Cplus_0_r in G. rewrite <- G. apply csum_ext. intros q Hq. replace (s + S i)%nat with (S (s + i)) by lia. rewrite cpow_S. ring. }
  assert (X : forall c, (c < k)%nat -> x c = RtoC 0).
  { intros q Hq. destruct (Cmult_0 _ _ (Y q Hq)) as [E|E]; [exact E|]. exfalso. assert (q = k); [|lia]. apply D; [lia | lia|].
    replace (z q) with (z q - z k + z k) by ring. rewrite E. ring. }
  destruct (Nat.eq_dec c k) as [->|N]; [|apply X; lia]. specialize (H 0%nat ltac:(lia)). change (csum (S k) ?f) with (csum k f + f k) in H. cbv beta in H. rewrite Nat.add_0_r in H.
  rewrite csum_0 in H by (intros q Hq; rewrite X by exact Hq; ring). rewrite Cplus_0_l in H. destruct (Cmult_0 _ _ H) as [E|E]; [|exact E]. exfalso.
  destruct (NZ k Hc) as [->|N]; [cbn in E; apply (RtoC_neq_0 1); [lra | exact E] | exact (cpow_neq_0 _ s N E)].
Qed.
Lemma NoDup_nth_inj (zs : list C) a b : NoDup zs -> (a < List.length zs)%nat -> (b < List.length zs)%nat -> nth a zs (RtoC 0) = nth b zs (RtoC 0) -> a = b.
Proof. intros H Ha Hb E. exact (proj1 (NoDup_nth zs (RtoC 0)) H a b Ha Hb E). Qed.
Lemma ula_inj m zs : NoDup zs -> (List.length zs <= m)%nat -> inj (ula_matrix m zs).
Proof.
  intros D L x Hx. cbn [ula_matrix nr nc] in *. apply (vandermonde (List.length zs) (fun c => nth c zs (RtoC 0)) x 0).
  - intros a b Ha Hb. now apply NoDup_nth_inj.
  - intros; now left.
  - intros i Hi. apply (Hx i). lia.
Qed.
(** a candidate z is in the span of the source columns only if it is one of the sources *)
Lemma ula_span m zs z : NoDup zs -> (List.length zs < m)%nat -> (in_span (ula_matrix m zs) (fun i => cpow z i) <-> In z zs).
Proof.
  intros D L. split.
  - intros (x & Hx). destruct (in_dec Ceq_dec z zs) as [I|N]; [exact I|]. exfalso.
    assert (HI : inj (ula_matrix m (z :: zs))) by (apply ula_inj; [now constructor | cbn; lia]).
    assert (X : (fun c => match c with O => RtoC 1 | S c' => - x c' end) 0%nat = RtoC 0).
    { refine (HI (fun c => match c with O => RtoC 1 | S c' => - x c' end) _ 0%nat _); [|cbn; lia]. intros i Hi. cbn [ula_matrix nr] in Hi. unfold mvec. cbn [ula_matrix nc ent List.length]. rewrite csum_S_l. cbn [nth].
      rewrite (csum_ext (List.length zs) _ (fun c => - (cpow (nth c zs (RtoC 0)) i * x c))) by (intros; ring). rewrite csum_opp. rewrite (Hx i Hi). unfold mvec. cbn [ula_matrix nc ent]. ring. }
    cbv beta in X. apply (RtoC_neq_0 1); [lra | exact X].
  - intros I. apply (In_nth _ _ (RtoC 0)) in I as (c & Hc & E). exists (unit_vec c). intros i Hi. rewrite mvec_unit by exact Hc. cbn [ula_matrix ent]. now rewrite E.
Qed.
Lemma ula_no_e0 m zs : NoDup zs -> (List.length zs < m)%nat -> ~ In (RtoC 0) zs -> ~ in_span (ula_matrix m zs) (unit_vec 0).
Proof.
  intros D L N0 (x & Hx). assert (X : forall c, (c < List.length zs)%nat -> x c = RtoC 0).
  { apply (vandermonde (List.length zs) (fun c => nth c zs (RtoC 0)) x 1).
    - intros a b Ha Hb. now apply NoDup_nth_inj.
    - intros c Hc. right. intros E. apply N0. rewrite <- E. now apply nth_In.
    - intros i Hi. specialize (Hx (1 + i)%nat ltac:(cbn; lia)). unfold unit_vec in Hx. cbn [Nat.add Nat.eqb] in Hx. symmetry. exact Hx. }
  specialize (Hx 0%nat ltac:(cbn; lia)). rewrite mvec_0 in Hx by exact X. unfold unit_vec in Hx. cbn in Hx. apply (RtoC_neq_0 1); [lra | exact Hx].
Qed.

(** *** spectra *)
Lemma proj_power_nonneg En a : (0 <= proj_power En a)%R.
Proof. apply rsum_nonneg. intros. apply Cnorm2_nonneg. Qed.
Lemma proj_power_0 En a : proj_power En a = 0%R <-> forall j, (j < nc En)%nat -> vdot (nr En) (col En j) a = RtoC 0.
Proof.
  unfold proj_power. split.
  - intros H j Hj. apply Cnorm2_0. apply (rsum_nonneg_0 (nc En) (fun j => Cnorm2 (vdot (nr En) (col En j) a))); auto. intros; apply Cnorm2_nonneg.
  - intros H. apply rsum_0. intros j Hj. rewrite H by exact Hj. apply Cnorm2_0; reflexivity.
Qed.
Lemma proj_power_qform En a : RtoC (proj_power En a) = qform (En *m mher En) a.
Proof.
  rewrite <- bform_qform, bform_vdot. cbn [mmul mher nr nc]. rewrite (vdot_ext (nr En) a a _ (mvec En (mvec (mher En) a))) by (auto; intros; apply mvec_mmul).
  rewrite vdot_mvec_her, vdot_self. reflexivity.
Qed.
Lemma f_music_value A En : nr A = nr En -> f_music A En = Ok (map (fun j => recip (proj_power En (col A j))) (seq 0 (nc A))).
Proof.
  intros H. unfold f_music, matmul. cbn [mher nc nr]. rewrite H, Nat.eqb_refl. cbn [bind]. f_equal. unfold col_norms. rewrite map_map. cbn [mmul nc nr mher]. apply map_ext. intros j. f_equal.
  rewrite csum_Re. unfold proj_power. apply rsum_ext. intros i Hi. rewrite Cmult_conj_norm2, Re_RtoC. f_equal.
Qed.
(** representing infinity by a large number preserves all comparisons *)
Definition olt_inf (a b : option R) : Prop := match a, b with Some u, Some v => (u < v)%R | Some _, None => True | None, _ => False end.
Lemma embed_order l i j : (i < List.length l)%nat -> (j < List.length l)%nat ->
  ((nth i (embed_inf l) 0 < nth j (embed_inf l) 0)%R <-> olt_inf (nth i l None) (nth j l None)).
Proof.
  intros Hi Hj. unfold embed_inf. set (top := fold_right _ 0%R l). set (g := fun o : option R => match o with Some v => v | None => (1 + top)%R end).
  assert (B : forall v, In (Some v) l -> (v <= top)%R).
  { unfold top. clear. induction l as [|o l IH]; intros v I; [destruct I|]; cbn [fold_right]; destruct I as [E|I].
    - subst o. apply Rmax_l.
    - destruct o as [u|]; [eapply Rle_trans; [exact (IH v I) | apply Rmax_r] | exact (IH v I)]. }
  rewrite !(nth_indep (map g l) 0%R (g None)) by (now rewrite map_length). rewrite !map_nth.
  assert (Ii : In (nth i l None) l) by (now apply nth_In). assert (Ij : In (nth j l None) l) by (now apply nth_In).
  destruct (nth i l None) as [u|], (nth j l None) as [v|]; cbn [g olt_inf]; try tauto.
  - specialize (B u Ii). split; [tauto | intros _; lra].
  - specialize (B v Ij). split; [intros; lra | tauto].
  - split; [intros; lra | tauto].
Qed.
Lemma embed_length l : List.length (embed_inf l) = List.length l. Proof. apply map_length. Qed.
