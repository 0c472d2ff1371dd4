(** Eigenvalues of ordered Hermitian matrices are ordered (Courant-Fischer); in particular they do not depend on the decomposition. *)
From Verif Require Import Base_Np Base_Lin P_ml6 P_spectral.
Open Scope C_scope.

Lemma eig_mono A B w E w' E' : hermitian A -> hermitian B -> nr A = nr B ->
  (forall x, (Re (qform A x) <= Re (qform B x))%R) -> eigh_ok A w E -> eigh_ok B w' E' ->
  forall k, (k < nr A)%nat -> (nth k w 0 <= nth k w' 0)%R.
Proof.
  intros HA HB n L HE HE' k Hk.
  destruct (kernel_exists (nr A - 1) (nr A) (fun r i => if Nat.ltb r k then Cconj (ent E i r) else Cconj (ent E' i (r + 1)))) as (x & (j & Hj & Nj) & Z); [lia|].
  assert (Z1 : forall r, (r < k)%nat -> vdot (nr A) (col E r) x = RtoC 0).
  { intros r Hr. specialize (Z r ltac:(lia)). rewrite (proj2 (Nat.ltb_lt r k) Hr) in Z. exact Z. }
  assert (Z2 : forall r, (k < r < nr B)%nat -> vdot (nr B) (col E' r) x = RtoC 0).
  { intros r Hr. specialize (Z (r - 1)%nat ltac:(lia)). rewrite (proj2 (Nat.ltb_ge (r - 1) k)) in Z by lia. replace (r - 1 + 1)%nat with r in Z by lia. rewrite <- n. exact Z. }
  assert (V : (0 < vnorm2 (nr A) x)%R).
  { unfold vnorm2. eapply Rlt_le_trans; [apply (Cnorm2_pos _ Nj)|]. apply (rsum_ge (nr A) (fun i => Cnorm2 (x i)) j Hj). intros i _. apply Cnorm2_nonneg. }
  assert (Lo : (nth k w 0 * vnorm2 (nr A) x <= Re (qform A x))%R).
  { rewrite (qform_eig A w E x HA HE), <- (parseval A w E x HA HE), <- rsum_scal. apply rsum_le. intros i Hi.
    destruct (Nat.lt_ge_cases i k) as [H|H]; [rewrite (Z1 i H), (proj2 (Cnorm2_0 _) eq_refl); lra|]. apply Rmult_le_compat_r; [apply Cnorm2_nonneg|]. destruct HE as (_ & _ & _ & Lw & Sw & _). apply sorted_nth; [exact Sw|exact H|lia]. }
  assert (Hi : (Re (qform B x) <= nth k w' 0 * vnorm2 (nr B) x)%R).
  { rewrite (qform_eig B w' E' x HB HE'), <- (parseval B w' E' x HB HE'), <- rsum_scal. apply rsum_le. intros i Hi.
    destruct (Nat.lt_ge_cases k i) as [H|H]; [rewrite (Z2 i ltac:(lia)), (proj2 (Cnorm2_0 _) eq_refl); lra|]. apply Rmult_le_compat_r; [apply Cnorm2_nonneg|]. destruct HE' as (_ & _ & _ & Lw & Sw & _). apply sorted_nth; [exact Sw|exact H|lia]. }
  rewrite <- n in Hi. specialize (L x). apply Rmult_le_reg_r with (vnorm2 (nr A) x); [exact V|]. lra.
Qed.
Lemma eig_unique A w E w' E' : hermitian A -> eigh_ok A w E -> eigh_ok A w' E' -> w = w'.
Proof.
  intros HA HE HE'. assert (L1 : List.length w = nr A) by apply HE. assert (L2 : List.length w' = nr A) by apply HE'.
  apply (nth_ext _ _ 0%R 0%R); [congruence|]. intros k Hk. apply Rle_antisym.
  - apply (eig_mono A A w E w' E'); auto; [intros; lra|lia].
  - apply (eig_mono A A w' E' w E); auto; [intros; lra|lia].
Qed.
