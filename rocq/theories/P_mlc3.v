(** Near-optimal WSF fits have directions near the true ones. *)
From Coq Require Import Sorting.Permutation Sorting.Sorted.
From Verif Require Import Base_Np Base_Lin M_utils S_utils S_subspace S_stable S_ml P_utils P_subspace P_subspace2 P_subspace3 P_spectral P_perf3 P_ml3 P_ml4 P_ml6 P_stable P_stable2 P_stable3 P_cont4 P_mlc P_mlc2.
Open Scope C_scope.

Section Wsf.
  Variables (B P : cmat).
  Hypothesis OP : orth_projector_onto B P.
  Let m := nr B.
  Let Q := mid m -m P.
  Lemma q_contract x : (vnorm2 m (mvec Q x) <= vnorm2 m x)%R.
  Proof.
    assert (E : RtoC (vnorm2 m (mvec Q x)) = vdot m x (mvec Q x)).
    { rewrite <- Cconj_RtoC, <- vdot_self, <- (vdot_conj m (mvec Q x) x). f_equal. change (vdot (nr Q) (mvec Q x) (mvec Q x) = vdot m (mvec Q x) x). rewrite vdot_mvec_her. change (nc Q) with m. apply P_spectral.vdot_ext; [|reflexivity].
      intros i Hi. etransitivity; [exact (mvec_eq _ Q _ i (q_herm B P OP) Hi)|]. rewrite <- mvec_mmul. apply (mvec_eq _ Q x i (q_idem B P OP)). exact Hi. }
    pose proof (vdot_cs m x (mvec Q x)) as CS. rewrite <- E in CS. unfold Cnorm2 in CS. cbn in CS. pose proof (vnorm2_nonneg m (mvec Q x)). pose proof (vnorm2_nonneg m x). nra.
  Qed.
  Lemma wsf_trace k Es (wt : nat -> R) : nr Es = m -> nc Es = k -> Re (mtrace (Q *m (Es *m mdiag k (fun c => RtoC (wt c)) *m mher Es))) = rsum k (fun c => wt c * resid B P (col Es c))%R.
  Proof.
    intros H1 H2. unfold Q, m. rewrite (trace_cols B P OP) by (cbn [mmul mher nr nc]; exact H1). rewrite csum_Re.
    assert (QF : forall y, Re (qform (Es *m mdiag k (fun c => RtoC (wt c)) *m mher Es) y) = rsum k (fun c => wt c * Cnorm2 (mvec (mher Es) y c))%R).
    { intros y. assert (EQ : Es *m mdiag k (fun c => RtoC (wt c)) *m mher Es ==m mher (mher Es) *m mdiag k (fun c => RtoC (wt c)) *m mher Es) by (apply mmul_eq_l, mmul_eq_l; symmetry; apply mher_mher). rewrite (qform_eq _ _ y EQ), qform_congr by (cbn [mher mdiag nr nc]; congruence).
      unfold qform. cbn [mdiag nr nc ent]. rewrite csum_Re. apply rsum_ext. intros c Hc. rewrite (csum_single k _ c); [|exact Hc|].
      - rewrite Nat.eqb_refl. destruct (mvec (mher Es) y c) as (u, v). unfold Cnorm2. cbn. ring.
      - intros j Hj Nj. destruct (Nat.eqb_spec c j); [lia|]. ring. }
    rewrite (rsum_ext _ _ (fun l => rsum k (fun c => wt c * Cnorm2 (mvec (mher Es) (col Q l) c))%R)) by (intros; apply QF). rewrite rsum_swap. apply rsum_ext. intros c Hc. rewrite rsum_scal. f_equal. unfold resid, vnorm2. apply rsum_ext. intros l Hl.
    rewrite <- (Cnorm2_conj (mvec (mid (nr B) -m P) (col Es c) l)). f_equal. unfold mvec. rewrite csum_conj. cbn [mher nc ent]. rewrite H1. change (nc (mid (nr B) -m P)) with m. apply csum_ext. intros i Hi. unfold col. rewrite !Cmult_conj. change (mid (nr B) -m P) with Q. pose proof (q_sym B P OP i l Hi Hl) as X. fold m in X. fold Q in X. rewrite X. ring.
  Qed.
  (** eigenvectors of a perturbed exact covariance are near the span *)
  Lemma wsf_truth Rm P0 s Rm' w' E' j : exact_cov Rm B P0 s -> hermitian Rm' -> nr Rm' = m -> eigh_ok Rm' w' E' -> (j < m)%nat ->
    (resid B P (col E' j) * ((nth j w' 0 - s) * (nth j w' 0 - s)) <= distance Rm Rm' * distance Rm Rm')%R.
  Proof.
    intros HX HH R1 OE Hj. destruct (ex_dims Rm B P0 s HX) as (D1 & D2). fold m in D1, D2. pose proof HX as (X1 & X2 & ER). assert (R2 : nc Rm' = m) by (rewrite <- R1; symmetry; apply HH).
    assert (QR : forall x i, (i < m)%nat -> mvec Q (mvec Rm x) i = RtoC s * mvec Q x i).
    { intros x i Hi. assert (Y : forall r, (r < m)%nat -> mvec Rm x r = mvec B (mvec (P0 *m mher B) x) r + RtoC s * x r).
      { intros r Hr. rewrite (mvec_eq _ _ x r ER) by (rewrite D1; exact Hr). unfold mvec at 1. change (nc (B *m P0 *m mher B +m mscal (RtoC s) (mid (nr B)))) with m. rewrite (csum_ext _ _ (fun l => ent (B *m P0 *m mher B) r l * x l + RtoC s * (ent (mid m) r l * x l))) by (intros; cbn [madd mscal ent]; fold m; ring). rewrite csum_plus, csum_scal. f_equal.
        - rewrite <- mvec_mmul. exact (mvec_eq (B *m P0 *m mher B) (B *m (P0 *m mher B)) x r (mmul_assoc B P0 (mher B)) Hr).
        - f_equal. exact (mvec_mid m x r Hr). }
      rewrite (mvec_ext Q (mvec Rm x) (fun r => RtoC 1 * mvec B (mvec (P0 *m mher B) x) r + RtoC s * x r) i) by (intros r Hr; rewrite Y by exact Hr; ring). rewrite mvec_lin.
      assert (IS : in_span B (mvec B (mvec (P0 *m mher B) x))) by (exists (mvec (P0 *m mher B) x); intros; reflexivity). pose proof (proj1 (q_span B P OP _) IS i Hi) as Z. fold m in Z. fold Q in Z. rewrite Z. ring. }
    assert (EV : forall i, (i < m)%nat -> RtoC (nth j w' 0 - s)%R * mvec Q (col E' j) i = mvec Q (mvec (Rm' -m Rm) (col E' j)) i).
    { intros i Hi. rewrite (mvec_ext Q (mvec (Rm' -m Rm) (col E' j)) (fun r => RtoC (nth j w' 0%R) * col E' j r + RtoC (-1) * mvec Rm (col E' j) r) i).
      - rewrite mvec_lin, QR by exact Hi. rewrite RtoC_minus. assert (N1 : RtoC (-1) = - RtoC 1) by (unfold RtoC, Copp; cbn; f_equal; ring). rewrite N1. ring.
      - intros r Hr. assert (EJ : mvec Rm' (col E' j) r = RtoC (nth j w' 0%R) * col E' j r) by (apply (eigh_vec Rm' w' E' j OE); rewrite R1; assumption). rewrite <- EJ. unfold mvec. cbn [msub nc ent]. rewrite D2, R2. assert (N1 : RtoC (-1) = - RtoC 1) by (unfold RtoC, Copp; cbn; f_equal; ring). rewrite N1. rewrite (csum_ext _ (fun l => (ent Rm' r l - ent Rm r l) * col E' j l) (fun l => ent Rm' r l * col E' j l - ent Rm r l * col E' j l)) by (intros; ring). rewrite csum_minus. ring. }
    assert (L : (resid B P (col E' j) * ((nth j w' 0 - s) * (nth j w' 0 - s)) = vnorm2 m (mvec Q (mvec (Rm' -m Rm) (col E' j))))%R).
    { rewrite <- (vnorm2_ext m (fun i => RtoC (nth j w' 0 - s)%R * mvec Q (col E' j) i)) by (intros; symmetry; now apply EV || (rewrite EV by assumption; reflexivity)). rewrite vnorm2_scal. unfold resid. fold m. fold Q. unfold Cnorm2 at 1. cbn. ring. }
    rewrite L. eapply Rle_trans; [apply q_contract|]. pose proof (mvec_norm (Rm' -m Rm) (col E' j)) as MN. cbn [msub nr nc] in MN. rewrite R1, R2 in MN.
    assert (V1 : vnorm2 m (col E' j) = 1%R). { pose proof (eigh_orth Rm' w' E' j j OE) as O. rewrite R1, Nat.eqb_refl in O. apply RtoC_inj. rewrite <- vdot_self. apply O; assumption. }
    rewrite V1, Rmult_1_r in MN. eapply Rle_trans; [exact MN|]. right. rewrite (distance_sym Rm Rm') by congruence. rewrite distance_frob, R1, R2. symmetry. apply sqrt_sqrt. apply rsum_nonneg; intros; apply rsum_nonneg; intros; apply Cnorm2_nonneg.
  Qed.
  (** a vector is near the span if the eigenvectors of the signal part are, up to its component in the noise part *)
  Lemma resid_signal Rm' w' E' q a t : hermitian Rm' -> nr Rm' = m -> eigh_ok Rm' w' E' -> (q <= m)%nat -> (0 <= t)%R ->
    (forall c, (c < m - q)%nat -> (resid B P (col E' (q + c)) <= t * t)%R) -> (sqrt (resid B P a) <= INR (m - q) * vlen m a * t + sqrt (part m E' q a))%R.
  Proof.
    intros HH R1 OE Hq Ht HR. set (co := fun j => vdot m (col E' j) a). set (noise := fun i => csum q (fun j => co j * ent E' i j)). set (sig := fun n i => csum n (fun c => co (q + c)%nat * ent E' i (q + c))).
    assert (EA : forall i, (i < m)%nat -> a i = noise i + sig (m - q)%nat i).
    { intros i Hi. rewrite (eigh_expand Rm' w' E' a i OE) by (rewrite R1; exact Hi). rewrite R1. replace m with (q + (m - q))%nat at 1 by lia. rewrite csum_app. reflexivity. }
    assert (NN : vnorm2 m noise = part m E' q a).
    { pose proof (parseval Rm' w' E' noise HH OE) as PV. rewrite R1 in PV. rewrite <- PV. replace m with (q + (m - q))%nat at 1 by lia. rewrite rsum_app. 
      assert (CO : forall j, (j < m)%nat -> vdot m (col E' j) noise = if Nat.ltb j q then co j else RtoC 0).
      { intros j Hj. unfold noise, vdot. rewrite (csum_ext _ _ (fun i => csum q (fun l => co l * (Cconj (col E' j i) * col E' l i)))) by (intros i Hi; rewrite <- csum_scal; apply csum_ext; intros; unfold col; ring). rewrite csum_swap.
        rewrite (csum_ext _ _ (fun l => co l * (if Nat.eqb j l then RtoC 1 else RtoC 0))). 2: { intros l Hl. rewrite csum_scal. f_equal. pose proof (eigh_orth Rm' w' E' j l OE) as O. rewrite R1 in O. apply O; lia. }
        destruct (Nat.ltb_spec j q).
        - rewrite (csum_single q _ j); [|assumption|]. + rewrite Nat.eqb_refl. ring. + intros l Hl Nl. destruct (Nat.eqb_spec j l); [lia|]. ring.
        - apply csum_0. intros l Hl. destruct (Nat.eqb_spec j l); [lia|]. ring. }
      rewrite (rsum_ext q _ (fun j => Cnorm2 (co j))) by (intros j Hj; rewrite CO by lia; destruct (Nat.ltb_spec j q); [reflexivity | lia]).
      rewrite (rsum_ext (m - q) _ (fun _ => 0%R)) by (intros j Hj; rewrite CO by lia; destruct (Nat.ltb_spec (q + j) q); [lia|]; unfold Cnorm2; cbn; ring). rewrite rsum_const. unfold part, co. lra. }
    assert (C1 : forall j, (j < m)%nat -> (Cmod (co j) <= vlen m a)%R).
    { intros j Hj. apply sq_le_len; [apply vlen_nonneg|]. rewrite vlen_sq. pose proof (vdot_cs m (col E' j) a) as CS. fold (co j) in CS.
      assert (V1 : vnorm2 m (col E' j) = 1%R). { pose proof (eigh_orth Rm' w' E' j j OE) as O. rewrite R1, Nat.eqb_refl in O. apply RtoC_inj. rewrite <- vdot_self. apply O; assumption. }
      rewrite V1, Rmult_1_l in CS. rewrite <- P_invar.Cmod_sq in CS. lra. }
    assert (SG : forall n, (n <= m - q)%nat -> (vlen m (mvec Q (sig n)) <= INR n * vlen m a * t)%R).
    { induction n as [|n IH]; intros Hn.
      - cbn [INR]. rewrite (P_stable2.vlen_0 m); [lra|]. intros i Hi. rewrite mvec_0; [reflexivity|]. intros; reflexivity.
      - rewrite (vlen_ext m _ (fun i => mvec Q (sig n) i + co (q + n)%nat * mvec Q (col E' (q + n)) i)%C). 2: { intros i Hi. rewrite (mvec_ext Q (sig (S n)) (fun i => RtoC 1 * sig n i + co (q + n)%nat * col E' (q + n) i) i); [rewrite mvec_lin; ring|]. intros j Hj. unfold sig. cbn [csum]. unfold col. ring. }
        eapply Rle_trans; [apply vlen_triangle|]. rewrite S_INR. pose proof (IH ltac:(lia)) as I1.
        assert (I2 : (vlen m (fun i => co (q + n)%nat * mvec Q (col E' (q + n)) i)%C <= vlen m a * t)%R).
        { unfold vlen at 1. rewrite vnorm2_scal. apply sq_le_len; [apply Rmult_le_pos; [apply vlen_nonneg | exact Ht]|]. rewrite sqrt_sqrt by (apply Rmult_le_pos; [apply Cnorm2_nonneg | apply vnorm2_nonneg]).
          pose proof (HR n ltac:(lia)) as H0. unfold resid in H0. fold m in H0. fold Q in H0. pose proof (C1 (q + n)%nat ltac:(lia)) as H1. pose proof (P_invar.Cmod_sq (co (q + n)%nat)) as E. rewrite <- E. replace (vlen m a * t * (vlen m a * t))%R with ((vlen m a * vlen m a) * (t * t))%R by ring.
          apply Rmult_le_compat; [apply Rmult_le_pos; apply Cmod_ge_0 || nra | apply vnorm2_nonneg | | exact H0]. apply Rmult_le_compat; try apply Cmod_ge_0; exact H1. }
        lra. }
    unfold resid. fold m. fold Q. change (sqrt (vnorm2 m (mvec Q a))) with (vlen m (mvec Q a)). rewrite (vlen_ext m _ (fun i => mvec Q (sig (m - q)%nat) i + mvec Q noise i)%C).
    - eapply Rle_trans; [apply vlen_triangle|]. apply Rplus_le_compat; [apply SG; lia|]. rewrite <- NN. apply sqrt_le_1_alt. apply q_contract.
    - intros i Hi. rewrite (mvec_ext Q a (fun i => RtoC 1 * sig (m - q)%nat i + RtoC 1 * noise i) i); [rewrite mvec_lin; ring|]. intros j Hj. rewrite EA by exact Hj. ring.
  Qed.
End Wsf.
