(** Two covariance matrices with nearly equal Gaussian likelihood are near each other. *)
From Coq Require Import Lra.
From Verif Require Import Base_Np Base_Lin M_utils M_core M_ml S_utils S_model S_subspace S_stable S_ml P_utils P_subspace P_subspace3 P_spectral P_perf3 P_perf5 P_ml3 P_ml4 P_ml5 P_ml6 P_ml7 P_ml9 P_stable P_invar.
Open Scope C_scope.

(** x - 1 - ln x grows like (x-1)^2 *)
Lemma ln_gap x : (0 < x)%R -> ((x - 1) * (x - 1) <= 2 * (x + 1) * (x - 1 - ln x))%R.
Proof.
  intros H. set (y := sqrt x). assert (Yp : (0 < y)%R) by (now apply sqrt_lt_R0). assert (Y2 : (y * y = x)%R) by (apply sqrt_sqrt; lra).
  assert (L : (ln x <= 2 * (y - 1))%R). { rewrite <- Y2, ln_mult by exact Yp. pose proof (ln_le_sub y Yp). lra. }
  assert (G : ((y - 1) * (y - 1) <= x - 1 - ln x)%R) by nra.
  replace ((x - 1) * (x - 1))%R with (((y - 1) * (y - 1)) * ((y + 1) * (y + 1)))%R by (rewrite <- Y2; ring).
  assert (T : ((y + 1) * (y + 1) <= 2 * (x + 1))%R) by (rewrite <- Y2; pose proof (pow2_ge_0 (y - 1)); nra).
  assert (0 <= (y - 1) * (y - 1))%R by (apply Rle_0_sqr). apply Rle_trans with ((x - 1 - ln x) * ((y + 1) * (y + 1)))%R.
  - apply Rmult_le_compat_r; [apply Rle_0_sqr|exact G].
  - rewrite (Rmult_comm (2 * (x + 1))). apply Rmult_le_compat_l; lra.
Qed.
Section Kl.
  Variables (Sm Rm : cmat) (n : nat) (mu w : list R) (F E : cmat).
  Hypothesis HS : pd Sm.
  Hypothesis HR : pd Rm.
  Hypothesis S1 : nr Sm = n.
  Hypothesis R1 : nr Rm = n.
  Hypothesis HF : eigh_ok Sm mu F.
  Hypothesis HE : eigh_ok Rm w E.
  Definition kl : R := (logdet mu n + rsum n (fun i => Re (qform Rm (col F i)) / nth i mu 0) - logdet w n - INR n)%R.
  Let U i j := Cnorm2 (vdot n (col E j) (col F i)).
  Let gap i j := (nth j w 0 / nth i mu 0 - 1 - ln (nth j w 0 / nth i mu 0))%R.
  Lemma kl_sum : kl = rsum n (fun i => rsum n (fun j => U i j * gap i j)%R).
  Proof.
    assert (MU : forall i, (i < n)%nat -> (0 < nth i mu 0)%R) by (intros i Hi; exact (l_mu Sm n mu F HS S1 HF i Hi)).
    assert (W : forall i, (i < n)%nat -> (0 < nth i w 0)%R) by (intros i Hi; exact (l_w Rm n w E HR R1 HE i Hi)).
    assert (ROW : forall i, (i < n)%nat -> rsum n (U i) = 1%R) by (intros i Hi; exact (l_row Sm Rm n mu w F E HR S1 R1 HF HE i Hi)).
    assert (COL : forall j, (j < n)%nat -> rsum n (fun i => U i j) = 1%R) by (intros j Hj; exact (l_col Sm Rm n mu w F E HS S1 R1 HF HE j Hj)).
    rewrite (rsum_ext n _ (fun i => (Re (qform Rm (col F i)) / nth i mu 0 + ((-1) + (ln (nth i mu 0) + (-1) * rsum n (fun j => U i j * ln (nth j w 0)))))%R)).
    - rewrite !rsum_plus, rsum_scal, rsum_const, rsum_swap. rewrite (rsum_ext n (fun j => rsum n (fun i => U i j * ln (nth j w 0))%R) (fun j => ln (nth j w 0%R))).
      + unfold kl, logdet. ring.
      + intros j Hj. rewrite (rsum_ext n _ (fun i => ln (nth j w 0) * U i j)%R) by (intros; ring). rewrite rsum_scal, COL by exact Hj. ring.
    - intros i Hi. rewrite (l_rv Rm n w F E HR R1 HE i Hi). fold (U i).
      rewrite (rsum_ext n (fun j => U i j * gap i j)%R (fun j => (/ nth i mu 0 * (U i j * nth j w 0) + ((-1 + ln (nth i mu 0)) * U i j + (-1) * (U i j * ln (nth j w 0))))%R)).
      + rewrite !rsum_plus, !rsum_scal, ROW by exact Hi. unfold Rdiv. unfold U. ring.
      + intros j Hj. unfold gap. rewrite Rcomplements.ln_div by auto. pose proof (MU i Hi). field. lra.
  Qed.
  Lemma kl_dist b : (forall i, (i < n)%nat -> (nth i mu 0 <= b)%R) -> (forall i, (i < n)%nat -> (nth i w 0 <= b)%R) -> (distance Rm Sm * distance Rm Sm <= 4 * (b * b) * kl)%R.
  Proof.
    intros Bm Bw. pose proof HE as (_ & E1 & E2 & _). rewrite R1 in E1, E2. pose proof HF as (_ & F1 & F2 & _). rewrite S1 in F1, F2.
    assert (R2 : nc Rm = n) by (rewrite <- R1; symmetry; apply (proj1 HR)). assert (S2 : nc Sm = n) by (rewrite <- S1; symmetry; apply (proj1 HS)).
    assert (MU : forall i, (i < n)%nat -> (0 < nth i mu 0)%R) by (intros i Hi; exact (l_mu Sm n mu F HS S1 HF i Hi)).
    assert (W : forall i, (i < n)%nat -> (0 < nth i w 0)%R) by (intros i Hi; exact (l_w Rm n w E HR R1 HE i Hi)).
    set (X := fun a b => ent Rm a b - ent Sm a b). set (Y := fun a i => mvec Rm (col F i) a - mvec Sm (col F i) a).
    unfold distance. rewrite sqrt_sqrt by (apply rsum_nonneg; intros; apply rsum_nonneg; intros; apply Cnorm2_nonneg). rewrite R1, R2.
    assert (A1 : forall a, (a < n)%nat -> rsum n (fun b => Cnorm2 (X a b)) = rsum n (fun i => Cnorm2 (Y a i))).
    { intros a Ha. pose proof (parseval Sm mu F (fun b => Cconj (X a b)) (proj1 HS) HF) as PV. rewrite S1 in PV. unfold vnorm2 in PV.
      transitivity (rsum n (fun i => Cnorm2 (Cconj (X a i)))); [apply rsum_ext; intros; symmetry; apply Cnorm2_conj|]. rewrite <- PV. apply rsum_ext. intros i Hi. rewrite <- Cnorm2_conj. f_equal.
      unfold vdot. rewrite csum_conj. unfold Y, mvec. rewrite R2, S2, <- csum_minus. apply csum_ext. intros q Hq. rewrite Cmult_conj, !Cconj_conj. unfold X, col. ring. }
    assert (A2 : forall i, (i < n)%nat -> rsum n (fun a => Cnorm2 (Y a i)) = rsum n (fun j => (U i j * ((nth j w 0 - nth i mu 0) * (nth j w 0 - nth i mu 0)))%R)).
    { intros i Hi. pose proof (parseval Rm w E (fun a => Y a i) (proj1 HR) HE) as PV. rewrite R1 in PV. unfold vnorm2 in PV. rewrite <- PV. apply rsum_ext. intros j Hj.
      assert (V : vdot n (col E j) (fun a => Y a i) = RtoC (nth j w 0 - nth i mu 0)%R * vdot n (col E j) (col F i)).
      { assert (Hj' : (j < nr Rm)%nat) by congruence. assert (Hi' : (i < nr Sm)%nat) by congruence.
        assert (V1 : vdot n (col E j) (mvec Rm (col F i)) = RtoC (nth j w 0%R) * vdot n (col E j) (col F i)).
        { pose proof (hermitian_bform Rm (col E j) (col F i) (proj1 HR)) as HBF. rewrite R1 in HBF. rewrite HBF.
          rewrite (P_spectral.vdot_ext n (mvec Rm (col E j)) (col F i) (fun a => RtoC (nth j w 0%R) * col E j a) (col F i)); [|intros a Ha; apply (eigh_vec Rm w E j HE Hj' a); congruence|auto].
          unfold vdot. rewrite <- csum_scal. apply csum_ext. intros a Ha. rewrite Cmult_conj, Cconj_RtoC. ring. }
        transitivity (vdot n (col E j) (mvec Rm (col F i)) - vdot n (col E j) (mvec Sm (col F i))).
        - unfold vdot, Y. rewrite <- csum_minus. apply csum_ext. intros a Ha. ring.
        - rewrite V1. rewrite (P_spectral.vdot_ext n (col E j) (mvec Sm (col F i)) (col E j) (fun a => RtoC (nth i mu 0%R) * col F i a)); [|auto|intros a Ha; apply (eigh_vec Sm mu F i HF Hi' a); congruence].
          assert (V2 : vdot n (col E j) (fun a => RtoC (nth i mu 0%R) * col F i a) = RtoC (nth i mu 0%R) * vdot n (col E j) (col F i)) by (unfold vdot; rewrite <- csum_scal; apply csum_ext; intros a Ha; ring).
          rewrite V2, RtoC_minus. ring. }
      rewrite V, Cnorm2_mult. unfold U. rewrite (Rmult_comm (Cnorm2 (RtoC _))). f_equal. unfold Cnorm2, RtoC. cbn. ring. }
    change (rsum n (fun a => rsum n (fun b => Cnorm2 (X a b))) <= 4 * (b * b) * kl)%R.
    rewrite (rsum_ext n _ (fun a => rsum n (fun i => Cnorm2 (Y a i)))) by exact A1. rewrite rsum_swap. rewrite (rsum_ext n _ _ A2). rewrite kl_sum, <- rsum_scal. apply rsum_le. intros i Hi. rewrite <- rsum_scal. apply rsum_le. intros j Hj.
    pose proof (MU i Hi) as Mi. pose proof (W j Hj) as Wj. pose proof (Bm i Hi) as Bi. pose proof (Bw j Hj) as Bj. assert (XP : (0 < nth j w 0 / nth i mu 0)%R) by (now apply Rdiv_lt_0_compat).
    pose proof (ln_gap _ XP) as LG. fold (gap i j) in LG. set (x := nth j w 0%R) in *. set (y := nth i mu 0%R) in *.
    assert (GN : (0 <= gap i j)%R) by (unfold gap; pose proof (ln_le_sub _ XP); fold x y; fold x y in H; lra).
    assert (KEY : ((x - y) * (x - y) <= 4 * (b * b) * gap i j)%R).
    { apply Rmult_le_compat_l with (r := (y * y)%R) in LG; [|nra]. replace (y * y * ((x / y - 1) * (x / y - 1)))%R with ((x - y) * (x - y))%R in LG by (field; lra).
      replace (y * y * (2 * (x / y + 1) * gap i j))%R with ((2 * ((x + y) * y)) * gap i j)%R in LG by (field; lra). eapply Rle_trans; [exact LG|]. apply Rmult_le_compat_r; [exact GN|]. assert ((x + y) * y <= (2 * b) * b)%R by (apply Rmult_le_compat; lra). lra. }
    replace (4 * (b * b) * (U i j * gap i j))%R with (U i j * (4 * (b * b) * gap i j))%R by ring. apply Rmult_le_compat_l; [apply Cnorm2_nonneg|exact KEY].
  Qed.
End Kl.
