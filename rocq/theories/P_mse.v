(** The asymptotic covariance of MUSIC is above the stochastic Cramer-Rao bound. *)
From Coq Require Import Lra.
From Verif Require Import Base_Np Base_Lin Base_Trig M_utils P_utils S_utils M_sources M_array S_array S_model S_subspace P_array2 P_subspace P_subspace3 M_perf S_perf P_perf P_perf2.
Open Scope C_scope.

Lemma mvec_fold A x i : csum (nc A) (fun j => ent A i j * x j) = mvec A x i. Proof. reflexivity. Qed.
Section Inv.
  Variables (A P Z Pv Gv B : cmat) (sigma : R).
  Hypotheses (P1 : nr P = nc A) (HP : psd P) (Hs : (0 < sigma)%R) (Z1 : nr Z = nr A) (Z2 : nc Z = nc A)
    (EZ : (A *m P *m mher A +m mscal (RtoC sigma) (mid (nr A))) *m Z ==m A)
    (V1 : nr Pv = nc A) (V2 : nc Pv = nc A) (G1 : nr Gv = nc A) (G2 : nc Gv = nc A)
    (EP : P *m Pv ==m mid (nc A)) (EG : mher A *m A *m Gv ==m mid (nc A)) (EB : B ==m Pv +m mscal (RtoC sigma) (Pv *m Gv *m Pv)).
  Let k := nc A.
  Let Rm := A *m P *m mher A +m mscal (RtoC sigma) (mid (nr A)).
  Lemma W_inverse y i : (i < k)%nat -> mvec (P *m (mher A *m Z) *m P) (mvec B y) i = y i.
  Proof.
    intros Hi. assert (P2 : nc P = nc A) by (rewrite <- (proj1 (proj1 HP)); exact P1).
    set (c := mvec Pv y). set (t := mvec Gv c). set (q := mvec B y).
    assert (PP : forall x j, (j < k)%nat -> mvec P (mvec Pv x) j = x j).
    { intros x j Hj. rewrite <- mvec_mmul. rewrite (mvec_eq _ _ x j EP) by (cbn; lia). now apply mvec_mid. }
    assert (GG : forall j, (j < k)%nat -> mvec (mher A) (mvec A t) j = c j).
    { intros j Hj. unfold t. transitivity (mvec (mher A *m A *m Gv) c j); [rewrite !mvec_mmul; reflexivity|]. rewrite (mvec_eq _ _ c j EG) by (cbn; exact Hj). now apply mvec_mid. }
    assert (Q0 : forall j, (j < k)%nat -> q j = c j + RtoC sigma * mvec Pv t j).
    { intros j Hj. unfold q. rewrite (mvec_eq _ _ y j EB) by (rewrite (proj1 EB); cbn; lia). rewrite mvec_madd by (cbn; congruence). rewrite mvec_mscal. unfold t, c. rewrite !mvec_mmul. reflexivity. }
    assert (PQ : forall j, (j < k)%nat -> mvec P q j = y j + RtoC sigma * t j).
    { intros j Hj. rewrite (mvec_ext P q (fun r => RtoC 1 * c r + RtoC sigma * mvec Pv t r) j) by (intros r Hr; rewrite Q0 by (unfold k; lia); ring). rewrite mvec_lin. unfold c. rewrite !PP by exact Hj. ring. }
    assert (ZQ : forall r, (r < nr A)%nat -> mvec Z (mvec P q) r = mvec A t r).
    { pose proof (cov_inj A P sigma P1 HP Hs) as HI. intros r Hr. 
      assert (D : (RtoC 1 * mvec Z (mvec P q) r + (- RtoC 1) * mvec A t r = RtoC 0)).
      { refine (HI (fun r => RtoC 1 * mvec Z (mvec P q) r + (- RtoC 1) * mvec A t r) _ r ltac:(cbn; lia)). clear r Hr. intros r Hr. cbn [madd mmul nr] in Hr. rewrite mvec_lin. fold Rm.
        rewrite <- mvec_mmul. rewrite (mvec_eq (Rm *m Z) A (mvec P q) r EZ) by (cbn; exact Hr).
        replace (mvec Rm (mvec A t) r) with (mvec A (mvec P q) r); [ring|]. unfold Rm. rewrite mvec_madd by reflexivity. rewrite mvec_mscal, mvec_mid by exact Hr. rewrite !mvec_mmul.
        rewrite (mvec_ext A (mvec P (mvec (mher A) (mvec A t))) y).
        2:{ intros j Hj. rewrite (mvec_ext P _ c) by (intros b Hb; apply GG; unfold k; lia). apply PP. exact Hj. }
        rewrite (mvec_ext A (mvec P q) (fun j => RtoC 1 * y j + RtoC sigma * t j)) by (intros j Hj; rewrite PQ by exact Hj; ring). rewrite mvec_lin. ring. }
      replace (mvec A t r) with (RtoC 1 * mvec Z (mvec P q) r - (RtoC 1 * mvec Z (mvec P q) r + - RtoC 1 * mvec A t r)) by ring. rewrite D. ring. }
    rewrite !mvec_mmul. rewrite (mvec_ext P _ c).
    - now apply PP.
    - intros j Hj. rewrite mvec_mmul. rewrite <- GG by (unfold k; lia). apply mvec_ext. cbn [mher nc]. intros r Hr. now apply ZQ.
  Qed.
End Inv.

(** for a positive semidefinite U and B with U B = I: (x + B y)^H U (x + B y) = x^H U x + 2 Re x^H y + y^H B y *)
Lemma young U B x y : psd U -> nr B = nr U -> nc B = nr U -> (forall v i, (i < nr U)%nat -> mvec U (mvec B v) i = v i) ->
  (0 <= Re (qform U x) + 2 * Re (vdot (nr U) x y) + Re (qform B y))%R.
Proof.
  intros HU B1 B2 HB. pose proof HU as ((S & _) & PU). specialize (PU (fun j => RtoC 1 * x j + RtoC 1 * mvec B y j)).
  rewrite <- bform_qform, bform_lin, !bform_alin, !bform_qform, !Cconj_1 in PU.
  assert (E1 : bform U x (mvec B y) = vdot (nr U) x y) by (rewrite bform_vdot; apply vdot_ext; [reflexivity | intros i Hi; now apply HB]).
  assert (E2 : bform U (mvec B y) x = Cconj (vdot (nr U) x y)) by (rewrite (bform_conj U x (mvec B y) (proj1 HU)), E1; reflexivity).
  assert (E3 : qform U (mvec B y) = Cconj (qform B y)).
  { rewrite <- bform_qform, bform_vdot. rewrite (vdot_ext _ _ (mvec B y) _ y) by (intros; try apply HB; reflexivity || assumption). rewrite <- (vdot_conj (nr U) y (mvec B y)). f_equal. rewrite <- bform_qform, bform_vdot, B1. reflexivity. }
  rewrite E1, E2, E3 in PU. destruct (qform U x) as (a1, a2), (vdot (nr U) x y) as (b1, b2), (qform B y) as (c1, c2). cbn in PU |- *. lra.
Qed.
Lemma info_young A D Pi U B x y : orth_projector_onto A Pi -> nr D = nr A -> nr U = nc D -> psd U -> nr B = nr U -> nc B = nr U -> (forall v i, (i < nr U)%nat -> mvec U (mvec B v) i = v i) ->
  (0 <= rform (info_matrix D Pi U) x + 2 * rsum (nc D) (fun i => x i * Re (bform (mid (nr D) -m Pi) (col D i) (col D i)) * y i) + rform (info_matrix D Pi B) y)%R.
Proof.
  intros HO ED EU HU B1 B2 HB. pose proof (op_shape _ _ HO) as (S1 & S2). pose proof (proj1 (proj1 HU)) as US. set (H := mher D *m perp Pi *m D). set (G := perp Pi *m D).
  assert (EH : H ==m mher G *m G) by (apply (perp_gram A Pi D HO ED)).
  rewrite (rform_meq _ (gram_info H U) x (info_gram D Pi U H ltac:(lia) ltac:(lia) ltac:(reflexivity)) eq_refl), (rform_meq _ (gram_info H B) y (info_gram D Pi B H ltac:(lia) ltac:(lia) ltac:(reflexivity)) eq_refl).
  rewrite (gram_info_form G H U x EH) by (cbn; congruence). rewrite (gram_info_form G H B y EH) by (cbn; congruence).
  assert (EM : rsum (nc D) (fun i => x i * Re (bform (mid (nr D) -m Pi) (col D i) (col D i)) * y i)%R = rsum (nr G) (fun r => Re (vdot (nr U) (fun j => Cconj (ent G r j) * RtoC (x j)) (fun j => Cconj (ent G r j) * RtoC (y j))))).
  { rewrite (rsum_ext (nc D) _ (fun i => rsum (nr G) (fun r => x i * y i * Cnorm2 (ent G r i))%R)).
    - rewrite rsum_swap. apply rsum_ext. intros r Hr. unfold vdot. rewrite csum_Re, EU. apply rsum_ext. intros i Hi. unfold Cnorm2. destruct (ent G r i) as (a, b). cbn. ring.
    - intros i Hi. rewrite rsum_scal. replace (rsum (nr G) (fun r => Cnorm2 (ent G r i))) with (Re (ent H i i)).
      + pose proof (info_gram_ent D Pi (mid (nc D)) H i i ltac:(lia) ltac:(lia) ltac:(reflexivity) Hi Hi) as Q. unfold info_matrix, gram_info in Q. cbn [ent mre mmap mhad mtr mid] in Q. rewrite Nat.eqb_refl, !Cmult_1_r in Q. rewrite Q. ring.
      + destruct EH as (_ & _ & EH). rewrite EH by (cbn; exact Hi). cbn [mmul mher ent nc]. rewrite csum_Re. apply rsum_ext. intros r Hr. rewrite Cconj_mult_norm2. apply Re_RtoC. }
  rewrite EM, <- rsum_scal, <- !rsum_plus. apply rsum_nonneg. intros r Hr. apply young; assumption.
Qed.

Lemma rform_ext S x y : (forall i, (i < nr S)%nat -> x i = y i) -> rform S x = rform S y.
Proof. intros H. unfold rform. apply rsum_ext. intros i Hi. rewrite H by exact Hi. f_equal. apply rsum_ext. intros j Hj. now rewrite H. Qed.
Lemma rform_neg S x : rform S (fun i => - x i)%R = rform S x.
Proof. unfold rform. apply rsum_ext. intros i Hi. rewrite (rsum_ext _ _ (fun j => (-1) * (ent S i j * x j))%R) by (intros; ring). rewrite rsum_scal. ring. Qed.

Lemma music_sto_forms A D Pi U B c (Vs Vm : rmat) w : orth_projector_onto A Pi -> nr D = nr A -> nr U = nc D -> psd U -> nr B = nr U -> nc B = nr U -> (forall v i, (i < nr U)%nat -> mvec U (mvec B v) i = v i) ->
  (0 < c)%R -> scaled_inverse (info_matrix D Pi U) c Vs -> nr Vm = nc D ->
  (forall i, (i < nc D)%nat -> Re (bform (mid (nr D) -m Pi) (col D i) (col D i)) <> 0%R) ->
  (forall i j, (i < nc D)%nat -> (j < nc D)%nat -> ent Vm i j = (c * Re (bform (mid (nr D) -m Pi) (col D i) (col D j) * ent B j i)%C / (Re (bform (mid (nr D) -m Pi) (col D i) (col D i)) * Re (bform (mid (nr D) -m Pi) (col D j) (col D j))))%R) ->
  (rform Vs w <= rform Vm w)%R.
Proof.
  intros HO ED EU HU B1 B2 HB Hc HV NM HN EV. pose proof (scaled_inv_of (info_matrix D Pi U) c Vs eq_refl HV ltac:(lra)) as HI.
  set (h := fun i => Re (bform (mid (nr D) -m Pi) (col D i) (col D i))). fold (h : nat -> R) in HN. set (X := rscal (/ c) Vs) in *.
  pose proof (info_young A D Pi U B (fun i => - rmv X w i)%R (fun i => w i / h i)%R HO ED EU HU B1 B2 HB) as Y.
  rewrite rform_neg, <- (inv_form _ _ w HI) in Y.
  assert (E1 : rsum (nc D) (fun i => - rmv X w i * Re (bform (mid (nr D) -m Pi) (col D i) (col D i)) * (w i / h i))%R = (- rform X w)%R).
  { rewrite rform_dot. unfold rdot. replace (nr X) with (nc D) by (destruct HI as (_ & Q & _); cbn [info_matrix nr] in Q; now rewrite Q).
    rewrite (rsum_ext _ _ (fun i => (-1) * (w i * rmv X w i))%R); [rewrite rsum_scal; ring|]. intros i Hi. pose proof (HN i Hi). unfold h. field. exact H. }
  rewrite E1 in Y.
  assert (E2 : rform Vm w = (c * rform (info_matrix D Pi B) (fun i => w i / h i))%R).
  { unfold rform. rewrite NM. cbn [info_matrix nr]. rewrite <- rsum_scal. apply rsum_ext. intros i Hi. rewrite <- !rsum_scal. apply rsum_ext. intros j Hj. rewrite EV by assumption. cbn [ent]. pose proof (HN i Hi). pose proof (HN j Hj). unfold h. cbn [info_matrix ent]. field. split; assumption. }
  assert (E3 : rform Vs w = (c * rform X w)%R).
  { unfold X. rewrite rform_rscal. field. lra. }
  rewrite E2, E3. apply Rmult_le_compat_l; lra.
Qed.
