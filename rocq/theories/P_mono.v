(** Loewner monotonicity of the matrices in the Cramer-Rao bounds. *)
From Verif Require Import Base_Np Base_Lin M_utils M_sources M_array M_coarray S_utils S_sources S_array S_model S_subspace S_signals M_perf S_perf P_perf P_perf2 P_subspace P_subspace2 P_oracles.
Open Scope C_scope.

(** ** Distances to a column space *)
Lemma proj_split A Pi w : orth_projector_onto A Pi -> vnorm2 (nr A) w = (vnorm2 (nr A) (mvec (perp Pi) w) + vnorm2 (nr A) (mvec Pi w))%R.
Proof.
  intros HO. pose proof (op_shape _ _ HO) as (S1 & S2).
  assert (Q : RtoC (vnorm2 (nr A) w) = RtoC (vnorm2 (nr A) (mvec (perp Pi) w)) + RtoC (vnorm2 (nr A) (mvec Pi w))).
  { rewrite <- qform_mid. rewrite (qform_eq (mid (nr A)) (perp Pi +m Pi)).
    - rewrite qform_madd by (unfold perp; cbn; congruence). f_equal.
      + rewrite (qform_eq (perp Pi) (mher (perp Pi) *m perp Pi)).
        * rewrite qform_gram. unfold perp at 1. cbn [msub mid nr]. now rewrite S1.
        * symmetry. rewrite (mmul_eq_l _ _ (perp Pi) (perp_her A Pi HO)). apply (perp_idem A Pi HO).
      + rewrite (qform_eq Pi (mher Pi *m Pi)).
        * rewrite qform_gram. now rewrite S1.
        * symmetry. rewrite (mmul_eq_l _ _ Pi (op_herm _ _ HO)). apply (op_idem _ _ HO).
    - unfold perp. split; [cbn; congruence|]. split; [cbn; congruence|]. intros i j Hi Hj. cbn. ring. }
  rewrite <- RtoC_plus in Q. now apply RtoC_inj in Q.
Qed.
Lemma proj_contract A Pi w : orth_projector_onto A Pi -> (vnorm2 (nr A) (mvec (perp Pi) w) <= vnorm2 (nr A) w)%R.
Proof. intros HO. rewrite (proj_split A Pi w HO). pose proof (vnorm2_nonneg (nr A) (mvec Pi w)). lra. Qed.
Lemma perp_range A Pi y : orth_projector_onto A Pi -> exists c, forall i, (i < nr A)%nat -> mvec (perp Pi) y i = y i - mvec A c i.
Proof.
  intros HO. pose proof (op_shape _ _ HO) as (S1 & S2). destruct (op_range _ _ HO) as (X & X1 & X2 & HX). exists (mvec X y). intros i Hi.
  rewrite <- mvec_mmul, <- (mvec_eq _ _ y i HX) by congruence. unfold mvec, perp. cbn [msub mid nr nc ent]. rewrite S1, S2. rewrite <- (mvec_mid (nr A) y i Hi). unfold mvec. cbn [mid nc].
  replace (csum (nr A) (fun j => ent (mid (nr A)) i j * y j) - csum (nr A) (fun j => ent Pi i j * y j)) with (csum (nr A) (fun j => ent (mid (nr A)) i j * y j) + (- RtoC 1) * csum (nr A) (fun j => ent Pi i j * y j)) by ring.
  rewrite <- csum_scal, <- csum_plus. apply csum_ext. intros j _. cbn [mid ent]. ring.
Qed.
Lemma perp_kills A Pi c i : orth_projector_onto A Pi -> (i < nr A)%nat -> mvec (perp Pi) (mvec A c) i = RtoC 0.
Proof.
  intros HO Hi. pose proof (op_shape _ _ HO) as (S1 & S2). rewrite <- mvec_mmul.
  assert (E : perp Pi *m A ==m mscal (RtoC 0) A).
  { unfold perp. etransitivity; [apply mmul_sub_l; cbn; congruence|]. rewrite S1. split; [reflexivity|]. split; [reflexivity|]. intros p q Hp Hq. cbn [msub mscal ent nr nc mmul mid] in *.
    pose proof (meq_ent _ _ p q (mmul_id_l A (nr A) eq_refl) Hp Hq) as E1. pose proof (meq_ent _ _ p q (op_fix _ _ HO)) as E2. cbn [mmul mid nr nc ent] in E1, E2. rewrite E1, E2 by congruence. ring. }
  rewrite (mvec_eq _ _ c i E) by (cbn; congruence). unfold mvec. apply csum_0. intros j _. cbn. ring.
Qed.
Lemma proj_dist A Pi y c : orth_projector_onto A Pi -> (vnorm2 (nr A) (mvec (perp Pi) y) <= vnorm2 (nr A) (fun i => (y i - mvec A c i)%C))%R.
Proof.
  intros HO. rewrite (vnorm2_ext _ (mvec (perp Pi) y) (mvec (perp Pi) (fun i => y i - mvec A c i))).
  - now apply proj_contract.
  - intros i Hi. rewrite (mvec_ext _ (fun i => y i - mvec A c i) (fun j => RtoC 1 * y j + (- RtoC 1) * mvec A c j)) by (intros; ring).
    rewrite mvec_lin, (perp_kills A Pi c i HO Hi). ring.
Qed.
(** matrices with orthonormal rows *)
Lemma rows_contract (Sm : cmat) w : Sm *m mher Sm ==m mid (nr Sm) -> (vnorm2 (nr Sm) (mvec Sm w) <= vnorm2 (nc Sm) w)%R.
Proof.
  intros HS. set (Q := mher Sm *m Sm).
  assert (F : Q *m mher Sm ==m mher Sm).
  { unfold Q. rewrite mmul_assoc. rewrite (mmul_eq_r (mher Sm) (Sm *m mher Sm) (mid (nr Sm)) eq_refl HS). apply mmul_id_r. reflexivity. }
  assert (HO : orth_projector_onto (mher Sm) Q).
  { split; [split; reflexivity| | |exact F|].
    - unfold Q at 2. etransitivity; [symmetry; apply mmul_assoc|]. etransitivity; [apply mmul_eq_l, F|]. reflexivity.
    - unfold Q. rewrite mher_mmul by reflexivity. apply mmul_eq_r; [reflexivity|]. reflexivity || apply mher_mher.
    - exists Sm. split; [reflexivity|]. split; [reflexivity|]. reflexivity. }
  pose proof (proj_split _ _ w HO) as E. cbn [mher nr] in E. rewrite E. pose proof (vnorm2_nonneg (nc Sm) (mvec (perp Q) w)).
  assert (E2 : vnorm2 (nc Sm) (mvec Q w) = vnorm2 (nr Sm) (mvec Sm w)).
  { apply RtoC_inj. rewrite <- (qform_gram Sm w). change (vnorm2 (nc Sm)) with (vnorm2 (nr Q)). rewrite <- qform_gram. apply qform_eq. rewrite (mmul_eq_l _ _ Q (op_herm _ _ HO)). apply (op_idem _ _ HO). }
  lra.
Qed.
(** a system seen through orthonormal rows (fewer sensors): distances shrink *)
Lemma rows_dist (Sm A A' D D' Pi Pi' : cmat) z : Sm *m mher Sm ==m mid (nr Sm) -> nc Sm = nr A' -> nr D' = nr A' -> nc D' = nc D -> nr Sm = nr A ->
  A ==m Sm *m A' -> D ==m Sm *m D' -> orth_projector_onto A Pi -> orth_projector_onto A' Pi' ->
  (vnorm2 (nr A) (mvec (perp Pi) (mvec D z)) <= vnorm2 (nr A') (mvec (perp Pi') (mvec D' z)))%R.
Proof.
  intros HS S2 D1 D2 S1 EA ED HO HO'. destruct (perp_range A' Pi' (mvec D' z) HO') as (c & Hc).
  apply Rle_trans with (vnorm2 (nr A) (fun i => mvec D z i - mvec A c i)); [now apply proj_dist|].
  rewrite (vnorm2_ext _ (fun i => mvec D z i - mvec A c i) (mvec Sm (mvec (perp Pi') (mvec D' z)))).
  - rewrite <- S1, <- S2. now apply rows_contract.
  - intros i Hi. rewrite (mvec_eq D (Sm *m D') z i ED) by (rewrite (meq_nr _ _ ED); cbn; congruence). rewrite (mvec_eq A (Sm *m A') c i EA) by exact Hi. rewrite !mvec_mmul.
    rewrite (mvec_ext Sm (mvec (perp Pi') (mvec D' z)) (fun j => RtoC 1 * mvec D' z j + (- RtoC 1) * mvec A' c j)) by (intros j Hj; rewrite Hc by congruence; ring).
    rewrite mvec_lin. ring.
Qed.
(** a larger column space (more sources): distances shrink *)
Lemma cols_dist (A A' Pi Pi' : cmat) (y : nat -> C) : nr A' = nr A -> (nc A <= nc A')%nat -> (forall i j, (i < nr A)%nat -> (j < nc A)%nat -> ent A' i j = ent A i j) ->
  orth_projector_onto A Pi -> orth_projector_onto A' Pi' -> (vnorm2 (nr A) (mvec (perp Pi') y) <= vnorm2 (nr A) (mvec (perp Pi) y))%R.
Proof.
  intros E1 E2 E3 HO HO'. destruct (perp_range A Pi y HO) as (c & Hc).
  rewrite (vnorm2_ext _ (mvec (perp Pi) y) (fun i => y i - mvec A' (fun j => if Nat.ltb j (nc A) then c j else RtoC 0) i)).
  - rewrite <- E1. now apply proj_dist.
  - intros i Hi. rewrite Hc by exact Hi. f_equal. unfold mvec. replace (nc A') with (nc A + (nc A' - nc A))%nat by lia. rewrite csum_app.
    rewrite (csum_0 (nc A' - nc A)) by (intros j _; destruct (Nat.ltb_spec (nc A + j) (nc A)); [lia|ring]). rewrite Cplus_0_r. apply csum_ext. intros j Hj. destruct (Nat.ltb_spec j (nc A)); [|lia]. now rewrite E3.
Qed.

(** ** The information matrix grows with both factors *)
Lemma gram_info_swap (H Q : cmat) x : hermitian H -> hermitian Q -> nr Q = nr H -> rform (gram_info H Q) x = rform (gram_info Q H) x.
Proof.
  intros (h1 & h2) (q1 & q2) E. unfold rform, gram_info. cbn [mre mhad mtr mmap nr nc ent]. rewrite E. apply rsum_ext. intros i Hi. f_equal. apply rsum_ext. intros j Hj. f_equal.
  rewrite (h2 i j Hi Hj), (q2 j i ltac:(lia) ltac:(lia)). rewrite <- Cmult_conj, Re_conj. f_equal. ring.
Qed.
Lemma info_le_dist A D Pi A' D' Pi' Q : orth_projector_onto A Pi -> orth_projector_onto A' Pi' -> nr D = nr A -> nr D' = nr A' -> nc D' = nc D -> nr Q = nc D -> psd Q ->
  (forall z, (vnorm2 (nr A) (mvec (perp Pi) (mvec D z)) <= vnorm2 (nr A') (mvec (perp Pi') (mvec D' z)))%R) ->
  forall x, (rform (info_matrix D Pi Q) x <= rform (info_matrix D' Pi' Q) x)%R.
Proof.
  intros HO HO' D1 D1' D2 Q1 HQ HD x. pose proof (op_shape _ _ HO) as (S1 & S2). pose proof (op_shape _ _ HO') as (S1' & S2').
  destruct (sqrtm_ref_ok Q HQ) as (X & _ & HX & X1 & XX). pose proof (proj1 HX) as X2.
  assert (QG : Q ==m mher X *m X). { symmetry. rewrite (mmul_eq_l _ _ X (proj1 (hermitian_mher X) HX)). exact XX. }
  assert (F : forall A D Pi, orth_projector_onto A Pi -> nr D = nr A -> nr Q = nc D ->
    rform (info_matrix D Pi Q) x = rsum (nr X) (fun r => vnorm2 (nr A) (mvec (perp Pi) (mvec D (fun j => Cconj (ent X r j) * RtoC (x j)))))).
  { clear - HX X1 X2 QG HQ. intros A D Pi HO D1 Q1. pose proof (op_shape _ _ HO) as (S1 & S2). set (H := mher D *m perp Pi *m D).
    assert (HG : H ==m mher (perp Pi *m D) *m (perp Pi *m D)) by exact (perp_gram A Pi D HO D1).
    assert (HH : hermitian H) by (eapply hermitian_eq; [symmetry; exact HG | apply hermitian_gram]).
    rewrite (rform_meq _ (gram_info H Q) x) by (reflexivity || (apply info_gram; [congruence|congruence|reflexivity])).
    rewrite gram_info_swap by (exact HH || exact (proj1 HQ) || (cbn; exact Q1)).
    rewrite (gram_info_form X Q H x QG) by (cbn; congruence). apply rsum_ext. intros r _.
    rewrite (qform_eq _ _ _ HG), qform_gram, Re_RtoC. cbn [mmul nr]. replace (nr (perp Pi)) with (nr A) by (unfold perp; cbn; congruence). apply vnorm2_ext. intros i Hi. now rewrite mvec_mmul. }
  rewrite (F A D Pi), (F A' D' Pi') by (assumption || congruence). apply rsum_le. intros r _. apply HD.
Qed.

(** ** Maxima of concave quadratic functions: if R v = b, then <v, R v> = max over u of 2 Re <u, b> - <u, R u> *)
Lemma quad_max (Rm : cmat) (v b u : nat -> C) : psd Rm -> (forall i, (i < nr Rm)%nat -> mvec Rm v i = b i) ->
  (2 * Re (vdot (nr Rm) u b) - Re (qform Rm u) <= Re (qform Rm v))%R.
Proof.
  intros HP Hv. pose proof (proj1 (proj1 HP)) as Sq.
  pose proof (proj2 HP (fun j => RtoC 1 * u j + (- RtoC 1) * v j)) as PP. rewrite <- bform_qform, bform_lin, !bform_alin, !bform_qform, (bform_conj Rm u v (proj1 HP)) in PP.
  rewrite !Cconj_1, !Copp_conj, !Cconj_1 in PP.
  assert (E5 : forall a b c d : C, Re (RtoC 1 * (RtoC 1 * a + - RtoC 1 * b) + - RtoC 1 * (RtoC 1 * c + - RtoC 1 * d)) = (Re a - Re b - Re c + Re d)%R) by (intros [? ?] [? ?] [? ?] [? ?]; cbn; ring).
  rewrite E5, Re_conj in PP. rewrite (bform_mvec Rm u v Sq) in PP. rewrite (vdot_ext _ u u (mvec Rm v) b) in PP by (reflexivity || exact Hv). lra.
Qed.
Lemma quad_at (Rm : cmat) (v b : nat -> C) : nr Rm = nc Rm -> (forall i, (i < nr Rm)%nat -> mvec Rm v i = b i) -> qform Rm v = vdot (nr Rm) v b.
Proof. intros Sq Hv. rewrite <- bform_qform, (bform_mvec Rm v v Sq). apply vdot_ext; [reflexivity|exact Hv]. Qed.
Lemma quad_le (Rm Rm' : cmat) (v b v' b' u' : nat -> C) : psd Rm -> psd Rm' -> (forall i, (i < nr Rm)%nat -> mvec Rm v i = b i) -> (forall i, (i < nr Rm')%nat -> mvec Rm' v' i = b' i) ->
  (Re (qform Rm' u') <= Re (qform Rm v))%R -> Re (vdot (nr Rm') u' b') = Re (vdot (nr Rm) v b) -> (Re (qform Rm v) <= Re (qform Rm' v'))%R.
Proof.
  intros HP HP' Hv Hv' H1 H2. pose proof (quad_max Rm' v' b' u' HP' Hv') as Q. pose proof (quad_at Rm v b (proj1 (proj1 HP)) Hv) as E. rewrite H2, <- E in Q. lra.
Qed.
(** the matrix W of the stochastic bound *)
Definition cov (A P : cmat) (sigma : R) : cmat := A *m P *m mher A +m mscal (RtoC sigma) (mid (nr A)).
Lemma W_form A P Z sigma z : nr P = nc A -> nc P = nc A -> hermitian P -> nr Z = nr A -> nc Z = nc A -> cov A P sigma *m Z ==m A ->
  qform (P *m (mher A *m Z) *m P) z = qform (cov A P sigma) (mvec (Z *m P) z) /\
  forall i, (i < nr A)%nat -> mvec (cov A P sigma) (mvec (Z *m P) z) i = mvec A (mvec P z) i.
Proof.
  intros P1 P2 HP Z1 Z2 E. split.
  - rewrite (qform_eq _ _ z (sto_W_gram A P Z sigma (nr A) eq_refl P1 P2 HP Z1 Z2 E)). apply (qform_congr (cov A P sigma) (Z *m P)); [exact Z1 | reflexivity].
  - intros i Hi. rewrite (mvec_ext (cov A P sigma) (mvec (Z *m P) z) (mvec Z (mvec P z))) by (intros; apply mvec_mmul). rewrite <- mvec_mmul. apply mvec_eq; [exact E|]. cbn. exact Hi.
Qed.
Lemma cov_form A P sigma y : nr P = nc A -> nc P = nc A -> qform (cov A P sigma) y = qform P (mvec (mher A) y) + RtoC sigma * RtoC (vnorm2 (nr A) y).
Proof.
  intros P1 P2. unfold cov. rewrite qform_madd by reflexivity. rewrite qform_mscal, qform_mid. f_equal.
  rewrite (qform_eq _ (mher (mher A) *m P *m mher A) y) by (apply mmul_eq_l, mmul_eq_l; symmetry; apply mher_mher). apply (qform_congr P (mher A)); [cbn; congruence | congruence].
Qed.
(** fewer sensors *)
Lemma W_rows (Sm A A' P Z Z' : cmat) sigma z : Sm *m mher Sm ==m mid (nr Sm) -> nc Sm = nr A' -> nr Sm = nr A -> A ==m Sm *m A' -> nr P = nc A -> psd P -> (0 <= sigma)%R ->
  nr Z = nr A -> nc Z = nc A -> nr Z' = nr A' -> nc Z' = nc A' -> cov A P sigma *m Z ==m A -> cov A' P sigma *m Z' ==m A' ->
  (Re (qform (P *m (mher A *m Z) *m P) z) <= Re (qform (P *m (mher A' *m Z') *m P) z))%R.
Proof.
  intros HS S2 S1 EA P1 HP Hs Z1 Z2 Z1' Z2' E E'. pose proof (proj1 (proj1 HP)) as Sq. assert (C : nc A' = nc A) by (rewrite (meq_nc _ _ EA); reflexivity).
  destruct (W_form A P Z sigma z P1 ltac:(congruence) (proj1 HP) Z1 Z2 E) as (-> & V). destruct (W_form A' P Z' sigma z ltac:(congruence) ltac:(congruence) (proj1 HP) Z1' Z2' E') as (-> & V').
  set (v := mvec (Z *m P) z) in *. set (v' := mvec (Z' *m P) z) in *.
  assert (AV : forall j, (j < nc A)%nat -> mvec (mher A') (mvec (mher Sm) v) j = mvec (mher A) v j).
  { intros j Hj. rewrite <- mvec_mmul. symmetry. apply mvec_eq; [|cbn; exact Hj]. rewrite <- mher_mmul by (cbn; congruence).
    destruct EA as (e1 & e2 & e3). split; [exact e2|]. split; [exact e1|]. intros p q Hp Hq. cbn [mher nr nc] in *. cbn [mher ent]. f_equal. apply e3; assumption. }
  apply (quad_le _ _ v (mvec A (mvec P z)) v' (mvec A' (mvec P z)) (mvec (mher Sm) v)); [apply cov_psd; assumption || congruence|apply cov_psd; try assumption; congruence|exact V|exact V'| |].
  - rewrite !cov_form by congruence. rewrite !Re_plus, !Re_mult, !Re_RtoC, !Im_RtoC.
    rewrite <- !bform_qform, !bform_mvec by congruence. 
    assert (B : vdot (nr P) (mvec (mher A') (mvec (mher Sm) v)) (mvec P (mvec (mher A') (mvec (mher Sm) v))) = vdot (nr P) (mvec (mher A) v) (mvec P (mvec (mher A) v))).
    { apply vdot_ext; [intros j Hj; apply AV; congruence|]. intros j Hj. apply mvec_ext. intros q Hq. apply AV. congruence. }
    rewrite B. assert (Nn : vnorm2 (nr A') (mvec (mher Sm) v) = vnorm2 (nr A) v).
    { apply RtoC_inj. rewrite <- !vdot_self. rewrite <- S2. change (nc Sm) with (nr (mher Sm)). rewrite vdot_mvec_her. cbn [mher nc]. rewrite S1. apply vdot_ext; [|reflexivity]. intros i Hi.
      rewrite (mvec_eq _ Sm _ i (mher_mher Sm)) by (cbn; congruence). rewrite <- mvec_mmul. rewrite (mvec_eq _ _ v i HS) by (cbn; congruence). apply mvec_mid. congruence. }
    rewrite Nn. lra.
  - f_equal. cbn [cov madd mmul nr]. rewrite <- S2. change (nc Sm) with (nr (mher Sm)).
    rewrite <- (vdot_conj _ (mvec A' (mvec P z))). rewrite vdot_mvec_her. rewrite vdot_conj. cbn [mher nc]. rewrite S1. apply vdot_ext; [reflexivity|]. intros i Hi.
    rewrite (mvec_eq _ Sm _ i (mher_mher Sm)) by (cbn; congruence). rewrite <- mvec_mmul. symmetry. now apply mvec_eq.
Qed.
(** more noise, and interfering sources: [cov A P sigma <= cov A' P' sigma'] and the same right-hand side *)
Lemma W_cov (A A' P P' Z Z' : cmat) sigma sigma' z z' : nr A' = nr A -> nr P = nc A -> psd P -> (0 <= sigma)%R -> nr P' = nc A' -> psd P' -> (0 <= sigma')%R ->
  nr Z = nr A -> nc Z = nc A -> nr Z' = nr A' -> nc Z' = nc A' -> cov A P sigma *m Z ==m A -> cov A' P' sigma' *m Z' ==m A' ->
  (forall y, (Re (qform (cov A P sigma) y) <= Re (qform (cov A' P' sigma') y))%R) -> (forall i, (i < nr A)%nat -> mvec A (mvec P z) i = mvec A' (mvec P' z') i) ->
  (Re (qform (P' *m (mher A' *m Z') *m P') z') <= Re (qform (P *m (mher A *m Z) *m P) z))%R.
Proof.
  intros EN P1 HP Hs P1' HP' Hs' Z1 Z2 Z1' Z2' E E' L B. pose proof (proj1 (proj1 HP)) as Sq. pose proof (proj1 (proj1 HP')) as Sq'.
  destruct (W_form A P Z sigma z P1 ltac:(congruence) (proj1 HP) Z1 Z2 E) as (-> & V). destruct (W_form A' P' Z' sigma' z' ltac:(congruence) ltac:(congruence) (proj1 HP') Z1' Z2' E') as (-> & V').
  set (v := mvec (Z *m P) z) in *. set (v' := mvec (Z' *m P') z') in *.
  apply (quad_le _ _ v' (mvec A' (mvec P' z')) v (mvec A (mvec P z)) v'); [apply cov_psd; assumption|apply cov_psd; assumption|exact V'|exact V|apply L|].
  f_equal. cbn [cov madd mmul nr]. rewrite EN. apply vdot_ext; [reflexivity|]. intros i Hi. now apply B.
Qed.
Lemma cov_noise A P sigma sigma' y : nr P = nc A -> nc P = nc A -> (sigma <= sigma')%R -> (Re (qform (cov A P sigma) y) <= Re (qform (cov A P sigma') y))%R.
Proof. intros P1 P2 Hs. rewrite !cov_form by assumption. rewrite !Re_plus, !Re_mult, !Re_RtoC, !Im_RtoC. pose proof (vnorm2_nonneg (nr A) y). nra. Qed.
