(** Zero of the residual trace; zero of the weighted residual. *)
From Verif Require Import Base_Np Base_Lin M_utils M_core M_ml S_utils S_subspace S_ml P_utils P_subspace P_perf2 P_perf3 P_ml3 P_ml4.
Open Scope C_scope.

(** a positive semidefinite R with x^H R x = 0 annihilates x *)
Lemma psd_null X x : psd X -> Re (qform X x) = 0%R -> forall i, (i < nr X)%nat -> mvec X x i = RtoC 0.
Proof.
  intros HP H i Hi. pose proof (cauchy_schwarz X (mvec X x) x HP) as CS. rewrite H, Rmult_0_r in CS. rewrite bform_vdot, vdot_self in CS.
  assert (N : vnorm2 (nr X) (mvec X x) = 0%R). { pose proof (Cnorm2_nonneg (RtoC (vnorm2 (nr X) (mvec X x)))) as G. unfold Cnorm2, RtoC in CS, G. cbn [fst snd Re Im] in CS, G. assert (vnorm2 (nr X) (mvec X x) * vnorm2 (nr X) (mvec X x) = 0)%R by nra. nra. }
  apply (vnorm2_0 (nr X) (mvec X x) N i Hi).
Qed.
(** tr((I - P) R) = 0 exactly when the range of R is in the span of B *)
Lemma resid_range B P S : orth_projector_onto B P -> psd S -> nr S = nr B ->
  (Re (mtrace ((mid (nr B) -m P) *m S)) = 0%R <-> forall x, in_span B (mvec S x)).
Proof.
  intros OP HS NS. pose proof (proj1 (proj1 HS)) as SQ. set (Q := mid (nr B) -m P). split.
  - intros H x. apply (q_span B P OP). fold Q. intros i Hi.
    assert (SQ0 : forall l, (l < nr B)%nat -> forall r, (r < nr B)%nat -> mvec S (col Q l) r = RtoC 0).
    { intros l Hl r Hr. apply (psd_null S _ HS); [|lia]. pose proof (resid_0 B P OP S HS NS H l Hl) as Z. fold Q in Z. now rewrite Z. }
    (* Q S = (S Q)^H *)
    unfold mvec. cbn [Q msub mid nc]. rewrite (csum_ext _ (fun j => ent Q i j * _) (fun a => csum (nc S) (fun b => ent Q i a * ent S a b * x b))) by (intros a Ha; unfold mvec; rewrite <- csum_scal; apply csum_ext; intros; ring).
    rewrite csum_swap. rewrite (csum_ext _ _ (fun b => csum (nr B) (fun a => ent Q i a * ent S a b) * x b)) by (intros b Hb; rewrite <- csum_scal_r; reflexivity).
    apply csum_0. intros b Hb. assert (Z : csum (nr B) (fun a => ent Q i a * ent S a b) = Cconj (mvec S (col Q i) b)).
    { unfold mvec. rewrite csum_conj. rewrite <- SQ, NS. apply csum_ext. intros a Ha. rewrite Cmult_conj. rewrite (proj2 (proj1 HS) a b) by lia. rewrite Cmult_comm. f_equal. unfold col. pose proof (q_herm B P OP) as QH. fold Q in QH. rewrite <- (meq_ent _ _ i a QH) by (cbn [mher Q msub mid nr nc]; lia). cbn [mher ent]. reflexivity. }
    rewrite Z, SQ0 by lia. rewrite Cconj_0. ring.
  - intros H. unfold mtrace. cbn [mmul Q msub mid nr]. rewrite csum_0; [reflexivity|]. intros i Hi. specialize (H (fun r => if Nat.eqb r i then RtoC 1 else RtoC 0)). pose proof (proj1 (q_span B P OP _) H i Hi) as Z. fold Q in Z.
    fold Q. change (ent (Q *m S) i i = RtoC 0). rewrite mmul_ent_mvec. rewrite <- Z. apply mvec_ext. intros r Hr. unfold mvec. rewrite (csum_single _ _ i) by (rewrite <- SQ; lia || (intros q Hq Nq; destruct (Nat.eqb_spec q i); [lia | ring])). rewrite Nat.eqb_refl. ring.
Qed.
