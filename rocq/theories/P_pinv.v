(** A reference Moore-Penrose inverse: V diag(1/w or 0) V^H A^H for the eigendecomposition of A^H A.  It meets the contract of np.linalg.pinv
    on every matrix, those of deficient rank included. *)
From Verif Require Import Base_Np Base_Lin M_utils M_core S_utils S_subspace P_utils P_oracles P_spectral.
Open Scope C_scope.

Definition inv_or_0 (x : R) : R := if Req_EM_T x 0 then 0%R else (/ x)%R.
Definition pinv_ref (A : cmat) : res cmat :=
  let! (w, E) := eigh_ref (mher A *m A) in
  Ok (E *m (mdiag (nc A) (fun i => RtoC (inv_or_0 (nth i w 0%R))) *m (mher E *m mher A))).
Lemma gram_herm A : hermitian (mher A *m A).
Proof.
  split; [reflexivity|]. intros i j _ _. cbn [mmul mher ent nc]. rewrite csum_conj. apply csum_ext. intros q _. rewrite Cmult_conj, Cconj_conj. ring.
Qed.
Lemma gram_null A x : (forall i, (i < nc A)%nat -> mvec (mher A *m A) x i = RtoC 0) -> forall i, (i < nr A)%nat -> mvec A x i = RtoC 0.
Proof.
  intros H. apply vnorm2_0. assert (Z : vdot (nr A) (mvec A x) (mvec A x) = RtoC 0).
  { rewrite vdot_mvec_her. unfold vdot. transitivity (csum (nc A) (fun _ => RtoC 0)); [|now apply csum_0]. apply csum_ext. intros i Hi. rewrite <- (mvec_mmul (mher A) A x i). rewrite H by exact Hi. rewrite Cconj_RtoC. ring. }
  rewrite vdot_self in Z. now injection Z.
Qed.
Lemma pinv_ref_normal A : exists X, pinv_ref A = Ok X /\ nr X = nc A /\ nc X = nr A /\ mher A *m A *m X ==m mher A.
Proof.
  destruct (eigh_ref_ok (mher A *m A) (gram_herm A)) as (w & E & Er & OE). unfold pinv_ref. rewrite Er. cbn [bind]. eexists. split; [reflexivity|].
  pose proof (eigh_right _ _ _ OE) as RR. pose proof OE as (_ & e1 & e2 & _ & _ & _ & V). cbn [mmul mher nr nc] in e1, e2, V, RR. split; [exact e1|]. split; [reflexivity|].
  set (D := mdiag (nc A) _). set (B := mher E *m mher A). set (L := mdiag (nc A) (fun i => RtoC (nth i w 0%R))) in *. set (G := mher A *m A) in *.
  assert (LY : L *m (D *m B) ==m B).
  { transitivity (Mat (nr (D *m B)) (nc (D *m B)) (fun i j => RtoC (nth i w 0%R) * ent (D *m B) i j)); [apply mmul_diag_l; reflexivity|].
    split; [cbn; congruence|]. split; [reflexivity|]. intros i j Hi Hj. cbn [nr nc ent] in Hi, Hj |- *. change (nr (D *m B)) with (nc A) in Hi. change (nc (D *m B)) with (nr A) in Hj.
    assert (DB : D *m B ==m Mat (nr B) (nc B) (fun i j => RtoC (inv_or_0 (nth i w 0%R)) * ent B i j)) by (apply mmul_diag_l; cbn; congruence). rewrite (meq_ent _ _ i j DB); [|exact Hi|exact Hj]. cbn [ent]. unfold inv_or_0. destruct (Req_EM_T (nth i w 0%R) 0) as [Z|NZ].
    - rewrite Z. transitivity (RtoC 0); [ring|]. symmetry.
      assert (AZ : forall q, (q < nr A)%nat -> mvec A (col E i) q = RtoC 0).
      { apply gram_null. intros q Hq. fold G. rewrite (eigh_vec _ _ _ i OE) by (cbn; lia). rewrite Z. ring. }
      transitivity (Cconj (mvec A (col E i) j)); [|rewrite AZ by exact Hj; apply Cconj_RtoC]. unfold B, mvec. cbn [mmul ent mher nc]. rewrite csum_conj, e1. apply csum_ext. intros q Hq. rewrite Cmult_conj. unfold col. ring.
    - rewrite Cmult_assoc, <- RtoC_mult, Rinv_r by exact NZ. ring. }
  transitivity ((G *m E) *m (D *m B)); [symmetry; apply mmul_assoc; cbn; congruence|].
  transitivity ((E *m L) *m (D *m B)); [apply mmul_eq_l; exact V|].
  transitivity (E *m (L *m (D *m B))); [apply mmul_assoc; cbn; congruence|].
  transitivity (E *m B); [apply mmul_eq_r; [cbn; congruence|exact LY]|]. unfold B.
  transitivity ((E *m mher E) *m mher A); [symmetry; apply mmul_assoc; cbn; congruence|].
  transitivity (mid (nc A) *m mher A); [apply mmul_eq_l; exact RR|]. apply mmul_id_l. reflexivity.
Qed.
Lemma pinv_ref_ok : pinv_ok pinv_ref.
Proof.
  intros A X H. destruct (pinv_ref_normal A) as (X' & H' & x1 & x2 & N). rewrite H in H'. injection H' as <-. split; [exact x1|]. split; [exact x2|].
  pose proof (normal_eq_projector A X x1 x2 N) as OP. split; [apply (op_fix _ _ OP)|apply (op_herm _ _ OP)].
Qed.
Lemma pinv_ref_def A : exists X, pinv_ref A = Ok X.
Proof. destruct (pinv_ref_normal A) as (X & H & _). now exists X. Qed.
