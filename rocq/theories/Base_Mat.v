(** 2-D arrays: a shape and an entry function; equality [==m] compares shapes and
    the entries inside the shape only.  Complex matrix algebra. *)
From Coq Require Import Setoid Morphisms.
From Verif Require Export Base_Sum.
Open Scope C_scope.

Record mat (T : Type) := Mat { nr : nat; nc : nat; ent : nat -> nat -> T }.
Arguments Mat {T} nr nc ent.
Arguments nr {T} m.
Arguments nc {T} m.
Arguments ent {T} m i j.
Notation cmat := (mat C).
Notation rmat := (mat R).

Definition meq {T} (A B : mat T) : Prop :=
  nr A = nr B /\ nc A = nc B /\
  forall i j, (i < nr A)%nat -> (j < nc A)%nat -> ent A i j = ent B i j.
Infix "==m" := meq (at level 70, no associativity).

#[export] Instance meq_equiv {T} : Equivalence (@meq T).
Proof.
  split.
  - intros A; repeat split.
  - intros A B (H1 & H2 & H3); repeat split; auto. intros; symmetry; apply H3; lia.
  - intros A B D (H1 & H2 & H3) (K1 & K2 & K3); repeat split; try congruence.
    intros; rewrite H3, K3 by lia; reflexivity.
Qed.

(** [mat_of_rows]: used for concrete examples *)
Definition mat_of_rows {T} (d : T) (rows : list (list T)) : mat T :=
  Mat (List.length rows) (match rows with [] => 0 | r :: _ => List.length r end)
      (fun i j => nth j (nth i rows []) d).

Definition mmap {T U} (f : T -> U) (A : mat T) : mat U := Mat (nr A) (nc A) (fun i j => f (ent A i j)).
Definition mtr {T} (A : mat T) : mat T := Mat (nc A) (nr A) (fun i j => ent A j i).
Definition mconj (A : cmat) : cmat := mmap Cconj A.
Definition mher (A : cmat) : cmat := Mat (nc A) (nr A) (fun i j => Cconj (ent A j i)).
(** matrix product; numpy raises when [nc A <> nr B]; see [matmul] for the checked one *)
Definition mmul (A B : cmat) : cmat :=
  Mat (nr A) (nc B) (fun i j => csum (nc A) (fun k => ent A i k * ent B k j)).
Definition madd (A B : cmat) : cmat := Mat (nr A) (nc A) (fun i j => ent A i j + ent B i j).
Definition msub (A B : cmat) : cmat := Mat (nr A) (nc A) (fun i j => ent A i j - ent B i j).
Definition mscal (c : C) (A : cmat) : cmat := Mat (nr A) (nc A) (fun i j => c * ent A i j).
Definition mid (n : nat) : cmat := Mat n n (fun i j => if Nat.eqb i j then RtoC 1 else RtoC 0).
Definition mdiag (n : nat) (d : nat -> C) : cmat := Mat n n (fun i j => if Nat.eqb i j then d i else RtoC 0).
Definition mtrace (A : cmat) : C := csum (nr A) (fun i => ent A i i).
(** element-wise (Hadamard) product *)
Definition mhad (A B : cmat) : cmat := Mat (nr A) (nc A) (fun i j => ent A i j * ent B i j).
Definition mre (A : cmat) : rmat := mmap Re A.
Definition mofR (A : rmat) : cmat := mmap RtoC A.

(** checked numpy matmul for 2-D operands *)
Definition matmul (A B : cmat) : res cmat :=
  if Nat.eqb (nc A) (nr B) then Ok (mmul A B) else Raise ValueError.

Infix "*m" := mmul (at level 40, left associativity).
Infix "+m" := madd (at level 50, left associativity).
Infix "-m" := msub (at level 50, left associativity).


(** [mmul] respects [==m] when the inner dimensions agree. *)
Lemma mmul_eq A A' B B' : nc A = nr B -> A ==m A' -> B ==m B' -> A *m B ==m A' *m B'.
Proof.
  intros S (H1 & H2 & H3) (K1 & K2 & K3). split; [exact H1|]. split; [exact K2|].
  simpl. intros i j Hi Hj. rewrite <- H2. apply csum_ext. intros k Hk.
  rewrite H3 by assumption. rewrite K3 by (simpl in *; lia). reflexivity.
Qed.
Lemma mmul_eq_l A A' B : A ==m A' -> A *m B ==m A' *m B.
Proof.
  intros (H1 & H2 & H3). split; [exact H1|]. split; [reflexivity|].
  simpl. intros i j Hi Hj. rewrite <- H2. apply csum_ext. intros k Hk. now rewrite H3.
Qed.
Lemma mmul_eq_r A B B' : nc A = nr B -> B ==m B' -> A *m B ==m A *m B'.
Proof. intros S H. apply mmul_eq; [exact S | reflexivity | exact H]. Qed.

Lemma madd_eq A A' B B' : nr A = nr B -> nc A = nc B -> A ==m A' -> B ==m B' -> A +m B ==m A' +m B'.
Proof.
  intros S1 S2 (H1 & H2 & H3) (K1 & K2 & K3). repeat split; simpl; auto.
  intros. rewrite H3, K3 by lia. reflexivity.
Qed.
Lemma msub_eq A A' B B' : nr A = nr B -> nc A = nc B -> A ==m A' -> B ==m B' -> A -m B ==m A' -m B'.
Proof.
  intros S1 S2 (H1 & H2 & H3) (K1 & K2 & K3). repeat split; simpl; auto.
  intros. rewrite H3, K3 by lia. reflexivity.
Qed.
#[export] Instance mher_proper : Proper (meq ==> meq) mher.
Proof. intros A B (H1 & H2 & H3). repeat split; simpl; auto. intros. rewrite H3 by lia. reflexivity. Qed.
#[export] Instance mtr_proper {T} : Proper (@meq T ==> meq) mtr.
Proof. intros A B (H1 & H2 & H3). repeat split; simpl; auto. Qed.
#[export] Instance mmap_proper {T U} f : Proper (@meq T ==> @meq U) (mmap f).
Proof. intros A B (H1 & H2 & H3). repeat split; simpl; auto. intros. rewrite H3 by lia. reflexivity. Qed.
#[export] Instance mscal_proper c : Proper (meq ==> meq) (mscal c).
Proof. intros A B (H1 & H2 & H3). repeat split; simpl; auto. intros. rewrite H3 by lia. reflexivity. Qed.
Lemma mtrace_eq A B : nr A = nc A -> A ==m B -> mtrace A = mtrace B.
Proof. intros S (H1 & H2 & H3). unfold mtrace. rewrite <- H1. apply csum_ext. intros. apply H3; lia. Qed.

Lemma meq_nr {T} (A B : mat T) : A ==m B -> nr A = nr B. Proof. intros H; apply H. Qed.
Lemma meq_nc {T} (A B : mat T) : A ==m B -> nc A = nc B. Proof. intros H; apply H. Qed.
Lemma meq_ent {T} (A B : mat T) i j : A ==m B -> (i < nr A)%nat -> (j < nc A)%nat -> ent A i j = ent B i j.
Proof. intros (_ & _ & H); apply H. Qed.

Lemma mmul_assoc A B D : (A *m B) *m D ==m A *m (B *m D).
Proof.
  repeat split. simpl. intros i j Hi Hj.
  rewrite (csum_ext (nc B) _ (fun k => csum (nc A) (fun l => ent A i l * ent B l k * ent D k j)))
    by (intros; symmetry; apply csum_scal_r).
  rewrite csum_swap. apply csum_ext. intros l Hl.
  rewrite <- csum_scal. apply csum_ext. intros; ring.
Qed.
Lemma mmul_id_l A n : n = nr A -> mid n *m A ==m A.
Proof.
  intros ->. repeat split. simpl. intros i j Hi Hj.
  rewrite (csum_single _ _ i Hi).
  - rewrite Nat.eqb_refl; ring.
  - intros k Hk Hn. rewrite (proj2 (Nat.eqb_neq i k)) by auto. ring.
Qed.
Lemma mmul_id_r A n : n = nc A -> A *m mid n ==m A.
Proof.
  intros ->. repeat split. simpl. intros i j Hi Hj.
  rewrite (csum_single _ _ j Hj).
  - rewrite Nat.eqb_refl; ring.
  - intros k Hk Hn. rewrite (proj2 (Nat.eqb_neq k j)) by auto. ring.
Qed.
Lemma mmul_diag_l n d A : n = nr A -> mdiag n d *m A ==m Mat (nr A) (nc A) (fun i j => d i * ent A i j).
Proof.
  intros ->. repeat split. simpl. intros i j Hi Hj.
  rewrite (csum_single _ _ i Hi).
  - rewrite Nat.eqb_refl; ring.
  - intros k Hk Hn. rewrite (proj2 (Nat.eqb_neq i k)) by auto. ring.
Qed.
Lemma mmul_diag_r n d A : n = nc A -> A *m mdiag n d ==m Mat (nr A) (nc A) (fun i j => ent A i j * d j).
Proof.
  intros ->. repeat split. simpl. intros i j Hi Hj.
  rewrite (csum_single _ _ j Hj).
  - rewrite Nat.eqb_refl; ring.
  - intros k Hk Hn. rewrite (proj2 (Nat.eqb_neq k j)) by auto. ring.
Qed.
Lemma mher_mmul A B : nc A = nr B -> mher (A *m B) ==m mher B *m mher A.
Proof.
  intros S. repeat split. simpl. intros i j Hi Hj. rewrite csum_conj, <- S.
  apply csum_ext. intros. rewrite Cmult_conj. ring.
Qed.
Lemma mher_mher A : mher (mher A) ==m A.
Proof. repeat split. simpl. intros. apply Cconj_conj. Qed.
Lemma mher_mid n : mher (mid n) ==m mid n.
Proof.
  repeat split. simpl. intros. rewrite (Nat.eqb_sym j i). destruct (Nat.eqb i j); [apply Cconj_1 | apply Cconj_0].
Qed.
Lemma mher_madd A B : nr A = nr B -> nc A = nc B -> mher (A +m B) ==m mher A +m mher B.
Proof. repeat split. simpl. intros. apply Cplus_conj. Qed.
Lemma mher_msub A B : nr A = nr B -> nc A = nc B -> mher (A -m B) ==m mher A -m mher B.
Proof. repeat split. simpl. intros. apply Cminus_conj. Qed.
Lemma mher_mscal c A : mher (mscal c A) ==m mscal (Cconj c) (mher A).
Proof. repeat split. simpl. intros. apply Cmult_conj. Qed.
Lemma mmul_add_l A B D : nr A = nr B -> nc A = nc B -> (A +m B) *m D ==m A *m D +m B *m D.
Proof.
  intros S1 S2. repeat split. simpl. intros. rewrite <- S2, <- csum_plus. apply csum_ext; intros; ring.
Qed.
Lemma mmul_add_r A B D : A *m (B +m D) ==m A *m B +m A *m D.
Proof. repeat split. simpl. intros. rewrite <- csum_plus. apply csum_ext; intros; ring. Qed.
Lemma mmul_sub_l A B D : nr A = nr B -> nc A = nc B -> (A -m B) *m D ==m A *m D -m B *m D.
Proof.
  intros S1 S2. repeat split. simpl. intros. rewrite <- S2, <- csum_minus. apply csum_ext; intros; ring.
Qed.
Lemma mmul_sub_r A B D : A *m (B -m D) ==m A *m B -m A *m D.
Proof. repeat split. simpl. intros. rewrite <- csum_minus. apply csum_ext; intros; ring. Qed.
Lemma mscal_mmul_l c A B : mscal c A *m B ==m mscal c (A *m B).
Proof. repeat split. simpl. intros. rewrite <- csum_scal. apply csum_ext; intros; ring. Qed.
Lemma mscal_mmul_r c A B : A *m mscal c B ==m mscal c (A *m B).
Proof. repeat split. simpl. intros. rewrite <- csum_scal. apply csum_ext; intros; ring. Qed.
Lemma mtrace_mmul_comm A B : nc A = nr B -> nc B = nr A -> mtrace (A *m B) = mtrace (B *m A).
Proof.
  intros S1 S2. unfold mtrace. simpl. rewrite csum_swap, S1, S2.
  apply csum_ext. intros. apply csum_ext. intros. ring.
Qed.

(** *** Hermitian and positive semidefinite matrices *)
Definition hermitian (A : cmat) : Prop :=
  nr A = nc A /\ forall i j, (i < nr A)%nat -> (j < nr A)%nat -> ent A i j = Cconj (ent A j i).
(** the quadratic form x^H A x *)
Definition qform (A : cmat) (x : nat -> C) : C :=
  csum (nr A) (fun i => csum (nc A) (fun j => Cconj (x i) * ent A i j * x j)).
Definition psd (A : cmat) : Prop :=
  hermitian A /\ forall x, (0 <= Re (qform A x))%R.
Definition pd (A : cmat) : Prop :=
  hermitian A /\ forall x, (exists i, (i < nr A)%nat /\ x i <> RtoC 0) -> (0 < Re (qform A x))%R.
(** squared Euclidean norm of a vector of length n *)
Definition vnorm2 (n : nat) (x : nat -> C) : R := rsum n (fun i => Cnorm2 (x i)).
(** A x *)
Definition mvec (A : cmat) (x : nat -> C) : nat -> C := fun i => csum (nc A) (fun j => ent A i j * x j).

Lemma hermitian_mher A : hermitian A <-> mher A ==m A.
Proof.
  split.
  - intros (S & H). split; [simpl; auto|]. split; [simpl; auto|]. simpl.
    intros i j Hi Hj. symmetry. apply H; lia.
  - intros (H1 & H2 & H3). simpl in *. split; [auto|]. intros i j Hi Hj. symmetry. apply H3; lia.
Qed.
Lemma hermitian_eq A B : A ==m B -> hermitian A -> hermitian B.
Proof. rewrite !hermitian_mher. intros E H. rewrite <- E. exact H. Qed.
Lemma qform_eq A B x : A ==m B -> qform A x = qform B x.
Proof.
  intros (H1 & H2 & H3). unfold qform. rewrite <- H1, <- H2.
  apply csum_ext. intros. apply csum_ext. intros. rewrite H3 by assumption. reflexivity.
Qed.
Lemma psd_eq A B : A ==m B -> psd A -> psd B.
Proof.
  intros E (H & P). split; [eapply hermitian_eq; eauto|]. intros x. rewrite <- (qform_eq A B x E). apply P.
Qed.
Lemma pd_eq A B : A ==m B -> pd A -> pd B.
Proof.
  intros E (H & P). split; [eapply hermitian_eq; eauto|]. intros x Hx. rewrite <- (qform_eq A B x E). apply P.
  destruct E as (E1 & _). rewrite E1. exact Hx.
Qed.
Lemma qform_conj A x : hermitian A -> Cconj (qform A x) = qform A x.
Proof.
  intros (S & H). unfold qform. rewrite csum_conj, <- S.
  rewrite (csum_ext _ _ (fun i => csum (nr A) (fun j => x i * Cconj (ent A i j) * Cconj (x j)))).
  2:{ intros i Hi. rewrite csum_conj. apply csum_ext. intros. rewrite !Cmult_conj, Cconj_conj. ring. }
  rewrite csum_swap. apply csum_ext. intros i Hi. apply csum_ext. intros j Hj.
  rewrite (H i j Hi Hj). ring.
Qed.
Lemma qform_Im A x : hermitian A -> Im (qform A x) = 0%R.
Proof. intros H. pose proof (f_equal Im (qform_conj A x H)) as E. rewrite Im_conj in E. lra. Qed.
Lemma qform_real A x : hermitian A -> qform A x = RtoC (Re (qform A x)).
Proof. intros H. apply C_eq; simpl; [reflexivity | apply qform_Im, H]. Qed.

(** x^H (G^H G) x = |G x|^2 *)
Lemma qform_gram G x : qform (mher G *m G) x = RtoC (vnorm2 (nr G) (mvec G x)).
Proof.
  unfold qform, vnorm2, mvec. simpl.
  rewrite (csum_ext _ _ (fun i => csum (nr G) (fun k => Cconj (ent G k i * x i) * csum (nc G) (fun j => ent G k j * x j)))).
  - rewrite csum_swap, <- csum_RtoC. apply csum_ext. intros k Hk.
    rewrite csum_scal_r, <- csum_conj. apply Cconj_mult_norm2.
  - intros i Hi.
    rewrite (csum_ext (nc G) _ (fun j => csum (nr G) (fun k => Cconj (ent G k i * x i) * (ent G k j * x j)))).
    + rewrite csum_swap. apply csum_ext. intros k Hk. now rewrite csum_scal.
    + intros j Hj. rewrite <- csum_scal, <- csum_scal_r. apply csum_ext. intros. rewrite Cmult_conj. ring.
Qed.
Lemma hermitian_gram G : hermitian (mher G *m G).
Proof.
  split; [reflexivity|]. simpl. intros i j Hi Hj. rewrite csum_conj.
  apply csum_ext. intros. rewrite Cmult_conj, Cconj_conj. ring.
Qed.
Lemma vnorm2_nonneg n x : (0 <= vnorm2 n x)%R.
Proof. apply rsum_nonneg. intros; apply Cnorm2_nonneg. Qed.
Lemma vnorm2_0 n x : vnorm2 n x = 0%R -> forall i, (i < n)%nat -> x i = 0.
Proof.
  intros H i Hi. apply Cnorm2_0.
  apply (rsum_nonneg_0 n (fun i => Cnorm2 (x i))); auto. intros; apply Cnorm2_nonneg.
Qed.
Lemma psd_gram G : psd (mher G *m G).
Proof. split; [apply hermitian_gram|]. intros x. rewrite qform_gram. simpl. apply vnorm2_nonneg. Qed.
Lemma psd_gram' G : psd (G *m mher G).
Proof.
  apply (psd_eq (mher (mher G) *m mher G)); [|apply psd_gram].
  apply mmul_eq_l. apply mher_mher.
Qed.

(** x^H (B^H A B) x = (Bx)^H A (Bx) *)
Lemma qform_congr A B x : nr B = nr A -> nr A = nc A ->
  qform (mher B *m A *m B) x = qform A (mvec B x).
Proof.
  intros S1 S2. unfold qform, mvec. simpl. rewrite <- S2, S1.
  transitivity (csum (nc B) (fun a => csum (nr A) (fun i => csum (nr A) (fun j =>
     Cconj (ent B i a * x a) * ent A i j * csum (nc B) (fun b => ent B j b * x b))))).
  - apply csum_ext. intros a Ha.
    transitivity (csum (nc B) (fun b => csum (nr A) (fun j => csum (nr A) (fun i => 
      Cconj (ent B i a * x a) * ent A i j * (ent B j b * x b))))).
    + apply csum_ext. intros b Hb. rewrite <- csum_scal, <- csum_scal_r. apply csum_ext. intros j Hj.
      rewrite <- csum_scal_r, <- csum_scal, <- csum_scal_r. apply csum_ext. intros i Hi. rewrite Cmult_conj. ring.
    + rewrite csum_swap.
      rewrite (csum_ext _ _ (fun j => csum (nr A) (fun i => csum (nc B) (fun b => Cconj (ent B i a * x a) * ent A i j * (ent B j b * x b)))))
        by (intros; apply csum_swap).
      rewrite csum_swap. apply csum_ext. intros i Hi. apply csum_ext. intros j Hj. now rewrite csum_scal.
  - rewrite csum_swap. apply csum_ext. intros i Hi. rewrite csum_swap. apply csum_ext. intros j Hj.
    rewrite csum_scal_r. rewrite csum_scal_r. rewrite csum_conj. reflexivity.
Qed.
Lemma hermitian_congr A B : nr B = nr A -> hermitian A -> hermitian (mher B *m A *m B).
Proof.
  intros S H. apply hermitian_mher. pose proof H as (S2 & _). rewrite hermitian_mher in H.
  rewrite mher_mmul by (simpl; lia).
  transitivity (mher B *m mher (mher B *m A)); [reflexivity|].
  transitivity (mher B *m (mher A *m mher (mher B))).
  { apply mmul_eq_r; [simpl; lia|]. apply mher_mmul. simpl; lia. }
  transitivity (mher B *m (A *m B)).
  { apply mmul_eq_r; [simpl; lia|]. apply mmul_eq; [simpl; lia | exact H | apply mher_mher]. }
  symmetry. apply mmul_assoc.
Qed.
Lemma psd_congr A B : nr B = nr A -> psd A -> psd (mher B *m A *m B).
Proof.
  intros S (H & P). split; [now apply hermitian_congr|]. intros x. rewrite qform_congr by (auto; apply H). apply P.
Qed.
Lemma psd_congr' A B : nc B = nr A -> psd A -> psd (B *m A *m mher B).
Proof.
  intros S P. apply (psd_eq (mher (mher B) *m A *m mher B)).
  - apply mmul_eq_l, mmul_eq_l, mher_mher.
  - apply psd_congr; simpl; auto.
Qed.
Lemma qform_madd A B x : nr A = nr B -> nc A = nc B -> qform (A +m B) x = qform A x + qform B x.
Proof.
  intros S1 S2. unfold qform. simpl. rewrite <- S1, <- S2, <- csum_plus. apply csum_ext. intros.
  rewrite <- csum_plus. apply csum_ext. intros. ring.
Qed.
Lemma qform_mscal c A x : qform (mscal c A) x = c * qform A x.
Proof.
  unfold qform. simpl. rewrite <- csum_scal. apply csum_ext. intros.
  rewrite <- csum_scal. apply csum_ext. intros. ring.
Qed.
Lemma hermitian_madd A B : nr A = nr B -> hermitian A -> hermitian B -> hermitian (A +m B).
Proof.
  intros S (S1 & H1) (S2 & H2). split; [exact S1|]. simpl. intros i j Hi Hj.
  rewrite H1, H2, Cplus_conj by lia. reflexivity.
Qed.
Lemma hermitian_msub A B : nr A = nr B -> hermitian A -> hermitian B -> hermitian (A -m B).
Proof.
  intros S (S1 & H1) (S2 & H2). split; [exact S1|]. simpl. intros i j Hi Hj.
  rewrite H1, H2, Cminus_conj by lia. reflexivity.
Qed.
Lemma hermitian_mscal (c : R) A : hermitian A -> hermitian (mscal (RtoC c) A).
Proof.
  intros (S1 & H1). split; [exact S1|]. simpl. intros i j Hi Hj.
  rewrite H1, Cmult_conj, Cconj_RtoC by lia. reflexivity.
Qed.
Lemma psd_madd A B : nr A = nr B -> psd A -> psd B -> psd (A +m B).
Proof.
  intros S (H1 & P1) (H2 & P2). split; [now apply hermitian_madd|]. intros x.
  rewrite qform_madd; [| exact S | destruct H1 as (E1 & _), H2 as (E2 & _); lia].
  rewrite Re_plus. pose proof (P1 x). pose proof (P2 x). lra.
Qed.
Lemma psd_mscal (c : R) A : (0 <= c)%R -> psd A -> psd (mscal (RtoC c) A).
Proof.
  intros Hc (H1 & P1). split; [now apply hermitian_mscal|]. intros x.
  rewrite qform_mscal, Re_mult, Re_RtoC, Im_RtoC. pose proof (P1 x). nra.
Qed.
Lemma hermitian_mid n : hermitian (mid n).
Proof. apply hermitian_mher, mher_mid. Qed.
Lemma qform_mid n x : qform (mid n) x = RtoC (vnorm2 n x).
Proof.
  unfold qform, vnorm2. simpl. rewrite <- csum_RtoC. apply csum_ext. intros i Hi.
  rewrite (csum_single _ _ i Hi).
  - rewrite Nat.eqb_refl, <- Cconj_mult_norm2. ring.
  - intros k Hk Hn. rewrite (proj2 (Nat.eqb_neq i k)) by auto. ring.
Qed.
Lemma psd_mid n : psd (mid n).
Proof. split; [apply hermitian_mid|]. intros x. rewrite qform_mid. simpl. apply vnorm2_nonneg. Qed.
Lemma psd_mdiag n d : (forall i, (i < n)%nat -> (0 <= d i)%R) -> psd (mdiag n (fun i => RtoC (d i))).
Proof.
  intros Hd. split.
  - split; [reflexivity|]. simpl. intros i j Hi Hj. rewrite (Nat.eqb_sym j i).
    destruct (Nat.eqb i j) eqn:E; [apply Nat.eqb_eq in E; subst; now rewrite Cconj_RtoC | now rewrite Cconj_0].
  - intros x. unfold qform. simpl. rewrite csum_Re. apply rsum_nonneg. intros i Hi.
    rewrite (csum_single _ _ i Hi).
    + rewrite Nat.eqb_refl.
      replace (Cconj (x i) * RtoC (d i) * x i) with (RtoC (d i * Cnorm2 (x i))%R)
        by (rewrite RtoC_mult, <- Cconj_mult_norm2; ring).
      simpl. apply Rmult_le_pos; [auto | apply Cnorm2_nonneg].
    + intros k Hk Hn. rewrite (proj2 (Nat.eqb_neq i k)) by auto. ring.
Qed.
(** diagonal entries of a PSD matrix are real and non-negative *)
Lemma psd_diag A i : psd A -> (i < nr A)%nat -> (0 <= Re (ent A i i))%R /\ Im (ent A i i) = 0%R.
Proof.
  intros ((S & H) & P) Hi. split.
  - specialize (P (fun k => if Nat.eqb k i then RtoC 1 else RtoC 0)). unfold qform in P.
    rewrite (csum_single _ _ i Hi) in P.
    + rewrite <- S, (csum_single _ _ i Hi) in P.
      * rewrite Nat.eqb_refl, Cconj_1 in P. rewrite Cmult_1_l, Cmult_1_r in P. exact P.
      * intros k Hk Hn. rewrite (proj2 (Nat.eqb_neq k i)) by auto. ring.
    + intros k Hk Hn. apply csum_0. intros. rewrite (proj2 (Nat.eqb_neq k i)) by auto. rewrite Cconj_0. ring.
  - pose proof (f_equal Im (H i i Hi Hi)) as E. rewrite Im_conj in E. lra.
Qed.
Lemma psd_trace_nonneg A : psd A -> (0 <= Re (mtrace A))%R /\ Im (mtrace A) = 0%R.
Proof.
  intros P. unfold mtrace. rewrite csum_Re, csum_Im. split.
  - apply rsum_nonneg. intros; now apply psd_diag.
  - apply rsum_0. intros; now apply psd_diag.
Qed.
