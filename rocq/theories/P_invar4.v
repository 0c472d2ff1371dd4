(** Invariance of root-MUSIC and ESPRIT. *)
From Coq Require Import Sorting.Sorted Sorting.Permutation.
From Verif Require Import Base_Np Base_Lin P_courant M_sources P_sources M_core M_subspace S_subspace P_subspace P_subspace3 P_subspace4 P_equiv2 P_ml7 P_signals Prop_subspace S_invar S_invar2 P_invar.
Open Scope C_scope.

(** *** the signal subspace *)
Definition last_cols (m k : nat) (E : cmat) : cmat := Mat m k (fun i j => ent E i (m - k + j)).
Lemma signal_unitary A w E w' E' k : hermitian A -> eigh_ok A w E -> eigh_ok A w' E' -> (k < nr A)%nat ->
  (nth (nr A - k - 1) w 0 < nth (nr A - k) w 0)%R ->
  exists G : cmat, nr G = k /\ nc G = k /\ mher G *m G ==m mid k /\ last_cols (nr A) k E' ==m last_cols (nr A) k E *m G.
Proof.
  intros HA HE HE' Hp Gap. pose proof (eig_unique A w E w' E' HA HE HE') as <-.
  set (p := (nr A - k)%nat) in *.
  set (G := (Mat k k (fun i j => vdot (nr A) (col E (p + i)) (col E' (p + j))) : cmat)).
  assert (Srt : StronglySorted Rle w) by apply HE. assert (Lw : List.length w = nr A) by apply HE.
  assert (Cr : forall i j, (i < p)%nat -> (j < k)%nat -> vdot (nr A) (col E i) (col E' (p + j)) = RtoC 0).
  { intros i j Hi Hj. apply (eig_cross A w E w E'); auto; [unfold p in *; lia|unfold p in *; lia|].
    pose proof (sorted_nth w i (p - 1) Srt ltac:(lia) ltac:(unfold p in *; lia)). pose proof (sorted_nth w p (p + j) Srt ltac:(lia) ltac:(unfold p in *; lia)). lra. }
  assert (EG : last_cols (nr A) k E' ==m last_cols (nr A) k E *m G).
  { split; [reflexivity|]. split; [reflexivity|]. intros i j Hi Hj. cbn [last_cols nr nc] in Hi, Hj. cbn [mmul last_cols nr nc ent G]. fold p.
    change (ent E' i (p + j)) with (col E' (p + j) i). rewrite (eigh_expand A w E (col E' (p + j)) i HE Hi).
    replace (nr A) with (p + k)%nat at 1 by (unfold p; lia). rewrite csum_app.
    rewrite (csum_0 p); [|intros r Hr; cbn beta; rewrite Cr by lia; ring].
    rewrite Cplus_0_l. apply csum_ext. intros r Hr. ring. }
  exists G. split; [reflexivity|]. split; [reflexivity|]. split; [|exact EG].
  split; [reflexivity|]. split; [reflexivity|]. intros i j Hi Hj. cbn [mmul mher G nr nc] in Hi, Hj.
  transitivity (vdot (nr A) (col E' (p + i)) (col E' (p + j))).
  - cbn [mmul mher G nr nc ent].
    rewrite (vdot_ext2 (nr A) (col E' (p + i)) (col E' (p + i)) (col E' (p + j)) (fun r => csum k (fun q => vdot (nr A) (col E (p + q)) (col E' (p + j)) * ent E r (p + q)))); [|reflexivity|].
    2:{ intros r Hr. destruct EG as (_ & _ & X). specialize (X r j Hr Hj). cbn [mmul last_cols nr nc ent G] in X. fold p in X. unfold col at 1. rewrite X. apply csum_ext. intros; ring. }
    unfold vdot at 3. rewrite (csum_ext (nr A) _ (fun r => csum k (fun q => Cconj (col E' (p + i) r) * (vdot (nr A) (col E (p + q)) (col E' (p + j)) * ent E r (p + q))))) by (intros r Hr; now rewrite csum_scal).
    rewrite csum_swap. apply csum_ext. intros q Hq. rewrite (vdot_conj (nr A)).
    unfold vdot at 1. rewrite Cmult_comm, <- csum_scal. apply csum_ext. intros r Hr. unfold col. ring.
  - cbn [mid ent]. rewrite (eigh_orth A w E' (p + i) (p + j) HE') by (unfold p in *; lia).
    destruct (Nat.eqb_spec (p + i) (p + j)), (Nat.eqb_spec i j); try lia; reflexivity.
Qed.

(** *** eigenvalues of similar matrices *)
Lemma eigenvalue_transfer X X' G k z : nr X = k -> nc X = k -> nr X' = k -> nc X' = k -> nr G = k -> nc G = k -> inj G -> G *m X' ==m X *m G ->
  eigenvalue X' z -> eigenvalue X z.
Proof.
  intros a1 a2 b1 b2 g1 g2 IG EQ (v & (i & Hi & Nv) & Hv). rewrite b1 in *. exists (mvec G v). split.
  - destruct (nonzero_dec k (mvec G v)) as [H|H]; [|destruct H as (q & Hq & Nq); exists q; split; [lia|exact Nq]].
    exfalso. apply Nv. apply (IG v); [|lia]. intros q Hq. apply H. lia.
  - rewrite a1. intros q Hq. rewrite <- mvec_mmul. rewrite <- (mvec_eq _ _ v q EQ) by (cbn [mmul nr]; lia). rewrite mvec_mmul.
    rewrite <- mvec_scal. unfold mvec at 1 3. apply csum_ext. intros r Hr. rewrite g2 in Hr. rewrite Hv by lia. reflexivity.
Qed.
Lemma unitary_inj k G : nr G = k -> nc G = k -> mher G *m G ==m mid k -> inj G.
Proof. intros a b H. apply (left_inv_inj G (mher G) k); [exact H|reflexivity]. Qed.
Lemma eigenvalue_similar X X' G k z : nr X = k -> nc X = k -> nr X' = k -> nc X' = k -> nr G = k -> nc G = k -> mher G *m G ==m mid k -> G *m X' ==m X *m G ->
  (eigenvalue X' z <-> eigenvalue X z).
Proof.
  intros a1 a2 b1 b2 g1 g2 U EQ. split; [apply (eigenvalue_transfer X X' G k z); auto; now apply (unitary_inj k)|].
  assert (U2 : G *m mher G ==m mid k) by (apply left_inv_right; cbn; auto).
  apply (eigenvalue_transfer X' X (mher G) k z); auto; [apply (left_inv_inj (mher G) G k); [exact U2|reflexivity]|].
  assert (Q : mher G *m X ==m mher G *m ((X *m G) *m mher G)).
  { apply mmul_eq_r; [cbn; congruence|]. rewrite (mmul_assoc X G (mher G)). rewrite (mmul_eq_r X (G *m mher G) (mid k) ltac:(cbn; congruence) U2).
    symmetry. apply mmul_id_r. congruence. }
  rewrite Q. etransitivity; [apply (mmul_eq_r (mher G) _ (G *m (X' *m mher G))); [cbn; congruence|]|].
  - etransitivity; [apply mmul_eq_l; symmetry; exact EQ|]. apply mmul_assoc.
  - rewrite <- (mmul_assoc (mher G) G). rewrite (mmul_eq_l _ _ _ U). apply mmul_id_l. cbn; congruence.
Qed.

(** *** the rotation matrix *)
Lemma rot_ls_inv eigh eigh' solve solve' k Es1 Es2 Es1' Es2' G : solve_contract k solve -> solve_contract k solve' ->
  nr Es2 = nr Es1 -> nc Es1 = k -> nc Es2 = k -> nr G = k -> nc G = k -> mher G *m G ==m mid k -> Es1' ==m Es1 *m G -> Es2' ==m Es2 *m G -> inj Es1 ->
  exists X X', rotation eigh solve "ls" (Z.of_nat k) Es1 Es2 = Ok X /\ rotation eigh' solve' "ls" (Z.of_nat k) Es1' Es2' = Ok X' /\
    nr X = k /\ nc X = k /\ nr X' = k /\ nc X' = k /\ G *m X' ==m X *m G.
Proof.
  intros HS HS' N2 C1 C2 g1 g2 U Q1 Q2 HI. pose proof Q1 as (n1' & c1' & _). pose proof Q2 as (n2' & c2' & _). cbn [mmul nr nc] in n1', c1', n2', c2'.
  assert (IG : inj G) by (now apply (unitary_inj k)).
  assert (HI' : inj Es1').
  { intros x Hx j Hj. rewrite c1', g2 in Hj. apply (IG x); [|lia]. intros i Hi. rewrite g1 in Hi. apply (HI (mvec G x)); [|lia]. intros q Hq. rewrite <- mvec_mmul. rewrite <- (mvec_eq _ _ x q Q1) by (cbn [mmul nr]; lia). apply Hx. lia. }
  unfold rotation. cbn [String.eqb Ascii.eqb Bool.eqb].
  rewrite !matmul_ok by (cbn [mher nc]; congruence). cbn [bind].
  destruct (HS (mher Es1 *m Es1) (mher Es1 *m Es2)) as (X & EX & X1 & X2 & X3); [reflexivity | cbn [mmul mher nr]; lia | apply pd_inj, gram_pd, HI | reflexivity |].
  destruct (HS' (mher Es1' *m Es1') (mher Es1' *m Es2')) as (X' & EX' & X1' & X2' & X3'); [reflexivity | cbn [mmul mher nr]; lia | apply pd_inj, gram_pd, HI' | reflexivity |].
  cbn [mmul mher nr nc] in X1, X2, X1', X2'.
  exists X, X'. split; [exact EX|]. split; [exact EX'|]. do 4 (split; [congruence|]).
  apply (inj_cancel (mher Es1' *m Es1)); [cbn [mmul mher nc nr]; congruence..| |].
  - (* mher Es1' *m Es1 = G^H (Es1^H Es1) *)
    intros x Hx j Hj. cbn [mmul nc] in Hj. apply (pd_inj _ (gram_pd Es1 HI) x); [|cbn [mmul mher nr nc]; lia]. intros i Hi. cbn [mmul mher nr] in Hi.
    assert (U2 : inj (mher G)) by (apply (left_inv_inj (mher G) G k); [apply left_inv_right; cbn; auto|reflexivity]).
    apply (U2 (mvec (mher Es1 *m Es1) x)); [|cbn [mher nc]; lia]. intros q Hq. rewrite <- mvec_mmul.
    rewrite <- (Hx q) by (cbn [mmul mher nr]; cbn [mher nr] in Hq; lia).
    apply mvec_eq; [|cbn [mmul mher nr]; cbn [mher nr] in Hq; lia].
    rewrite <- mmul_assoc. apply mmul_eq_l. symmetry. rewrite (mher_eq _ _ Q1). apply mher_mmul; congruence.
  - rewrite <- (mmul_assoc (mher Es1' *m Es1) G X'). rewrite (mmul_eq_l _ (mher Es1' *m Es1') X').
    2:{ rewrite mmul_assoc. apply mmul_eq_r; [cbn [mher mmul nr nc]; congruence|]. now symmetry. }
    rewrite X3'. rewrite <- (mmul_assoc (mher Es1' *m Es1) X G).
    rewrite (mmul_eq_r (mher Es1') Es2' (Es2 *m G) ltac:(cbn [mher nc]; congruence) Q2). rewrite <- (mmul_assoc (mher Es1') Es2 G). apply mmul_eq_l.
    assert (HH : mher Es1' ==m mher G *m mher Es1) by (rewrite (mher_eq _ _ Q1); apply mher_mmul; congruence).
    rewrite (mmul_eq_l _ _ Es2 HH), (mmul_assoc (mher Es1') Es1 X), (mmul_eq_l _ _ (Es1 *m X) HH).
    rewrite !mmul_assoc. apply mmul_eq_r; [cbn [mher mmul nc nr]; congruence|]. rewrite <- mmul_assoc. now symmetry.
Qed.

Definition T12 (k : nat) (V : cmat) : cmat := Mat k k (fun i j => ent V i j).
Definition T22 (k : nat) (V : cmat) : cmat := Mat k k (fun i j => ent V (k + i) j).
Lemma rot_tls_value eigh solve k Es1 Es2 w V : solve_contract k solve -> nr Es2 = nr Es1 -> eigh (mher (hcat Es1 Es2) *m hcat Es1 Es2) = Ok (w, V) -> nr V = (2 * k)%nat -> nc V = (2 * k)%nat ->
  inj (T22 k V) -> exists X, rotation eigh solve "tls" (Z.of_nat k) Es1 Es2 = Ok X /\ nr X = k /\ nc X = k /\ X *m T22 k V ==m mscal (RtoC (-1)) (T12 k V).
Proof.
  intros HS N2 EV VR VC IT. unfold rotation. cbn [String.eqb Ascii.eqb Bool.eqb]. rewrite matmul_ok by reflexivity. cbn [bind]. rewrite EV. cbn [bind].
  set (F := fliplr V). set (V12 := m_slice F None (Some (Z.of_nat k)) (Some (Z.of_nat k)) None). set (V22 := m_slice F (Some (Z.of_nat k)) None (Some (Z.of_nat k)) None).
  assert (B1 : clip_bound (2 * k) (Z.of_nat k) = k) by (unfold clip_bound; destruct (Z.ltb_spec (Z.of_nat k) 0); [lia|]; rewrite Z.min_l, Nat2Z.id by lia; reflexivity).
  assert (D12 : nr V12 = k /\ nc V12 = k /\ forall i j, (j < k)%nat -> ent V12 i j = ent V i (k - 1 - j)).
  { unfold V12, m_slice, slice_bounds, F, fliplr. cbn [nr nc]. rewrite VR, VC, B1. cbn [nr nc ent]. split; [lia|]. split; [lia|]. intros i j Hj. f_equal; lia. }
  assert (D22 : nr V22 = k /\ nc V22 = k /\ forall i j, (j < k)%nat -> ent V22 i j = ent V (k + i) (k - 1 - j)).
  { unfold V22, m_slice, slice_bounds, F, fliplr. cbn [nr nc]. rewrite VR, VC, B1. cbn [nr nc ent]. split; [lia|]. split; [lia|]. intros i j Hj. f_equal; lia. }
  destruct D12 as (R12 & C12 & E12), D22 as (R22 & C22 & E22).
  assert (I22 : inj V22).
  { intros x Hx j Hj. rewrite C22 in Hj. rewrite R22 in Hx. replace j with (k - 1 - (k - 1 - j))%nat by lia.
    apply (IT (fun q => x (k - 1 - q)%nat)); [|cbn [T22 nc]; lia]. intros i Hi. cbn [T22 nr] in Hi. rewrite <- (Hx i Hi). unfold mvec. cbn [T22 nc ent]. rewrite C22.
    rewrite <- (csum_rev k (fun q => ent V22 i q * x q)). apply csum_ext. intros q Hq. rewrite E22 by lia. f_equal. f_equal. lia. }
  destruct (inj_inverse (T22 k V) k eq_refl eq_refl IT) as (B & b1 & b2 & VB & BV).
  assert (PV : (T12 k V *m B) *m T22 k V ==m T12 k V).
  { rewrite mmul_assoc. rewrite (mmul_eq_r (T12 k V) (B *m T22 k V) (mid k) ltac:(cbn; congruence) BV). now apply mmul_id_r. }
  destruct (solve_T V22 V12 k (T12 k V *m B) solve HS R22 C22 R12 C12 eq_refl b2 I22) as (X & EX & XT).
  { split; [exact R12|]. split; [cbn [mmul nc]; congruence|]. intros i j Hi Hj. rewrite E12 by lia. destruct PV as (_ & _ & PV). rewrite R12 in Hi. rewrite C12 in Hj.
    specialize (PV i (k - 1 - j)%nat Hi ltac:(cbn; lia)). cbn [T12 ent] in PV. rewrite <- PV. cbn [mmul ent nc]. apply csum_ext. intros q Hq. rewrite E22 by lia. reflexivity. }
  rewrite EX. cbn [bind]. pose proof XT as (x1 & x2 & x3). cbn [mtr nr nc mmul T12] in x1, x2. eexists. split; [reflexivity|]. split; [cbn [mscal mtr nr]; congruence|]. split; [cbn [mscal mtr nc]; congruence|].
  rewrite mscal_mmul_l. apply mscal_eq'. rewrite (mmul_eq_l _ _ (T22 k V) XT). exact PV.
Qed.
Definition blk (k : nat) (G : cmat) : cmat := Mat (2 * k) (2 * k) (fun i j => if (i <? k)%nat then (if (j <? k)%nat then ent G i j else RtoC 0) else (if (j <? k)%nat then RtoC 0 else ent G (i - k) (j - k))).
Lemma blk_mul k G H : nr G = k -> nc G = k -> nr H = k -> nc H = k -> blk k G *m blk k H ==m blk k (G *m H).
Proof.
  intros g1 g2 h1 h2. split; [reflexivity|]. split; [reflexivity|]. intros i j Hi Hj. cbn [blk mmul nr nc ent] in *. replace (2 * k)%nat with (k + k)%nat by lia. rewrite csum_app.
  assert (B1 : forall q, (q < k)%nat -> (q <? k)%nat = true) by (intros; now apply Nat.ltb_lt). assert (B2 : forall q, (k + q <? k)%nat = false) by (intros; apply Nat.ltb_ge; lia).
  rewrite (csum_ext k _ (fun q => (if (i <? k)%nat then ent G i q else RtoC 0) * (if (j <? k)%nat then ent H q j else RtoC 0))) by (intros q Hq; rewrite (B1 q Hq); reflexivity).
  rewrite (csum_ext k (fun i0 => (if (i <? k)%nat then if (k + i0 <? k)%nat then _ else _ else _) * _) (fun q => (if (i <? k)%nat then RtoC 0 else ent G (i - k) q) * (if (j <? k)%nat then RtoC 0 else ent H q (j - k)))).
  2:{ intros q Hq. rewrite !B2. replace (k + q - k)%nat with q by lia. reflexivity. }
  rewrite g2. destruct (i <? k)%nat, (j <? k)%nat.
  - rewrite (csum_0 k (fun q => RtoC 0 * RtoC 0)); [ring|intros; ring].
  - rewrite (csum_0 k (fun q => ent G i q * RtoC 0)); [|intros; ring]. rewrite csum_0; [ring|intros; ring].
  - rewrite csum_0; [|intros; ring]. rewrite csum_0; [ring|intros; ring].
  - rewrite csum_0; [ring|intros; ring].
Qed.
Lemma blk_her k G : nr G = k -> nc G = k -> mher (blk k G) ==m blk k (mher G).
Proof.
  intros. split; [reflexivity|]. split; [reflexivity|]. intros i j Hi Hj. cbn [mher blk ent]. destruct (i <? k)%nat, (j <? k)%nat; try reflexivity; now rewrite Cconj_RtoC.
Qed.
Lemma blk_id k G : G ==m mid k -> blk k G ==m mid (2 * k).
Proof.
  intros (a & b & H). cbn in a, b. split; [reflexivity|]. split; [reflexivity|]. intros i j Hi Hj. cbn [blk nr nc ent mid] in *. cbn [mid ent] in H.
  destruct (Nat.ltb_spec i k), (Nat.ltb_spec j k); try (destruct (Nat.eqb_spec i j); [lia|reflexivity]).
  - apply H; lia.
  - rewrite H by lia. destruct (Nat.eqb_spec (i - k) (j - k)), (Nat.eqb_spec i j); try lia; reflexivity.
Qed.
Lemma hcat_blk Es1 Es2 Es1' Es2' k G : nr Es2 = nr Es1 -> nc Es1 = k -> nc Es2 = k -> nr G = k -> nc G = k -> Es1' ==m Es1 *m G -> Es2' ==m Es2 *m G ->
  hcat Es1' Es2' ==m hcat Es1 Es2 *m blk k G.
Proof.
  intros n2 c1 c2 g1 g2 (a1 & a2 & Q1) (b1 & b2 & Q2). cbn [mmul nr nc] in a1, a2, b1, b2. split; [cbn; congruence|]. split; [cbn [hcat blk mmul nc]; lia|].
  intros i j Hi Hj. cbn [hcat nr nc] in Hi, Hj. cbn [hcat blk mmul nc ent]. rewrite c1, c2, a2, g2. rewrite csum_app.
  assert (B1 : forall q, (q < k)%nat -> (q <? k)%nat = true) by (intros; now apply Nat.ltb_lt). assert (B2 : forall q, (k + q <? k)%nat = false) by (intros; apply Nat.ltb_ge; lia).
  rewrite (csum_ext k _ (fun q => ent Es1 i q * (if (j <? k)%nat then ent G q j else RtoC 0))) by (intros q Hq; rewrite (B1 q Hq); reflexivity).
  rewrite (csum_ext k (fun i0 => (if (k + i0 <? k)%nat then _ else _) * _) (fun q => ent Es2 i q * (if (j <? k)%nat then RtoC 0 else ent G q (j - k)))).
  2:{ intros q Hq. rewrite !B2. replace (k + q - k)%nat with q by lia. reflexivity. }
  destruct (Nat.ltb_spec j k).
  - rewrite Q1 by lia. cbn [mmul ent]. rewrite c1. rewrite (csum_0 k (fun q => ent Es2 i q * RtoC 0)); [ring|intros; ring].
  - rewrite Q2 by lia. cbn [mmul ent]. rewrite c2. rewrite (csum_0 k (fun q => ent Es1 i q * RtoC 0)); [ring|intros; ring].
Qed.
Lemma gram_blk S S' W : nc S = nr W -> S' ==m S *m W -> mher S' *m S' ==m mher W *m (mher S *m S) *m W.
Proof.
  intros D Q. assert (HQ : mher S' ==m mher W *m mher S) by (rewrite (mher_eq _ _ Q); apply mher_mmul; congruence).
  rewrite (mmul_eq (mher S') _ S' _ eq_refl HQ Q). rewrite (mmul_assoc (mher W) (mher S) (S *m W)).
  rewrite (mmul_assoc (mher W) (mher S *m S) W). apply mmul_eq_r; [cbn; congruence|]. symmetry. apply mmul_assoc.
Qed.
Lemma rot_tls_inv eigh eigh' solve solve' k Es1 Es2 Es1' Es2' G : solve_contract k solve -> solve_contract k solve' -> eigh_contract (2 * k) eigh -> eigh_contract (2 * k) eigh' -> (1 <= k)%nat ->
  nr Es2 = nr Es1 -> nc Es1 = k -> nc Es2 = k -> nr G = k -> nc G = k -> mher G *m G ==m mid k -> Es1' ==m Es1 *m G -> Es2' ==m Es2 *m G ->
  (forall w V, eigh_ok (mher (hcat Es1 Es2) *m hcat Es1 Es2) w V -> (nth (k - 1) w 0 < nth k w 0)%R /\ inj (T22 k V)) ->
  exists X X', rotation eigh solve "tls" (Z.of_nat k) Es1 Es2 = Ok X /\ rotation eigh' solve' "tls" (Z.of_nat k) Es1' Es2' = Ok X' /\
    nr X = k /\ nc X = k /\ nr X' = k /\ nc X' = k /\ G *m X' ==m X *m G.
Proof.
  intros HS HS' HEc HEc' Hk n2 c1 c2 g1 g2 U Q1 Q2 HD.
  pose proof (hcat_blk Es1 Es2 Es1' Es2' k G n2 c1 c2 g1 g2 Q1 Q2) as QS. set (Sm := hcat Es1 Es2) in *. set (Sm' := hcat Es1' Es2') in *. set (W := blk k G) in *.
  assert (D1 : nc Sm = (2 * k)%nat) by (cbn [Sm hcat nc]; lia).
  assert (U2 : G *m mher G ==m mid k) by (apply left_inv_right; cbn; auto).
  assert (UW : unitary (2 * k) (mher W)).
  { split; [reflexivity|]. split; [reflexivity|]. rewrite (mmul_eq_l _ _ (mher W) (mher_mher W)). unfold W.
    rewrite (mmul_eq_r (blk k G) (mher (blk k G)) (blk k (mher G)) eq_refl (blk_her k G g1 g2)). rewrite blk_mul by (cbn; congruence). now apply blk_id. }
  set (M := mher Sm *m Sm) in *. set (M' := mher Sm' *m Sm').
  assert (HM : hermitian M) by apply hermitian_gram. assert (HM' : hermitian M') by apply hermitian_gram.
  assert (SM : nr M = (2 * k)%nat) by exact D1.
  assert (SM' : nr M' = (2 * k)%nat) by (cbn [M' mmul mher nr]; rewrite (meq_nc _ _ QS); reflexivity).
  assert (RC : recorded_cov (2 * k) (mher W) 1 0 M M').
  { unfold recorded_cov. pose proof (gram_blk Sm Sm' W D1 QS) as GQ. fold M M' in GQ.
    assert (GQ2 : M' ==m mher W *m M *m mher (mher W)).
    { rewrite GQ. apply mmul_eq_r; [transitivity (nc Sm); [reflexivity|exact D1]|]. symmetry. apply mher_mher. }
    destruct GQ2 as (q1 & q2 & q3). split; [exact q1|]. split; [exact q2|]. intros i j Hi Hj. rewrite q3 by assumption. cbn [madd mscal ent]. ring. }
  destruct (HEc M HM ltac:(lia)) as (w & V & EV & OV). destruct (HEc' M' HM' ltac:(lia)) as (w' & V' & EV' & OV').
  destruct (HD w V OV) as (Gap & I22). destruct (OV) as (_ & v1 & v2 & _). destruct (OV') as (_ & v1' & v2' & _). rewrite SM in v1, v2. rewrite SM' in v1', v2'.
  pose proof (rec_eigh (2 * k) (mher W) 1 0 M M' w' V' UW SM ltac:(cbn [M mmul nc]; exact D1) Rlt_0_1 RC OV') as O2.
  destruct (noise_unitary M w V _ _ k HM OV O2 ltac:(lia) ltac:(intros; exact Gap)) as (H & h1 & h2 & h3 & h4). rewrite SM in h4.
  assert (IH : inj H).
  { apply (left_inv_inj H (mher H) k); [|cbn; congruence]. apply left_inv_right; cbn; auto. }
  assert (R12 : G *m T12 k V' ==m T12 k V *m H).
  { split; [exact g1|]. split; [cbn; congruence|]. intros i j Hi Hj. cbn [mmul nr nc] in Hi, Hj. cbn in Hj.
    destruct h4 as (_ & _ & h4). specialize (h4 i j ltac:(cbn [first_cols nr]; lia) Hj). cbn [first_cols mmul mher nr nc ent] in h4. cbn [W blk nr nc ent] in h4.
    cbn [mmul T12 nc ent]. rewrite g2. rewrite <- h4. replace (2 * k)%nat with (k + k)%nat by lia. rewrite csum_app.
    rewrite <- (Cplus_0_r (csum k (fun q => ent G i q * ent V' q j))). symmetry. f_equal.
    - apply csum_ext. intros q Hq. replace (i <? k)%nat with true by (symmetry; apply Nat.ltb_lt; lia). replace (q <? k)%nat with true by (symmetry; apply Nat.ltb_lt; lia). now rewrite Cconj_conj.
    - apply csum_0. intros q Hq. replace (i <? k)%nat with true by (symmetry; apply Nat.ltb_lt; lia). replace (k + q <? k)%nat with false by (symmetry; apply Nat.ltb_ge; lia). rewrite !Cconj_RtoC. ring. }
  assert (R22 : G *m T22 k V' ==m T22 k V *m H).
  { split; [exact g1|]. split; [cbn; congruence|]. intros i j Hi Hj. cbn [mmul nr nc] in Hi, Hj. cbn in Hj.
    destruct h4 as (_ & _ & h4). specialize (h4 (k + i)%nat j ltac:(cbn [first_cols nr]; lia) Hj). cbn [first_cols mmul mher nr nc ent] in h4. cbn [W blk nr nc ent] in h4.
    cbn [mmul T22 nc ent]. rewrite g2. rewrite <- h4. replace (2 * k)%nat with (k + k)%nat by lia. rewrite csum_app.
    rewrite <- (Cplus_0_l (csum k (fun q => ent G i q * ent V' (k + q) j))). symmetry. f_equal.
    - apply csum_0. intros q Hq. replace (k + i <? k)%nat with false by (symmetry; apply Nat.ltb_ge; lia). replace (q <? k)%nat with true by (symmetry; apply Nat.ltb_lt; lia). rewrite !Cconj_RtoC. ring.
    - apply csum_ext. intros q Hq. replace (k + i <? k)%nat with false by (symmetry; apply Nat.ltb_ge; lia). replace (k + q <? k)%nat with false by (symmetry; apply Nat.ltb_ge; lia). rewrite Cconj_conj. replace (k + i - k)%nat with i by lia. replace (k + q - k)%nat with q by lia. reflexivity. }
  assert (I22' : inj (T22 k V')).
  { intros x Hx j Hj. cbn [T22 nc] in Hj. apply (IH x); [|lia]. intros i Hi. rewrite h1 in Hi. apply (I22 (mvec H x)); [|exact Hi]. intros q Hq.
    rewrite <- mvec_mmul. rewrite <- (mvec_eq _ _ x q R22) by (cbn [mmul nr]; cbn in Hq; lia). rewrite mvec_mmul. unfold mvec at 1. apply csum_0. intros r Hr. rewrite (Hx r) by (cbn; lia). ring. }
  destruct (rot_tls_value eigh solve k Es1 Es2 w V HS n2 EV v1 v2 I22) as (X & RX & x1 & x2 & X3).
  assert (n2' : nr Es2' = nr Es1') by (rewrite (meq_nr _ _ Q1), (meq_nr _ _ Q2); exact n2).
  destruct (rot_tls_value eigh' solve' k Es1' Es2' w' V' HS' n2' EV' v1' v2' I22') as (X' & RX' & x1' & x2' & X3').
  exists X, X'. do 6 (split; [assumption|]).
  destruct (inj_inverse (T22 k V') k eq_refl eq_refl I22') as (B & b1 & b2 & VB & _).
  assert (K : (G *m X') *m T22 k V' ==m (X *m G) *m T22 k V').
  { rewrite (mmul_assoc G X'). rewrite (mmul_eq_r G (X' *m T22 k V') _ ltac:(cbn; congruence) X3'). rewrite mscal_mmul_r.
    rewrite (mscal_eq' _ _ _ R12). rewrite (mmul_assoc X G). rewrite (mmul_eq_r X (G *m T22 k V') _ ltac:(cbn; congruence) R22).
    rewrite <- (mmul_assoc X). rewrite (mmul_eq_l _ _ H X3). symmetry. apply mscal_mmul_l. }
  assert (CX : forall Y : cmat, nc Y = k -> Y ==m (Y *m T22 k V') *m B).
  { intros Y Hy. rewrite (mmul_assoc Y). rewrite (mmul_eq_r Y (T22 k V' *m B) (mid k) ltac:(cbn; congruence) VB). symmetry. apply mmul_id_r. congruence. }
  rewrite (CX (G *m X') x2'). rewrite (mmul_eq_l _ _ B K). symmetry. apply CX. exact g2.
Qed.

(** *** ESPRIT up to the eigenvalues *)
Lemma sub_rows_mix E E' m k d r0 g G : (r0 <= d)%nat -> (d < m)%nat -> (k <= m)%nat -> nr G = k -> nc G = k -> last_cols m k E' ==m last_cols m k E *m G -> sub_rows E' m k d r0 g ==m sub_rows E m k d r0 g *m G.
Proof.
  intros Hr Hd Hk g1 g2 (_ & _ & Q). split; [reflexivity|]. split; [cbn; congruence|]. intros i j Hi Hj. cbn [sub_rows nr nc] in Hi, Hj. cbn [sub_rows mmul nc ent].
  specialize (Q (r0 + i)%nat j ltac:(cbn; lia) Hj). cbn [last_cols mmul nc ent] in Q. rewrite Q. rewrite <- csum_scal_r. apply csum_ext. intros; ring.
Qed.
Lemma determined_eq f k E1 E2 F1 F2 : E1 ==m F1 -> E2 ==m F2 -> nr E1 = nr E2 -> determined f k E1 E2 -> determined f k F1 F2.
Proof.
  intros Q1 Q2 D [(-> & H)|(-> & H)]; [left|right]; (split; [reflexivity|]).
  - intros x Hx j Hj. destruct Q1 as (a & b & Q1). apply (H x); [|congruence]. intros i Hi. rewrite <- (Hx i) by congruence. apply mvec_eq; [now repeat split|]. exact Hi.
  - assert (HQ : hcat E1 E2 ==m hcat F1 F2).
    { destruct Q1 as (a & b & Q1), Q2 as (a' & b' & Q2). split; [exact a|]. split; [cbn; congruence|]. intros i j Hi Hj. cbn [hcat nr nc ent] in *. rewrite <- b. destruct (Nat.ltb_spec j (nc E1)); [apply Q1; lia|apply Q2; lia]. }
    intros w V O. apply (H w V). refine (eigh_ok_eq _ _ w V _ O). apply mmul_eq; [reflexivity|symmetry; now apply mher_eq|now symmetry].
Qed.

Lemma esprit_z_inv eigh eigh' solve solve' eigvals eigvals' m c delta Rm Rm' w E w' E' k d f rw :
  solve_contract k solve -> solve_contract k solve' -> eigvals_contract k eigvals -> eigvals_contract k eigvals' ->
  (f = "tls"%string -> eigh_contract (2 * k) eigh /\ eigh_contract (2 * k) eigh') ->
  nr Rm = m -> hermitian Rm -> rescaled c delta Rm Rm' ->
  eigh Rm = Ok (w, E) -> eigh_ok Rm w E -> eigh' Rm' = Ok (w', E') -> eigh_ok Rm' w' E' -> (1 <= k)%nat -> (1 <= d)%nat -> (k + d <= m)%nat -> (nth (m - k - 1) w 0 < nth (m - k) w 0)%R ->
  esprit_determined f rw m k d E ->
  exists z z', esprit_z eigh solve eigvals Rm (Z.of_nat k) (Z.of_nat d) f rw = Ok z /\ esprit_z eigh' solve' eigvals' Rm' (Z.of_nat k) (Z.of_nat d) f rw = Ok z' /\
    List.length z = k /\ List.length z' = k /\ forall x, In x z <-> In x z'.
Proof.
  intros HS HS' HV HV' HEc R1 HH (Hc & HR) EE OE EE' OE' Hk Hd Hkd Gap (wt & E1 & E2 & CW & SE & DT).
  assert (R2 : nc Rm = m) by (destruct HH; congruence).
  assert (R1' : nr Rm' = m) by (rewrite (meq_nr _ _ HR); exact R1).
  assert (UM : unitary m (mid m)) by (split; [reflexivity|]; split; [reflexivity|]; rewrite (mmul_eq_l _ _ (mid m) (mher_mid m)); now apply mmul_id_l).
  assert (RC : recorded_cov m (mid m) c delta Rm Rm').
  { unfold recorded_cov. rewrite R1 in HR. destruct HR as (q1 & q2 & q3). cbn [madd mscal nr nc] in q1, q2. split; [cbn; congruence|]. split; [cbn; congruence|].
    intros i j Hi Hj. rewrite q3 by assumption. cbn [madd mscal ent]. f_equal. f_equal.
    assert (X : mid m *m Rm *m mher (mid m) ==m Rm).
    { rewrite (mmul_eq_r (mid m *m Rm) (mher (mid m)) (mid m) ltac:(cbn; congruence) (mher_mid m)). rewrite mmul_id_r by (cbn; congruence). now apply mmul_id_l. }
    symmetry. destruct X as (_ & _ & X). apply X; cbn [mmul mher mid nr nc]; congruence. }
  pose proof (rec_eigh m (mid m) c delta Rm Rm' w' E' UM R1 R2 Hc RC OE') as O2.
  destruct (OE) as (_ & e1 & e2 & _). destruct (OE') as (_ & e1' & e2' & _). rewrite R1 in e1, e2. rewrite R1' in e1', e2'.
  destruct (signal_unitary Rm w E _ _ k HH OE O2 ltac:(lia) ltac:(rewrite R1; exact Gap)) as (G & g1 & g2 & U & Q). rewrite R1 in Q.
  assert (Q' : last_cols m k E' ==m last_cols m k E *m G).
  { rewrite <- Q. split; [reflexivity|]. split; [reflexivity|]. intros i j Hi Hj. cbn [last_cols nr nc ent] in *. symmetry.
    assert (X : mher (mid m) *m E' ==m E') by (rewrite (mmul_eq_l _ _ E' (mher_mid m)); now apply mmul_id_l). destruct X as (_ & _ & X). apply X; cbn [mmul mher mid nr nc]; lia. }
  assert (LW : match wt with None => True | Some l => List.length l = (m - d)%nat end).
  { unfold check_row_weights in CW. destruct rw as [s0|sh l|]; [|destruct (_ || _)%bool eqn:EB; [discriminate|]|discriminate].
    - destruct (String.eqb s0 "none"); [injection CW as <-; exact I|]. destruct (String.eqb s0 "default"); [|discriminate]. injection CW as <-. rewrite Nat2Z.id. apply default_weights.
    - injection CW as <-. apply orb_false_iff in EB as (_ & EB). apply negb_false_iff, Z.eqb_eq in EB. lia. }
  destruct (esprit_subarrays_value E m k d wt e1 e2 ltac:(lia) ltac:(lia) LW) as (A1 & A2 & SA & HA1 & HA2).
  destruct (esprit_subarrays_value E' m k d wt e1' e2' ltac:(lia) ltac:(lia) LW) as (B1 & B2 & SB & HB1 & HB2).
  rewrite SA in SE. injection SE as <- <-. set (g := row_factor wt m d) in *.
  assert (M1 : B1 ==m A1 *m G).
  { rewrite HB1. rewrite (mmul_eq_l _ _ G HA1). apply sub_rows_mix; auto; lia. }
  assert (M2 : B2 ==m A2 *m G).
  { rewrite HB2. rewrite (mmul_eq_l _ _ G HA2). apply sub_rows_mix; auto; lia. }
  assert (DA1 : nr A1 = (m - d)%nat /\ nc A1 = k) by (split; [apply (meq_nr _ _ HA1)|apply (meq_nc _ _ HA1)]).
  assert (DA2 : nr A2 = (m - d)%nat /\ nc A2 = k) by (split; [apply (meq_nr _ _ HA2)|apply (meq_nc _ _ HA2)]).
  assert (RT : exists X X', rotation eigh solve f (Z.of_nat k) A1 A2 = Ok X /\ rotation eigh' solve' f (Z.of_nat k) B1 B2 = Ok X' /\
    nr X = k /\ nc X = k /\ nr X' = k /\ nc X' = k /\ G *m X' ==m X *m G).
  { destruct DT as [(-> & HI)|(-> & HT)].
    - apply rot_ls_inv; auto; try tauto. destruct DA1, DA2; congruence.
    - destruct (HEc eq_refl) as (C1 & C2). apply rot_tls_inv; auto; try tauto. destruct DA1, DA2; congruence. }
  destruct RT as (X & X' & RX & RX' & x1 & x2 & x1' & x2' & SX).
  destruct (HV X ltac:(congruence) ltac:(lia)) as (z & Z1 & Z2 & Z3). destruct (HV' X' ltac:(congruence) ltac:(lia)) as (z' & Z1' & Z2' & Z3').
  exists z, z'. unfold esprit_z. rewrite R1, R1'. destruct (Z.ltb_spec (Z.of_nat d) 1); [lia|].
  replace (Z.of_nat m - Z.of_nat d)%Z with (Z.of_nat (m - d)) by lia.
  unfold ensure_n_resolvable_sources. destruct (Z.gtb_spec (Z.of_nat k) (Z.of_nat (m - d))); [lia|]. cbn [bind]. rewrite CW. cbn [bind]. rewrite EE, EE'. cbn [bind]. rewrite SA, SB. cbn [bind]. rewrite RX, RX'. cbn [bind].
  do 2 (split; [assumption|]). split; [congruence|]. split; [congruence|]. intros x. rewrite Z3, Z3'. symmetry. apply (eigenvalue_similar X X' G k x); auto.
Qed.

(** *** exact signal subspaces determine the rotation *)
Lemma tls_exact k Es1 Es2 Psi w V : (1 <= k)%nat -> nc Es1 = k -> nr Psi = k -> nc Psi = k -> inj Es1 -> Es2 ==m Es1 *m Psi ->
  eigh_ok (mher (hcat Es1 Es2) *m hcat Es1 Es2) w V -> (nth (k - 1) w 0 < nth k w 0)%R /\ inj (T22 k V).
Proof.
  intros Hk H1 H2 H3 HI HE OV.
  assert (N2 : nr Es2 = nr Es1) by (rewrite (meq_nr _ _ HE); reflexivity). assert (C2 : nc Es2 = k) by (rewrite (meq_nc _ _ HE); exact H3).
  set (S := hcat Es1 Es2) in *. set (G := mher S *m S) in *.
  set (IP := hcat (mid k) Psi). assert (SE : S ==m Es1 *m IP).
  { split; [reflexivity|]. split; [cbn [S IP hcat mmul nc mid]; lia|]. intros i j Hi Hj. cbn [S hcat nr nc] in Hi, Hj. cbn [S IP hcat mmul ent nc mid]. rewrite H1. destruct (Nat.ltb_spec j k) as [L|L].
    - rewrite (csum_single k _ j L); [rewrite Nat.eqb_refl; ring|]. intros q Hq Nq. destruct (Nat.eqb_spec q j); [contradiction | ring].
    - rewrite (meq_ent _ _ i (j - k) HE ltac:(lia) ltac:(lia)). cbn [mmul ent]. rewrite H1. reflexivity. }
  set (A' := mher IP). assert (X0 : exact_cov G A' (mher Es1 *m Es1) 0).
  { split; [cbn [mmul mher nr nc A' IP hcat mid]; exact H1|]. split; [cbn [mmul mher nr nc A' IP hcat mid]; exact H1|].
    assert (G1 : G ==m A' *m (mher Es1 *m Es1) *m mher A').
    { unfold G. assert (Q : mher S ==m A' *m mher Es1).
      { split; [cbn [mher mmul nr nc S A' IP hcat mid]; lia|]. split; [reflexivity|]. intros i j Hi Hj. cbn [mher nr nc] in Hi, Hj. cbn [mher ent]. rewrite (meq_ent _ _ j i SE Hj Hi). cbn [mmul ent A' mher nc]. rewrite csum_conj.
        cbn [IP hcat mid nr]. rewrite H1. apply csum_ext. intros q Hq. rewrite Cmult_conj. ring. }
      rewrite (mmul_eq (mher S) _ S _ eq_refl Q SE). rewrite !mmul_assoc. apply mmul_eq_r; [cbn [mmul mher nr nc A' IP hcat mid]; congruence|]. rewrite mmul_assoc. apply mmul_eq_r; [reflexivity|]. apply mmul_eq_r; [cbn [IP hcat mid nr]; congruence|].
      unfold A'. symmetry. apply mher_mher. }
    rewrite G1. split; [reflexivity|]. split; [cbn [mmul madd mscal mid mher nc nr A' IP hcat]; reflexivity|]. intros i j Hi Hj. cbn [madd mscal ent]. ring. }
  assert (IA : inj A').
  { intros x Hx j Hj. cbn [A' mher nc IP hcat nr mid] in Hj. specialize (Hx j ltac:(cbn [A' mher nr IP hcat nc mid]; lia)). unfold mvec in Hx. cbn [A' mher nc ent IP hcat mid nr] in Hx.
    replace (j <? k)%nat with true in Hx by (symmetry; now apply Nat.ltb_lt). rewrite (csum_single k _ j Hj) in Hx.
    - rewrite Nat.eqb_refl, Cconj_RtoC in Hx. rewrite <- Hx. ring.
    - intros q Hq Nq. destruct (Nat.eqb_spec q j); [contradiction|]. rewrite Cconj_RtoC. ring. }
  assert (GN : nr G = (2 * k)%nat) by (cbn [G mmul mher nr S hcat nc]; lia).
  assert (DA : nr A' = (2 * k)%nat /\ nc A' = k) by (cbn [A' IP mher hcat mid nr nc]; lia). destruct DA as (DA1 & DA2).
  split.
  { pose proof (ex_noise_level G A' _ 0 w V X0 (gram_pd Es1 HI) OV (k - 1)%nat ltac:(lia)) as L1.
    pose proof (ex_signal_level G A' _ 0 w V X0 IA (gram_pd Es1 HI) OV k ltac:(lia)) as L2. rewrite L1. exact L2. }
  assert (NO : forall j c, (j < k)%nat -> (c < k)%nat -> vdot (2 * k) (col A' c) (col V j) = RtoC 0).
  { intros j c Hj Hc. rewrite <- DA1. apply (ex_noise_orth G A' (mher Es1 *m Es1) 0 w V X0 (gram_pd Es1 HI) OV j c); lia. }
  assert (REL : forall i j, (i < k)%nat -> (j < k)%nat -> ent V i j + csum k (fun q => ent Psi i q * ent V (k + q) j) = RtoC 0).
  { intros i j Hi Hj. pose proof (NO j i Hj Hi) as Q. unfold vdot, col in Q. cbn [A' mher ent] in Q. replace (2 * k)%nat with (k + k)%nat in Q by lia. rewrite csum_app in Q.
    rewrite (csum_single k _ i Hi) in Q.
    - rewrite <- Q. f_equal.
      + cbn [IP hcat ent mid nc]. replace (i <? k)%nat with true by (symmetry; now apply Nat.ltb_lt). rewrite Nat.eqb_refl, !Cconj_RtoC. ring.
      + apply csum_ext. intros q Hq. cbn [IP hcat ent mid nc]. replace (k + q <? k)%nat with false by (symmetry; apply Nat.ltb_ge; lia). replace (k + q - k)%nat with q by lia. rewrite Cconj_conj. reflexivity.
    - intros q Hq Nq. cbn [IP hcat ent mid nc]. replace (q <? k)%nat with true by (symmetry; now apply Nat.ltb_lt). destruct (Nat.eqb_spec i q); [congruence|]. rewrite !Cconj_RtoC. ring. }
  intros x Hx j Hj. cbn [T22 nc] in Hj. cbn [T22 nr] in Hx.
  assert (Z2 : forall i, (i < 2 * k)%nat -> csum k (fun q => x q * col V q i) = RtoC 0).
  { intros i Hi. destruct (Nat.lt_ge_cases i k) as [L|L].
    - unfold col. rewrite (csum_ext k _ (fun q => - csum k (fun r => ent Psi i r * (ent V (k + r) q * x q)))).
      + rewrite csum_opp, csum_swap. rewrite csum_0; [ring|]. intros r Hr. rewrite csum_scal. specialize (Hx r Hr). unfold mvec in Hx. cbn [T22 nc ent] in Hx. rewrite Hx. ring.
      + intros q Hq. pose proof (REL i q L Hq) as Q. rewrite (csum_ext k _ (fun r => ent Psi i r * ent V (k + r) q * x q)) by (intros; ring). rewrite csum_scal_r.
        replace (ent V i q) with (ent V i q + csum k (fun r => ent Psi i r * ent V (k + r) q) - csum k (fun r => ent Psi i r * ent V (k + r) q)) by ring. rewrite Q. ring.
    - specialize (Hx (i - k)%nat ltac:(lia)). unfold mvec in Hx. cbn [T22 nc ent] in Hx. rewrite <- Hx. apply csum_ext. intros q Hq. replace (k + (i - k))%nat with i by lia. unfold col. ring. }
  assert (V0 : vdot (2 * k) (col V j) (fun i => csum k (fun q => x q * col V q i)) = RtoC 0).
  { unfold vdot. apply csum_0. intros i Hi. rewrite Z2 by exact Hi. ring. }
  rewrite (vdot_sum k (2 * k) x (fun q => col V q)) in V0. rewrite (csum_single k _ j Hj) in V0.
  - pose proof (eigh_orth G w V j j OV ltac:(lia) ltac:(lia)) as O. rewrite GN, Nat.eqb_refl in O. rewrite O in V0. rewrite <- V0. ring.
  - intros q Hq Nq. pose proof (eigh_orth G w V j q OV ltac:(lia) ltac:(lia)) as O. rewrite GN in O. rewrite O. destruct (Nat.eqb_spec j q); [lia | ring].
Qed.
