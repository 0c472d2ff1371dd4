(** Proofs about ESPRIT. *)
From Coq Require Import Sorting.Sorted Sorting.Permutation.
From Verif Require Import Base_Np Base_Mem Base_Lin Base_Trig M_utils M_heap M_core P_core P_core2 M_subspace S_subspace P_subspace P_subspace2 P_heap.
Open Scope C_scope.

(** reading an array after storing into a block of its rows *)
Lemma read_store_rows m v r0 r A i j : (v_nc v <= v_stride v)%nat -> (j < v_nc v)%nat ->
  ent (v_read (m_store m (v_window v r0 r 0 (v_nc v)) A) v) i j =
  if ((r0 <=? i) && (i <? r0 + r))%nat then ent A (i - r0) j else ent (v_read m v) i j.
Proof.
  intros Hs Hj. set (w := v_window v r0 r 0 (v_nc v)). cbn [v_read ent m_store m_cell]. unfold w at 1. cbn [v_window v_buf]. rewrite Nat.eqb_refl. cbn [andb].
  destruct (Nat.leb_spec r0 i) as [Hi|Hi].
  - assert (O : v_off v i j = v_off w (i - r0) j) by (unfold w, v_window, v_off; cbn [v_base v_stride]; nia).
    assert (D := v_divmod w (i - r0) j ltac:(cbn; lia)). destruct D as (D1 & D2). unfold v_in. rewrite O, D1, D2. cbn [andb].
    replace (v_base w <=? v_off w (i - r0) j)%nat with true by (symmetry; apply Nat.leb_le; unfold v_off; rewrite <- Nat.add_assoc; apply Nat.le_add_r). cbn [andb]. unfold w. cbn [v_window v_nr v_nc].
    replace (j <? v_nc v)%nat with true by (symmetry; now apply Nat.ltb_lt). rewrite andb_true_r.
    destruct (Nat.ltb_spec (i - r0) r), (Nat.ltb_spec i (r0 + r)); reflexivity || lia.
  - cbn [andb]. unfold v_in. replace (v_base w <=? v_off v i j)%nat with false; [reflexivity|]. symmetry. apply Nat.leb_gt. unfold w, v_window, v_off. cbn [v_base]. nia.
Qed.

(** the two subarray matrices: rows 0..m-d-1 and d..m-1 of the last k eigenvectors, with the weights that hit them *)
Definition wt (w : option (list R)) (i : nat) : C := match w with None => RtoC 1 | Some l => RtoC (nth i l 0%R) end.
Definition row_factor (w : option (list R)) (m d i : nat) : C :=
  (if (i <? m - d)%nat then wt w i else RtoC 1) * (if (d <=? i)%nat then wt w (i - d) else RtoC 1).
Definition sub_rows (E : cmat) (m k d r0 : nat) (g : nat -> C) : cmat := Mat (m - d) k (fun i j => ent E (r0 + i) (m - k + j) * g (r0 + i)%nat).
Lemma esprit_subarrays_value E m k d w : nr E = m -> nc E = m -> (1 <= k <= m)%nat -> (1 <= d < m)%nat ->
  match w with None => True | Some l => List.length l = (m - d)%nat end ->
  exists E1 E2, esprit_subarrays E (Z.of_nat k) (Z.of_nat d) w = Ok (E1, E2) /\
    E1 ==m sub_rows E m k d 0 (row_factor w m d) /\ E2 ==m sub_rows E m k d d (row_factor w m d).
Proof.
  intros HR HC Hk Hd Hw. unfold esprit_subarrays. set (m0 := Mem 0 (fun _ _ => RtoC 0)). destruct (m_alloc m0 E) as [m1 vE] eqn:EA.
  assert (RA : v_read m1 vE ==m E) by (pose proof (read_alloc m0 E) as X; rewrite EA in X; exact X).
  assert (VE : vE = View 0 0 m m m) by (unfold m_alloc in EA; rewrite HR, HC in EA; injection EA as _ <-; reflexivity).
  assert (S0 : v_slice vE None None (Some (- Z.of_nat k)%Z) None = v_window vE 0 m (m - k) k).
  { unfold v_slice, slice_bounds. rewrite VE. cbn [v_nr v_nc]. rewrite clip_neg by lia. f_equal; lia. }
  rewrite S0. set (Es := v_window vE 0 m (m - k) k).
  assert (S1 : v_slice Es None (Some (- Z.of_nat d)%Z) None None = v_window Es 0 (m - d) 0 (v_nc Es)).
  { unfold v_slice, slice_bounds. cbn [Es v_window v_nr v_nc]. rewrite clip_neg by lia. f_equal; lia. }
  assert (S2 : v_slice Es (Some (Z.of_nat d)) None None None = v_window Es d (m - d) 0 (v_nc Es)).
  { unfold v_slice, slice_bounds, clip_bound. cbn [Es v_window v_nr v_nc]. destruct (Z.ltb_spec (Z.of_nat d) 0); [lia|]. rewrite Z.min_l, Nat2Z.id by lia. f_equal; lia. }
  rewrite S1, S2. set (e1 := v_window Es 0 (m - d) 0 (v_nc Es)). set (e2 := v_window Es d (m - d) 0 (v_nc Es)).
  assert (SS : (v_nc Es <= v_stride Es)%nat) by (unfold Es, v_window; rewrite VE; cbn; lia).
  assert (R0 : forall i j, (i < m)%nat -> (j < k)%nat -> ent (v_read m1 Es) i j = ent E i (m - k + j)).
  { intros i j Hi Hj. unfold Es. rewrite read_window. cbn [Nat.add]. apply RA; [rewrite (meq_nr _ _ RA); lia | rewrite (meq_nc _ _ RA); lia]. }
  assert (N1 : v_nr e1 = (m - d)%nat) by reflexivity. assert (N2 : v_nr e2 = (m - d)%nat) by reflexivity.
  assert (C1 : v_nc e1 = k) by reflexivity. assert (C2 : v_nc e2 = k) by reflexivity. assert (C0 : v_nc Es = k) by reflexivity.
  destruct w as [l|].
  - unfold scale_rows. rewrite N1, N2, Hw, Nat.eqb_refl. cbn [negb bind]. set (A1 := Mat (m - d) (v_nc e1) _). set (m2 := m_store m1 e1 A1). set (A2 := Mat (m - d) (v_nc e2) _). set (m3 := m_store m2 e2 A2).
    assert (R1 : forall i j, (i < m)%nat -> (j < k)%nat -> ent (v_read m2 Es) i j = ent E i (m - k + j) * (if (i <? m - d)%nat then RtoC (nth i l 0%R) else RtoC 1)).
    { intros i j Hi Hj. unfold m2, e1. rewrite read_store_rows by (assumption || lia). cbn [Nat.leb andb Nat.add]. rewrite Nat.sub_0_r. destruct (Nat.ltb_spec i (m - d)).
      - unfold A1. cbn [ent]. unfold e1. rewrite read_window. cbn [Nat.add]. rewrite R0 by lia. reflexivity.
      - rewrite R0 by lia. ring. }
    assert (R2 : forall i j, (i < m)%nat -> (j < k)%nat -> ent (v_read m3 Es) i j = ent E i (m - k + j) * row_factor (Some l) m d i).
    { intros i j Hi Hj. unfold m3, e2. rewrite read_store_rows by (assumption || lia). unfold row_factor, wt. destruct (Nat.leb_spec d i) as [L|L]; cbn [andb].
      - replace (i <? d + (m - d))%nat with true by (symmetry; apply Nat.ltb_lt; lia). unfold A2. cbn [ent]. unfold e2. rewrite read_window. cbn [Nat.add]. replace (d + (i - d))%nat with i by lia. rewrite R1 by lia. ring.
      - rewrite R1 by lia. ring. }
    eexists _, _. split; [reflexivity|]. split; (split; [reflexivity|]; split; [reflexivity|]); intros i j Hi Hj; cbn [v_read nr nc] in Hi, Hj.
    + unfold e1. rewrite read_window. cbn [Nat.add]. rewrite R2 by lia. reflexivity.
    + unfold e2. rewrite read_window. rewrite R2 by lia. reflexivity.
  - cbn [bind]. assert (F : forall i, row_factor None m d i = RtoC 1) by (intros i; unfold row_factor, wt; destruct (i <? m - d)%nat, (d <=? i)%nat; ring).
    eexists _, _. split; [reflexivity|]. split; (split; [reflexivity|]; split; [reflexivity|]); intros i j Hi Hj; cbn [v_read nr nc] in Hi, Hj.
    + unfold e1. rewrite read_window. cbn [Nat.add]. rewrite R0 by lia. cbn [sub_rows ent Nat.add]. rewrite F. ring.
    + unfold e2. rewrite read_window. rewrite R0 by lia. cbn [sub_rows ent]. rewrite F. cbn [Nat.add]. ring.
Qed.

Lemma gram_pd G : inj G -> pd (mher G *m G).
Proof.
  intros HI. split; [apply hermitian_gram|]. intros x (i & Hi & Nx). cbn [mmul mher nr] in Hi. rewrite qform_gram, Re_RtoC.
  destruct (vnorm2_nonneg (nr G) (mvec G x)) as [L|L]; [exact L|]. exfalso. apply Nx. apply (HI x); [|exact Hi]. apply vnorm2_0. now symmetry.
Qed.
Lemma matmul_ok A B : nc A = nr B -> matmul A B = Ok (A *m B).
Proof. intros H. unfold matmul. now rewrite H, Nat.eqb_refl. Qed.
Lemma inj_cancel G X Y : nc G = nr X -> nc G = nr Y -> nc X = nc Y -> inj G -> G *m X ==m G *m Y -> X ==m Y.
Proof.
  intros H1 H2 H3 HI HE. split; [congruence|]. split; [exact H3|]. intros i j Hi Hj.
  assert (Z : (fun r => ent X r j - ent Y r j) i = RtoC 0).
  { refine (HI (fun r => ent X r j - ent Y r j) _ i _); [|lia]. intros r Hr. unfold mvec.
    rewrite (csum_ext _ _ (fun q => ent G r q * ent X q j - ent G r q * ent Y q j)) by (intros; ring). rewrite csum_minus.
    pose proof (meq_ent _ _ r j HE Hr Hj) as X0. cbn [mmul ent] in X0. rewrite X0. ring. }
  cbv beta in Z. replace (ent X i j) with (ent X i j - ent Y i j + ent Y i j) by ring. rewrite Z. ring.
Qed.
Lemma rot_ls eigh solve k Es1 Es2 Psi : solve_contract k solve -> nc Es1 = k -> nr Psi = k -> nc Psi = k -> inj Es1 -> Es2 ==m Es1 *m Psi ->
  exists X, rotation eigh solve "ls" (Z.of_nat k) Es1 Es2 = Ok X /\ X ==m Psi.
Proof.
  intros HS H1 H2 H3 HI HE. unfold rotation. cbn [String.eqb Ascii.eqb Bool.eqb].
  assert (N2 : nr Es2 = nr Es1) by (rewrite (meq_nr _ _ HE); reflexivity). assert (C2 : nc Es2 = k) by (rewrite (meq_nc _ _ HE); exact H3).
  rewrite !matmul_ok by (cbn [mher nc]; congruence). cbn [bind].
  destruct (HS (mher Es1 *m Es1) (mher Es1 *m Es2)) as (X & EX & X1 & X2 & X3); [reflexivity | cbn [mmul mher nr]; lia | apply pd_inj, gram_pd, HI | reflexivity |].
  exists X. split; [exact EX|]. cbn [mmul mher nr nc] in X1, X2. apply (inj_cancel (mher Es1 *m Es1)).
  - cbn [mmul mher nc nr]. congruence.
  - cbn [mmul mher nc nr]. congruence.
  - congruence.
  - apply pd_inj, gram_pd, HI.
  - rewrite X3. rewrite mmul_assoc. apply mmul_eq_r; [cbn [mher nc]; congruence | exact HE].
Qed.

Lemma solve_T V W k Psi solve : solve_contract k solve -> nr V = k -> nc V = k -> nr W = k -> nc W = k -> nr Psi = k -> nc Psi = k -> inj V -> W ==m Psi *m V ->
  exists X, solve (mtr V) (mtr W) = Ok X /\ mtr X ==m Psi.
Proof.
  intros HS V1 V2 W1 W2 P1 P2 HI HE.
  (* V has an inverse *)
  assert (Y : exists Y : nat -> nat -> C, forall q, (q < k)%nat -> forall i, (i < k)%nat -> mvec V (Y q) i = if Nat.eqb i q then RtoC 1 else RtoC 0).
  { assert (G : forall n, exists Y : nat -> nat -> C, forall q, (q < n)%nat -> forall i, (i < k)%nat -> mvec V (Y q) i = if Nat.eqb i q then RtoC 1 else RtoC 0).
    { induction n as [|n IH]; [exists (fun _ _ => RtoC 0); intros; lia|]. destruct IH as (Y & HY). destruct (inj_surj V ltac:(congruence) HI (fun i => if Nat.eqb i n then RtoC 1 else RtoC 0)) as (x & Hx). rewrite V1 in Hx.
      exists (fun q => if Nat.eqb q n then x else Y q). intros q Hq i Hi. destruct (Nat.eqb_spec q n) as [->|N]; [now apply Hx | apply HY; [lia | exact Hi]]. }
    exact (G k). }
  destruct Y as (Y & HY). set (B := Mat k k (fun i q => Y q i)).
  assert (VB : V *m B ==m mid k).
  { split; [exact V1|]. split; [reflexivity|]. intros i j Hi Hj. cbn [mmul nr nc B] in Hi, Hj. rewrite mmul_ent_mvec. cbn [mid ent]. rewrite <- (HY j Hj i ltac:(lia)). reflexivity. }
  assert (BV : B *m V ==m mid k) by (apply (left_inv_right B V k); try reflexivity; try assumption).
  assert (IT : inj (mtr V)).
  { apply (left_inv_inj (mtr V) (mtr B) k); [|cbn [mtr nc nr B]; congruence]. split; [reflexivity|]. split; [exact V1|]. intros i j Hi Hj. cbn [mmul mtr nr nc B] in Hi, Hj. cbn [mmul mtr ent nc mid]. 
    pose proof (meq_ent _ _ j i VB ltac:(cbn [mmul nr]; lia) ltac:(cbn [mmul nc B]; lia)) as X. cbn [mmul ent mid] in X. rewrite (Nat.eqb_sym i j), <- X. rewrite V2. apply csum_ext. intros; ring. }
  destruct (HS (mtr V) (mtr W)) as (X & EX & X1 & X2 & X3); [cbn [mtr nr nc]; congruence | cbn [mtr nr]; lia | exact IT | cbn [mtr nr]; congruence |].
  exists X. split; [exact EX|]. cbn [mtr nr nc] in X1, X2.
  assert (XV : X ==m mtr Psi).
  { apply (inj_cancel (mtr V)); [cbn [mtr nc nr]; congruence | cbn [mtr nc nr]; congruence | cbn [mtr nc nr]; congruence | exact IT |]. rewrite X3.
    split; [cbn [mmul mtr nr]; congruence|]. split; [cbn [mmul mtr nc]; congruence|]. intros i j Hi Hj. cbn [mtr nr nc] in Hi, Hj. cbn [mtr ent mmul nc nr].
    rewrite (meq_ent _ _ j i HE Hj Hi). cbn [mmul ent]. rewrite V1, P2. apply csum_ext. intros; ring. }
  split; [cbn [mtr nr]; congruence|]. split; [cbn [mtr nc]; congruence|]. intros i j Hi Hj. cbn [mtr nr nc ent] in *. rewrite (meq_ent _ _ j i XV Hj Hi). reflexivity.
Qed.

Lemma RtoC_m1 : RtoC (-1) = - RtoC 1. Proof. rewrite <- RtoC_opp. f_equal. Qed.
Lemma rot_tls eigh solve k Es1 Es2 Psi : eigh_contract (2 * k) eigh -> solve_contract k solve -> (1 <= k)%nat -> nc Es1 = k -> nr Psi = k -> nc Psi = k -> inj Es1 -> Es2 ==m Es1 *m Psi ->
  exists X, rotation eigh solve "tls" (Z.of_nat k) Es1 Es2 = Ok X /\ X ==m Psi.
Proof.
  intros HEc HS Hk H1 H2 H3 HI HE. unfold rotation. cbn [String.eqb Ascii.eqb Bool.eqb].
  assert (N2 : nr Es2 = nr Es1) by (rewrite (meq_nr _ _ HE); reflexivity). assert (C2 : nc Es2 = k) by (rewrite (meq_nc _ _ HE); exact H3).
  set (S := hcat Es1 Es2). rewrite matmul_ok by reflexivity. cbn [bind]. set (G := mher S *m S).
  (* S = Es1 [I Psi] *)
  set (IP := hcat (mid k) Psi). assert (SE : S ==m Es1 *m IP).
  { split; [reflexivity|]. split; [cbn [S IP hcat mmul nc mid]; lia|]. intros i j Hi Hj. cbn [S hcat nr nc] in Hi, Hj. cbn [S IP hcat mmul ent nc mid]. rewrite H1. destruct (Nat.ltb_spec j k) as [L|L].
    - rewrite (csum_single k _ j L); [rewrite Nat.eqb_refl; ring|]. intros q Hq Nq. destruct (Nat.eqb_spec q j); [contradiction | ring].
    - rewrite (meq_ent _ _ i (j - k) HE ltac:(lia) ltac:(lia)). cbn [mmul ent]. rewrite H1. reflexivity. }
  set (A' := mher IP). assert (X0 : exact_cov G A' (mher Es1 *m Es1) 0).
  { split; [cbn [mmul mher nr nc A' IP hcat mid]; exact H1|]. split; [cbn [mmul mher nr nc A' IP hcat mid]; exact H1|].
    assert (G1 : G ==m A' *m (mher Es1 *m Es1) *m mher A').
    { unfold G. assert (Q : mher S ==m A' *m mher Es1).
      { split; [cbn [mher mmul nr nc S A' IP hcat mid]; lia|]. split; [reflexivity|]. intros i j Hi Hj. cbn [mher nr nc] in Hi, Hj. cbn [mher ent]. rewrite (meq_ent _ _ j i SE Hj Hi). cbn [mmul ent A' mher nc]. rewrite csum_conj.
        cbn [IP hcat mid nr]. rewrite H1. apply csum_ext. intros q Hq. rewrite Cmult_conj. ring. }
      rewrite (mmul_eq (mher S) _ S _ eq_refl Q SE). rewrite !mmul_assoc. apply mmul_eq_r; [cbn [mmul mher nr nc A' IP hcat mid]; congruence|]. rewrite mmul_assoc. apply mmul_eq_r; [reflexivity|]. apply mmul_eq_r; [cbn [IP hcat mid nr]; congruence|].
      unfold A'. symmetry. apply mher_mher. }
    rewrite G1. split; [reflexivity|]. split; [cbn [mmul madd mscal mid mher nc nr A' IP hcat]; reflexivity|]. intros i j Hi Hj. cbn [madd mscal ent]. ring. }
  assert (IA : inj A').
  { intros x Hx j Hj. cbn [A' mher nc IP hcat nr mid] in Hj. specialize (Hx j ltac:(cbn [A' mher nr IP hcat nc mid]; lia)). unfold mvec in Hx. cbn [A' mher nc ent IP hcat mid nr] in Hx.
    replace (j <? k)%nat with true in Hx by (symmetry; now apply Nat.ltb_lt). rewrite (csum_single k _ j Hj) in Hx.
    - rewrite Nat.eqb_refl, Cconj_RtoC in Hx. rewrite <- Hx. ring.
    - intros q Hq Nq. destruct (Nat.eqb_spec q j); [contradiction|]. rewrite Cconj_RtoC. ring. }
  destruct (HEc G (hermitian_gram S) ltac:(cbn [G S mmul mher hcat nr nc]; lia)) as (w & V & EV & OV). rewrite EV. cbn [bind].
  assert (GN : nr G = (2 * k)%nat) by (cbn [G mmul mher nr S hcat nc]; lia).
  assert (VN : nr V = (2 * k)%nat /\ nc V = (2 * k)%nat) by (destruct OV as (O1 & O2 & O3 & O4 & _); split; lia). destruct VN as [VR VC].
  assert (NO : forall j c, (j < k)%nat -> (c < k)%nat -> vdot (2 * k) (col A' c) (col V j) = RtoC 0).
  { intros j c Hj Hc. pose proof (ex_noise_orth G A' (mher Es1 *m Es1) 0 w V X0 (gram_pd Es1 HI) OV j c) as Q. cbn [A' mher nr nc IP hcat mid] in Q.
    replace (k + nc Psi)%nat with (2 * k)%nat in Q by lia. apply Q; lia. }
  set (F := fliplr V). set (V12 := m_slice F None (Some (Z.of_nat k)) (Some (Z.of_nat k)) None). set (V22 := m_slice F (Some (Z.of_nat k)) None (Some (Z.of_nat k)) None).
  assert (B1 : clip_bound (2 * k) (Z.of_nat k) = k) by (unfold clip_bound; destruct (Z.ltb_spec (Z.of_nat k) 0); [lia|]; rewrite Z.min_l, Nat2Z.id by lia; reflexivity).
  assert (D12 : nr V12 = k /\ nc V12 = k /\ forall i j, (j < k)%nat -> ent V12 i j = ent V i (k - 1 - j)).
  { unfold V12, m_slice, slice_bounds, F, fliplr. cbn [nr nc]. rewrite VR, VC, B1. cbn [nr nc ent]. split; [lia|]. split; [lia|]. intros i j Hj. f_equal; lia. }
  assert (D22 : nr V22 = k /\ nc V22 = k /\ forall i j, (j < k)%nat -> ent V22 i j = ent V (k + i) (k - 1 - j)).
  { unfold V22, m_slice, slice_bounds, F, fliplr. cbn [nr nc]. rewrite VR, VC, B1. cbn [nr nc ent]. split; [lia|]. split; [lia|]. intros i j Hj. f_equal; lia. }
  destruct D12 as (R12 & C12 & E12), D22 as (R22 & C22 & E22).
  (* V12 = - Psi V22 *)
  assert (REL : forall i j, (i < k)%nat -> (j < k)%nat -> ent V12 i j + csum k (fun q => ent Psi i q * ent V22 q j) = RtoC 0).
  { intros i j Hi Hj. pose proof (NO (k - 1 - j)%nat i ltac:(lia) Hi) as Q. unfold vdot, col in Q. cbn [A' mher ent] in Q. replace (2 * k)%nat with (k + k)%nat in Q by lia. rewrite csum_app in Q.
    rewrite (csum_single k _ i Hi) in Q.
    - rewrite E12 by exact Hj. rewrite <- Q. f_equal.
      + cbn [IP hcat ent mid nc]. replace (i <? k)%nat with true by (symmetry; now apply Nat.ltb_lt). rewrite Nat.eqb_refl, !Cconj_RtoC. ring.
      + apply csum_ext. intros q Hq. rewrite E22 by exact Hj. cbn [IP hcat ent mid nc]. replace (k + q <? k)%nat with false by (symmetry; apply Nat.ltb_ge; lia). replace (k + q - k)%nat with q by lia. rewrite Cconj_conj. reflexivity.
    - intros q Hq Nq. cbn [IP hcat ent mid nc]. replace (q <? k)%nat with true by (symmetry; now apply Nat.ltb_lt). destruct (Nat.eqb_spec i q); [congruence|]. rewrite !Cconj_RtoC. ring. }
  (* V22 is injective *)
  assert (I22 : inj V22).
  { intros x Hx j Hj. rewrite C22 in Hj. rewrite R22 in Hx.
    assert (Z2 : forall i, (i < 2 * k)%nat -> csum k (fun q => x q * col V (k - 1 - q) i) = RtoC 0).
    { intros i Hi. destruct (Nat.lt_ge_cases i k) as [L|L].
      - transitivity (csum k (fun q => x q * ent V12 i q)); [apply csum_ext; intros q Hq; unfold col; now rewrite E12|].
        rewrite (csum_ext k _ (fun q => - csum k (fun r => ent Psi i r * (ent V22 r q * x q)))).
        + rewrite csum_opp, csum_swap. rewrite csum_0; [ring|]. intros r Hr. rewrite csum_scal. specialize (Hx r Hr). unfold mvec in Hx. rewrite C22 in Hx. rewrite Hx. ring.
        + intros q Hq. pose proof (REL i q L Hq) as Q. rewrite (csum_ext k _ (fun r => ent Psi i r * ent V22 r q * x q)) by (intros; ring). rewrite csum_scal_r.
          replace (ent V12 i q) with (ent V12 i q + csum k (fun r => ent Psi i r * ent V22 r q) - csum k (fun r => ent Psi i r * ent V22 r q)) by ring. rewrite Q. ring.
      - specialize (Hx (i - k)%nat ltac:(lia)). unfold mvec in Hx. rewrite C22 in Hx. rewrite <- Hx. apply csum_ext. intros q Hq. rewrite E22 by exact Hq. replace (k + (i - k))%nat with i by lia. unfold col. ring. }
    assert (V0 : vdot (2 * k) (col V (k - 1 - j)) (fun i => csum k (fun q => x q * col V (k - 1 - q) i)) = RtoC 0).
    { unfold vdot. apply csum_0. intros i Hi. rewrite Z2 by exact Hi. ring. }
    rewrite (vdot_sum k (2 * k) x (fun q => col V (k - 1 - q))) in V0. rewrite (csum_single k _ j Hj) in V0.
    - pose proof (eigh_orth G w V (k - 1 - j) (k - 1 - j) OV ltac:(lia) ltac:(lia)) as O. rewrite GN, Nat.eqb_refl in O. rewrite O in V0. rewrite <- V0. ring.
    - intros q Hq Nq. pose proof (eigh_orth G w V (k - 1 - j) (k - 1 - q) OV ltac:(lia) ltac:(lia)) as O. rewrite GN in O. rewrite O. destruct (Nat.eqb_spec (k - 1 - j) (k - 1 - q)); [lia | ring]. }
  destruct (solve_T V22 V12 k (mscal (RtoC (-1)) Psi) solve HS R22 C22 R12 C12 H2 H3 I22) as (X & EX & XT).
  { split; [cbn [mmul mscal nr]; lia|]. split; [cbn [mmul nc]; lia|]. intros i j Hi Hj. cbn [mmul mscal ent nc]. rewrite H3.
    rewrite (csum_ext k _ (fun q => - (ent Psi i q * ent V22 q j))) by (intros; rewrite RtoC_m1; ring). rewrite csum_opp.
    pose proof (REL i j ltac:(lia) ltac:(lia)) as Q. replace (ent V12 i j) with (ent V12 i j + csum k (fun q => ent Psi i q * ent V22 q j) - csum k (fun q => ent Psi i q * ent V22 q j)) by ring. rewrite Q. ring. }
  rewrite EX. cbn [bind]. eexists. split; [reflexivity|]. pose proof XT as (T1 & T2 & T3). split; [exact T1|]. split; [exact T2|]. intros i j Hi Hj. cbn [mscal nr nc] in Hi, Hj. cbn [mscal ent]. rewrite T3 by assumption. cbn [mscal ent]. rewrite RtoC_m1. ring.
Qed.
