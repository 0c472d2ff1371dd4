(** ESPRIT on exact covariances. *)
From Coq Require Import Sorting.Sorted Sorting.Permutation.
From Verif Require Import Base_Np Base_Mem Base_Lin Base_Trig M_utils M_heap M_core P_core P_core2 M_subspace S_subspace P_subspace P_subspace2 P_subspace3 P_heap.
Open Scope C_scope.

Lemma choose_vecs k (Q : nat -> (nat -> C) -> Prop) : (forall q, (q < k)%nat -> exists y, Q q y) -> exists Y : nat -> nat -> C, forall q, (q < k)%nat -> Q q (Y q).
Proof.
  induction k as [|n IH]; intros H; [exists (fun _ _ => RtoC 0); intros; lia|]. destruct IH as (Y & HY); [intros; apply H; lia|]. destruct (H n ltac:(lia)) as (y & Hy).
  exists (fun q => if Nat.eqb q n then y else Y q). intros q Hq. destruct (Nat.eqb_spec q n) as [->|N]; [exact Hy | apply HY; lia].
Qed.
Lemma inj_inverse V k : nr V = k -> nc V = k -> inj V -> exists B, nr B = k /\ nc B = k /\ V *m B ==m mid k /\ B *m V ==m mid k.
Proof.
  intros V1 V2 HI. destruct (choose_vecs k (fun q y => forall i, (i < k)%nat -> mvec V y i = if Nat.eqb i q then RtoC 1 else RtoC 0)) as (Y & HY).
  { intros q Hq. destruct (inj_surj V ltac:(congruence) HI (fun i => if Nat.eqb i q then RtoC 1 else RtoC 0)) as (x & Hx). rewrite V1 in Hx. exists x. exact Hx. }
  set (B := Mat k k (fun i q => Y q i)). exists B. split; [reflexivity|]. split; [reflexivity|].
  assert (VB : V *m B ==m mid k).
  { split; [exact V1|]. split; [reflexivity|]. intros i j Hi Hj. cbn [mmul nr nc B] in Hi, Hj. rewrite mmul_ent_mvec. cbn [mid ent]. rewrite <- (HY j Hj i ltac:(lia)). reflexivity. }
  split; [exact VB|]. apply (left_inv_right B V k); try reflexivity; assumption.
Qed.

Section Esprit.
  Variables (eigh : cmat -> res (list R * cmat)) (solve : cmat -> cmat -> res cmat) (eigvals : cmat -> res (list C)).
  Variables (Rm P : cmat) (s : R) (zs : list C) (m d : nat).
  Let k := List.length zs.
  Let A := ula_matrix m zs.
  Hypothesis HEc : eigh_contract (Nat.max m (2 * k)) eigh.
  Hypothesis HSc : solve_contract k solve.
  Hypothesis HVc : eigvals_contract k eigvals.
  Hypothesis HX : exact_cov Rm A P s.
  Hypothesis HP : pd P.
  Hypothesis HD : NoDup zs.
  Hypothesis Hd : (1 <= d)%nat.
  Hypothesis Hk : (1 <= k)%nat.
  Hypothesis Hkm : (k + d <= m)%nat.

  Lemma es_herm : hermitian Rm.
  Proof.
    destruct HX as (P1 & P2 & H). apply (hermitian_eq (A *m P *m mher A +m mscal (RtoC s) (mid (nr A)))).
    - destruct H as (H1 & H2 & H3). split; [now symmetry|]. split; [now symmetry|]. intros i j Hi Hj. symmetry. apply H3; lia.
    - apply hermitian_madd; [reflexivity | | apply hermitian_mscal, hermitian_mid].
      assert (C := hermitian_congr P (mher A) ltac:(cbn [mher nr A ula_matrix nc]; symmetry; exact P1) (proj1 HP)).
      eapply hermitian_eq; [|exact C]. apply mmul_eq_l. apply mmul_eq_l. apply mher_mher.
  Qed.
  Lemma es_eig_dims w E : eigh_ok Rm w E -> nr E = m /\ nc E = m.
  Proof. intros HE. destruct (ex_dims Rm A P s HX) as [D1 D2]. cbn [A ula_matrix nr] in D1. destruct HE as (_ & E1 & E2 & _). split; congruence. Qed.
  (** the signal eigenvectors are A T with an invertible T *)
  Lemma es_T w E : eigh_ok Rm w E -> exists T, nr T = k /\ nc T = k /\ inj T /\
    forall i j, (i < m)%nat -> (j < k)%nat -> ent E i (m - k + j) = csum k (fun c => cpow (nth c zs (RtoC 0)) i * ent T c j).
  Proof.
    intros HE. assert (HA : inj A) by (apply ula_inj; [exact HD | fold k; lia]). destruct (ex_dims Rm A P s HX) as [D1 D2]. cbn [A ula_matrix nr] in D1.
    destruct (choose_vecs k (fun q y => forall i, (i < m)%nat -> ent E i (m - k + q) = mvec A y i)) as (Y & HY).
    { intros q Hq. apply (ex_signal_span Rm A P s w E HX HA HP HE). cbn [A ula_matrix nr nc]. fold k. lia. }
    exists (Mat k k (fun r j => Y j r)). split; [reflexivity|]. split; [reflexivity|]. split.
    - intros x Hx j Hj. cbn [nr nc] in Hx, Hj.
      assert (Z : forall i, (i < m)%nat -> csum k (fun q => x q * col E (m - k + q) i) = RtoC 0).
      { intros i Hi. rewrite (csum_ext _ _ (fun q => x q * mvec A (Y q) i)) by (intros q Hq; unfold col; now rewrite HY). rewrite <- mvec_sum. apply mvec_0. intros r Hr. cbn [A ula_matrix nc] in Hr. fold k in Hr.
        rewrite <- (Hx r Hr). unfold mvec. cbn [nc ent]. apply csum_ext. intros; ring. }
      assert (V0 : vdot m (col E (m - k + j)) (fun i => csum k (fun q => x q * col E (m - k + q) i)) = RtoC 0).
      { unfold vdot. apply csum_0. intros i Hi. rewrite Z by exact Hi. ring. }
      rewrite (vdot_sum k m x (fun q => col E (m - k + q))) in V0. rewrite (csum_single k _ j Hj) in V0.
      + pose proof (eigh_orth Rm w E (m - k + j) (m - k + j) HE ltac:(lia) ltac:(lia)) as O. rewrite D1, Nat.eqb_refl in O. rewrite O in V0. rewrite <- V0. ring.
      + intros q Hq Nq. pose proof (eigh_orth Rm w E (m - k + j) (m - k + q) HE ltac:(lia) ltac:(lia)) as O. rewrite D1 in O. rewrite O. destruct (Nat.eqb_spec (m - k + j) (m - k + q)); [lia | ring].
    - intros i j Hi Hj. rewrite HY by assumption. reflexivity.
  Qed.
  (** shift invariance of the (equally scaled) subarrays *)
  Lemma es_shift w E (g : nat -> C) : eigh_ok Rm w E -> (forall i, (i < m - d)%nat -> g i = g (d + i)%nat /\ g i <> RtoC 0) ->
    exists Psi, nr Psi = k /\ nc Psi = k /\ inj (sub_rows E m k d 0 g) /\ sub_rows E m k d d g ==m sub_rows E m k d 0 g *m Psi /\
      forall mu, eigenvalue Psi mu <-> In mu (map (fun z => cpow z d) zs).
  Proof.
    intros HE Hg. destruct (es_T w E HE) as (T & T1 & T2 & TI & TE). destruct (inj_inverse T k T1 T2 TI) as (B & B1 & B2 & TB & BT).
    set (D := mdiag k (fun c => cpow (nth c zs (RtoC 0)) d)). set (Psi := B *m (D *m T)).
    assert (TP : forall x c, (c < k)%nat -> mvec T (mvec Psi x) c = cpow (nth c zs (RtoC 0)) d * mvec T x c).
    { intros x c Hc. unfold Psi. rewrite <- mvec_mmul. rewrite (mvec_eq (T *m (B *m (D *m T))) (D *m T) x c); [| |cbn [mmul nr]; lia].
      - rewrite mvec_mmul. unfold mvec at 1. cbn [D mdiag nc ent]. rewrite (csum_single k _ c Hc); [now rewrite Nat.eqb_refl|]. intros q Hq Nq. destruct (Nat.eqb_spec c q); [congruence | ring].
      - rewrite <- mmul_assoc. rewrite (mmul_eq_l _ _ (D *m T) TB). apply mmul_id_l. reflexivity. }
    assert (SI : forall x i, (i < m - d)%nat -> mvec (sub_rows E m k d 0 g) x i = g i * csum k (fun c => cpow (nth c zs (RtoC 0)) i * mvec T x c)).
    { intros x i Hi. unfold mvec at 1. cbn [sub_rows nc ent Nat.add]. rewrite (csum_ext k _ (fun j => g i * csum k (fun c => cpow (nth c zs (RtoC 0)) i * (ent T c j * x j)))).
      - rewrite csum_scal. f_equal. rewrite csum_swap. apply csum_ext. intros c Hc. rewrite csum_scal. unfold mvec. now rewrite T2.
      - intros j Hj. rewrite TE by lia. rewrite (csum_ext k (fun c => cpow _ i * (ent T c j * x j)) (fun c => cpow (nth c zs (RtoC 0)) i * ent T c j * x j)) by (intros; ring). rewrite csum_scal_r. ring. }
    exists Psi. split; [exact B1|]. split; [exact T2|]. split; [|split].
    - intros x Hx j Hj. cbn [sub_rows nr nc] in Hx, Hj. apply (TI x); [|lia]. rewrite T1. intros c Hc.
      apply (ula_inj (m - d) zs HD ltac:(fold k; lia) (mvec T x)); [|exact Hc]. intros i Hi. cbn [ula_matrix nr] in Hi. unfold mvec at 1. cbn [ula_matrix nc ent]. fold k.
      specialize (Hx i Hi). rewrite SI in Hx by exact Hi. destruct (Cmult_0 _ _ Hx) as [X|X]; [exfalso; exact (proj2 (Hg i Hi) X) | exact X].
    - split; [reflexivity|]. split; [symmetry; exact T2|]. intros i j Hi Hj. cbn [sub_rows nr nc] in Hi, Hj. rewrite mmul_ent_mvec, SI by exact Hi. cbn [sub_rows ent]. rewrite TE by lia. rewrite <- (proj1 (Hg i Hi)). rewrite Cmult_comm. f_equal.
      apply csum_ext. intros c Hc. rewrite (mvec_ext T (fun r => ent Psi r j) (mvec Psi (unit_vec j)) c) by (intros r Hr; symmetry; apply mvec_unit; cbn [Psi mmul nc]; lia).
      rewrite TP by exact Hc. rewrite mvec_unit by lia. rewrite cpow_add. ring.
    - intros mu. split.
      + intros (v & (i & Hi & Nv) & Hv). change (nr Psi) with (nr B) in Hi, Hv. rewrite B1 in Hi, Hv.
        destruct (nonzero_dec k (mvec T v)) as [Z|(c & Hc & N)]; [exfalso; apply Nv, (TI v); [rewrite T1; exact Z | lia]|].
        pose proof (TP v c Hc) as Q. rewrite (mvec_ext T (mvec Psi v) (fun r => mu * v r) c) in Q by (intros r Hr; apply Hv; lia). rewrite mvec_scal in Q.
        assert (EQ : cpow (nth c zs (RtoC 0)) d = mu).
        { assert (X : (mu - cpow (nth c zs (RtoC 0)) d) * mvec T v c = RtoC 0) by (replace ((mu - cpow (nth c zs (RtoC 0)) d) * mvec T v c) with (mu * mvec T v c - cpow (nth c zs (RtoC 0)) d * mvec T v c) by ring; rewrite Q; ring).
          destruct (Cmult_0 _ _ X) as [Y|Y]; [|contradiction]. replace mu with (mu - cpow (nth c zs (RtoC 0)) d + cpow (nth c zs (RtoC 0)) d) by ring. rewrite Y. ring. }
        rewrite <- EQ. apply (in_map (fun z => cpow z d)). now apply nth_In.
      + intros I. apply in_map_iff in I as (z & <- & Iz). apply (In_nth _ _ (RtoC 0)) in Iz as (c & Hc & <-). fold k in Hc.
        set (v := mvec B (unit_vec c)).
        assert (TV : forall r, (r < k)%nat -> mvec T v r = unit_vec c r).
        { intros r Hr. unfold v. rewrite <- mvec_mmul. rewrite (mvec_eq _ _ _ _ TB) by (cbn [mmul nr]; lia). now apply mvec_mid. }
        exists v. change (nr Psi) with (nr B). rewrite B1. split.
        * destruct (nonzero_dec k v) as [Z|X]; [|exact X]. exfalso. pose proof (TV c Hc) as Q. rewrite mvec_0 in Q by (intros; apply Z; lia). unfold unit_vec in Q. rewrite Nat.eqb_refl in Q. apply (RtoC_neq_0 1); [lra | now symmetry].
        * intros i Hi. unfold Psi. rewrite mvec_mmul. rewrite (mvec_ext B _ (fun r => cpow (nth c zs (RtoC 0)) d * unit_vec c r) i).
          { rewrite mvec_scal. reflexivity. }
          intros r Hr. rewrite B2 in Hr. rewrite mvec_mmul. unfold mvec at 1. cbn [D mdiag nc ent]. rewrite (csum_single k _ r Hr); [|intros q Hq Nq; destruct (Nat.eqb_spec r q); [congruence | ring]].
          rewrite Nat.eqb_refl. try change (mvec T (mvec B (unit_vec c)) r) with (mvec T v r). rewrite TV by exact Hr. unfold unit_vec. destruct (Nat.eqb_spec r c) as [->|N]; [ring | ring].
  Qed.
  (** the eigenvalues ESPRIT finds *)
  Lemma es_main formulation rw w : formulation = "tls"%string \/ formulation = "ls"%string ->
    check_row_weights rw (Z.of_nat (m - d)) = Ok w -> match w with None => True | Some l => List.length l = (m - d)%nat end ->
    (forall i, (i < m - d)%nat -> row_factor w m d i = row_factor w m d (d + i)%nat /\ row_factor w m d i <> RtoC 0) ->
    exists l, esprit_z eigh solve eigvals Rm (Z.of_nat k) (Z.of_nat d) formulation rw = Ok l /\ List.length l = k /\
      forall mu, In mu l <-> In mu (map (fun z => cpow z d) zs).
  Proof.
    intros HF HW HL HG. destruct (ex_dims Rm A P s HX) as [D1 _]. cbn [A ula_matrix nr] in D1. destruct (HEc Rm es_herm ltac:(lia)) as (wl & E & EE & OE). destruct (es_eig_dims wl E OE) as [E1 E2].
    destruct (es_shift wl E (row_factor w m d) OE HG) as (Psi & P1 & P2 & SI & SE & EV).
    destruct (esprit_subarrays_value E m k d w E1 E2 ltac:(lia) ltac:(lia) HL) as (Es1 & Es2 & ES & M1 & M2).
    assert (I1 : inj Es1) by (apply (Base_Lin.inj_eq (sub_rows E m k d 0 (row_factor w m d))); [symmetry; exact M1 | exact SI]).
    assert (C1 : nc Es1 = k) by (rewrite (meq_nc _ _ M1); reflexivity).
    assert (RE : Es2 ==m Es1 *m Psi) by (rewrite M2, SE; apply mmul_eq_l; symmetry; exact M1).
    assert (RX : exists X, rotation eigh solve formulation (Z.of_nat k) Es1 Es2 = Ok X /\ X ==m Psi).
    { destruct HF as [-> | ->]; [apply rot_tls; try assumption; intros X HXh HXn; apply HEc; [exact HXh | lia] | now apply rot_ls]. }
    destruct RX as (X & EX & XP). destruct (HVc X) as (l & EL & LL & IL); [rewrite (meq_nr _ _ XP), (meq_nc _ _ XP); congruence | rewrite (meq_nr _ _ XP); lia|].
    exists l. split; [|split].
    - unfold esprit_z. rewrite D1. destruct (Z.ltb_spec (Z.of_nat d) 1); [lia|]. unfold ensure_n_resolvable_sources. rewrite Z.gtb_ltb. destruct (Z.ltb_spec (Z.of_nat m - Z.of_nat d) (Z.of_nat k)); [lia|]. cbn [bind].
      replace (Z.of_nat m - Z.of_nat d)%Z with (Z.of_nat (m - d)) by lia. rewrite HW. cbn [bind]. rewrite EE. cbn [bind]. rewrite ES. cbn [bind]. rewrite EX. cbn [bind]. exact EL.
    - rewrite LL, (meq_nr _ _ XP). exact P1.
    - intros mu. rewrite IL, <- EV. unfold eigenvalue. rewrite (meq_nr _ _ XP). split; intros (v & Hv & He); exists v; (split; [exact Hv|]); intros i Hi.
      + rewrite <- (mvec_eq _ _ v i XP) by (rewrite (meq_nr _ _ XP); exact Hi). now apply He.
      + rewrite (mvec_eq _ _ v i XP) by (rewrite (meq_nr _ _ XP); exact Hi). now apply He.
  Qed.
  (** when the subarrays are square the rotation matrix is determined by the scaled subarrays: its eigenvalues satisfy the scaled moment equations *)
  Lemma es_square rw w : check_row_weights rw (Z.of_nat (m - d)) = Ok w -> match w with None => True | Some l => List.length l = (m - d)%nat end ->
    (m - d = k)%nat -> (forall i, (i < m - d)%nat -> row_factor w m d i <> RtoC 0) ->
    exists l, esprit_z eigh solve eigvals Rm (Z.of_nat k) (Z.of_nat d) "ls" rw = Ok l /\ List.length l = k /\
      forall mu, In mu l -> exists u : nat -> C, (exists c, (c < k)%nat /\ u c <> RtoC 0) /\ forall i, (i < k)%nat ->
        row_factor w m d (d + i)%nat * csum k (fun c => cpow (nth c zs (RtoC 0)) (d + i) * u c) = mu * (row_factor w m d i * csum k (fun c => cpow (nth c zs (RtoC 0)) i * u c)).
  Proof.
    intros HW HL Hsq HG. destruct (ex_dims Rm A P s HX) as [D1 _]. cbn [A ula_matrix nr] in D1. destruct (HEc Rm es_herm ltac:(lia)) as (wl & E & EE & OE). destruct (es_eig_dims wl E OE) as [E1 E2].
    destruct (esprit_subarrays_value E m k d w E1 E2 ltac:(lia) ltac:(lia) HL) as (Es1 & Es2 & ES & M1 & M2).
    destruct (es_T wl E OE) as (T & T1 & T2 & TI & TE).
    assert (SI : forall g x i r0, (r0 + i < m)%nat -> mvec (sub_rows E m k d r0 g) x i = g (r0 + i)%nat * csum k (fun c => cpow (nth c zs (RtoC 0)) (r0 + i) * mvec T x c)).
    { intros g x i r0 Hi. unfold mvec at 1. cbn [sub_rows nc ent Nat.add]. rewrite (csum_ext k _ (fun j => g (r0 + i)%nat * csum k (fun c => cpow (nth c zs (RtoC 0)) (r0 + i) * (ent T c j * x j)))).
      - rewrite csum_scal. f_equal. rewrite csum_swap. apply csum_ext. intros c Hc. rewrite csum_scal. unfold mvec. now rewrite T2.
      - intros j Hj. rewrite TE by lia. rewrite (csum_ext k (fun c => cpow _ _ * (ent T c j * x j)) (fun c => cpow (nth c zs (RtoC 0)) (r0 + i) * ent T c j * x j)) by (intros; ring). rewrite csum_scal_r. ring. }
    set (g := row_factor w m d) in *.
    assert (I1 : inj Es1).
    { apply (Base_Lin.inj_eq (sub_rows E m k d 0 g)); [symmetry; exact M1|]. intros x Hx j Hj. cbn [sub_rows nr nc] in Hx, Hj. apply (TI x); [|lia]. rewrite T1. intros c Hc.
      apply (ula_inj (m - d) zs HD ltac:(fold k; lia) (mvec T x)); [|exact Hc]. intros i Hi. cbn [ula_matrix nr] in Hi. unfold mvec at 1. cbn [ula_matrix nc ent]. fold k.
      specialize (Hx i Hi). rewrite SI in Hx by lia. destruct (Cmult_0 _ _ Hx) as [X|X]; [exfalso; exact (HG i Hi X) | exact X]. }
    assert (R1 : nr Es1 = k) by (rewrite (meq_nr _ _ M1); cbn [sub_rows nr]; exact Hsq). assert (C1 : nc Es1 = k) by (rewrite (meq_nc _ _ M1); reflexivity).
    assert (R2 : nr Es2 = k) by (rewrite (meq_nr _ _ M2); cbn [sub_rows nr]; exact Hsq). assert (C2 : nc Es2 = k) by (rewrite (meq_nc _ _ M2); reflexivity).
    destruct (inj_inverse Es1 k R1 C1 I1) as (B & B1 & B2 & EB & BE). set (Psi := B *m Es2).
    assert (RE : Es2 ==m Es1 *m Psi).
    { unfold Psi. rewrite <- mmul_assoc. rewrite (mmul_eq_l _ _ Es2 EB). symmetry. apply mmul_id_l. now symmetry. }
    destruct (rot_ls eigh solve k Es1 Es2 Psi HSc C1 B1 C2 I1 RE) as (X & EX & XP).
    destruct (HVc X) as (l & EL & LL & IL); [rewrite (meq_nr _ _ XP), (meq_nc _ _ XP); cbn [Psi mmul nr nc]; congruence | rewrite (meq_nr _ _ XP); cbn [Psi mmul nr]; lia|].
    assert (NX : nr X = k) by (rewrite (meq_nr _ _ XP); exact B1).
    exists l. split; [|split].
    - unfold esprit_z. rewrite D1. destruct (Z.ltb_spec (Z.of_nat d) 1); [lia|]. unfold ensure_n_resolvable_sources. rewrite Z.gtb_ltb. destruct (Z.ltb_spec (Z.of_nat m - Z.of_nat d) (Z.of_nat k)); [lia|]. cbn [bind].
      replace (Z.of_nat m - Z.of_nat d)%Z with (Z.of_nat (m - d)) by lia. rewrite HW. cbn [bind]. rewrite EE. cbn [bind]. rewrite ES. cbn [bind]. rewrite EX. cbn [bind]. exact EL.
    - rewrite LL. exact NX.
    - intros mu Imu. apply IL in Imu as (v & (i0 & Hi0 & Nv) & Hv). rewrite NX in *. exists (mvec T v). split.
      + destruct (nonzero_dec k (mvec T v)) as [Z|X0]; [|exact X0]. exfalso. apply Nv, (TI v); [rewrite T1; exact Z | lia].
      + intros i Hi. rewrite <- (SI g v i d) by lia. rewrite <- (mvec_eq _ _ v i M2) by lia. pose proof (SI g v i 0%nat ltac:(lia)) as Q. cbn [Nat.add] in Q. rewrite <- Q, <- (mvec_eq _ _ v i M1) by lia.
        rewrite (mvec_eq _ _ v i RE) by lia. rewrite mvec_mmul. rewrite (mvec_ext Es1 (mvec Psi v) (fun r => mu * v r) i); [now rewrite mvec_scal|]. intros r Hr. rewrite <- (mvec_eq _ _ v r XP) by lia. apply Hv. lia.
  Qed.
End Esprit.

(** *** default row weights *)
Lemma set_nth_spec {A} (l : list A) n m x d : (n < List.length l)%nat -> nth m (set_nth l n x) d = if Nat.eqb m n then x else nth m l d.
Proof.
  intros H. rewrite nth_set_nth. destruct (Nat.eqb_spec m n) as [->|]; [|reflexivity]. cbn [andb]. now rewrite (proj2 (Nat.ltb_lt _ _) H).
Qed.
Lemma default_weights_fold m n : (2 * n <= m)%nat ->
  let w := fold_left (fun w i => set_nth (set_nth w i (INR (i + 1))) (m - i - 1) (INR (i + 1))) (seq 0 n) (repeat 0%R m) in
  List.length w = m /\ forall j, (j < m)%nat -> nth j w 0%R = if (j <? n)%nat then INR (j + 1) else if (m - n <=? j)%nat then INR (m - j) else 0%R.
Proof.
  induction n as [|n IH]; intros Hn w.
  - unfold w. cbn [seq fold_left]. split; [apply repeat_length|]. intros j Hj. rewrite nth_repeat' by exact Hj. cbn [Nat.ltb Nat.leb]. rewrite Nat.sub_0_r. destruct (Nat.leb_spec m j); [lia | reflexivity].
  - destruct (IH ltac:(lia)) as (L & N). clear IH. unfold w. rewrite seq_S, fold_left_app. cbn [fold_left Nat.add]. set (w0 := fold_left _ (seq 0 n) _) in *. split; [now rewrite !set_nth_length|].
    intros j Hj. rewrite set_nth_spec by (rewrite set_nth_length; lia). rewrite set_nth_spec by lia. rewrite N by exact Hj.
    destruct (Nat.eqb_spec j (m - n - 1)), (Nat.eqb_spec j n), (Nat.ltb_spec j n), (Nat.ltb_spec j (S n)), (Nat.leb_spec (m - n) j), (Nat.leb_spec (m - S n) j); try lia; try reflexivity; f_equal; lia.
Qed.
Lemma default_weights m : List.length (get_default_row_weights m) = m /\
  forall i, (i < m)%nat -> nth i (get_default_row_weights m) 0%R = sqrt (INR (Nat.min (i + 1) (m - i))).
Proof.
  unfold get_default_row_weights. assert (H2 : (2 * (m / 2) <= m)%nat) by (apply Nat.mul_div_le; lia). destruct (default_weights_fold m (m / 2) H2) as (L & N). set (w := fold_left _ _ _) in *.
  assert (DM := Nat.div_mod m 2 ltac:(lia)). assert (MB : (m mod 2 < 2)%nat) by (apply Nat.mod_upper_bound; lia).
  destruct (Nat.eqb_spec (m mod 2) 1) as [E|E].
  - split; [now rewrite map_length, set_nth_length|]. intros i Hi. rewrite (nth_indep _ 0%R (sqrt 0)) by (now rewrite map_length, set_nth_length, L). rewrite map_nth. f_equal. rewrite set_nth_spec by lia. destruct (Nat.eqb_spec i (m / 2)) as [->|Ne].
    + replace (Nat.min (m / 2 + 1) (m - m / 2)) with (m / 2 + 1)%nat by lia. rewrite DM at 1. rewrite E, !plus_INR, mult_INR. cbn [INR]. field.
    + rewrite N by exact Hi. destruct (Nat.ltb_spec i (m / 2)); [f_equal; lia|]. destruct (Nat.leb_spec (m - m / 2) i); [f_equal; lia | lia].
  - split; [now rewrite map_length|]. intros i Hi. rewrite (nth_indep _ 0%R (sqrt 0)) by (now rewrite map_length, L). rewrite map_nth. f_equal. rewrite N by exact Hi. destruct (Nat.ltb_spec i (m / 2)); [f_equal; lia|]. destruct (Nat.leb_spec (m - m / 2) i); [f_equal; lia | lia].
Qed.
