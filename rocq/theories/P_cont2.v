(** Continuity of eigenspaces: orthonormal bases of the eigenspaces of close Hermitian matrices can be aligned by a unitary matrix. *)
From Coq Require Import Sorting.Sorted Sorting.Permutation.
From Verif Require Import Base_Np Base_Lin S_subspace P_subspace P_subspace2 P_subspace3 P_subspace4 P_spectral P_ml6 P_courant P_signals P_equiv2 P_invar P_invar4 P_invar6 S_invar S_stable P_stable P_stable5 P_oracles P_cont.
Open Scope C_scope.

Lemma near_distance n e (A B : cmat) : nr A = n -> nc A = n -> (0 <= e)%R -> near e A B -> (distance A B <= INR n * e)%R.
Proof. intros a b He (c & d & H). apply distance_entries; auto. intros i j Hi Hj. apply H; congruence. Qed.
Lemma distance_near (A B : cmat) : nr B = nr A -> nc B = nc A -> near (distance A B) A B.
Proof. intros a b. split; [exact a|]. split; [exact b|]. intros. now apply entry_distance. Qed.

(** *** inverse square roots near the identity *)
Lemma id_eigh q : eigh_ok (mid q) (repeat 1%R q) (mid q).
Proof.
  split; [reflexivity|]. split; [reflexivity|]. split; [reflexivity|]. split; [apply repeat_length|]. cbn [mid nr]. split.
  - clear. induction q as [|q IH]; cbn; [constructor|]. constructor; [exact IH|]. apply Forall_forall. intros x Hx. apply repeat_spec in Hx. subst. lra.
  - split.
    + rewrite mmul_id_r by reflexivity. split; [reflexivity|]. split; [reflexivity|]. intros i j Hi Hj. cbn [mher mid ent]. destruct (Nat.eqb_spec j i), (Nat.eqb_spec i j); try lia; [apply Cconj_RtoC | apply Cconj_0].
    + rewrite !mmul_id_l by reflexivity. split; [reflexivity|]. split; [reflexivity|]. intros i j Hi Hj. cbn [mdiag mid ent]. destruct (Nat.eqb_spec i j); [|reflexivity]. cbn [mid nr] in Hi. now rewrite nth_repeat' by exact Hi.
Qed.
Lemma id_hermitian q : hermitian (mid q).
Proof. split; [reflexivity|]. intros i j Hi Hj. cbn [mid ent]. destruct (Nat.eqb_spec j i), (Nat.eqb_spec i j); try lia; symmetry; [apply Cconj_RtoC | apply Cconj_0]. Qed.
Lemma inv_sqrt_close x : (1 / 2 <= x)%R -> (Rabs (/ sqrt x - 1) <= 2 * Rabs (x - 1))%R.
Proof.
  intros H. assert (S0 : (0 < sqrt x)%R) by (apply sqrt_lt_R0; lra). set (s := sqrt x) in *. assert (SS : (s * s = x)%R) by (apply sqrt_sqrt; lra).
  assert (Sh : (1 / 2 <= s)%R). { destruct (Rle_lt_dec (1 / 2) s) as [L|L]; [exact L|]. assert (s * s < 1 / 2 * (1 / 2))%R by (apply Rmult_le_0_lt_compat; lra). lra. }
  replace (/ s - 1)%R with (- (x - 1) * / (s * (s + 1)))%R by (rewrite <- SS; field; lra). rewrite Rabs_mult, Rabs_Ropp, Rmult_comm. apply Rmult_le_compat_r; [apply Rabs_pos|].
  assert (P : (1 / 2 <= s * (s + 1))%R). { assert (1 / 2 * 1 <= s * (s + 1))%R by (apply Rmult_le_compat; lra). lra. }
  rewrite Rabs_right by (apply Rle_ge, Rlt_le, Rinv_0_lt_compat; lra). replace 2%R with (/ (1 / 2))%R by field. apply Rinv_le_contravar; lra.
Qed.
Lemma eigh_entry A w E i j : eigh_ok A w E -> (i < nr A)%nat -> (j < nr A)%nat -> (Cmod (ent E i j) <= 1)%R.
Proof.
  intros H Hi Hj. pose proof (eigh_orth A w E j j H Hj Hj) as O. rewrite Nat.eqb_refl, vdot_self in O. apply RtoC_inj in O.
  pose proof (rsum_ge (nr A) (fun i => Cnorm2 (col E j i)) i Hi (fun _ _ => Cnorm2_nonneg _)) as G. cbv beta in G. change (rsum (nr A) (fun i => Cnorm2 (col E j i))) with (vnorm2 (nr A) (col E j)) in G. rewrite O in G. unfold col in G.
  rewrite <- Cmod_sq in G. pose proof (Cmod_ge_0 (ent E i j)). apply sq_le_len; lra.
Qed.
Lemma polar q tol : (0 < tol)%R -> exists b, (0 < b)%R /\ forall G : cmat, nr G = q -> nc G = q -> near b (mid q) (mher G *m G) ->
  exists K : cmat, nr K = q /\ nc K = q /\ near tol (mid q) K /\ mher (G *m K) *m (G *m K) ==m mid q.
Proof.
  intros Ht. pose proof (pos_INR q) as Hq. set (K0 := (INR q * (2 * INR q) + 1)%R). assert (HK : (0 < K0)%R) by (unfold K0; assert (0 <= INR q * (2 * INR q))%R by (apply Rmult_le_pos; lra); lra).
  exists (Rmin (1 / 2 / (INR q + 1)) (tol / K0)). assert (T0 : (0 < tol / K0)%R) by (apply Rdiv_lt_0_compat; assumption). split; [apply Rmin_glb_lt; [apply third_pos | exact T0]|].
  intros G g1 g2 NG. set (b := Rmin (1 / 2 / (INR q + 1)) (tol / K0)) in *. assert (b1 : (b <= 1 / 2 / (INR q + 1))%R) by apply Rmin_l. assert (b2 : (b <= tol / K0)%R) by apply Rmin_r. assert (b0 : (0 < b)%R) by (apply Rmin_glb_lt; [apply third_pos | exact T0]).
  set (H := mher G *m G) in *. assert (HH : hermitian H) by apply hermitian_gram. assert (h1 : nr H = q) by (unfold H; cbn; exact g2). assert (h2 : nc H = q) by (unfold H; cbn; exact g2).
  destruct (eigh_ref_ok H HH) as (lam & W & _ & HE). pose proof (eigh_right H lam W HE) as WR. rewrite h1 in WR. pose proof HE as (_ & w1 & w2 & LL & _ & WU & WV). rewrite h1 in w1, w2, LL, WU, WV.
  assert (DB : (distance (mid q) H <= 1 / 2)%R). { eapply Rle_trans; [apply (near_distance q b); [reflexivity | reflexivity | lra | exact NG]|]. eapply Rle_trans; [|apply (third q)]. apply Rmult_le_compat_l; lra. }
  assert (DC : (distance (mid q) H <= INR q * b)%R) by (apply (near_distance q b); [reflexivity | reflexivity | lra | exact NG]).
  assert (LW : forall i, (i < q)%nat -> (Rabs (nth i lam 0 - 1) <= distance (mid q) H)%R).
  { intros i Hi. pose proof (weyl (mid q) H (repeat 1%R q) (mid q) lam W i (id_hermitian q) HH ltac:(cbn; congruence) (id_eigh q) HE ltac:(cbn; exact Hi)) as X. rewrite nth_repeat' in X by exact Hi. now rewrite Rabs_minus_sym. }
  assert (LP : forall i, (i < q)%nat -> (1 / 2 <= nth i lam 0)%R). { intros i Hi. specialize (LW i Hi). destruct (Rcase_abs (nth i lam 0 - 1)%R) as [L|L]; [rewrite Rabs_left in LW by exact L; lra | lra]. }
  set (d := fun i => (/ sqrt (nth i lam 0))%R). set (D' := mdiag q (fun i => RtoC (d i))). set (K := (W *m D') *m mher W).
  assert (DH : mher D' ==m D'). { split; [reflexivity|]. split; [reflexivity|]. intros i j Hi Hj. cbn [D' mdiag mher nr nc ent]. destruct (Nat.eqb_spec j i) as [->|N]; [rewrite Nat.eqb_refl; apply Cconj_RtoC|]. destruct (Nat.eqb_spec i j); [congruence | apply Cconj_0]. }
  exists K. split; [exact w1|]. split; [exact w1|]. split.
  - split; [exact w1|]. split; [exact w1|]. cbn [mid nr nc]. intros i j Hi Hj.
    assert (KE : ent K i j = csum q (fun r => ent W i r * RtoC (d r) * Cconj (ent W j r))).
    { unfold K. cbn [mmul ent nc mher]. change (nc D') with q. apply csum_ext. intros r Hr. rewrite w2. f_equal. rewrite (csum_single q _ r Hr).
      - unfold D'. cbn [mdiag ent]. rewrite Nat.eqb_refl. reflexivity.
      - intros s Hs Ns. unfold D'. cbn [mdiag ent]. destruct (Nat.eqb_spec s r); [lia|ring]. }
    assert (IE : ent (mid q) i j = csum q (fun r => ent W i r * Cconj (ent W j r))).
    { rewrite <- (meq_ent _ _ i j WR) by (cbn; congruence). cbn [mmul mher ent]. now rewrite w2. }
    rewrite KE, IE, <- csum_minus. eapply Rle_trans; [apply (Cmod_sum_le q _ (2 * distance (mid q) H))|].
    + intros r Hr. replace (ent W i r * Cconj (ent W j r) - ent W i r * RtoC (d r) * Cconj (ent W j r)) with (ent W i r * Cconj (ent W j r) * RtoC (1 - d r)) by (rewrite RtoC_minus; ring).
      rewrite !Cmod_mult, Cmod_conj, Cmod_R. pose proof (eigh_entry H lam W i r HE ltac:(congruence) ltac:(congruence)) as X1. pose proof (eigh_entry H lam W j r HE ltac:(congruence) ltac:(congruence)) as X2.
      pose proof (inv_sqrt_close _ (LP r Hr)) as X3. specialize (LW r Hr). rewrite Rabs_minus_sym in X3. fold (d r) in X3.
      assert (Cmod (ent W i r) * Cmod (ent W j r) <= 1 * 1)%R by (apply Rmult_le_compat; try apply Cmod_ge_0; assumption).
      assert (Cmod (ent W i r) * Cmod (ent W j r) * Rabs (1 - d r) <= 1 * 1 * (2 * distance (mid q) H))%R by (apply Rmult_le_compat; [apply Rmult_le_pos; apply Cmod_ge_0 | apply Rabs_pos | assumption | lra]). lra.
    + apply Rle_trans with (INR q * (2 * (INR q * b)))%R; [apply Rmult_le_compat_l; lra|]. assert (b * K0 <= tol)%R. { apply Rmult_le_compat_r with (r := K0) in b2; [|lra]. replace (tol / K0 * K0)%R with tol in b2 by (field; lra). exact b2. } unfold K0 in H0. lra.
  - (* K^H H K = I *)
    assert (k1 : nr K = q) by exact w1. assert (k2 : nc K = q) by exact w1.
    assert (KH : mher K ==m (W *m D') *m mher W).
    { unfold K. rewrite mher_mmul by (unfold K, H, D'; cbn; congruence). etransitivity; [apply (mmul_eq_l _ W); apply mher_mher|]. etransitivity; [apply (mmul_eq_r W _ (D' *m mher W)); [unfold K, H, D'; cbn; congruence|]|].
      - rewrite mher_mmul by (unfold K, H, D'; cbn; congruence). apply mmul_eq_l. exact DH.
      - symmetry. apply mmul_assoc. }
    assert (Dd : D' *m (mdiag q (fun i => RtoC (nth i lam 0%R)) *m D') ==m mid q).
    { unfold D'. rewrite mmul_diag_l by reflexivity. split; [reflexivity|]. split; [reflexivity|]. cbn [nr nc ent mmul mdiag mid]. intros i j Hi Hj. rewrite (csum_single q _ i Hi).
      - rewrite Nat.eqb_refl. destruct (Nat.eqb_spec i j); [|ring]. rewrite <- !RtoC_mult. unfold d. f_equal. specialize (LP i Hi). assert (S0 : (0 < sqrt (nth i lam 0))%R) by (apply sqrt_lt_R0; lra). rewrite <- (sqrt_sqrt (nth i lam 0%R)) at 2 by lra. field. lra.
      - intros r Hr Nr. destruct (Nat.eqb_spec i r); [lia|ring]. }
    set (Dl := mdiag q (fun i => RtoC (nth i lam 0%R))) in *.
    assert (HK1 : H *m K ==m (W *m (Dl *m D')) *m mher W).
    { unfold K. rewrite <- mmul_assoc. apply mmul_eq_l. rewrite <- mmul_assoc. rewrite (mmul_eq_l _ _ D' WV). apply mmul_assoc. }
    assert (WD : mher W *m (W *m (Dl *m D')) ==m Dl *m D').
    { rewrite <- mmul_assoc. rewrite (mmul_eq_l _ _ (Dl *m D') WU). apply mmul_id_l. reflexivity. }
    transitivity (mher K *m (H *m K)).
    { rewrite (mmul_eq_l _ (mher K *m mher G) (G *m K)) by (apply mher_mmul; unfold K, H, D'; cbn; congruence). rewrite (mmul_assoc (mher K) (mher G) (G *m K)). apply mmul_eq_r; [cbn [mher nc mmul nr]; congruence|]. rewrite <- (mmul_assoc (mher G) G K). reflexivity. }
    rewrite (mmul_eq_l _ _ (H *m K) KH). rewrite (mmul_eq_r ((W *m D') *m mher W) (H *m K) ((W *m (Dl *m D')) *m mher W) ltac:(unfold H; cbn; congruence) HK1).
    rewrite (mmul_assoc (W *m D') (mher W) ((W *m (Dl *m D')) *m mher W)). rewrite (mmul_eq_r (W *m D') _ ((Dl *m D') *m mher W)); [|unfold D'; cbn; congruence|].
    2:{ rewrite <- mmul_assoc. apply mmul_eq_l. exact WD. }
    rewrite (mmul_assoc W D' ((Dl *m D') *m mher W)). rewrite (mmul_eq_r W _ (mher W)); [exact WR | unfold D'; cbn; congruence |].
    rewrite <- (mmul_assoc D' (Dl *m D') (mher W)). rewrite (mmul_eq_l _ _ (mher W) Dd). apply mmul_id_l. unfold K, H, D'; cbn; congruence.
Qed.

(** *** alignment of eigenvector bases *)
(** the columns p, ..., p + q - 1 *)
Definition win (n p q : nat) (E : cmat) : cmat := Mat n q (fun i j => ent E i (p + j)).
Lemma cross_entry A B w E w' E' i j eta : hermitian A -> hermitian B -> nr A = nr B -> eigh_ok A w E -> eigh_ok B w' E' -> (0 < eta)%R -> (i < nr A)%nat -> (j < nr A)%nat ->
  (eta <= Rabs (nth i w' 0 - nth j w 0))%R -> (Cmod (vdot (nr A) (col E' i) (col E j)) <= distance A B / eta)%R.
Proof.
  intros HA HB N OA OB He Hi Hj G. pose proof (cross_block A B w E w' E' eta j 1 i 1 HA HB N OA OB He ltac:(lia) ltac:(lia)) as X.
  assert (X' : (Cnorm2 (vdot (nr A) (col E j) (col E' i)) <= distance A B / eta * (distance A B / eta))%R).
  { cbn [rsum] in X. rewrite !Nat.add_0_r, !Rplus_0_l in X. apply X. intros a b Ha Hb. replace a with O by lia. replace b with O by lia. rewrite !Nat.add_0_r. exact G. }
  rewrite <- vdot_conj, Cmod_conj. rewrite <- Cmod_sq in X'. apply sq_le_len; [unfold Rdiv; apply Rmult_le_pos; [apply distance_nonneg | apply Rlt_le, Rinv_0_lt_compat; exact He] | exact X'].
Qed.
Lemma vdot_expand B w E x y : eigh_ok B w E -> vdot (nr B) x y = csum (nr B) (fun r => Cconj (vdot (nr B) (col E r) x) * vdot (nr B) (col E r) y).
Proof.
  intros H. unfold vdot at 1. rewrite (csum_ext _ _ (fun i => csum (nr B) (fun r => Cconj (x i) * (vdot (nr B) (col E r) y * ent E i r)))).
  2:{ intros i Hi. rewrite (eigh_expand B w E y i H Hi) at 1. now rewrite csum_scal. }
  rewrite csum_swap. apply csum_ext. intros r Hr. rewrite vdot_conj. unfold vdot at 2. rewrite Cmult_comm, <- csum_scal. apply csum_ext. intros i Hi. unfold col. ring.
Qed.
Lemma csum_split3 n p q (f : nat -> C) : (p + q <= n)%nat -> csum n f = csum p f + csum q (fun i => f (p + i)%nat) + csum (n - p - q) (fun i => f (p + q + i)%nat).
Proof. intros H. replace n with (p + q + (n - p - q))%nat at 1 by lia. rewrite csum_app. f_equal. now rewrite csum_app. Qed.
Lemma align A w E p q g tol : hermitian A -> eigh_ok A w E -> (p + q <= nr A)%nat -> (0 < g)%R ->
  (forall i j, (i < nr A)%nat -> (i < p \/ p + q <= i)%nat -> (j < q)%nat -> (g <= Rabs (nth i w 0 - nth (p + j) w 0))%R) -> (0 < tol)%R ->
  exists eps, (0 < eps)%R /\ forall B w' E', hermitian B -> nr B = nr A -> eigh_ok B w' E' -> (distance A B < eps)%R ->
    exists U : cmat, nr U = q /\ nc U = q /\ mher U *m U ==m mid q /\ near tol (win (nr A) p q E) (win (nr A) p q E' *m U).
Proof.
  intros HA OA Hpq Hg Sep Ht. set (n := nr A) in *. pose proof (pos_INR n) as Hn.
  destruct (near_mul (win n p q E) (mid q) tol eq_refl Ht) as (e1 & He1 & H1).
  destruct (polar q e1 He1) as (b & Hb & HP).
  set (t := (Rmin 1 (Rmin b e1 / (INR n + 1)))%R). assert (Hm : (0 < Rmin b e1)%R) by (apply Rmin_glb_lt; assumption). assert (Ht0 : (0 < t)%R) by (apply Rmin_glb_lt; [lra|]; apply Rdiv_lt_0_compat; lra).
  assert (Ht1 : (t <= 1)%R) by apply Rmin_l. assert (Ht2 : (INR n * t <= Rmin b e1)%R).
  { apply Rle_trans with (INR n * (Rmin b e1 / (INR n + 1)))%R; [apply Rmult_le_compat_l; [exact Hn | apply Rmin_r]|]. apply Rmult_le_reg_r with (INR n + 1)%R; [lra|]. replace (INR n * (Rmin b e1 / (INR n + 1)) * (INR n + 1))%R with (INR n * Rmin b e1)%R by (field; lra). lra. }
  exists (Rmin (g / 2) (t * (g / 2))). split; [apply Rmin_glb_lt; [lra | apply Rmult_lt_0_compat; lra]|]. intros B w' E' HB NB OB DB.
  assert (D1 : (distance A B < g / 2)%R) by (eapply Rlt_le_trans; [exact DB | apply Rmin_l]). assert (D2 : (distance A B < t * (g / 2))%R) by (eapply Rlt_le_trans; [exact DB | apply Rmin_r]).
  assert (Out : forall i j, (i < n)%nat -> (i < p \/ p + q <= i)%nat -> (j < q)%nat -> (Cmod (vdot n (col E' i) (col E (p + j)))%C <= t)%R).
  { intros i j Hi Oi Hj. eapply Rle_trans; [apply (cross_entry A B w E w' E' i (p + j) (g / 2)); auto; [lra | unfold n in *; lia |]|].
    - specialize (Sep i j Hi Oi Hj). pose proof (weyl A B w E w' E' i HA HB (eq_sym NB) OA OB Hi) as W. rewrite Rabs_minus_sym in W. pose proof (Rabs_triang (nth i w 0 - nth i w' 0)%R (nth i w' 0 - nth (p + j) w 0)%R) as T. replace (nth i w 0 - nth i w' 0 + (nth i w' 0 - nth (p + j) w 0))%R with (nth i w 0 - nth (p + j) w 0)%R in T by ring. rewrite (Rabs_minus_sym (nth i w 0%R) (nth i w' 0%R)) in T. lra.
    - apply Rmult_le_reg_r with (g / 2)%R; [lra|]. replace (distance A B / (g / 2) * (g / 2))%R with (distance A B) by (field; lra). lra. }
  set (G := (Mat q q (fun i j => vdot n (col E' (p + i)) (col E (p + j))) : cmat)).
  pose proof OB as (_ & o1 & o2 & _). rewrite NB in o1, o2. fold n in o1, o2. assert (NB' : nr B = n) by exact NB.
  assert (Bnd : forall (f : nat -> C), (forall i, (i < n)%nat -> (i < p \/ p + q <= i)%nat -> (Cmod (f i) <= t)%R) -> (Cmod (csum n f - csum q (fun i => f (p + i)%nat))%C <= INR n * t)%R).
  { intros f Hf. rewrite (csum_split3 n p q f Hpq). replace (csum p f + csum q (fun i => f (p + i)%nat) + csum (n - p - q) (fun i => f (p + q + i)%nat) - csum q (fun i => f (p + i)%nat)) with (csum p f + csum (n - p - q) (fun i => f (p + q + i)%nat)) by ring.
    eapply Rle_trans; [apply Cmod_triangle|]. pose proof (Cmod_sum_le p f t ltac:(intros; apply Hf; lia)) as X1. pose proof (Cmod_sum_le (n - p - q) (fun i => f (p + q + i)%nat) t ltac:(intros; apply Hf; lia)) as X2. cbv beta in X2.
    assert (INR p + INR (n - p - q) <= INR n)%R by (rewrite <- plus_INR; apply le_INR; lia). assert ((INR p + INR (n - p - q)) * t <= INR n * t)%R by (apply Rmult_le_compat_r; lra). lra. }
  assert (N1 : near e1 (win n p q E) (win n p q E' *m G)).
  { split; [reflexivity|]. split; [reflexivity|]. cbn [win nr nc]. intros r j Hr Hj. cbn [win mmul ent nc G]. change (ent E r (p + j)) with (col E (p + j) r). rewrite (eigh_expand B w' E' (col E (p + j)) r OB ltac:(congruence)). rewrite NB'.
    eapply Rle_trans; [|apply Rle_trans with (Rmin b e1); [exact Ht2 | apply Rmin_r]].
    replace (csum q (fun k => ent E' r (p + k) * vdot n (col E' (p + k)) (col E (p + j)))) with (csum q (fun k => vdot n (col E' (p + k)) (col E (p + j)) * ent E' r (p + k))) by (apply csum_ext; intros; ring).
    apply (Bnd (fun k => vdot n (col E' k) (col E (p + j)) * ent E' r k)). intros i Hi Oi. rewrite Cmod_mult. pose proof (Out i j Hi Oi Hj) as X. pose proof (eigh_entry B w' E' r i OB ltac:(congruence) ltac:(congruence)) as Y.
    assert (Cmod (vdot n (col E' i) (col E (p + j)))%C * Cmod (ent E' r i) <= t * 1)%R by (apply Rmult_le_compat; try apply Cmod_ge_0; assumption). lra. }
  assert (N2 : near b (mid q) (mher G *m G)).
  { split; [reflexivity|]. split; [reflexivity|]. cbn [mid nr nc]. intros i j Hi Hj.
    assert (ID : ent (mid q) i j = csum n (fun r => Cconj (vdot n (col E' r) (col E (p + i))) * vdot n (col E' r) (col E (p + j)))).
    { pose proof (vdot_expand B w' E' (col E (p + i)) (col E (p + j)) OB) as V. rewrite NB' in V. rewrite <- V. unfold n. rewrite (eigh_orth A w E (p + i) (p + j) OA) by (unfold n in *; lia). cbn [mid ent]. destruct (Nat.eqb_spec i j), (Nat.eqb_spec (p + i) (p + j)); try lia; reflexivity. }
    rewrite ID. cbn [mher mmul ent nc nr G]. eapply Rle_trans; [|apply Rle_trans with (Rmin b e1); [exact Ht2 | apply Rmin_l]].
    apply (Bnd (fun r => Cconj (vdot n (col E' r) (col E (p + i))) * vdot n (col E' r) (col E (p + j)))). intros r Hr Or. rewrite Cmod_mult, Cmod_conj. pose proof (Out r i Hr Or Hi) as X. pose proof (Out r j Hr Or Hj) as Y.
    assert (Cmod (vdot n (col E' r) (col E (p + i)))%C * Cmod (vdot n (col E' r) (col E (p + j)))%C <= 1 * t)%R by (apply Rmult_le_compat; try apply Cmod_ge_0; lra). lra. }
  destruct (HP G eq_refl eq_refl N2) as (K & k1 & k2 & NK & UK). exists (G *m K). split; [reflexivity|]. split; [exact k2|]. split; [exact UK|].
  apply (near_eq _ (win n p q E *m mid q) _ ((win n p q E' *m G) *m K) _); [apply mmul_id_r; reflexivity | apply mmul_assoc |]. apply H1; assumption.
Qed.
