(** Strict comparisons between spectrum values survive small errors of the covariance matrix. *)
From Coq Require Import Sorting.Sorted.
From Verif Require Import Base_Np Base_Lin M_core M_subspace S_subspace P_subspace P_subspace2 P_spectral P_ml6 P_courant P_invar P_invar6 P_pipeline Prop_subspace S_stable P_stable P_stable2.
From Verif Require P_oracles P_gauss.
Open Scope C_scope.

Lemma positive_floor_on n (Q : nat -> Prop) (f : nat -> R) : (forall i, (i < n)%nat -> Q i -> (0 < f i)%R) -> exists c, (0 < c)%R /\ forall i, (i < n)%nat -> Q i -> (c <= f i)%R.
Proof.
  induction n as [|n IH]; intros H; [exists 1%R; split; [lra | intros; lia]|]. destruct IH as (c & Hc & L); [intros i Hi; apply H; lia|].
  destruct (Classical_Prop.classic (Q n)) as [Y|N].
  - exists (Rmin c (f n)). split; [apply Rmin_pos; [exact Hc | apply H; [lia | exact Y]]|]. intros i Hi Qi. destruct (Nat.eq_dec i n) as [->|NE]; [apply Rmin_r|]. eapply Rle_trans; [apply Rmin_l|]. apply L; [lia | exact Qi].
  - exists c. split; [exact Hc|]. intros i Hi Qi. apply L; [|exact Qi]. destruct (Nat.eq_dec i n) as [->|NE]; [contradiction | lia].
Qed.
Lemma positive_floor2 n (Q : nat -> nat -> Prop) (f : nat -> nat -> R) : (forall i j, (i < n)%nat -> (j < n)%nat -> Q i j -> (0 < f i j)%R) ->
  exists c, (0 < c)%R /\ forall i j, (i < n)%nat -> (j < n)%nat -> Q i j -> (c <= f i j)%R.
Proof.
  intros H. assert (G : forall N, (N <= n)%nat -> exists c, (0 < c)%R /\ forall i j, (i < N)%nat -> (j < n)%nat -> Q i j -> (c <= f i j)%R).
  { induction N as [|N IH]; intros HN; [exists 1%R; split; [lra | intros; lia]|]. destruct IH as (c & Hc & L); [lia|].
    destruct (positive_floor_on n (Q N) (f N)) as (c' & Hc' & L'); [intros j Hj; apply H; lia|]. exists (Rmin c c'). split; [now apply Rmin_pos|]. intros i j Hi Hj Qij.
    destruct (Nat.eq_dec i N) as [->|NE]; [eapply Rle_trans; [apply Rmin_r | now apply L'] | eapply Rle_trans; [apply Rmin_l | apply L; [lia | exact Hj | exact Qij]]]. }
  exact (G n (le_n n)).
Qed.
Lemma upper_bound n (f : nat -> R) : exists L, (0 < L)%R /\ forall i, (i < n)%nat -> (f i <= L)%R.
Proof.
  induction n as [|n (L & HL & H)]; [exists 1%R; split; [lra | intros; lia]|]. exists (Rmax L (f n)). split; [eapply Rlt_le_trans; [exact HL | apply Rmax_l]|].
  intros i Hi. destruct (Nat.eq_dec i n) as [->|NE]; [apply Rmax_r|]. eapply Rle_trans; [apply H; lia | apply Rmax_l].
Qed.
Lemma distance_self A : distance A A = 0%R.
Proof. unfold distance. rewrite <- sqrt_0. f_equal. apply rsum_0. intros i Hi. apply rsum_0. intros j Hj. apply Cnorm2_0. ring. Qed.
Lemma part_unique A w E w' E' q a : hermitian A -> eigh_ok A w E -> eigh_ok A w' E' -> (0 < q < nr A)%nat -> (nth (q - 1) w 0 < nth q w 0)%R -> sqrt (part (nr A) E' q a) = sqrt (part (nr A) E q a).
Proof.
  intros HA OA OA' Hq G. pose proof (part_close A A w E w' E' q a _ HA HA eq_refl OA OA' Hq (Rle_refl _) ltac:(rewrite distance_self; lra)) as C. rewrite distance_self in C. unfold tilt, Rdiv in C. rewrite !Rmult_0_l in C.
  pose proof (Rabs_pos (sqrt (part (nr A) E' q a) - sqrt (part (nr A) E q a))%R). destruct (Req_dec (sqrt (part (nr A) E' q a) - sqrt (part (nr A) E q a))%R 0) as [Z|NZ]; [lra|]. apply Rabs_pos_lt in NZ. lra.
Qed.
Lemma part_ext m E q a b : (forall i, (i < m)%nat -> a i = b i) -> part m E q a = part m E q b.
Proof. intros H. apply rsum_ext. intros j Hj. f_equal. now apply P_spectral.vdot_ext. Qed.
Lemma above_recip (f : nat -> R) n i j : (forall i, (0 <= f i)%R) -> (i < n)%nat -> (j < n)%nat -> (above (map (fun j => recip (f j)) (seq 0 n)) i j <-> (f i < f j)%R).
Proof.
  intros NN Hi Hj. unfold above. rewrite !nth_map_seq by assumption. unfold recip. pose proof (NN i) as Pi. pose proof (NN j) as Pj.
  destruct (Req_EM_T (f i) 0) as [Zi|Zi], (Req_EM_T (f j) 0) as [Zj|Zj]; split; intros H; try tauto; try lra.
  - destruct (Rlt_le_dec (f i) (f j)) as [L|L]; [exact L|]. exfalso. apply (Rle_not_lt _ _ (Rinv_le_contravar (f j) (f i) ltac:(lra) L)). exact H.
  - apply Rinv_lt_contravar; [apply Rmult_lt_0_compat; lra | exact H].
Qed.
Lemma proj_power_ext En a b : (forall i, (i < nr En)%nat -> a i = b i) -> proj_power En a = proj_power En b.
Proof. intros H. apply rsum_ext. intros j Hj. f_equal. now apply P_spectral.vdot_ext. Qed.

Lemma music_stable Rm U k w E : hermitian Rm -> nr U = nr Rm -> (1 <= k < nr Rm)%nat -> eigh_ok Rm w E -> (nth (nr Rm - k - 1) w 0 < nth (nr Rm - k) w 0)%R ->
  exists eps0, (0 < eps0)%R /\ forall eigh Rm' B, B ==m U -> eigh_contract (nr Rm) eigh -> hermitian Rm' -> nr Rm' = nr Rm -> (distance Rm Rm' < eps0)%R ->
    exists En En' sp sp', get_noise_subspace eigh Rm (Z.of_nat k) = Ok En /\ get_noise_subspace eigh Rm' (Z.of_nat k) = Ok En' /\ f_music B En = Ok sp /\ f_music B En' = Ok sp' /\
      List.length sp = nc B /\ List.length sp' = nc B /\ forall i j, (i < nc B)%nat -> (j < nc B)%nat -> above sp i j -> above sp' i j.
Proof.
  intros HR B1 Hk OE G. set (m := nr Rm) in *. set (q := (m - k)%nat) in *. set (g := fun j => sqrt (part m E q (col U j))).
  destruct (positive_floor2 (nc U) (fun i j => (g i < g j)%R) (fun i j => (g j - g i)%R)) as (c & Hc & FL); [intros; lra|].
  destruct (upper_bound (nc U) (fun j => vlen m (col U j))) as (L & HL & UB). set (delta := (nth q w 0 - nth (q - 1) w 0)%R).
  destruct (tilt_small delta (c / (2 * L)) ltac:(unfold delta; lra) ltac:(apply Rdiv_lt_0_compat; lra)) as (eps0 & He & TS).
  exists eps0. split; [lra|]. intros eigh Rm' B EB EC HR' N D. pose proof EB as (b1 & b2 & b3).
  destruct (EC Rm HR (le_n _)) as (w1 & E1 & EE1 & OE1). destruct (EC Rm' HR' ltac:(lia)) as (w2 & E2 & EE2 & OE2). pose proof OE1 as (_ & x1 & x2 & _). pose proof OE2 as (_ & y1 & y2 & _).
  destruct (noise_power eigh Rm k w1 E1 EE1 x1 x2 ltac:(fold m; lia)) as (En & EN & N1 & N2 & N3). destruct (noise_power eigh Rm' k w2 E2 EE2 y1 y2 ltac:(lia)) as (En' & EN' & N1' & N2' & N3').
  exists En, En'. do 2 eexists. split; [exact EN|]. split; [exact EN'|]. split; [apply f_music_value; unfold m in *; congruence|]. split; [apply f_music_value; unfold m in *; congruence|]. split; [now rewrite map_length, seq_length|]. split; [now rewrite map_length, seq_length|].
  intros i j Hi Hj. rewrite !above_recip by (assumption || (intros; apply proj_power_nonneg)). rewrite !N3, !N3', N. fold m. fold q. intros H.
  assert (CU : forall l, (l < nc B)%nat -> forall r, (r < m)%nat -> col B l r = col U l r) by (intros l Hl r Hr; apply b3; lia).
  assert (S1 : forall l, (l < nc B)%nat -> sqrt (part m E1 q (col B l)) = g l).
  { intros l Hl. unfold g. rewrite <- (part_ext m E q _ _ (CU l Hl)). apply (part_unique Rm w E w1 E1 q _ HR OE OE1); [unfold q in *; lia | exact G]. }
  assert (S2 : forall l, (l < nc B)%nat -> (Rabs (sqrt (part m E2 q (col B l)) - g l) < c / 2)%R).
  { intros l Hl. unfold g. rewrite <- (part_ext m E q _ _ (CU l Hl)). eapply Rle_lt_trans; [apply (part_close Rm Rm' w E w2 E2 q (col B l) delta HR HR' (eq_sym N) OE OE2); [unfold q, m in *; lia | unfold delta; lra | lra]|]. fold m.
    assert (VB : (vlen m (col B l) <= L)%R) by (rewrite (vlen_ext m _ _ (CU l Hl)); apply UB; lia).
    pose proof (TS (distance Rm Rm') (conj (distance_nonneg _ _) D)) as T. pose proof (vlen_nonneg m (col B l)) as V0.
    assert (T0 : (0 <= tilt (distance Rm Rm') delta)%R) by (unfold tilt; apply Rmult_le_pos; [apply distance_nonneg | apply Rlt_le, Rinv_0_lt_compat; lra]).
    apply Rle_lt_trans with (tilt (distance Rm Rm') delta * L)%R; [now apply Rmult_le_compat_l|]. apply Rlt_le_trans with (c / (2 * L) * L)%R; [now apply Rmult_lt_compat_r|]. right. field. lra. }
  assert (H' : (g i < g j)%R). { rewrite <- (S1 i Hi), <- (S1 j Hj). apply sqrt_lt_1; [apply part_nonneg | apply part_nonneg | exact H]. }
  pose proof (FL i j ltac:(lia) ltac:(lia) H') as F. pose proof (S2 i Hi) as Si. pose proof (S2 j Hj) as Sj. apply Rabs_def2 in Si, Sj. apply sqrt_lt_0_alt. lra.
Qed.

Lemma bartlett_stable Rm U : nr Rm = nc Rm -> nr U = nr Rm ->
  exists eps0, (0 < eps0)%R /\ forall Rm' B, B ==m U -> nr Rm' = nr Rm -> nc Rm' = nr Rm -> (distance Rm Rm' < eps0)%R ->
    exists sp sp', f_bartlett B Rm = Ok sp /\ f_bartlett B Rm' = Ok sp' /\ List.length sp = nc B /\ List.length sp' = nc B /\
      forall i j, (i < nc B)%nat -> (j < nc B)%nat -> (nth j sp 0 < nth i sp 0)%R -> (nth j sp' 0 < nth i sp' 0)%R.
Proof.
  intros S1 B1. set (m := nr Rm) in *. set (g := fun j => Re (qform Rm (col U j))).
  destruct (positive_floor2 (nc U) (fun i j => (g j < g i)%R) (fun i j => (g i - g j)%R)) as (c & Hc & FL); [intros; lra|].
  destruct (upper_bound (nc U) (fun j => vnorm2 m (col U j))) as (L & HL & UB).
  exists (c / (2 * L))%R. split; [apply Rdiv_lt_0_compat; lra|]. intros Rm' B EB N1 N2 D. pose proof EB as (b1 & b2 & b3).
  do 2 eexists. split; [apply bartlett_value; [unfold m in *; congruence | exact S1]|]. split; [apply bartlett_value; unfold m in *; congruence|]. split; [now rewrite map_length, seq_length|]. split; [now rewrite map_length, seq_length|].
  intros i j Hi Hj. rewrite !nth_map_seq by assumption. intros H.
  assert (CU : forall l, (l < nc B)%nat -> forall r, (r < m)%nat -> col B l r = col U l r) by (intros l Hl r Hr; apply b3; lia).
  assert (Q1 : forall l, (l < nc B)%nat -> Re (qform Rm (col B l)) = g l).
  { intros l Hl. unfold g. f_equal. unfold qform. rewrite <- S1. apply csum_ext. intros a Ha. apply csum_ext. intros b Hb. now rewrite !(CU l Hl). }
  assert (Q2 : forall l, (l < nc B)%nat -> (Rabs (g l - Re (qform Rm' (col B l))) < c / 2)%R).
  { intros l Hl. rewrite <- (Q1 l Hl). eapply Rle_lt_trans; [apply qform_close; [exact S1 | exact N1 | exact N2]|]. fold m. assert (VB : (vnorm2 m (col B l) <= L)%R) by (rewrite (vnorm2_ext m _ _ (CU l Hl)); apply UB; lia).
    apply Rle_lt_trans with (distance Rm Rm' * L)%R; [apply Rmult_le_compat_l; [apply distance_nonneg | exact VB]|]. apply Rlt_le_trans with (c / (2 * L) * L)%R; [now apply Rmult_lt_compat_r|]. right. field. lra. }
  rewrite !Q1 in H by assumption. pose proof (FL i j ltac:(lia) ltac:(lia) H) as F. pose proof (Q2 i Hi) as Si. pose proof (Q2 j Hj) as Sj. apply Rabs_def2 in Si, Sj. lra.
Qed.

(** the smallest eigenvalue bounds the quadratic form from below *)
Lemma pd_floor Rm : pd Rm -> (0 < nr Rm)%nat -> exists lam, (0 < lam)%R /\ forall x, (lam * vnorm2 (nr Rm) x <= Re (qform Rm x))%R.
Proof.
  intros HP Hm. destruct (P_oracles.eigh_ref_contract (nr Rm) Rm (proj1 HP) (le_n _)) as (w & E & _ & OE). exists (nth 0 w 0)%R. split; [exact (eigh_pos Rm w E HP OE 0 Hm)|].
  intros x. rewrite (qform_eig Rm w E x (proj1 HP) OE), <- (parseval Rm w E x (proj1 HP) OE), <- rsum_scal. apply rsum_le. intros j Hj. apply Rmult_le_compat_r; [apply Cnorm2_nonneg|].
  pose proof OE as (_ & _ & _ & L & S1 & _). apply sorted_le; [exact S1 | lia].
Qed.
Lemma mvdr_stable Rm U : pd Rm -> nr U = nr Rm -> (forall j, (j < nc U)%nat -> exists i, (i < nr U)%nat /\ ent U i j <> RtoC 0) ->
  exists eps0, (0 < eps0)%R /\ forall lstsq Rm' B, B ==m U -> lstsq_contract lstsq -> hermitian Rm' -> nr Rm' = nr Rm -> (distance Rm Rm' < eps0)%R ->
    exists sp sp', f_mvdr lstsq B Rm = Ok sp /\ f_mvdr lstsq B Rm' = Ok sp' /\ List.length sp = nc B /\ List.length sp' = nc B /\
      (forall i, (i < nc B)%nat -> nth i sp' None <> None) /\ forall i j, (i < nc B)%nat -> (j < nc B)%nat -> above sp i j -> above sp' i j.
Proof.
  intros HP B1 NZ. destruct (Nat.eq_dec (nr Rm) 0) as [Z|NZ0].
  { exists 1%R. split; [lra|]. intros lstsq Rm' B EB LC HR' N D. pose proof EB as (b1 & b2 & b3). assert (NB : nc B = 0%nat). { destruct (nc U) as [|c] eqn:EU; [lia|]. destruct (NZ 0%nat ltac:(lia)) as (i & Hi & _). lia. }
    pose proof HR' as (S2 & _). destruct (C60_mvdr lstsq B Rm LC HP ltac:(congruence)) as (sp & E1 & L1 & _); [intros; lia|]. assert (HP' : pd Rm') by (split; [exact HR'|]; intros x (i & Hi & _); lia).
    destruct (C60_mvdr lstsq B Rm' LC HP' ltac:(congruence)) as (sp' & E2 & L2 & _); [intros; lia|]. exists sp, sp'. repeat (split; [assumption|]). split; intros; lia. }
  destruct (pd_floor Rm HP ltac:(lia)) as (lam & Hl & FLR). assert (SC : lstsq_contract P_gauss.solve0).
  { intros G B S1 HI S2. destruct (proj2 P_gauss.solve0_exact G B S1 S2 HI) as (X & HX'). exists X. split; [exact HX'|]. apply (proj1 P_gauss.solve0_exact) in HX' as (Y1 & Y2 & Y3 & Y4 & Y5). auto. }
  destruct (C60_mvdr P_gauss.solve0 U Rm SC HP B1 NZ) as (sp0 & E0 & L0 & V0).
  set (g := fun j => match nth j sp0 None with Some v => v | None => 0%R end).
  assert (G0 : forall j, (j < nc U)%nat -> nth j sp0 None = Some (g j) /\ (0 < g j)%R /\ exists x, (forall i, (i < nr Rm)%nat -> mvec Rm x i = col U j i) /\ RtoC (/ g j) = vdot (nr Rm) (col U j) x).
  { intros j Hj. destruct (V0 j Hj) as (x & v & X1 & X2 & X3 & X4 & _). rewrite B1 in X1, X4. unfold g. rewrite X2. split; [reflexivity|]. split; [exact X3|]. exists x. split; [exact X1 | exact X4]. }
  destruct (positive_floor2 (nc U) (fun i j => (g j < g i)%R) (fun i j => (g i - g j)%R)) as (c & Hc & FL); [intros; lra|].
  destruct (upper_bound (nc U) g) as (L & HL & UB).
  exists (Rmin lam (lam * (c / (2 * L))))%R. split; [apply Rmin_pos; [exact Hl | apply Rmult_lt_0_compat; [exact Hl | apply Rdiv_lt_0_compat; lra]]|].
  intros lstsq Rm' B EB LC HR' N D. pose proof EB as (b1 & b2 & b3). pose proof (Rlt_le_trans _ _ _ D (Rmin_l _ _)) as D1. pose proof (Rlt_le_trans _ _ _ D (Rmin_r _ _)) as D2.
  destruct (mvdr_close lstsq B Rm Rm' lam LC (proj1 HP) HR' N ltac:(congruence)) as (sp & sp' & E1 & E2 & L1 & L2 & V); [|exact FLR | exact D1|].
  { intros j Hj. destruct (NZ j ltac:(lia)) as (i & Hi & Ni). exists i. split; [lia|]. rewrite b3 by lia. exact Ni. }
  destruct (C60_mvdr lstsq B Rm LC HP ltac:(congruence)) as (sp1 & E1' & _ & V1). { intros j Hj. destruct (NZ j ltac:(lia)) as (i & Hi & Ni). exists i. split; [lia|]. rewrite b3 by lia. exact Ni. }
  rewrite E1 in E1'. injection E1' as <-.
  assert (W : forall j, (j < nc B)%nat -> nth j sp None = Some (g j)).
  { intros j Hj. destruct (G0 j ltac:(lia)) as (_ & gp & x & X1 & X2). destruct (V1 j Hj) as (y & v & Y1 & Y2 & Y3 & Y4 & _). rewrite b1, B1 in Y1, Y4.
    assert (XY : forall i, (i < nr Rm)%nat -> x i = y i).
    { pose proof HP as ((SQ & _) & _). intros i Hi. assert (IJ := pd_inj Rm HP). assert (Z : forall r, (r < nr Rm)%nat -> mvec Rm (fun l => x l - y l) r = RtoC 0) by (intros r Hr; rewrite mvec_sub, X1, Y1 by exact Hr; unfold col; rewrite b3 by lia; ring).
      pose proof (IJ _ Z i ltac:(lia)) as Q. cbn beta in Q. replace (x i) with (x i - y i + y i) by ring. rewrite Q. ring. }
    rewrite Y2. f_equal. rewrite <- (Rinv_inv v), <- (Rinv_inv (g j)). f_equal. apply RtoC_inj. rewrite Y4, X2. apply P_spectral.vdot_ext; [|intros; symmetry; now apply XY]. intros i Hi. unfold col. apply b3; lia. }
  exists sp, sp'. split; [exact E1|]. split; [exact E2|]. split; [exact L1|]. split; [exact L2|]. split.
  { intros i Hi. destruct (V i Hi) as (v & v' & _ & V2 & _). rewrite V2. discriminate. }
  intros i j Hi Hj. unfold above. destruct (V i Hi) as (vi & vi' & Ii & Ii' & _ & _ & Bi). destruct (V j Hj) as (vj & vj' & Ij & Ij' & _ & _ & Bj). rewrite Ii, Ij, Ii', Ij'. rewrite (W i Hi) in Ii. rewrite (W j Hj) in Ij. injection Ii as <-. injection Ij as <-.
  intros H. pose proof (FL i j ltac:(lia) ltac:(lia) H) as F. pose proof (UB i ltac:(lia)) as Ui. pose proof (UB j ltac:(lia)) as Uj. destruct (G0 i ltac:(lia)) as (_ & gi & _). destruct (G0 j ltac:(lia)) as (_ & gj & _).
  set (r := (distance Rm Rm' / lam)%R) in *. assert (R0 : (0 <= r)%R) by (unfold r; apply Rmult_le_pos; [apply distance_nonneg | apply Rlt_le, Rinv_0_lt_compat; exact Hl]).
  assert (R1 : (r < c / (2 * L))%R). { unfold r. apply Rmult_lt_reg_r with lam; [exact Hl|]. unfold Rdiv at 1. rewrite Rmult_assoc, Rinv_l, Rmult_1_r by lra. lra. }
  assert (R2 : (r * L < c / 2)%R). { apply Rlt_le_trans with (c / (2 * L) * L)%R; [now apply Rmult_lt_compat_r|]. right. field. lra. }
  assert (K1 : (r * g i <= r * L)%R) by (now apply Rmult_le_compat_l). assert (K2 : (r * g j <= r * L)%R) by (now apply Rmult_le_compat_l). lra.
Qed.
