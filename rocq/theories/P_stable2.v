(** MUSIC, Bartlett and MVDR spectra of a covariance matrix that is close to the true one. *)
From Coq Require Import Sorting.Sorted.
From Verif Require Import Base_Np Base_Lin M_core M_subspace S_subspace P_subspace P_subspace2 P_spectral P_ml6 P_courant P_invar P_invar6 P_pipeline Prop_subspace S_stable P_stable.
From Verif Require P_oracles P_invar P_ml3.
Open Scope C_scope.

Lemma mvec_sub A x y i : mvec A (fun j => x j - y j) i = mvec A x i - mvec A y i.
Proof. unfold mvec. rewrite <- csum_minus. apply csum_ext. intros; ring. Qed.
Lemma vdot_minus n x y z : vdot n x (fun i => y i - z i) = vdot n x y - vdot n x z.
Proof. unfold vdot. rewrite <- csum_minus. apply csum_ext. intros; ring. Qed.
Lemma vlen_0 n x : (forall i, (i < n)%nat -> x i = RtoC 0) -> vlen n x = 0%R.
Proof. intros H. unfold vlen. rewrite <- sqrt_0. f_equal. apply rsum_0. intros i Hi. apply Cnorm2_0. now apply H. Qed.

Section Floor.
  Variables (Rm A P : cmat) (s : R) (w : list R) (E : cmat).
  Hypothesis HX : exact_cov Rm A P s.
  Hypothesis HA : inj A.
  Hypothesis HP : pd P.
  Hypothesis HE : eigh_ok Rm w E.
  Hypothesis Hk : (1 <= nc A < nr A)%nat.
  Let q := (nr A - nc A)%nat.
  Lemma signal_qform x : (Re (qform (A *m P *m mher A) x) = Re (qform Rm x) - s * vnorm2 (nr A) x)%R.
  Proof.
    destruct HX as (P1 & P2 & H). rewrite (qform_eq _ _ x H), qform_madd by reflexivity. rewrite qform_mscal, qform_mid, <- RtoC_mult, Re_plus, Re_RtoC. lra.
  Qed.
  Lemma eig_qform j : (j < nr A)%nat -> Re (qform Rm (col E j)) = nth j w 0%R.
  Proof.
    intros Hj. destruct (ex_dims Rm A P s HX) as (D1 & D2). rewrite qform_vdot by congruence. rewrite D1.
    rewrite (P_spectral.vdot_ext _ (col E j) _ (col E j) (fun r => RtoC (nth j w 0%R) * col E j r)); [|reflexivity | intros r Hr; apply (eigh_vec Rm w E j HE); lia].
    rewrite P_spectral.vdot_scal. pose proof (eigh_orth Rm w E j j HE) as O. rewrite D1 in O. rewrite O, Nat.eqb_refl, Cmult_1_r by assumption. reflexivity.
  Qed.
  Lemma eig_len j : (j < nr A)%nat -> vnorm2 (nr A) (col E j) = 1%R.
  Proof. intros Hj. destruct (ex_dims Rm A P s HX) as (D1 & D2). apply RtoC_inj. rewrite <- vdot_self. pose proof (eigh_orth Rm w E j j HE) as O. rewrite D1 in O. rewrite O, Nat.eqb_refl by assumption. reflexivity. Qed.
  Lemma floor_gap delta : signal_floor A P delta -> (delta <= nth q w 0 - nth (q - 1) w 0)%R.
  Proof.
    intros F. rewrite (ex_noise_level Rm A P s w E HX HP HE (q - 1)) by (unfold q; lia).
    destruct (ex_signal_span Rm A P s w E HX HA HP HE q ltac:(unfold q; lia)) as (y & Hy). specialize (F y).
    assert (V : vnorm2 (nr A) (mvec A y) = 1%R) by (rewrite <- (eig_len q) by (unfold q; lia); apply vnorm2_ext; intros i Hi; symmetry; now apply Hy).
    assert (Q : Re (qform Rm (mvec A y)) = nth q w 0%R).
    { rewrite <- (eig_qform q) by (unfold q; lia). f_equal. destruct (ex_dims Rm A P s HX) as (D1 & D2). unfold qform. rewrite D1, D2. apply csum_ext. intros i Hi. apply csum_ext. intros j Hj. unfold col. now rewrite !Hy. }
    rewrite signal_qform, V, Q in F. lra.
  Qed.
  Lemma floor_exists : signal_floor A P (nth q w 0 - s)%R /\ (0 < nth q w 0 - s)%R.
  Proof.
    destruct (ex_dims Rm A P s HX) as (D1 & D2). pose proof (exact_herm Rm A P s HX (proj1 HP)) as HR. split.
    - intros y. rewrite signal_qform. rewrite (qform_eig Rm w E _ HR HE). pose proof (parseval Rm w E (mvec A y) HR HE) as PV. rewrite D1 in *. rewrite <- PV, Rmult_minus_distr_r.
      enough (nth q w 0 * rsum (nr A) (fun j => Cnorm2 (vdot (nr A) (col E j) (mvec A y))) <= rsum (nr A) (fun j => nth j w 0 * Cnorm2 (vdot (nr A) (col E j) (mvec A y))))%R by lra.
      rewrite <- rsum_scal. apply rsum_le. intros j Hj. destruct (Nat.ltb_spec j q) as [L|L].
      + rewrite (proj2 (ex_span_iff Rm A P s w E HX HA HP HE (mvec A y)) (ex_intro _ y (fun _ _ => eq_refl)) j L). rewrite (proj2 (Cnorm2_0 (RtoC 0)) eq_refl). lra.
      + apply Rmult_le_compat_r; [apply Cnorm2_nonneg|]. pose proof HE as (_ & _ & _ & L1 & S1 & _). apply sorted_le; [exact S1 | lia].
    - pose proof (ex_signal_level Rm A P s w E HX HA HP HE q ltac:(unfold q; lia)). lra.
  Qed.
  Lemma part_span a b : in_span A (fun i => a i - b i) -> part (nr A) E q a = part (nr A) E q b.
  Proof.
    intros IS. apply rsum_ext. intros j Hj. f_equal. pose proof (proj2 (ex_span_iff Rm A P s w E HX HA HP HE _) IS j Hj) as Z. rewrite vdot_minus in Z.
    replace (vdot (nr A) (col E j) a) with (vdot (nr A) (col E j) a - vdot (nr A) (col E j) b + vdot (nr A) (col E j) b) by ring. rewrite Z. ring.
  Qed.
  Lemma part_span_0 a : in_span A a -> part (nr A) E q a = 0%R.
  Proof. intros IS. apply rsum_0. intros j Hj. rewrite (proj2 (ex_span_iff Rm A P s w E HX HA HP HE a) IS j Hj). apply Cnorm2_0. reflexivity. Qed.
  Lemma away_part a eta : away A a eta -> (eta <= sqrt (part (nr A) E q a))%R.
  Proof.
    intros W. destruct (ex_dims Rm A P s HX) as (D1 & D2). pose proof (exact_herm Rm A P s HX (proj1 HP)) as HR.
    set (x := fun i => csum q (fun l => vdot (nr A) (col E l) a * col E l i)).
    assert (PX : forall j, (j < nr A)%nat -> vdot (nr A) (col E j) x = if Nat.ltb j q then vdot (nr A) (col E j) a else RtoC 0).
    { intros j Hj. unfold x. rewrite (vdot_sum q (nr A) (fun l => vdot (nr A) (col E l) a) (fun l => col E l) (col E j)). pose proof (fun l => eigh_orth Rm w E j l HE) as O. rewrite D1 in O. destruct (Nat.ltb_spec j q) as [L|L].
      - rewrite (csum_single q _ j L); [rewrite O, Nat.eqb_refl by assumption; ring|]. intros l Hl NL. rewrite O by (unfold q in *; lia). destruct (Nat.eqb_spec j l); [lia | ring].
      - apply csum_0. intros l Hl. rewrite O by (unfold q in *; lia). destruct (Nat.eqb_spec j l); [lia | ring]. }
    assert (IS : in_span A (fun i => a i - x i)).
    { apply (ex_span_iff Rm A P s w E HX HA HP HE). intros j Hj. rewrite vdot_minus, PX by (unfold q in *; lia). fold q in Hj. rewrite (proj2 (Nat.ltb_lt j q) Hj). ring. }
    destruct IS as (y & Hy). specialize (W y). rewrite (vlen_ext _ _ x) in W by (intros i Hi; rewrite <- Hy by exact Hi; ring).
    replace (part (nr A) E q a) with (vnorm2 (nr A) x); [exact W|]. pose proof (parseval Rm w E x HR HE) as PV. rewrite D1 in PV. rewrite <- PV. unfold part.
    replace (nr A) with (q + (nr A - q))%nat at 1 by (unfold q; lia). rewrite rsum_app. rewrite (rsum_0 (nr A - q)), Rplus_0_r.
    - apply rsum_ext. intros j Hj. rewrite PX by (unfold q in *; lia). now rewrite (proj2 (Nat.ltb_lt j q) Hj).
    - intros j Hj. rewrite PX by (unfold q in *; lia). destruct (Nat.ltb_spec (q + j) q); [lia|]. apply Cnorm2_0. reflexivity.
  Qed.
  Lemma part_away a : away A a (sqrt (part (nr A) E q a)).
  Proof.
    intros x. destruct (ex_dims Rm A P s HX) as (D1 & D2). pose proof (exact_herm Rm A P s HX (proj1 HP)) as HR. rewrite (part_span a (fun i => a i - mvec A x i)).
    - apply sqrt_le_1; [apply part_nonneg | apply vnorm2_nonneg|]. pose proof (part_le Rm w E q (fun i => a i - mvec A x i) HR HE) as L. rewrite D1 in L. apply L. unfold q. lia.
    - exists x. intros i Hi. ring.
  Qed.
  Lemma part_pos a : ~ in_span A a -> (0 < sqrt (part (nr A) E q a))%R.
  Proof.
    intros N. destruct (sqrt_pos (part (nr A) E q a)) as [L|Z]; [exact L|]. exfalso. apply N. apply (ex_span_iff Rm A P s w E HX HA HP HE). intros j Hj.
    assert (Z' : part (nr A) E q a = 0%R) by (apply sqrt_eq_0; [apply part_nonneg | now symmetry]).
    apply Cnorm2_0. exact (rsum_nonneg_0 q _ (fun l _ => Cnorm2_nonneg _) Z' j Hj).
  Qed.
End Floor.

(** order of the MUSIC spectrum of a perturbed covariance *)
Lemma noise_power eigh Rm k w E : eigh Rm = Ok (w, E) -> nr E = nr Rm -> nc E = nr Rm -> (1 <= k <= nr Rm)%nat ->
  exists En, get_noise_subspace eigh Rm (Z.of_nat k) = Ok En /\ nr En = nr Rm /\ nc En = (nr Rm - k)%nat /\ forall b, proj_power En b = part (nr Rm) E (nr Rm - k) b.
Proof.
  intros HE E1 E2 Hk. destruct (noise_value eigh Rm k w E (nr Rm) HE E1 E2 Hk) as (En & EN & N1 & N2 & N3). exists En. split; [exact EN|]. split; [exact N1|]. split; [exact N2|].
  intros b. unfold proj_power, part. rewrite N1, N2. apply rsum_ext. intros j Hj. f_equal. apply P_spectral.vdot_ext; [|reflexivity]. intros i Hi. unfold col. apply N3.
Qed.
Lemma recip_lt x y : (0 <= x)%R -> (x < y)%R -> olt_inf (recip y) (recip x).
Proof.
  intros Hx Hy. unfold recip. destruct (Req_EM_T y 0) as [Z|Z]; [lra|]. destruct (Req_EM_T x 0) as [Z'|Z']; cbn; [exact I|]. apply Rinv_lt_contravar; [apply Rmult_lt_0_compat; lra | exact Hy].
Qed.
Lemma music_close eigh Rm Rm' A P s w E w' E' delta : exact_cov Rm A P s -> inj A -> pd P -> (1 <= nc A < nr A)%nat -> eigh_ok Rm w E ->
  hermitian Rm' -> nr Rm' = nr A -> eigh Rm' = Ok (w', E') -> eigh_ok Rm' w' E' -> signal_floor A P delta -> (distance Rm Rm' < delta)%R ->
  exists En, get_noise_subspace eigh Rm' (Z.of_nat (nc A)) = Ok En /\ nr En = nr A /\
    forall b, (Rabs (sqrt (proj_power En b) - sqrt (part (nr A) E (nr A - nc A) b)) <= tilt (distance Rm Rm') delta * vlen (nr A) b)%R.
Proof.
  intros HX HA HP Hk OE HR' N EE OE' F HD. destruct (ex_dims Rm A P s HX) as (D1 & D2). pose proof OE' as (_ & e1 & e2 & _).
  destruct (noise_power eigh Rm' (nc A) w' E' EE e1 e2 ltac:(lia)) as (En & EN & N1 & N2 & N3). exists En. split; [exact EN|]. split; [congruence|]. intros b. rewrite N3, N.
  pose proof (part_close Rm Rm' w E w' E' (nr A - nc A) b delta (exact_herm _ _ _ _ HX (proj1 HP)) HR' ltac:(congruence) OE OE' ltac:(lia) (floor_gap Rm A P s w E HX HA HP OE Hk delta F) HD) as C. rewrite D1 in C. exact C.
Qed.
Lemma music_order eigh Rm Rm' A P s w' E' delta B : exact_cov Rm A P s -> inj A -> pd P -> (1 <= nc A < nr A)%nat -> nr B = nr A ->
  hermitian Rm' -> nr Rm' = nr A -> eigh Rm' = Ok (w', E') -> eigh_ok Rm' w' E' -> signal_floor A P delta -> (distance Rm Rm' < delta)%R ->
  exists En sp, get_noise_subspace eigh Rm' (Z.of_nat (nc A)) = Ok En /\ f_music B En = Ok sp /\ List.length sp = nc B /\
    forall i j eta, (i < nc B)%nat -> (j < nc B)%nat -> in_span A (col B i) -> away A (col B j) eta ->
      (tilt (distance Rm Rm') delta * (vlen (nr A) (col B i) + vlen (nr A) (col B j)) < eta)%R -> olt_inf (nth j sp None) (nth i sp None).
Proof.
  intros HX HA HP Hk B1 HR' N EE OE' F HD. pose proof (exact_herm Rm A P s HX (proj1 HP)) as HR. destruct (P_oracles.eigh_ref_contract (nr Rm) Rm HR (le_n _)) as (w & E & _ & OE).
  destruct (music_close eigh Rm Rm' A P s w E w' E' delta HX HA HP Hk OE HR' N EE OE' F HD) as (En & EN & N1 & C). exists En. eexists. split; [exact EN|]. split; [apply f_music_value; congruence|].
  split; [now rewrite map_length, seq_length|]. intros i j eta Hi Hj IS AW T.
  rewrite !(nth_indep _ None (recip (proj_power En (col B 0)))) by (now rewrite map_length, seq_length). rewrite !(map_nth (fun j => recip (proj_power En (col B j)))), !seq_nth by assumption. cbn [Nat.add].
  apply recip_lt; [apply proj_power_nonneg|]. pose proof (C (col B i)) as Ci. pose proof (C (col B j)) as Cj. rewrite (part_span_0 Rm A P s w E HX HA HP OE _ IS), sqrt_0, Rminus_0_r in Ci.
  pose proof (away_part Rm A P s w E HX HA HP OE Hk _ _ AW) as Aj. pose proof (Rle_abs (sqrt (proj_power En (col B i)))) as Q1. pose proof (Rle_abs (- (sqrt (proj_power En (col B j)) - sqrt (part (nr A) E (nr A - nc A) (col B j))))%R) as Q2. rewrite Rabs_Ropp in Q2.
  apply sqrt_lt_0_alt. lra.
Qed.

(** *** Bartlett *)
Lemma bartlett_value A Rm : nr A = nr Rm -> nr Rm = nc Rm -> f_bartlett A Rm = Ok (map (fun j => Re (qform Rm (col A j))) (seq 0 (nc A))).
Proof.
  intros HA SQ. unfold f_bartlett, matmul. rewrite <- SQ, HA, Nat.eqb_refl. cbn [bind mmul nr]. rewrite Nat.eqb_refl. cbn [negb]. f_equal. apply map_ext. intros j. f_equal. rewrite <- bform_qform, bform_vdot. reflexivity.
Qed.
(** *** MVDR *)
Lemma close_pd (Rm Rm' : cmat) lam : hermitian Rm -> hermitian Rm' -> nr Rm' = nr Rm -> (forall x, (lam * vnorm2 (nr Rm) x <= Re (qform Rm x))%R) -> (distance Rm Rm' < lam)%R -> pd Rm'.
Proof.
  intros H H' N L D. split; [exact H'|]. intros x NX. rewrite N in NX. pose proof H as (S1 & _). pose proof H' as (S2 & _).
  pose proof (qform_close Rm Rm' x S1 N ltac:(congruence)) as Q. pose proof (Rle_abs (Re (qform Rm x) - Re (qform Rm' x))%R) as Q1. specialize (L x). pose proof (vnorm2_pos (nr Rm) x NX) as V.
  pose proof (Rmult_lt_compat_r _ _ _ V D). lra.
Qed.
Lemma floor_pd (Rm : cmat) lam : hermitian Rm -> (0 < lam)%R -> (forall x, (lam * vnorm2 (nr Rm) x <= Re (qform Rm x))%R) -> pd Rm.
Proof. intros H Hl L. split; [exact H|]. intros x NX. specialize (L x). pose proof (Rmult_lt_0_compat _ _ Hl (vnorm2_pos (nr Rm) x NX)). lra. Qed.
(** 1/v = x^H R x for R x = a; the value is the least output power of all weights with unit response to a *)
Lemma mvdr_least (Rm : cmat) a x v y : pd Rm -> (forall i, (i < nr Rm)%nat -> mvec Rm x i = a i) -> (0 < v)%R -> RtoC (/ v) = vdot (nr Rm) a x ->
  (v * Cnorm2 (vdot (nr Rm) a y) <= Re (qform Rm y))%R /\ Re (qform Rm x) = (/ v)%R.
Proof.
  intros HP HX Hv HV. pose proof HP as (HH & _). pose proof HH as (SQ & _).
  assert (QX : Re (qform Rm x) = (/ v)%R).
  { rewrite qform_vdot by exact SQ. rewrite (hermitian_bform Rm x x HH). rewrite (P_spectral.vdot_ext _ (mvec Rm x) x a x) by (auto). now rewrite <- HV. }
  split; [|exact QX]. pose proof (cauchy_schwarz Rm x y (P_ml3.pd_psd Rm HP)) as CS. rewrite QX in CS.
  rewrite bform_vdot, (hermitian_bform Rm x y HH) in CS. rewrite (P_spectral.vdot_ext _ (mvec Rm x) y a y) in CS by auto.
  apply (Rmult_le_compat_l v) in CS; [|lra]. rewrite <- Rmult_assoc, Rinv_r, Rmult_1_l in CS by lra. exact CS.
Qed.
Lemma mvdr_close lstsq A Rm Rm' lam : lstsq_contract lstsq -> hermitian Rm -> hermitian Rm' -> nr Rm' = nr Rm -> nr A = nr Rm ->
  (forall j, (j < nc A)%nat -> exists i, (i < nr A)%nat /\ ent A i j <> RtoC 0) ->
  (forall x, (lam * vnorm2 (nr Rm) x <= Re (qform Rm x))%R) -> (distance Rm Rm' < lam)%R ->
  exists sp sp', f_mvdr lstsq A Rm = Ok sp /\ f_mvdr lstsq A Rm' = Ok sp' /\ List.length sp = nc A /\ List.length sp' = nc A /\
    forall j, (j < nc A)%nat -> exists v v', nth j sp None = Some v /\ nth j sp' None = Some v' /\ (0 < v)%R /\ (0 < v')%R /\
      ((1 - distance Rm Rm' / lam) * v <= v' <= (1 + distance Rm Rm' / lam) * v)%R.
Proof.
  intros LC H H' N NA NZ L D. pose proof (distance_nonneg Rm Rm') as D0. set (eps := distance Rm Rm') in *. assert (Hl : (0 < lam)%R) by lra. pose proof H as (S1 & _). pose proof H' as (S2 & _).
  pose proof (floor_pd Rm lam H Hl L) as P1. pose proof (close_pd Rm Rm' lam H H' N L D) as P2.
  destruct (C60_mvdr lstsq A Rm LC P1 NA NZ) as (sp & E1 & L1 & V1). destruct (C60_mvdr lstsq A Rm' LC P2 ltac:(congruence) NZ) as (sp' & E2 & L2 & V2).
  exists sp, sp'. split; [exact E1|]. split; [exact E2|]. split; [exact L1|]. split; [exact L2|]. intros j Hj. destruct (V1 j Hj) as (x & v & X1 & X2 & X3 & X4 & _). destruct (V2 j Hj) as (x' & v' & Y1 & Y2 & Y3 & Y4 & _).
  rewrite NA in *. rewrite <- N in Y1, Y4. exists v, v'. split; [exact X2|]. split; [exact Y2|]. split; [exact X3|]. split; [exact Y3|].
  destruct (mvdr_least Rm (col A j) x v x' P1 X1 X3 X4) as (M1 & Q1). destruct (mvdr_least Rm' (col A j) x' v' x P2 Y1 Y3 Y4) as (M2 & Q2).
  assert (C : forall y, ((1 - eps / lam) * Re (qform Rm y) <= Re (qform Rm' y) <= (1 + eps / lam) * Re (qform Rm y))%R).
  { intros y. pose proof (qform_close Rm Rm' y S1 N ltac:(congruence)) as Q. fold eps in Q. pose proof (Rle_abs (Re (qform Rm y) - Re (qform Rm' y))%R) as B1. pose proof (Rle_abs (- (Re (qform Rm y) - Re (qform Rm' y)))%R) as B2. rewrite Rabs_Ropp in B2.
    assert (LY : (eps * vnorm2 (nr Rm) y <= eps / lam * Re (qform Rm y))%R).
    { replace (eps * vnorm2 (nr Rm) y)%R with (eps / lam * (lam * vnorm2 (nr Rm) y))%R by (field; lra). apply Rmult_le_compat_l; [|apply L]. apply Rmult_le_pos; [exact D0 | apply Rlt_le, Rinv_0_lt_compat; exact Hl]. }
    lra. }
  assert (W1 : Cnorm2 (vdot (nr Rm) (col A j) x) = (/ v * / v)%R) by (rewrite <- X4; unfold Cnorm2; rewrite Re_RtoC, Im_RtoC; ring).
  assert (W2 : Cnorm2 (vdot (nr Rm) (col A j) x') = (/ v' * / v')%R) by (rewrite <- N, <- Y4; unfold Cnorm2; rewrite Re_RtoC, Im_RtoC; ring).
  rewrite N, W1 in M2. rewrite W2 in M1. pose proof (C x) as Cx. pose proof (C x') as Cx'. rewrite Q1 in Cx. rewrite Q2 in Cx'. assert (eps / lam < 1)%R by (apply Rmult_lt_reg_r with lam; [exact Hl|]; unfold Rdiv; rewrite Rmult_assoc, Rinv_l by lra; lra).
  split.
  - (* lower bound *)
    assert (K : ((1 - eps / lam) * (v * (/ v' * / v')) <= / v')%R) by (eapply Rle_trans; [apply Rmult_le_compat_l; [lra | exact M1] | lra]).
    apply (Rmult_le_compat_l (v' * v')) in K; [|apply Rmult_le_pos; lra].
    replace (v' * v' * ((1 - eps / lam) * (v * (/ v' * / v'))))%R with ((1 - eps / lam) * v)%R in K by (field; lra). replace (v' * v' * / v')%R with v' in K by (field; lra). exact K.
  - assert (K : (v' * (/ v * / v) <= (1 + eps / lam) * / v)%R) by lra.
    apply (Rmult_le_compat_l (v * v)) in K; [|apply Rmult_le_pos; lra].
    replace (v * v * (v' * (/ v * / v)))%R with v' in K by (field; lra). replace (v * v * ((1 + eps / lam) * / v))%R with ((1 + eps / lam) * v)%R in K by (field; lra). exact K.
Qed.

(** *** finitely many positive numbers have a positive lower bound *)
Lemma positive_floor n (f : nat -> R) : (forall i, (i < n)%nat -> (0 < f i)%R) -> exists c, (0 < c)%R /\ forall i, (i < n)%nat -> (c <= f i)%R.
Proof.
  induction n as [|n IH]; intros H; [exists 1%R; split; [lra | intros; lia]|]. destruct IH as (c & Hc & L); [intros i Hi; apply H; lia|].
  exists (Rmin c (f n)). split; [apply Rmin_pos; [exact Hc | apply H; lia]|]. intros i Hi. destruct (Nat.eq_dec i n) as [->|NE]; [apply Rmin_r|]. eapply Rle_trans; [apply Rmin_l|]. apply L. lia.
Qed.
Lemma tilt_small delta tau : (0 < delta)%R -> (0 < tau)%R -> exists eps0, (0 < eps0 <= delta)%R /\ forall eps, (0 <= eps < eps0)%R -> (tilt eps delta < tau)%R.
Proof.
  intros Hd Ht. exists (delta * (tau / (1 + tau)))%R. assert (Hq : (0 < tau / (1 + tau) < 1)%R).
  { split; [apply Rdiv_lt_0_compat; lra|]. apply Rmult_lt_reg_r with (1 + tau)%R; [lra|]. unfold Rdiv. rewrite Rmult_assoc, Rinv_l by lra. lra. }
  split; [split; [apply Rmult_lt_0_compat; lra|]|].
  - rewrite <- (Rmult_1_r delta) at 2. apply Rmult_le_compat_l; lra.
  - intros eps (E0 & E1). assert (ED : (eps < delta)%R) by (eapply Rlt_le_trans; [exact E1|]; rewrite <- (Rmult_1_r delta) at 2; apply Rmult_le_compat_l; lra).
    unfold tilt. apply Rmult_lt_reg_r with (delta - eps)%R; [lra|]. unfold Rdiv at 1. rewrite Rmult_assoc, Rinv_l, Rmult_1_r by lra.
    apply (Rmult_lt_compat_r (1 + tau)) in E1; [|lra]. replace (delta * (tau / (1 + tau)) * (1 + tau))%R with (delta * tau)%R in E1 by (field; lra). lra.
Qed.
