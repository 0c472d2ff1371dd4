(** Quadratic forms of matrices along a uniform linear array, and the beamformers with one source between the grid points. *)
From Coq Require Import Lra Lia Sorted Permutation.
From Coquelicot Require Import Complex.
From Verif Require Import Base_Np Base_Trig Base_Lin S_model M_utils S_utils P_utils M_sources S_sources P_sources M_array S_array P_array P_array2 P_array3 M_designs S_designs P_designs M_coarray S_coarray P_coarray P_coarray2 P_model
  M_grid S_grid P_grid M_core P_core P_core2 M_sparse M_subspace S_subspace P_subspace P_subspace2 P_subspace5 M_pipeline S_pipeline Prop_subspace P_pipeline P_pipeline4 P_spectral P_beam S_stable P_stable P_stable2 P_stable3 P_stable4 P_stable5 S_cont P_cont P_cont2 P_cont4 P_cont5 P_fta2 P_rootc3
  S_offgrid S_refine P_off1 P_off2 P_off3 P_off4 P_off5 P_off7 P_off8.
From Verif Require P_oracles P_signals P_gauss P_invar P_subspace4 Prop_esprit.
Open Scope nat_scope.

(** *** order-equivalent functions have the same valleys *)
Lemma rmax_order a b c a' b' c' : ((a < b)%R <-> (a' < b')%R) -> ((a < c)%R <-> (a' < c')%R) -> (a < Rmax b c)%R -> (a' < Rmax b' c')%R.
Proof.
  intros H1 H2 H. unfold Rmax in H. destruct (Rle_dec b c).
  - apply H2 in H. eapply Rlt_le_trans; [exact H|apply Rmax_r].
  - apply H1 in H. eapply Rlt_le_trans; [exact H|apply Rmax_l].
Qed.
Lemma order_eq (x y x' y' : R) : ((x < y)%R <-> (x' < y')%R) -> ((y < x)%R <-> (y' < x')%R) -> x = y -> x' = y'.
Proof. intros H1 H2 E. destruct (Rtotal_order x' y') as [L|[L|L]]; [apply H1 in L; lra|exact L|apply H2 in L; lra]. Qed.
Lemma one_valley_order d lam u doas lo hi step tol (f g : R -> R) : (forall x y, (f x < f y)%R <-> (g x < g y)%R) ->
  one_valley_each d lam u doas lo hi step tol f -> one_valley_each d lam u doas lo hi step tol g.
Proof.
  intros OR H angles FG. destruct (H angles FG) as (idx & (S0 & s & PS & As & F) & LI & VI & LW). cbv zeta in *.
  assert (VE : forall v w : nat -> R, (forall i j, (v i < v j)%R <-> (w i < w j)%R) -> forall i, valley (List.length angles) v i -> valley (List.length angles) w i).
  { intros v w O i (l & r & a1 & a2 & a3 & a4 & a5 & a6). exists l, r. split; [exact a1|]. split; [exact a2|]. split; [exact a3|]. split; [|split; now apply O].
    intros j Hj. apply (order_eq (v j) (v l)); [apply O|apply O|]. now apply a4. }
  exists idx. split; [|split; [exact LI|split]].
  - split; [exact S0|]. exists s. split; [exact PS|]. split; [exact As|]. eapply forall2_weaken; [|exact F]. intros a i (h1 & h2 & (h3 & h4 & h5)). split; [exact h1|]. split; [exact h2|]. split; [exact h3|]. split.
    + intros x y z c1 c2 c3 c4. apply (rmax_order (f (phase d lam u y)) (f (phase d lam u x)) (f (phase d lam u z))); [apply OR|apply OR|]. now apply h4.
    + intros x Hx Hd. apply OR. now apply h5.
  - intros i Ii. apply (VE (fun m => f (phase d lam u (nth m angles 0%R)))); [intros; apply OR|now apply VI].
  - intros i j Ii Vj NI. apply OR. apply LW; [exact Ii| |exact NI]. apply (VE (fun m => g (phase d lam u (nth m angles 0%R)))); [|exact Vj]. intros a b. symmetry. apply OR.
Qed.

(** *** the quadratic form of a matrix along the array *)
Definition cq (n : nat) (X : cmat) (x : R) : R := tq n (fun i j => Re (ent X i j)) (fun i j => (- Im (ent X i j))%R) x.
Lemma cq_qform n (X : cmat) x : nr X = n -> nc X = n -> cq n X x = Re (qform X (fun i => cpow (cis x) i)).
Proof.
  intros d1 d2. unfold cq, qform, tq. rewrite d1, d2, csum_Re. apply rsum_ext. intros i Hi. rewrite csum_Re. apply rsum_ext. intros j Hj.
  rewrite !cpow_cis. generalize (ent X i j). intros q. unfold freq. rewrite Rmult_minus_distr_r, cos_minus, sin_minus. destruct q as (a, b). unfold cis, Cmult, Cconj, Re, Im. cbn [fst snd]. ring.
Qed.
Lemma cq_affine n (M X : cmat) (al be : R) x : (forall i j, i < n -> j < n -> ent M i j = (RtoC al * ent X i j + (if Nat.eqb i j then RtoC be else RtoC 0))%C) -> cq n M x = (al * cq n X x + be * INR n)%R.
Proof.
  intros H. unfold cq, tq. rewrite <- rsum_scal. rewrite Rmult_comm with (r1 := be). rewrite <- (rsum_const n be), <- rsum_plus. apply rsum_ext. intros i Hi.
  transitivity (rsum n (fun j => al * (Re (ent X i j) * cos (freq i j * x) + - Im (ent X i j) * sin (freq i j * x)) + (if Nat.eqb i j then be else 0)))%R.
  - apply rsum_ext. intros j Hj. rewrite H by assumption. destruct (ent X i j) as (a, b). destruct (Nat.eqb_spec i j) as [<-|NE].
    + unfold freq. rewrite Rminus_eq_0, Rmult_0_l, cos_0, sin_0. unfold RtoC, Cmult, Cplus, Re, Im. cbn [fst snd]. ring.
    + unfold RtoC, Cmult, Cplus, Re, Im. cbn [fst snd]. ring.
  - rewrite rsum_plus, rsum_scal. f_equal. rewrite (rsum_single n _ i Hi); [now rewrite Nat.eqb_refl|]. intros j Hj NE. destruct (Nat.eqb_spec i j); [congruence|reflexivity].
Qed.
Lemma coef_close (X Y : cmat) i j tau : (Cmod (ent X i j - ent Y i j)%C <= tau)%R -> (Rabs (Re (ent X i j) - Re (ent Y i j)) <= tau /\ Rabs (- Im (ent X i j) - - Im (ent Y i j)) <= tau)%R.
Proof.
  intros X0. set (q := ent X i j) in *. set (q' := ent Y i j) in *. destruct q as (a1, b1), q' as (a2, b2). pose proof (Rmax_Cmod ((a1, b1) - (a2, b2))%C) as Y0. cbn [Re Im fst snd Cminus Cplus Copp] in *.
  pose proof (Rmax_l (Rabs (a1 + - a2)) (Rabs (b1 + - b2))). pose proof (Rmax_r (Rabs (a1 + - a2)) (Rabs (b1 + - b2))). split; [replace (a1 - a2)%R with (a1 + - a2)%R by ring; lra|]. replace (- b1 - - b2)%R with (- (b1 + - b2))%R by ring. rewrite Rabs_Ropp. lra.
Qed.
Definition entrywise (n : nat) (tau : R) (X Y : cmat) : Prop := forall i j, i < n -> j < n -> (Cmod (ent X i j - ent Y i j)%C <= tau)%R.
Lemma cq_close n (X Y : cmat) e x : entrywise n e X Y -> (Rabs (cq n X x - cq n Y x) <= INR n * (INR n * (2 * e)))%R.
Proof. intros H. apply tq_close. intros i j Hi Hj. apply coef_close. now apply H. Qed.
Lemma cq_ext n (X Y : cmat) x : (forall i j, i < n -> j < n -> ent X i j = ent Y i j) -> cq n X x = cq n Y x.
Proof. intros H. unfold cq, tq. apply rsum_ext. intros i Hi. apply rsum_ext. intros j Hj. now rewrite H. Qed.
Lemma form_grids n d lam u doas lo hi (M : cmat) : (0 < d)%R -> (0 < lam)%R -> field_of_view d lam u lo hi -> (forall a, In a doas -> (lo < a < hi)%R) -> NoDup doas ->
  above_zeros (map (phase d lam u) doas) (cq n M) -> (forall a, In a doas -> cq n M (phase d lam u a) = 0%R) ->
  exists step, (0 < step)%R /\ one_valley_each d lam u doas lo hi step 0 (cq n M) /\
    forall tol, (0 < tol)%R -> exists tau, (0 < tau)%R /\ forall M', entrywise n tau M M' -> one_valley_each d lam u doas lo hi step tol (cq n M').
Proof.
  intros Hd Hl FV IN ND AZ Z0.
  destruct (fine_grids n d lam u doas lo hi (fun i j => Re (ent M i j)) (fun i j => (- Im (ent M i j))%R) Hd Hl FV IN ND AZ Z0) as (step & S0 & EXA & APP).
  exists step. split; [exact S0|]. split; [exact EXA|]. intros tol Ht. destruct (APP tol Ht) as (tau & T0 & H). exists tau. split; [exact T0|]. intros M' CL. apply H. intros i j Hi Hj. apply coef_close. now apply CL.
Qed.

(** *** one source *)
Definition one_form (n : nat) (x0 : R) : cmat := Mat n n (fun i j => ((if Nat.eqb i j then RtoC (INR n) else RtoC 0) - cis ((INR i - INR j) * x0))%C).
Lemma cq_one n x0 x : cq n (one_form n x0) x = rsum n (fun i => rsum n (fun j => 1 - cos (freq i j * (x - x0))))%R.
Proof.
  unfold cq, tq. apply rsum_ext. intros i Hi. rewrite rsum_minus. rewrite rsum_const, Rmult_1_r.
  assert (E : forall j, (Re (ent (one_form n x0) i j) * cos (freq i j * x) + - Im (ent (one_form n x0) i j) * sin (freq i j * x) = (if Nat.eqb i j then INR n else 0) - cos (freq i j * (x - x0)))%R).
  { intros j. cbn [one_form ent]. rewrite Rmult_minus_distr_l, cos_minus. replace ((INR i - INR j) * x0)%R with (- (freq i j * x0))%R by (unfold freq; ring).
    unfold cis. rewrite cos_neg, sin_neg. destruct (Nat.eqb_spec i j) as [<-|NE].
    - unfold freq. rewrite Rminus_eq_0, !Rmult_0_l, cos_0, sin_0. unfold RtoC, Cminus, Cplus, Copp, Re, Im. cbn [fst snd]. ring.
    - unfold RtoC, Cminus, Cplus, Copp, Re, Im. cbn [fst snd]. ring. }
  rewrite (rsum_ext _ _ _ (fun j _ => E j)), rsum_minus. f_equal. rewrite (rsum_single n _ i Hi); [now rewrite Nat.eqb_refl|]. intros j Hj NE. destruct (Nat.eqb_spec i j); [congruence|reflexivity].
Qed.
Lemma one_form_zero n x0 : cq n (one_form n x0) x0 = 0%R.
Proof. rewrite cq_one. apply rsum_0. intros i Hi. apply rsum_0. intros j Hj. rewrite Rminus_eq_0, Rmult_0_r, cos_0. ring. Qed.
Lemma one_form_nonneg n x0 x : (0 <= cq n (one_form n x0) x)%R.
Proof. rewrite cq_one. apply rsum_nonneg. intros i Hi. apply rsum_nonneg. intros j Hj. pose proof (COS_bound (freq i j * (x - x0))). lra. Qed.
Lemma one_form_above n x0 : 2 <= n -> above_zeros [x0] (cq n (one_form n x0)).
Proof.
  intros Hn. exists (1 / 2)%R. split; [lra|]. intros x. cbn [map lin_prod]. rewrite Cmult_1_r. rewrite chord_sq, cq_one.
  assert (NN : forall i j, (0 <= 1 - cos (freq i j * (x - x0)))%R) by (intros i j; pose proof (COS_bound (freq i j * (x - x0))); lra).
  eapply Rle_trans; [|apply (rsum_ge n _ 0); [lia|]; intros; apply rsum_nonneg; intros; apply NN].
  eapply Rle_trans; [|apply (rsum_ge n _ 1); [lia|]; intros; apply NN].
  cbv beta. replace (freq 0 1 * (x - x0))%R with (2 * ((x - x0) / 2))%R by (unfold freq; cbn [INR]; field). rewrite cos_2a_sin. lra.
Qed.

(** the covariance matrix of one source *)
Lemma one_entries n (Rm A P : cmat) s x0 : A ==m ula_matrix n [cis x0] -> exact_cov Rm A P s -> forall i j, i < n -> j < n ->
  ent Rm i j = (ent P 0 0 * cis ((INR i - INR j) * x0) + (if Nat.eqb i j then RtoC s else RtoC 0))%C.
Proof.
  intros (A1 & A2 & A3) (P1 & P2 & R1 & R2 & R3) i j Hi Hj. cbn [ula_matrix nr nc List.length] in A1, A2. cbn [mmul madd mscal mid mher nr nc] in R1, R2.
  rewrite R3 by lia. cbn [mmul madd mscal mid mher ent nr nc]. rewrite A2, P2, A2. cbn [csum]. rewrite !A3 by lia. cbn [ula_matrix ent nth]. rewrite !cpow_cis.
  replace ((INR i - INR j) * x0)%R with (INR i * x0 + - (INR j * x0))%R by ring. rewrite cis_plus, cis_opp. destruct (Nat.eqb_spec i j); ring.
Qed.
Lemma Cmod_scale (a : R) (x y : C) : (0 <= a)%R -> Cmod (RtoC a * x - RtoC a * y)%C = (a * Cmod (x - y)%C)%R.
Proof. intros H. replace (RtoC a * x - RtoC a * y)%C with (RtoC a * (x - y))%C by ring. rewrite Cmod_mult, Cmod_R, Rabs_pos_eq by exact H. reflexivity. Qed.
(** two matrices related to forms that differ by the same affine map *)
Lemma affine_close n (al be tau e : R) (X Y M M' : cmat) : (0 <= Rabs al)%R -> (Rabs al * e <= tau)%R ->
  (forall i j, i < n -> j < n -> ent M i j = (RtoC al * ent X i j + (if Nat.eqb i j then RtoC be else RtoC 0))%C) ->
  (forall i j, i < n -> j < n -> ent M' i j = (RtoC al * ent Y i j + (if Nat.eqb i j then RtoC be else RtoC 0))%C) -> entrywise n e X Y -> entrywise n tau M M'.
Proof.
  intros H0 H1 E1 E2 CL i j Hi Hj. rewrite E1, E2 by assumption. replace (RtoC al * ent X i j + (if Nat.eqb i j then RtoC be else RtoC 0) - (RtoC al * ent Y i j + (if Nat.eqb i j then RtoC be else RtoC 0)))%C with (RtoC al * (ent X i j - ent Y i j))%C by ring.
  rewrite Cmod_mult, Cmod_R. eapply Rle_trans; [|exact H1]. apply Rmult_le_compat_l; [exact H0|]. now apply CL.
Qed.
Definition affine (n : nat) (al be : R) (X : cmat) : cmat := Mat n n (fun i j => (RtoC al * ent X i j + (if Nat.eqb i j then RtoC be else RtoC 0))%C).

(** *** Bartlett *)
Lemma bartlett_ranked n d lam u (Rm : cmat) : nr Rm = n -> nc Rm = n -> ranked n d lam u (fun A => f_bartlett A Rm) (fun x => (- cq n Rm x)%R).
Proof.
  intros N1 N2 angles B V HB. pose proof HB as (b1 & b2 & b3). cbn [ula_matrix nr nc] in b1, b2, b3. rewrite map_length in b2.
  eexists. split; [apply bartlett_value; congruence|]. split; [now rewrite map_length, seq_length, b2|]. intros i j Hi Hj. rewrite !nth_map_seq by lia.
  assert (Q : forall l, l < List.length angles -> Re (qform Rm (col B l)) = cq n Rm (phase d lam u (nth l angles 0%R))).
  { intros l Hl. rewrite cq_qform by assumption. f_equal. unfold qform. apply csum_ext. intros a Ha. apply csum_ext. intros b Hb. unfold col. rewrite !b3 by lia. cbn [ula_matrix ent].
    rewrite (nth_indep _ _ (zof d lam u 0%R)) by (now rewrite map_length). rewrite map_nth. reflexivity. }
  rewrite !Q by assumption. split; intros; lra.
Qed.
Lemma bartlett_scans n d lam u k (Rm : cmat) : nr Rm = n -> nc Rm = n -> scans (bartlett_estimate n) n d lam u k Rm (fun x => (- cq n Rm x)%R).
Proof.
  intros N1 N2. exists (fun A => f_bartlett A Rm). split; [|now apply bartlett_ranked]. intros e h o. exact (proj1 (C60_estimate_uses_spectrum n e h Rm (Z.of_nat k) o P_gauss.solve0 N1)).
Qed.
Lemma bartlett_off n d lam u a lo hi : (0 < d)%R -> (0 < lam)%R -> known_unit u -> field_of_view d lam u lo hi -> (lo < a < hi)%R -> 2 <= n ->
  exists step, (0 < step)%R /\ forall (A P Rm : cmat) s, A ==m ula_matrix n [zof d lam u a] -> exact_cov Rm A P s -> pd P ->
    both_run (bartlett_estimate n) n d lam u [a] lo hi step 0 Rm /\
    forall tol, (0 < tol)%R -> exists eps, (0 < eps)%R /\ forall Rm' : cmat, nr Rm' = n -> nc Rm' = n -> (distance Rm Rm' < eps)%R -> both_run (bartlett_estimate n) n d lam u [a] lo hi step tol Rm'.
Proof.
  intros Hd Hl K FV Ha Hn. set (x0 := phase d lam u a). pose proof FV as (_ & VL & VH & _).
  destruct (form_grids n d lam u [a] lo hi (one_form n x0) Hd Hl FV) as (step & S0 & EXA & APP).
  { intros b [<-|[]]. exact Ha. } { constructor; [intros []|constructor]. } { cbn [map]. now apply one_form_above. } { intros b [<-|[]]. apply one_form_zero. }
  exists step. split; [exact S0|]. intros A P Rm s EA HX HP. destruct (ex_dims Rm A P s HX) as (D1 & D2). pose proof EA as (A1 & A2 & _). cbn [ula_matrix nr nc List.length] in A1, A2.
  destruct (one_p Rm A P s HX A2 HP) as (EP & Pp). set (p := Re (ent P 0 0)) in *. pose proof (one_entries n Rm A P s x0 EA HX) as ER.
  assert (NR : nc Rm = n). { pose proof HX as (_ & _ & _ & R2 & _). cbn [mmul madd mscal mid mher nr nc] in R2. congruence. }
  (* the form of any matrix *)
  assert (IP : (0 < / p)%R) by (now apply Rinv_0_lt_compat).
  assert (AFF : forall X x, cq n (affine n (- / p) (s / p + INR n) X) x = (- / p * cq n X x + (s / p + INR n) * INR n)%R) by (intros X x; apply cq_affine; intros; reflexivity).
  assert (E0 : forall i j, i < n -> j < n -> ent (one_form n x0) i j = ent (affine n (- / p) (s / p + INR n) Rm) i j).
  { intros i j Hi Hj. cbn [one_form affine ent]. rewrite ER, EP by assumption. destruct (Nat.eqb_spec i j) as [<-|NE]; apply C_eq; unfold RtoC, cis, Cminus, Cmult; unfold Cplus, Copp, Re, Im; cbn [fst snd]; field; lra. }
  assert (ORD : forall X tol', one_valley_each d lam u [a] lo hi step tol' (cq n (affine n (- / p) (s / p + INR n) X)) -> one_valley_each d lam u [a] lo hi step tol' (fun x => (- cq n X x)%R)).
  { intros X tol'. apply one_valley_order. intros x y. rewrite !AFF. split; intros Q; [apply (Rmult_lt_reg_l (/ p)); lra|apply (Rmult_lt_compat_l (/ p)) in Q; lra]. }
  assert (RUN : forall X tol', nr X = n -> nc X = n -> one_valley_each d lam u [a] lo hi step tol' (cq n (affine n (- / p) (s / p + INR n) X)) -> both_run (bartlett_estimate n) n d lam u [a] lo hi step tol' X).
  { intros X tol' X1 X2 OV. apply (scan_both _ n d lam u [a] lo hi step tol' X (fun x => (- cq n X x)%R)); try assumption; try lia; [cbn; lia|apply bartlett_forwards|cbn; now apply bartlett_scans|now apply ORD]. }
  split.
  - apply RUN; [congruence|exact NR|]. apply (one_valley_ext d lam u [a] lo hi step 0 (cq n (one_form n x0))); [|exact EXA]. intros x. apply cq_ext. exact E0.
  - intros tol Ht. destruct (APP tol Ht) as (tau & T0 & H). exists (p * tau)%R. split; [now apply Rmult_lt_0_compat|]. intros Rm' N1 N2 DS. apply RUN; try assumption. apply H. intros i j Hi Hj. rewrite E0 by assumption.
    apply (affine_close n (- / p) (s / p + INR n) tau (distance Rm Rm') Rm Rm'); try assumption; try (intros; reflexivity); try apply Rabs_pos.
    + rewrite Rabs_Ropp, Rabs_pos_eq by lra. apply (Rmult_le_reg_l p); [exact Pp|]. rewrite <- Rmult_assoc, Rinv_r, Rmult_1_l by lra. lra.
    + intros r c Hr Hc. apply entry_distance; [congruence|congruence].
Qed.

(** *** MVDR *)
Lemma mvdr_ranked lstsq n d lam u (X Y : cmat) : lstsq_contract lstsq -> nr X = n -> nc X = n -> inj X -> nr Y = n -> nc Y = n -> X *m Y ==m mid n -> (forall x, (0 <= cq n Y x)%R) ->
  ranked n d lam u (fun A => let! l := f_mvdr lstsq A X in Ok (embed_inf l)) (cq n Y).
Proof.
  intros LC X1 X2 HI Y1 Y2 XY NN angles B V HB. pose proof HB as (b1 & b2 & b3). cbn [ula_matrix nr nc] in b1, b2, b3. rewrite map_length in b2.
  destruct (P_invar.mvdr_value lstsq B X LC ltac:(congruence) HI ltac:(congruence)) as (Z & HZ & FZ). rewrite b1 in *.
  assert (Q : forall l, l < List.length angles -> Re (vdot n (col B l) (col Z l)) = cq n Y (phase d lam u (nth l angles 0%R))).
  { intros l Hl. rewrite cq_qform by assumption. f_equal. rewrite qform_vdot by congruence. rewrite Y1. apply P_spectral.vdot_ext.
    - intros i Hi. unfold col. rewrite b3 by lia. cbn [ula_matrix ent]. rewrite (nth_indep _ _ (zof d lam u 0%R)) by (now rewrite map_length). rewrite map_nth. reflexivity.
    - (* Z = Y B on column l *)
      set (b := fun i => cpow (cis (phase d lam u (nth l angles 0%R))) i).
      assert (EB : forall i, i < n -> ent B i l = b i). { intros i Hi. rewrite b3 by lia. cbn [ula_matrix ent]. rewrite (nth_indep _ _ (zof d lam u 0%R)) by (now rewrite map_length). rewrite map_nth. reflexivity. }
      intros i Hi. assert (W : (col Z l i - mvec Y b i)%C = RtoC 0).
      { apply (HI (fun r => (col Z l r - mvec Y b r)%C)); [|lia]. intros r Hr. rewrite mvec_sub. rewrite HZ by lia. rewrite EB by lia. rewrite <- mvec_mmul. rewrite (mvec_eq (X *m Y) (mid n) b r XY) by (cbn; lia).
        unfold mvec. cbn [mid nc ent]. rewrite (csum_single n _ r) by (try lia; intros k Hk NE; destruct (Nat.eqb_spec r k); try congruence; ring). rewrite Nat.eqb_refl. ring. }
      replace (col Z l i) with (col Z l i - mvec Y b i + mvec Y b i)%C by ring. rewrite W. ring. }
  destruct (recip_order (List.length angles) (fun j => cq n Y (phase d lam u (nth j angles 0%R)))) as (LX & OR); [intros; apply NN|].
  eexists. split; [|split; [exact LX|exact OR]]. rewrite FZ. cbn [bind]. do 2 f_equal. rewrite b2. apply map_ext_in. intros j Ij. apply in_seq in Ij. f_equal. apply Q. lia.
Qed.
Lemma mvdr_scans lstsq n d lam u k (X Y : cmat) : lstsq_contract lstsq -> nr X = n -> nc X = n -> inj X -> nr Y = n -> nc Y = n -> X *m Y ==m mid n -> (forall x, (0 <= cq n Y x)%R) ->
  scans (mvdr_estimate lstsq n) n d lam u k X (cq n Y).
Proof.
  intros LC X1 X2 HI Y1 Y2 XY NN. exists (fun A => let! l := f_mvdr lstsq A X in Ok (embed_inf l)). split; [|now apply mvdr_ranked].
  intros e h o. exact (proj2 (C60_estimate_uses_spectrum n e h X (Z.of_nat k) o lstsq X1)).
Qed.
(** the inverse covariance matrix of one source *)
Definition one_inv (n : nat) (x0 p s : R) : cmat := let al := (s * (s + p * INR n) / p)%R in Mat n n (fun i j => (RtoC (/ al) * (ent (one_form n x0) i j + (if Nat.eqb i j then RtoC (s / p) else RtoC 0)))%C).
Lemma one_inv_ok n (Rm A P : cmat) s x0 p : A ==m ula_matrix n [cis x0] -> exact_cov Rm A P s -> ent P 0 0 = RtoC p -> (0 < p)%R -> (0 < s)%R -> nr Rm = n -> nc Rm = n -> Rm *m one_inv n x0 p s ==m mid n.
Proof.
  intros EA HX EP Hp Hs N1 N2. pose proof (one_entries n Rm A P s x0 EA HX) as ER. split; [exact N1|]. split; [reflexivity|]. intros i j Hi Hj. cbn [mmul mid one_inv nr nc] in Hi, Hj. rewrite N1 in Hi. cbn [mmul mid one_inv ent nc]. rewrite N2.
  set (al := (s * (s + p * INR n) / p)%R). set (be := (s / p)%R). pose proof (pos_INR n) as N0. assert (Q : (0 < s + p * INR n)%R) by (assert (0 <= p * INR n)%R by (apply Rmult_le_pos; lra); lra).
  assert (AL : (al <> 0)%R) by (unfold al; apply Rgt_not_eq; apply Rdiv_lt_0_compat; [now apply Rmult_lt_0_compat|exact Hp]).
  set (c := cis ((INR i - INR j) * x0)).
  assert (CC : forall k, (cis ((INR i - INR k) * x0) * cis ((INR k - INR j) * x0))%C = c). { intros k. rewrite <- cis_plus. unfold c. f_equal. ring. }
  assert (c0 : cis ((INR i - INR i) * x0) = RtoC 1) by (rewrite Rminus_eq_0, Rmult_0_l; unfold cis; now rewrite cos_0, sin_0).
  (* four sums *)
  transitivity (csum n (fun k => (if Nat.eqb k j then RtoC (p * (INR n + be) / al) * cis ((INR i - INR k) * x0) else RtoC 0) - RtoC (p / al) * c +
     (if Nat.eqb k i then RtoC (s / al) * ((if Nat.eqb k j then RtoC (INR n + be) else RtoC 0) - cis ((INR k - INR j) * x0)) else RtoC 0)))%C.
  { apply csum_ext. intros k Hk. rewrite ER, EP by assumption. cbn [one_form ent]. rewrite <- (CC k). rewrite (Nat.eqb_sym i k).
    assert (T1 : RtoC (p * (INR n + be) / al) = (RtoC p * RtoC (/ al) * (RtoC (INR n) + RtoC be))%C) by (rewrite <- RtoC_plus, <- !RtoC_mult; f_equal; field; exact AL).
    assert (T2 : RtoC (p / al) = (RtoC p * RtoC (/ al))%C) by (rewrite <- RtoC_mult; reflexivity). assert (T3 : RtoC (s / al) = (RtoC s * RtoC (/ al))%C) by (rewrite <- RtoC_mult; reflexivity).
    rewrite T1, T2, T3, (RtoC_plus (INR n) be). destruct (Nat.eqb k j), (Nat.eqb k i); ring. }
  rewrite csum_plus, csum_minus, csum_const.
  rewrite (csum_single n _ j) by (try lia; intros k Hk NE; apply Nat.eqb_neq in NE; now rewrite NE). rewrite Nat.eqb_refl.
  rewrite (csum_single n _ i) by (try lia; intros k Hk NE; apply Nat.eqb_neq in NE; now rewrite NE). rewrite Nat.eqb_refl. fold c.
  assert (F1 : (p * (INR n + be) / al - INR n * (p / al) - s / al = 0)%R) by (unfold be; field; lra). assert (F2 : (s / al * (INR n + be) = 1)%R) by (unfold al, be; field; lra).
  assert (G1 : (RtoC (p * (INR n + be) / al) - RtoC (INR n) * RtoC (p / al) - RtoC (s / al))%C = RtoC 0) by (rewrite <- RtoC_mult, <- !RtoC_minus; now rewrite F1).
  assert (G2 : (RtoC (s / al) * RtoC (INR n + be))%C = RtoC 1) by (rewrite <- RtoC_mult; now rewrite F2).
  destruct (Nat.eqb_spec i j) as [<-|NE].
  - rewrite <- G2. transitivity ((RtoC (p * (INR n + be) / al) - RtoC (INR n) * RtoC (p / al) - RtoC (s / al)) * c + RtoC (s / al) * RtoC (INR n + be))%C; [ring|]. rewrite G1. ring.
  - transitivity ((RtoC (p * (INR n + be) / al) - RtoC (INR n) * RtoC (p / al) - RtoC (s / al)) * c)%C; [ring|]. rewrite G1. ring.
Qed.
Lemma mvdr_off n d lam u a lo hi : (0 < d)%R -> (0 < lam)%R -> known_unit u -> field_of_view d lam u lo hi -> (lo < a < hi)%R -> 2 <= n ->
  exists step, (0 < step)%R /\ forall (A P Rm : cmat) s, A ==m ula_matrix n [zof d lam u a] -> exact_cov Rm A P s -> pd P -> (0 < s)%R ->
    (forall lstsq, lstsq_contract lstsq -> both_run (mvdr_estimate lstsq n) n d lam u [a] lo hi step 0 Rm) /\
    forall tol, (0 < tol)%R -> exists eps, (0 < eps)%R /\ forall Rm' : cmat, nr Rm' = n -> nc Rm' = n -> (distance Rm Rm' < eps)%R ->
      forall lstsq, lstsq_contract lstsq -> both_run (mvdr_estimate lstsq n) n d lam u [a] lo hi step tol Rm'.
Proof.
  intros Hd Hl K FV Ha Hn. set (x0 := phase d lam u a). pose proof FV as (_ & VL & VH & _).
  destruct (form_grids n d lam u [a] lo hi (one_form n x0) Hd Hl FV) as (step & S0 & EXA & APP).
  { intros b [<-|[]]. exact Ha. } { constructor; [intros []|constructor]. } { cbn [map]. now apply one_form_above. } { intros b [<-|[]]. apply one_form_zero. }
  exists step. split; [exact S0|]. intros A P Rm s EA HX HP Hs. destruct (ex_dims Rm A P s HX) as (D1 & D2). pose proof EA as (A1 & A2 & _). cbn [ula_matrix nr nc List.length] in A1, A2.
  destruct (one_p Rm A P s HX A2 HP) as (EP & Pp). set (p := Re (ent P 0 0)) in *.
  assert (NR : nc Rm = n). { pose proof HX as (_ & _ & _ & R2 & _). cbn [mmul madd mscal mid mher nr nc] in R2. congruence. } assert (NR1 : nr Rm = n) by congruence.
  pose proof (one_inv_ok n Rm A P s x0 p EA HX EP Pp Hs NR1 NR) as YOK. set (Y := one_inv n x0 p s) in *.
  pose proof (pos_INR n) as N0. set (al := (s * (s + p * INR n) / p)%R). set (be := (- (s / p))%R). assert (Q : (0 < s + p * INR n)%R) by (assert (0 <= p * INR n)%R by (apply Rmult_le_pos; lra); lra).
  assert (AL : (0 < al)%R) by (unfold al; apply Rdiv_lt_0_compat; [now apply Rmult_lt_0_compat|exact Pp]). assert (BE : (be < 0)%R) by (unfold be; assert (0 < s / p)%R by (now apply Rdiv_lt_0_compat); lra).
  assert (IR : inj Rm). { apply pd_inj. apply (one_pd Rm A P s HX A2 HP); exact Hs. }
  assert (AFF : forall X x, cq n (affine n al be X) x = (al * cq n X x + be * INR n)%R) by (intros X x; apply cq_affine; intros; reflexivity).
  assert (E0 : forall i j, i < n -> j < n -> ent (one_form n x0) i j = ent (affine n al be Y) i j).
  { intros i j Hi Hj. unfold Y, one_inv. cbn [affine ent]. fold al. rewrite Cmult_assoc, <- RtoC_mult, Rinv_r by lra. destruct (Nat.eqb i j); [|ring]. unfold be. rewrite RtoC_opp. ring. }
  assert (ORD : forall X tol', one_valley_each d lam u [a] lo hi step tol' (cq n (affine n al be X)) -> one_valley_each d lam u [a] lo hi step tol' (cq n X)).
  { intros X tol'. apply one_valley_order. intros x y. rewrite !AFF. split; intros L; [apply (Rmult_lt_reg_l al); lra|apply (Rmult_lt_compat_l al) in L; lra]. }
  assert (RUN : forall X Y' tol' lstsq, lstsq_contract lstsq -> nr X = n -> nc X = n -> inj X -> nr Y' = n -> nc Y' = n -> X *m Y' ==m mid n -> (forall x, (0 <= cq n Y' x)%R) ->
    one_valley_each d lam u [a] lo hi step tol' (cq n (affine n al be Y')) -> both_run (mvdr_estimate lstsq n) n d lam u [a] lo hi step tol' X).
  { intros X Y' tol' ls LC X1 X2 HI Y1 Y2 XY NN OV. apply (scan_both _ n d lam u [a] lo hi step tol' X (cq n Y')); try assumption; try lia; [cbn; lia|apply mvdr_forwards|cbn; now apply mvdr_scans|now apply ORD]. }
  (* the exact spectrum is bounded from below *)
  set (mu := (- be * INR n / al)%R). assert (n1 : (1 <= INR n)%R) by (change 1%R with (INR 1); apply le_INR; lia). assert (MU : (0 < mu)%R) by (unfold mu; apply Rdiv_lt_0_compat; [apply Rmult_lt_0_compat; lra|exact AL]).
  assert (YM : forall x, (mu <= cq n Y x)%R).
  { intros x. pose proof (one_form_nonneg n x0 x) as NN. rewrite (cq_ext n _ _ x E0), AFF in NN. unfold mu. apply (Rmult_le_reg_l al); [exact AL|]. replace (al * (- be * INR n / al))%R with (- be * INR n)%R by (field; lra). lra. }
  split.
  - intros ls LC. apply (RUN Rm Y 0%R ls LC NR1 NR IR eq_refl eq_refl YOK); [intros x; specialize (YM x); lra|]. apply (one_valley_ext d lam u [a] lo hi step 0 (cq n (one_form n x0))); [|exact EXA]. intros x. apply cq_ext. exact E0.
  - intros tol Ht. destruct (APP tol Ht) as (tau & T0 & H). set (B := (INR n * (INR n * 2))%R). assert (B0 : (0 < B)%R) by (unfold B; apply Rmult_lt_0_compat; lra).
    set (t := Rmin (tau / al) (mu / B)). assert (T1 : (0 < t)%R) by (apply Rmin_glb_lt; now apply Rdiv_lt_0_compat).
    destruct (near_solve_l n Rm Y (mid n) t NR1 NR IR eq_refl YOK T1) as (e1 & E1 & SL). destruct (near_inj Rm IR) as (e2 & E2 & NI).
    exists (Rmin e1 e2). split; [now apply Rmin_glb_lt|]. intros Rm' N1 N2 DS ls LC. pose proof (Rmin_l e1 e2) as m1. pose proof (Rmin_r e1 e2) as m2.
    assert (NRR : near (distance Rm Rm') Rm Rm') by (split; [congruence|]; split; [congruence|]; intros; apply entry_distance; assumption).
    assert (IR' : inj Rm') by (apply NI; apply (near_mono (distance Rm Rm')); [lra|exact NRR]).
    destruct (P_subspace4.inj_inverse Rm' n N1 N2 IR') as (Y' & y1 & y2 & YOK' & _).
    pose proof (SL Rm' (mid n) Y' (near_mono _ _ _ _ (ltac:(lra) : (distance Rm Rm' <= e1)%R) NRR) (near_refl e1 (mid n) ltac:(lra)) y1 y2 YOK') as NY.
    assert (EY : entrywise n t Y Y') by (intros i j Hi Hj; apply NY; assumption). pose proof (Rmin_l (tau / al) (mu / B)) as t1. pose proof (Rmin_r (tau / al) (mu / B)) as t2. fold t in t1, t2.
    apply (RUN Rm' Y' tol ls LC N1 N2 IR' y1 y2 YOK').
    + intros x. pose proof (cq_close n Y Y' t x EY) as CL. apply Rcomplements.Rabs_le_between in CL. specialize (YM x). assert (X : (INR n * (INR n * (2 * t)) <= mu)%R).
      { replace (INR n * (INR n * (2 * t)))%R with (t * B)%R by (unfold B; ring). apply Rle_trans with (mu / B * B)%R; [apply Rmult_le_compat_r; lra|right; field; lra]. }
      lra.
    + apply H. intros i j Hi Hj. rewrite E0 by assumption. apply (affine_close n al be tau t Y Y'); try assumption; try (intros; reflexivity); try apply Rabs_pos.
      rewrite Rabs_pos_eq by lra. apply Rle_trans with (al * (tau / al))%R; [apply Rmult_le_compat_l; lra|right; field; lra].
Qed.
