(** C109: simulated sample covariance matrices converge in mean square, and the estimators run on them recover the directions, with a probability that tends to 1. *)
From Coq Require Import Lra Lia Sorted Permutation.
From Coquelicot Require Import Complex.
From Verif Require Import Base_Np Base_Trig Base_Lin M_utils S_utils M_sources S_sources P_sources P_sources3 M_array S_array M_designs S_designs M_coarray S_coarray M_signals S_signals S_model P_model P_signals Prop_signals
  M_grid S_grid M_core M_sparse M_subspace S_subspace P_subspace S_rootc M_pipeline S_pipeline Prop_subspace P_pipeline Prop_pipeline S_stable P_stable Prop_stable S_cont S_offgrid S_refine S_scan
  P_off8 Prop_offgrid Prop_refine Prop_offgrid2 S_stat P_stat.
From Verif Require P_oracles P_array3 P_designs P_perf5 Prop_designs.
Open Scope nat_scope.

(** The mean-square error of every entry of the sample covariance matrix of n simulated snapshots is (R_ii R_jj + (kappa - 3) w_ij) / n for some 0 <= w_ij <= R_ii R_jj that depends on the scene alone: for
    normal draws it is exactly R_ii R_jj / n, and the mean-square distance of the matrices exactly (trace R)^2 / n *)
Theorem C109_mean_square : forall sqrtm arr s lam k c cn g gn (A Rm : cmat) DA, sqrtm_ok sqrtm -> steering_matrix arr s lam false "all" true = Ok (Flat A, DA) ->
  nc A = k -> carg_ok k c -> carg_ok (nr A) cn -> mk_stochastic sqrtm k c = Ok g -> mk_stochastic sqrtm (nr A) cn = Ok gn ->
  Rm ==m A *m carg_cov k c *m mher A +m carg_cov (nr A) cn ->
  exists w : nat -> nat -> R, (forall i j, i < nr A -> j < nr A -> (0 <= w i j <= Re (ent Rm i i) * Re (ent Rm j j))%R) /\
    forall kappa N E n st u, 0 < n -> white4 N kappa E -> used_normals st + 2 * (k * n) + 2 * (nr A * n) <= N ->
    let Rx := simulated arr s lam g gn n st u in
    (forall i j, i < nr A -> j < nr A -> E (fun x => Cnorm2 (ent (Rx x) i j - ent Rm i j)%C) = ((Re (ent Rm i i) * Re (ent Rm j j) + (kappa - 3) * w i j) / INR n)%R) /\
    (E (fun x => distance Rm (Rx x) * distance Rm (Rx x)) <= Rmax 1 (kappa - 2) * (Re (mtrace Rm) * Re (mtrace Rm)) / INR n)%R /\
    (kappa = 3 -> E (fun x => distance Rm (Rx x) * distance Rm (Rx x)) = Re (mtrace Rm) * Re (mtrace Rm) / INR n)%R.
Proof.
  intros sqrtm arr s lam k c cn g gn A Rm DA HS HA HAk HC HCn Eg Egn ER.
  destruct (simulated_mean_square sqrtm arr s lam k c cn g gn A DA HS HA HAk HC HCn Eg Egn Rm ER) as (_ & _ & w & HD & Hw & _ & HM). exists w. split; [exact Hw|].
  assert (NR : nr Rm = nr A) by (rewrite (meq_nr _ _ ER); reflexivity). assert (NC : nc Rm = nr A) by (rewrite (meq_nc _ _ ER); reflexivity).
  intros kappa N E n st u Hn HW HN Rx. pose proof (w4_white N kappa E HW) as W. assert (N0 : (0 < INR n)%R) by now apply lt_0_INR.
  split; [intros i j Hi Hj; apply (HM kappa N E n st u Hn HW HN i j Hi Hj)|].
  assert (ED : E (fun x => (distance Rm (Rx x) * distance Rm (Rx x))%R) = rsum (nr A) (fun i => rsum (nr A) (fun j => ((Re (ent Rm i i) * Re (ent Rm j j) + (kappa - 3) * w i j) / INR n)%R))).
  { rewrite (wh_ext N E W _ (fun x => rsum (nr A) (fun i => rsum (nr A) (fun j => Cnorm2 (ent (Rx x) i j - ent Rm i j)%C)))).
    - rewrite (E_rsum N E W (nr A) (fun i x => rsum (nr A) (fun j => Cnorm2 (ent (Rx x) i j - ent Rm i j)%C))). apply rsum_ext. intros i Hi.
      rewrite (E_rsum N E W (nr A) (fun j x => Cnorm2 (ent (Rx x) i j - ent Rm i j)%C)). apply rsum_ext. intros j Hj. apply (HM kappa N E n st u Hn HW HN i j Hi Hj).
    - intros x. rewrite distance_sq, NR, NC. apply rsum_ext. intros i Hi. apply rsum_ext. intros j Hj. destruct (ent Rm i j), (ent (Rx x) i j). unfold Cnorm2, Cminus, Cplus, Copp, Re, Im. cbn [fst snd]. ring. }
  assert (TR : Re (mtrace Rm) = rsum (nr A) (fun i => Re (ent Rm i i))) by (unfold mtrace; rewrite NR; clear; induction (nr A); cbn [csum rsum]; [reflexivity | rewrite <- IHn; reflexivity]).
  rewrite ED, TR, <- trace_sq. unfold Rdiv. split.
  - rewrite <- rsum_scal, Rmult_comm, <- rsum_scal. apply rsum_le. intros i Hi. rewrite <- !rsum_scal. apply rsum_le. intros j Hj. rewrite Rmult_comm. apply Rmult_le_compat_l; [left; now apply Rinv_0_lt_compat|].
    destruct (Hw i j Hi Hj) as (W0 & W1). pose proof (Rmax_l 1 (kappa - 2)) as M1. pose proof (Rmax_r 1 (kappa - 2)) as M2. set (D := (Re (ent Rm i i) * Re (ent Rm j j))%R) in *. destruct (Rle_dec kappa 3) as [K|K].
    + assert (0 <= (3 - kappa) * w i j)%R by (apply Rmult_le_pos; lra). assert (0 <= (Rmax 1 (kappa - 2) - 1) * D)%R by (apply Rmult_le_pos; lra). lra.
    + assert (0 <= (kappa - 3) * (D - w i j))%R by (apply Rmult_le_pos; lra). assert (0 <= (Rmax 1 (kappa - 2) - (kappa - 2)) * D)%R by (apply Rmult_le_pos; lra). lra.
  - intros ->. rewrite Rmult_comm, <- rsum_scal. apply rsum_ext. intros i Hi. rewrite <- rsum_scal. apply rsum_ext. intros j Hj. ring.
Qed.
(** so large deviations are unlikely, uniformly in the state of the generator *)
Theorem C109_deviation : forall sqrtm arr s lam k c cn g gn (A Rm : cmat) DA, sqrtm_ok sqrtm -> steering_matrix arr s lam false "all" true = Ok (Flat A, DA) ->
  nc A = k -> carg_ok k c -> carg_ok (nr A) cn -> mk_stochastic sqrtm k c = Ok g -> mk_stochastic sqrtm (nr A) cn = Ok gn ->
  Rm ==m A *m carg_cov k c *m mher A +m carg_cov (nr A) cn ->
  forall kappa N E n st u eps, 0 < n -> white4 N kappa E -> used_normals st + 2 * (k * n) + 2 * (nr A * n) <= N -> (0 < eps)%R ->
  unlikely E (fun x => (eps <= distance Rm (simulated arr s lam g gn n st u x))%R) (Rmax 1 (kappa - 2) * (Re (mtrace Rm) * Re (mtrace Rm)) / INR n / (eps * eps)).
Proof.
  intros sqrtm arr s lam k c cn g gn A Rm DA HS HA HAk HC HCn Eg Egn ER kappa N E n st u eps Hn HW HN He.
  destruct (C109_mean_square sqrtm arr s lam k c cn g gn A Rm DA HS HA HAk HC HCn Eg Egn ER) as (w0 & _ & HM). pose proof (proj1 (proj2 (HM kappa N E n st u Hn HW HN))) as HE. cbv zeta in HE. clear HM.
  destruct (simulated_mean_square sqrtm arr s lam k c cn g gn A DA HS HA HAk HC HCn Eg Egn Rm ER) as (_ & _ & w1 & _ & _ & _ & HP).
  pose proof (w4_white N kappa E HW) as W. set (Rx := simulated arr s lam g gn n st u) in *. assert (NR : nr Rm = nr A) by (rewrite (meq_nr _ _ ER); reflexivity). assert (NC : nc Rm = nr A) by (rewrite (meq_nc _ _ ER); reflexivity).
  assert (E2 : (0 < eps * eps)%R) by now apply Rmult_lt_0_compat. exists (fun x => / (eps * eps) * (distance Rm (Rx x) * distance Rm (Rx x)))%R. split; [|split; [|split]].
  - apply poly_scal. apply (Poly_ext (fun x => rsum (nr A) (fun i => rsum (nr A) (fun j => Cnorm2 (ent Rm i j - ent (Rx x) i j)%C)))); [|intros x; rewrite distance_sq, NR, NC; reflexivity].
    apply (poly_rsum (nr A) (fun i x => rsum (nr A) (fun j => Cnorm2 (ent Rm i j - ent (Rx x) i j)%C))). intros i Hi. apply (poly_rsum (nr A) (fun j x => Cnorm2 (ent Rm i j - ent (Rx x) i j)%C)). intros j Hj. apply (poly_norm2 (fun x => (ent Rm i j - ent (Rx x) i j)%C)).
    apply (cpoly_ext (fun x => (ent Rm i j + RtoC (-1) * ent (Rx x) i j)%C)).
    + apply (cpoly_plus (fun _ => ent Rm i j)); [apply cpoly_const|]. apply (cpoly_mult (fun _ => RtoC (-1))); [apply cpoly_const|]. apply (HP kappa N E n st u Hn HW HN i j Hi Hj).
    + intros x. destruct (ent Rm i j), (ent (Rx x) i j). unfold Cminus, Cplus, Copp, Cmult, RtoC. cbn [fst snd]. f_equal; ring.
  - intros x. apply Rmult_le_pos; [left; now apply Rinv_0_lt_compat|]. apply Rle_0_sqr.
  - intros x Hx. apply (Rmult_le_reg_l (eps * eps)); [exact E2|]. rewrite Rmult_1_r, <- Rmult_assoc, Rinv_r, Rmult_1_l by lra. apply Rmult_le_compat; lra.
  - rewrite (E_scal N E W). rewrite Rmult_comm. unfold Rdiv at 1. apply Rmult_le_compat_r; [left; now apply Rinv_0_lt_compat | exact HE].
Qed.
(** The long run: take any radii r n with n (r n)^2 growing beyond all bounds.  What is eventually true of all Hermitian matrices within r n of the exact covariance matrix is true of the sample covariance matrix of n
    simulated snapshots in the long run. *)
Theorem C109_in_the_long_run : forall sqrtm arr s lam k c cn g gn (A Rm : cmat) DA (good : nat -> cmat -> Prop) (r : nat -> R), sqrtm_ok sqrtm -> steering_matrix arr s lam false "all" true = Ok (Flat A, DA) ->
  nc A = k -> carg_ok k c -> carg_ok (nr A) cn -> mk_stochastic sqrtm k c = Ok g -> mk_stochastic sqrtm (nr A) cn = Ok gn ->
  Rm ==m A *m carg_cov k c *m mher A +m carg_cov (nr A) cn ->
  (forall B, exists n0, forall n, n0 <= n -> (0 < r n)%R /\ (B <= INR n * (r n * r n))%R) ->
  (exists n0, forall n (Rm' : cmat), n0 <= n -> hermitian Rm' -> nr Rm' = nr A -> (distance Rm Rm' < r n)%R -> good n Rm') ->
  in_the_long_run arr s lam g gn good.
Proof.
  intros sqrtm arr s lam k c cn g gn A Rm DA good r HS HA HAk HC HCn Eg Egn ER HB (n1 & HG) kappa p Hp.
  destruct (simulated_mean_square sqrtm arr s lam k c cn g gn A DA HS HA HAk HC HCn Eg Egn Rm ER) as (Dg & Dgn & w1 & _ & _ & HX & _).
  set (K := (Rmax 1 (kappa - 2) * (Re (mtrace Rm) * Re (mtrace Rm)))%R).
  destruct (HB (K / p)%R) as (n2 & H2). exists (S (Nat.max n1 n2)). intros n N E st u Hn HW HN. rewrite Dg, Dgn in HN. assert (n0 : 0 < n) by lia. assert (N0 : (0 < INR n)%R) by now apply lt_0_INR.
  destruct (H2 n ltac:(lia)) as (He & Q). set (eps := r n) in *. assert (E2 : (0 < eps * eps)%R) by now apply Rmult_lt_0_compat.
  destruct (C109_deviation sqrtm arr s lam k c cn g gn A Rm DA HS HA HAk HC HCn Eg Egn ER kappa N E n st u eps n0 HW HN He) as (f & Pf & F0 & F1 & FE).
  exists f. split; [exact Pf|]. split; [exact F0|]. split.
  - intros x NG. apply F1. destruct (Rlt_le_dec (distance Rm (simulated arr s lam g gn n st u x)) eps) as [L|L]; [|exact L]. elim NG. destruct (HX n st u x n0) as (P1 & P2). apply HG; [lia | exact (proj1 P1) | exact P2 | exact L].
  - eapply Rle_trans; [exact FE|]. fold K. apply (Rmult_le_reg_r (INR n * (eps * eps))); [now apply Rmult_lt_0_compat|]. replace (K / INR n / (eps * eps) * (INR n * (eps * eps)))%R with (p * (K / p))%R by (field; lra).
    apply Rmult_le_compat_l; [lra | exact Q].
Qed.

(** *** the whole way: simulate the snapshots, estimate the covariance matrix, run the estimator *)
Lemma generated sqrtm k m c s gs gn arr src lam (A : cmat) (r : nat -> R) (good : nat -> cmat -> Prop) :
  generators sqrtm k m c s gs gn -> steering_matrix arr src lam false "all" true = Ok (Flat A, []) -> nr A = m -> nc A = k ->
  (forall B, exists n0, forall n, n0 <= n -> (0 < r n)%R /\ (B <= INR n * (r n * r n))%R) ->
  let Rm := A *m carg_cov k c *m mher A +m mscal (RtoC s) (mid m) in
  nr (carg_cov k c) = k /\ nc (carg_cov k c) = k /\ exact_cov Rm A (carg_cov k c) s /\
  ((exists n0, forall n (Rm' : cmat), n0 <= n -> hermitian Rm' -> nr Rm' = m -> (distance Rm Rm' < r n)%R -> good n Rm') -> in_the_long_run arr src lam gs gn good).
Proof.
  intros (HS & HC & H0 & Eg & Egn) HA NA NK HB Rm. subst m.
  assert (D : nr (carg_cov k c) = k /\ nc (carg_cov k c) = k) by (destruct c; cbn [carg_cov mdiag nr nc]; try (split; reflexivity); destruct HC as (X & Y & _); now split). destruct D as (D1 & D2).
  split; [exact D1|]. split; [exact D2|]. split.
  - split; [congruence|]. split; [congruence|]. reflexivity.
  - intros HG. apply (C109_in_the_long_run sqrtm arr src lam k c (CScalar s) gs gn A Rm [] good r HS HA NK HC H0 Eg Egn); [|exact HB|exact HG].
    split; [reflexivity|]. split; [reflexivity|]. intros i j Hi Hj. cbn [Rm madd mscal mid mdiag carg_cov ent]. f_equal. unfold mid. cbn [ent]. destruct (Nat.eqb i j); ring.
Qed.
Lemma constant_radius eps : (0 < eps)%R -> forall B, exists n0, forall n, n0 <= n -> (0 < eps)%R /\ (B <= INR n * (eps * eps))%R.
Proof.
  intros He B. assert (E2 : (0 < eps * eps)%R) by now apply Rmult_lt_0_compat. exists (Z.to_nat (up (Rmax 0 (B / (eps * eps))))). intros n Hn. split; [exact He|].
  set (q := Rmax 0 (B / (eps * eps))) in *. assert (q0 : (0 <= q)%R) by apply Rmax_l. assert (q1 : (B / (eps * eps) <= q)%R) by apply Rmax_r.
  pose proof (archimed q) as (X & _). assert (X0 : (0 <= up q)%Z) by (apply le_IZR; lra). assert (Y : (IZR (up q) <= INR n)%R) by (rewrite INR_IZR_INZ; apply IZR_le; lia).
  replace B with (B / (eps * eps) * (eps * eps))%R by (field; lra). apply Rmult_le_compat_r; lra.
Qed.
Lemma log_radius c : (0 < c)%R -> forall B, exists n0, forall n, n0 <= n -> (0 < sqrt (c * ln (INR n) / INR n))%R /\ (B <= INR n * (sqrt (c * ln (INR n) / INR n) * sqrt (c * ln (INR n) / INR n)))%R.
Proof.
  intros Hc B. set (q := exp (Rmax 1 (B / c))). exists (Z.to_nat (up q)). intros n Hn. assert (q0 : (0 < q)%R) by apply exp_pos.
  pose proof (archimed q) as (X & _). assert (X0 : (0 <= up q)%Z) by (apply le_IZR; lra). assert (Y : (IZR (up q) <= INR n)%R) by (rewrite INR_IZR_INZ; apply IZR_le; lia).
  assert (L : (Rmax 1 (B / c) <= ln (INR n))%R) by (rewrite <- (ln_exp (Rmax 1 (B / c))); left; apply ln_increasing; fold q; lra).
  pose proof (Rmax_l 1 (B / c)). pose proof (Rmax_r 1 (B / c)). assert (N0 : (0 < INR n)%R) by lra.
  assert (P : (0 < c * ln (INR n) / INR n)%R) by (apply Rdiv_lt_0_compat; [apply Rmult_lt_0_compat; lra | exact N0]). split; [now apply sqrt_lt_R0|].
  rewrite sqrt_sqrt by lra. replace (INR n * (c * ln (INR n) / INR n))%R with (c * ln (INR n))%R by (field; lra). replace B with (c * (B / c))%R by (field; lra). apply Rmult_le_compat_l; lra.
Qed.
Lemma within_log c N0 Rm Rm' n : (INR n >= N0)%R -> 0 < n -> (distance Rm Rm' < sqrt (c * ln (INR n) / INR n))%R -> (0 < c * ln (INR n) / INR n)%R -> (INR n * (distance Rm Rm' * distance Rm Rm') <= c * ln (INR n))%R.
Proof.
  intros _ Hn DS P. assert (H : (0 < INR n)%R) by now apply lt_0_INR. pose proof (distance_nonneg Rm Rm') as D0.
  assert (Q : (distance Rm Rm' * distance Rm Rm' <= c * ln (INR n) / INR n)%R) by (rewrite <- (sqrt_sqrt (c * ln (INR n) / INR n)) by lra; apply Rmult_le_compat; lra).
  apply (Rmult_le_compat_l (INR n)) in Q; [|lra]. replace (INR n * (c * ln (INR n) / INR n))%R with (c * ln (INR n))%R in Q by (field; lra). exact Q.
Qed.
Lemma near_run sqrtm k m c s gs gn arr src lam (A : cmat) (good : cmat -> Prop) :
  generators sqrtm k m c s gs gn -> steering_matrix arr src lam false "all" true = Ok (Flat A, []) -> nr A = m -> nc A = k ->
  (forall Rm : cmat, exact_cov Rm A (carg_cov k c) s -> exists eps, (0 < eps)%R /\ forall Rm' : cmat, hermitian Rm' -> nr Rm' = m -> (distance Rm Rm' < eps)%R -> good Rm') -> in_the_long_run arr src lam gs gn (fun _ => good).
Proof.
  intros G HA NA NK HG. destruct (generated sqrtm k m c s gs gn arr src lam A (fun _ => 1%R) (fun _ => good) G HA NA NK (constant_radius 1 Rlt_0_1)) as (_ & _ & HX & _).
  destruct (HG _ HX) as (eps & He & H). destruct (generated sqrtm k m c s gs gn arr src lam A (fun _ => eps) (fun _ => good) G HA NA NK (constant_radius eps He)) as (_ & _ & _ & HR). apply HR. exists 0. intros n Rm' _. apply H.
Qed.
Lemma log_run sqrtm k m c s gs gn arr src lam (A : cmat) (good : cmat -> R -> Prop) :
  generators sqrtm k m c s gs gn -> steering_matrix arr src lam false "all" true = Ok (Flat A, []) -> nr A = m -> nc A = k ->
  (forall Rm : cmat, exact_cov Rm A (carg_cov k c) s -> exists c0 N0, (0 < c0)%R /\ forall (Rm' : cmat) N, hermitian Rm' -> nr Rm' = m -> (N0 <= N)%R -> (N * (distance Rm Rm' * distance Rm Rm') <= c0 * ln N)%R -> good Rm' N) ->
  in_the_long_run arr src lam gs gn (fun n Rm' => good Rm' (INR n)).
Proof.
  intros G HA NA NK HG. destruct (generated sqrtm k m c s gs gn arr src lam A (fun _ => 1%R) (fun n Rm' => good Rm' (INR n)) G HA NA NK (constant_radius 1 Rlt_0_1)) as (_ & _ & HX & _).
  destruct (HG _ HX) as (c0 & N0 & Hc & H). destruct (generated sqrtm k m c s gs gn arr src lam A (fun n => sqrt (c0 * ln (INR n) / INR n)) (fun n Rm' => good Rm' (INR n)) G HA NA NK (log_radius c0 Hc)) as (_ & _ & _ & HR). apply HR.
  exists (Nat.max 3 (S (Z.to_nat (up (Rmax 0 N0))))). intros n Rm' Hn HH NR DS. assert (N2 : (1 < INR n)%R) by (change 1%R with (INR 1); apply lt_INR; lia).
  assert (L0 : (0 < ln (INR n))%R) by (rewrite <- ln_1; apply ln_increasing; lra). apply H; [exact HH | exact NR | |].
  - pose proof (Rmax_l 0 N0). pose proof (Rmax_r 0 N0). pose proof (archimed (Rmax 0 N0)) as (X & _). assert (X0 : (0 <= up (Rmax 0 N0))%Z) by (apply le_IZR; lra). assert (Y : (IZR (up (Rmax 0 N0)) <= INR n)%R) by (rewrite INR_IZR_INZ; apply IZR_le; lia). lra.
  - apply (within_log c0 (INR n)); [lra | lia | exact DS |]. apply Rdiv_lt_0_compat; [now apply Rmult_lt_0_compat | lra].
Qed.
Lemma ula_size n d nm g doas u src lam (A : cmat) : mk_ULA (Z.of_nat n) (D0Scalar d) nm no_kwargs = Ok g -> mk_FF1 (vec1 doas) u = Ok src -> steering_matrix (gd_array g) src lam false "all" true = Ok (Flat A, []) -> nr A = n /\ nc A = List.length doas.
Proof.
  intros Eg Es HA. apply mk_FF1_ok in Es as (_ & K & V & ->). cbn [vec1 nd_data] in *. destruct (ULA_facts _ _ _ _ Eg) as (PL & Pe & I & DT & _).
  pose proof (ula_steering g n d u doas lam PL Pe I (conj K V) A HA) as EA. rewrite (meq_nr _ _ EA), (meq_nc _ _ EA). cbn [ula_matrix nr nc]. now rewrite map_length.
Qed.
Lemma reaches_music eigh m e0 h0 e h : reach (music_estimate eigh m) e0 h0 e h -> music_reach eigh m e0 h0 e h.
Proof. induction 1; [constructor | eapply mr_call; eassumption]. Qed.

(** MUSIC with refinement on a fine enough default grid: the estimates approach the directions as closely as wanted *)
Theorem C109_music : forall n d name g lam doas u src (A : cmat),
  mk_ULA (Z.of_nat n) (D0Scalar d) name no_kwargs = Ok g -> mk_FF1 (vec1 doas) u = Ok src ->
  steering_matrix (gd_array g) src lam false "all" true = Ok (Flat A, []) ->
  (0 < d)%R -> (2 * d <= lam)%R -> (forall a, In a doas -> (- (PI / 2) < to_rad u a < PI / 2)%R) -> NoDup doas -> 1 <= List.length doas < n ->
  exists size0, forall size, size0 <= size -> exists l, mk_grid1d None None (Z.of_nat size) u = Ok (SGrid G1D [vec1 l] u DFloat) /\ List.length l = size /\
    forall sqrtm c s gs gn t, generators sqrtm (List.length doas) n c s gs gn -> pd (carg_cov (List.length doas) c) -> (0 < t)%R ->
      exists n0, in_the_long_run (gd_array g) src lam gs gn (fun _ Rm => forall eigh ret_sp density n_iters, eigh_contract n eigh -> (2 <= density)%Z -> n0 <= n_iters ->
        located (music_estimate eigh n) g lam doas u l t (Opts ret_sp true density n_iters) Rm).
Proof.
  intros n d nm g lam doas u src A Eg Es HA Hd Hl IN ND Hk. destruct (ula_size _ _ _ _ _ _ _ _ _ Eg Es HA) as (NA & NK).
  destruct (Prop_refine.C107_default_grid n d nm g lam doas u src A Eg Es HA Hd Hl IN ND Hk) as (size0 & H). exists size0. intros size Hs. destruct (H size Hs) as (l & E & L & HL). exists l. split; [exact E|]. split; [exact L|].
  intros sqrtm c s gs gn t G PD Ht. destruct (generated sqrtm _ n c s gs gn (gd_array g) src lam A (fun _ => 1%R) (fun _ _ => True) G HA NA NK (constant_radius 1 Rlt_0_1)) as (_ & _ & HX & _).
  destruct (HL _ _ s t HX PD Ht) as (n0 & eps & He & HE). exists n0. destruct (generated sqrtm _ n c s gs gn (gd_array g) src lam A (fun _ => eps) (fun _ Rm => forall eigh ret_sp density n_iters, eigh_contract n eigh -> (2 <= density)%Z -> n0 <= n_iters ->
        located (music_estimate eigh n) g lam doas u l t (Opts ret_sp true density n_iters) Rm) G HA NA NK (constant_radius eps He)) as (_ & _ & _ & HR). apply HR. exists 0. intros _ Rm' _ HH NR DS eigh rs D ni EC HD Hi fp asort ca h0 e0 h1 e h FP AS HN RE.
  apply (HE Rm' fp asort ca h0 e0 h1 eigh e h rs D ni HH NR DS FP AS HN EC); [now apply reaches_music | exact HD | exact Hi].
Qed.
(** Min-Norm likewise *)
Theorem C109_min_norm : forall n d name g lam doas u src (A : cmat),
  mk_ULA (Z.of_nat n) (D0Scalar d) name no_kwargs = Ok g -> mk_FF1 (vec1 doas) u = Ok src ->
  steering_matrix (gd_array g) src lam false "all" true = Ok (Flat A, []) ->
  (0 < d)%R -> (2 * d <= lam)%R -> (forall a, In a doas -> (- (PI / 2) < to_rad u a < PI / 2)%R) -> NoDup doas -> 1 <= List.length doas < n ->
  exists size0, forall size, size0 <= size -> exists l, mk_grid1d None None (Z.of_nat size) u = Ok (SGrid G1D [vec1 l] u DFloat) /\ List.length l = size /\
    forall sqrtm c s gs gn t, generators sqrtm (List.length doas) n c s gs gn -> pd (carg_cov (List.length doas) c) -> (0 < t)%R ->
      exists n0, in_the_long_run (gd_array g) src lam gs gn (fun _ Rm => forall eigh ret_sp density n_iters, eigh_contract n eigh -> (2 <= density)%Z -> n0 <= n_iters ->
        located (min_norm_estimate eigh n) g lam doas u l t (Opts ret_sp true density n_iters) Rm).
Proof.
  intros n d nm g lam doas u src A Eg Es HA Hd Hl IN ND Hk. destruct (ula_size _ _ _ _ _ _ _ _ _ Eg Es HA) as (NA & NK).
  destruct (C108_min_norm_default_grid n d nm g lam doas u src A Eg Es HA Hd Hl IN ND Hk) as (size0 & H). exists size0. intros size Hs. destruct (H size Hs) as (l & E & L & HL). exists l. split; [exact E|]. split; [exact L|].
  intros sqrtm c s gs gn t G PD Ht. destruct (generated sqrtm _ n c s gs gn (gd_array g) src lam A (fun _ => 1%R) (fun _ _ => True) G HA NA NK (constant_radius 1 Rlt_0_1)) as (_ & _ & HX & _).
  destruct (HL _ _ s t HX PD Ht) as (n0 & eps & He & HE). exists n0. destruct (generated sqrtm _ n c s gs gn (gd_array g) src lam A (fun _ => eps) (fun _ Rm => forall eigh ret_sp density n_iters, eigh_contract n eigh -> (2 <= density)%Z -> n0 <= n_iters ->
        located (min_norm_estimate eigh n) g lam doas u l t (Opts ret_sp true density n_iters) Rm) G HA NA NK (constant_radius eps He)) as (_ & _ & _ & HR). apply HR. exists 0. intros _ Rm' _ HH NR DS eigh rs D ni EC HD Hi.
  now apply (HE Rm' eigh rs D ni HH NR DS EC).
Qed.
(** the beamformers, one source *)
Theorem C109_beamformers : forall n d name g lam a u src (A : cmat),
  mk_ULA (Z.of_nat n) (D0Scalar d) name no_kwargs = Ok g -> mk_FF1 (vec1 [a]) u = Ok src ->
  steering_matrix (gd_array g) src lam false "all" true = Ok (Flat A, []) ->
  (0 < d)%R -> (2 * d <= lam)%R -> (- (PI / 2) < to_rad u a < PI / 2)%R -> 2 <= n ->
  exists size0, forall size, size0 <= size -> exists l, mk_grid1d None None (Z.of_nat size) u = Ok (SGrid G1D [vec1 l] u DFloat) /\ List.length l = size /\
    forall sqrtm c s gs gn t, generators sqrtm 1 n c s gs gn -> pd (carg_cov 1 c) -> (0 < t)%R ->
      exists n0, in_the_long_run (gd_array g) src lam gs gn (fun _ Rm => forall ret_sp density n_iters, (2 <= density)%Z -> n0 <= n_iters ->
        located (bartlett_estimate n) g lam [a] u l t (Opts ret_sp true density n_iters) Rm /\
        ((0 < s)%R -> forall lstsq, lstsq_contract lstsq -> located (mvdr_estimate lstsq n) g lam [a] u l t (Opts ret_sp true density n_iters) Rm)).
Proof.
  intros n d nm g lam a u src A Eg Es HA Hd Hl IN Hn. destruct (ula_size _ _ _ _ _ _ _ _ _ Eg Es HA) as (NA & NK).
  destruct (C108_beamformers_default_grid n d nm g lam a u src A Eg Es HA Hd Hl IN Hn) as (size0 & H). exists size0. intros size Hs. destruct (H size Hs) as (l & E & L & HL). exists l. split; [exact E|]. split; [exact L|].
  intros sqrtm c s gs gn t G PD Ht. destruct (generated sqrtm 1 n c s gs gn (gd_array g) src lam A (fun _ => 1%R) (fun _ _ => True) G HA NA NK (constant_radius 1 Rlt_0_1)) as (_ & _ & HX & _).
  destruct (HL _ _ s t HX PD Ht) as (n0 & eps & He & HE). exists n0. destruct (generated sqrtm 1 n c s gs gn (gd_array g) src lam A (fun _ => eps) (fun _ Rm => forall ret_sp density n_iters, (2 <= density)%Z -> n0 <= n_iters ->
        located (bartlett_estimate n) g lam [a] u l t (Opts ret_sp true density n_iters) Rm /\
        ((0 < s)%R -> forall lstsq, lstsq_contract lstsq -> located (mvdr_estimate lstsq n) g lam [a] u l t (Opts ret_sp true density n_iters) Rm)) G HA NA NK (constant_radius eps He)) as (_ & _ & _ & HR). apply HR. exists 0. intros _ Rm' _ HH NR DS rs D ni HD Hi.
  apply (HE Rm' rs D ni NR); [rewrite <- (proj1 HH); exact NR | exact DS | exact HD | exact Hi].
Qed.

(** ** The hypotheses can be met *)
(** random signs have fourth moment 1; their expectation is a mean over finitely many assignments, so an event that is not certain to fail happens for some draws *)
Lemma sign_mean_odd N (f : (nat -> R) -> R) : (forall x, f (fun i => if Nat.eqb i N then -1 else x i)%R = - f (fun i => if Nat.eqb i N then 1 else x i))%R -> sign_mean (S N) f = 0%R.
Proof. intros H. cbn [sign_mean]. rewrite (sign_mean_ext N (fun x => f (fun i => if Nat.eqb i N then -1 else x i)%R) (fun x => -1 * f (fun i => if Nat.eqb i N then 1 else x i))%R) by (intros x; rewrite H; ring). rewrite sign_mean_scal. field. Qed.
Lemma sign_mean_even N (f g : (nat -> R) -> R) : (forall x, f (fun i => if Nat.eqb i N then 1 else x i)%R = g x) -> (forall x, f (fun i => if Nat.eqb i N then -1 else x i)%R = g x) -> sign_mean (S N) f = sign_mean N g.
Proof. intros H1 H2. cbn [sign_mean]. rewrite (sign_mean_ext N _ g H1), (sign_mean_ext N _ g H2). field. Qed.
Lemma sign_mean_fourth : forall N i j k l, i < N -> j < N -> k < N -> l < N -> let same a b := if Nat.eqb a b then 1%R else 0%R in
  sign_mean N (fun x => x i * x j * x k * x l)%R = (same i j * same k l + same i k * same j l + same i l * same j k + (1 - 3) * (same i j * same i k * same i l))%R.
Proof.
  induction N as [|N IH]; intros i j k l Hi Hj Hk Hl; [lia|].
  assert (SB : forall a b c, a = b \/ c = 0%R -> (if Nat.eqb a b then c else 0)%R = c) by (intros a b c [-> | ->]; [now rewrite Nat.eqb_refl | now destruct (Nat.eqb a b)]).
  assert (NE : forall a, a <> N -> Nat.eqb a N = false) by (intros a Ha; now apply Nat.eqb_neq). assert (NE' : forall a, a <> N -> Nat.eqb N a = false) by (intros a Ha; apply Nat.eqb_neq; congruence).
  destruct (Nat.eq_dec i N) as [Ei|Ni], (Nat.eq_dec j N) as [Ej|Nj], (Nat.eq_dec k N) as [Ek|Nk], (Nat.eq_dec l N) as [El|Nl]; try subst i; try subst j; try subst k; try subst l; cbv beta zeta;
    rewrite ?Nat.eqb_refl, ?NE, ?NE' by assumption;
    try (rewrite sign_mean_odd; [ring | intros x; rewrite ?Nat.eqb_refl, ?NE by assumption; ring]).
  - rewrite (sign_mean_even N _ (fun _ => 1%R)) by (intros x; rewrite Nat.eqb_refl; ring). rewrite sign_mean_const. ring.
  - rewrite (sign_mean_even N _ (fun x => x k * x l)%R) by (intros x; rewrite ?Nat.eqb_refl, ?NE by assumption; ring). rewrite sign_mean_second by lia. ring.
  - rewrite (sign_mean_even N _ (fun x => x j * x l)%R) by (intros x; rewrite ?Nat.eqb_refl, ?NE by assumption; ring). rewrite sign_mean_second by lia. ring.
  - rewrite (sign_mean_even N _ (fun x => x j * x k)%R) by (intros x; rewrite ?Nat.eqb_refl, ?NE by assumption; ring). rewrite sign_mean_second by lia. ring.
  - rewrite (sign_mean_even N _ (fun x => x i * x l)%R) by (intros x; rewrite ?Nat.eqb_refl, ?NE by assumption; ring). rewrite sign_mean_second by lia. ring.
  - rewrite (sign_mean_even N _ (fun x => x i * x k)%R) by (intros x; rewrite ?Nat.eqb_refl, ?NE by assumption; ring). rewrite sign_mean_second by lia. ring.
  - rewrite (sign_mean_even N _ (fun x => x i * x j)%R) by (intros x; rewrite ?Nat.eqb_refl, ?NE by assumption; ring). rewrite sign_mean_second by lia. ring.
  - rewrite (sign_mean_even N _ (fun x => x i * x j * x k * x l)%R) by (intros x; rewrite ?NE by assumption; reflexivity). apply IH; lia.
Qed.
Example white4_exists : forall N, white4 N 1 (sign_mean N).
Proof. intros N. split; [apply white_exists | apply sign_mean_const | apply sign_mean_fourth]. Qed.
Lemma sign_mean_le : forall N f g, (forall x, (f x <= g x)%R) -> (sign_mean N f <= sign_mean N g)%R.
Proof.
  induction N as [|N IH]; intros f g H; cbn [sign_mean]; [apply H|].
  pose proof (IH (fun x => f (fun i => if Nat.eqb i N then 1 else x i)%R) (fun x => g (fun i => if Nat.eqb i N then 1 else x i)%R) (fun x => H _)).
  pose proof (IH (fun x => f (fun i => if Nat.eqb i N then -1 else x i)%R) (fun x => g (fun i => if Nat.eqb i N then -1 else x i)%R) (fun x => H _)). lra.
Qed.
Lemma sign_draws N bad p : (p < 1)%R -> unlikely (sign_mean N) bad p -> exists x, ~ bad x.
Proof.
  intros Hp (f & _ & _ & F1 & FE). destruct (Classical_Prop.classic (exists x, ~ bad x)) as [H|H]; [exact H|]. exfalso.
  assert (B : forall x, bad x) by (intros x; destruct (Classical_Prop.classic (bad x)) as [Q|Q]; [exact Q | elim H; now exists x]).
  assert (1 <= sign_mean N f)%R; [|lra]. rewrite <- (sign_mean_const N 1). apply sign_mean_le. intros x. apply F1, B.
Qed.
(** a two-sensor array, one source at 30 degrees (between the grid points), simulated with random signs: refined MUSIC finds it for some draws *)
Example C109_example : exists g src (A : cmat) gs gn l n N x,
  mk_ULA 2 (D0Scalar 1) None no_kwargs = Ok g /\ mk_FF1 (vec1 [30]%R) "deg" = Ok src /\ steering_matrix (gd_array g) src 2 false "all" true = Ok (Flat A, []) /\
  generators P_oracles.sqrtm_ref 1 2 (CScalar 4) 1 gs gn /\ pd (carg_cov 1 (CScalar 4)) /\ mk_grid1d None None (Z.of_nat (List.length l)) "deg" = Ok (SGrid G1D [vec1 l] "deg" DFloat) /\
  0 < n /\ white4 N 1 (sign_mean N) /\ 0 + 2 * (sto_dim gs * n) + 2 * (sto_dim gn * n) <= N /\
  exists n0, located (music_estimate P_oracles.eigh_ref 2) g 2 [30]%R "deg" l (1 / 1000000) (Opts false true 10 n0) (simulated (gd_array g) src 2 gs gn n (Rng 0 0) (fun _ => 0%R) x).
Proof.
  pose proof PI_RGT_0 as PP.
  destruct (Prop_designs.C10_constructible 2 0 0 1 None) as ((g & Eg) & _). destruct (ULA_facts _ _ _ _ Eg) as (PL & X2 & X3 & X4 & _). assert (K : known_unit "deg") by (right; left; reflexivity).
  assert (V : Forall (valid_angle "deg") [30%R]) by (apply Forall_cons; [|apply Forall_nil]; right; left; split; [reflexivity|lra]).
  destruct (P_array3.steering_defined (gd_array g) (FF1 [30]%R "deg") 2 "all" [] true ltac:(lra) X3 X4) as (A & HA);
    [rewrite (pl_ndim _ _ _ PL); lia | rewrite (pl_size _ _ _ PL), P_designs.ULA_indices_length; lia | unfold select_perturbations, perturbations; now rewrite X2 | intros ? []|].
  assert (Es : mk_FF1 (vec1 [30]%R) "deg" = Ok (FF1 [30]%R "deg")). { apply mk_FF1_ok. cbn. split; [lia|]. split; [exact K|]. split; [exact V|reflexivity]. }
  assert (R30 : (- (PI / 2) < to_rad "deg" 30 < PI / 2)%R) by (cbn [to_rad String.eqb Ascii.eqb Bool.eqb]; unfold deg2rad; lra).
  destruct (C109_music 2 1 None g 2 [30]%R "deg" (FF1 [30]%R "deg") A Eg Es HA ltac:(lra) ltac:(lra)) as (z1 & H1).
  { intros a [<-|[]]. exact R30. } { constructor; [intros []|constructor]. } { cbn; lia. }
  assert (GN : generators P_oracles.sqrtm_ref 1 2 (CScalar 4) 1 (StoScalar 1 (sqrt 4)) (StoScalar 2 (sqrt 1))) by (split; [apply P_oracles.sqrtm_ref_ok|]; split; [cbn; lra|]; split; [lra|]; split; reflexivity).
  assert (PD : pd (carg_cov 1 (CScalar 4))) by (cbn [carg_cov]; apply P_perf5.pd_mdiag; intros; lra).
  destruct (H1 z1 (le_n _)) as (l & El & Ll & HL). destruct (HL P_oracles.sqrtm_ref (CScalar 4) 1%R _ _ (1 / 1000000)%R GN PD ltac:(lra)) as (n0 & LR).
  destruct (LR 1%R (1 / 2)%R ltac:(lra)) as (n1 & HU). set (n := S n1). set (N := 0 + 2 * (1 * n) + 2 * (2 * n)).
  destruct (sign_draws N _ (1 / 2) ltac:(lra) (HU n N (sign_mean N) (Rng 0 0) (fun _ => 0%R) ltac:(lia) (white4_exists N) (le_n _))) as (x & NB). apply Classical_Prop.NNPP in NB.
  exists g, (FF1 [30]%R "deg"), A, (StoScalar 1 (sqrt 4)), (StoScalar 2 (sqrt 1)), l, n, N, x. repeat (split; [first [assumption | rewrite Ll; assumption | apply white4_exists | cbn [sto_dim]; unfold N; lia | unfold n; lia]|]).
  exists n0. apply NB; [apply P_oracles.eigh_ref_contract | lia | lia].
Qed.
Print Assumptions C109_mean_square. Print Assumptions C109_deviation. Print Assumptions C109_in_the_long_run. Print Assumptions C109_music. Print Assumptions C109_min_norm. Print Assumptions C109_beamformers.
