(** Source number detection from inexact covariances (C100). *)
From Coq Require Import Lra Sorted Permutation.
From Verif Require Import Base_Np Base_Trig Base_Lin S_model M_utils S_utils P_utils M_sources S_sources P_sources M_array S_array P_array P_array2 P_array3 M_designs S_designs P_designs M_coarray S_coarray P_coarray P_coarray2 P_model
  M_grid S_grid P_grid M_core P_core P_core2 M_sparse M_subspace S_subspace P_subspace P_subspace2 P_subspace5 P_courant M_srcnum S_srcnum P_srcnum M_pipeline S_pipeline Prop_srcnum Prop_srcnum2 P_pipeline P_pipeline4 Prop_pipeline Prop_pipeline5 S_stable P_stable Prop_stable S_detect P_detect.
From Verif Require P_oracles P_perf5.
Open Scope R_scope.

(** *** eigenvalue lists *)
(** The K largest of the eigenvalues x exceed the noise power s, the others equal it.  If the values given to aic and mdl are off by
    at most eps, N snapshots (N >= N0) give the right count as soon as N eps^2 is below a constant (aic) or below a constant times ln N (mdl). *)
Theorem C100_aic_mdl : forall x K s, noise_and_signal x K s ->
  exists c N0, 0 < c /\ forall eigvalsh y eps N, values_within eps x y -> 0 <= eps -> N0 <= N ->
    (N * (eps * eps) <= c -> aic eigvalsh (EVec y) N = Ok K) /\ (N * (eps * eps) <= c * ln N -> mdl eigvalsh (EVec y) N = Ok K).
Proof.
  intros x K s H. destruct (dt_counts x K s H) as (c & N0 & Hc & H1 & HN). exists c, N0. split; [exact Hc|]. intros ev y eps N (HL & HC) He L0. destruct (HN y eps N HL He HC L0) as (A & B).
  split; intros Q; [exact (A Q) | rewrite mdl_pos by lra; exact (B Q)].
Qed.
(** SORTE: any error below some eps0 is harmless if the smallest signal eigenvalue stands out by more than the absolute threshold *)
Theorem C100_sorte : forall x K s, noise_and_signal x K s -> (4 <= List.length x)%nat -> (1 <= K <= List.length x - 3)%nat ->
  let d := INR (List.length x - K) in let g := nth (List.length x - K) x 0 - s in float_eps < g * g * (d - 1) / (d * d) ->
  exists eps0, 0 < eps0 /\ forall eigvalsh y, values_within eps0 x y -> sorte eigvalsh (EVec y) = Ok K.
Proof.
  intros x K s H HL HK d g Hg. destruct (so_stable x K s H HL HK) as (e0 & E0 & ST); [now rewrite (gap_var_signal x K s H HL HK)|]. exists e0. split; [exact E0|]. intros ev y (A & B). exact (ST y A B).
Qed.
(** any eigenvalues at all: a count that wins by a margin still wins when 6 N M eps / (smallest eigenvalue) is below the margin *)
Theorem C100_budget : forall eigvalsh x y eps m N margin, values_within eps x y -> 0 < m -> (forall j, (j < List.length x)%nat -> m <= nth j x 0) -> 0 <= eps <= m / 2 -> (0 < List.length x)%nat -> 0 < N ->
  6 * N * INR (List.length x) * (eps / m) < margin ->
  (forall p, aic eigvalsh (EVec x) N = Ok p -> (forall i, (i < List.length x)%nat -> i <> p -> aic_crit x N p + margin <= aic_crit x N i) -> aic eigvalsh (EVec y) N = Ok p) /\
  (forall q, mdl eigvalsh (EVec x) N = Ok q -> (forall i, (i < List.length x)%nat -> i <> q -> mdl_crit x N q + margin <= mdl_crit x N i) -> mdl eigvalsh (EVec y) N = Ok q).
Proof.
  intros ev x y eps m N margin (HL & HC) Hm HF He H0 HN HB. pose proof (dt_x_pos x m Hm HF) as HP. destruct (C53_first_minimiser ev x N HP H0) as ((p & Ep & Hp) & Q & _). destruct (Q HN) as (q & Eq & Hq). clear Q. split.
  - intros p' E' HM. rewrite Ep in E'. injection E' as <-. exact (dt_budget x y eps m HL Hm HF He HC aic_penalty N p margin ltac:(lra) Hp HM HB).
  - intros q' E' HM. rewrite Eq in E'. injection E' as <-. rewrite mdl_pos by exact HN.
    assert (X : forall i, N * log_am_gm x i + mdl_penalty N (List.length x) i = mdl_crit x N i) by (intros i; unfold mdl_penalty, mdl_crit; lra).
    apply (dt_budget x y eps m HL Hm HF He HC (mdl_penalty N) N q margin); [lra | | | exact HB].
    + destruct Hq as (A & B & D). split; [exact A|]. split; intros i Hi; rewrite !X; auto.
    + intros i Hi Ni. rewrite !X. now apply HM.
Qed.

(** *** covariance matrices *)
Theorem C100_covariance : forall (Rm A P : cmat) s, exact_cov Rm A P s -> inj A -> pd P -> 0 < s -> (nc A < nr A)%nat ->
  exists c N0, 0 < c /\ forall eigvalsh Rm' N, eigvalsh_contract (nr A) eigvalsh -> hermitian Rm' -> nr Rm' = nr A -> N0 <= N ->
    (N * (distance Rm Rm' * distance Rm Rm') <= c -> aic eigvalsh (EMat Rm') N = Ok (nc A)) /\
    (N * (distance Rm Rm' * distance Rm Rm') <= c * ln N -> mdl eigvalsh (EMat Rm') N = Ok (nc A)).
Proof.
  intros Rm A P s HX HA HP Hs Hk. destruct (ex_dims Rm A P s HX) as (D1 & D2). pose proof (exact_herm _ _ _ _ HX (proj1 HP)) as HH.
  destruct (P_oracles.eigh_ref_contract (nr Rm) Rm HH (le_n _)) as (w & E & EW & OE). assert (LW : List.length w = nr A) by (rewrite <- D1; apply OE).
  destruct (C87_exact_covariance (fun _ => Ok w) Rm A P s w E HX HA HP Hs Hk eq_refl OE) as (NS & _). destruct (C100_aic_mdl w (nc A) s NS) as (c & N0 & Hc & HN).
  exists c, N0. split; [exact Hc|]. intros ev Rm' N EC H' N' L0. destruct (EC Rm' H' ltac:(lia)) as (w' & E' & EW' & OE'). assert (LW' : List.length w' = nr A) by (rewrite <- N'; apply OE').
  destruct (C53_matrix_argument ev Rm' w' N EW') as (-> & ->). apply HN; [|apply sqrt_pos | exact L0]. split; [congruence|]. intros j Hj. apply (weyl Rm Rm' w E w' E' j); try assumption; lia.
Qed.
Theorem C100_covariance_sorte : forall (Rm A P : cmat) s w E, exact_cov Rm A P s -> inj A -> pd P -> 0 < s -> eigh_ok Rm w E -> (1 <= nc A)%nat -> (nc A + 3 <= nr A)%nat ->
  let d := INR (nr A - nc A) in let g := nth (nr A - nc A) w 0 - s in float_eps < g * g * (d - 1) / (d * d) ->
  exists eps0, 0 < eps0 /\ forall eigvalsh Rm', eigvalsh_contract (nr A) eigvalsh -> hermitian Rm' -> nr Rm' = nr A -> distance Rm Rm' <= eps0 -> sorte eigvalsh (EMat Rm') = Ok (nc A).
Proof.
  intros Rm A P s w E HX HA HP Hs OE H1 H3 d g Hg. destruct (ex_dims Rm A P s HX) as (D1 & D2). pose proof (exact_herm _ _ _ _ HX (proj1 HP)) as HH. assert (LW : List.length w = nr A) by (rewrite <- D1; apply OE).
  destruct (C87_exact_covariance (fun _ => Ok w) Rm A P s w E HX HA HP Hs ltac:(lia) eq_refl OE) as (NS & _). destruct (C100_sorte w (nc A) s NS) as (e0 & E0 & ST); [lia | lia | rewrite LW; exact Hg|].
  exists e0. split; [exact E0|]. intros ev Rm' EC H' N' L0. destruct (EC Rm' H' ltac:(lia)) as (w' & E' & EW' & OE'). assert (LW' : List.length w' = nr A) by (rewrite <- N'; apply OE').
  rewrite (C54_matrix_argument ev Rm' w' EW'). apply ST. split; [congruence|]. intros j Hj. eapply Rle_trans; [|exact L0]. apply (weyl Rm Rm' w E w' E' j); try assumption; lia.
Qed.

(** *** growing records *)
(** mdl is consistent: covariance estimates whose squared errors fall faster than ln N / N are eventually given the right number of sources *)
Theorem C100_mdl_consistency : forall (Rm A P : cmat) s (Ns : nat -> R) (Rs : nat -> cmat), exact_cov Rm A P s -> inj A -> pd P -> 0 < s -> (nc A < nr A)%nat ->
  unbounded Ns -> (forall i, hermitian (Rs i) /\ nr (Rs i) = nr A) -> faster_than_log Ns Rs Rm ->
  exists i0, forall eigvalsh i, eigvalsh_contract (nr A) eigvalsh -> (i0 <= i)%nat -> mdl eigvalsh (EMat (Rs i)) (Ns i) = Ok (nc A).
Proof.
  intros Rm A P s Ns Rs HX HA HP Hs Hk HU HH HF. destruct (C100_covariance Rm A P s HX HA HP Hs Hk) as (c & N0 & Hc & HC). destruct (HU N0) as (i1 & H1). destruct (HF c Hc) as (i2 & H2).
  exists (Nat.max i1 i2). intros ev i EC Hi. destruct (HH i) as (X & Y). apply HC; try assumption; [apply H1 | apply H2]; lia.
Qed.
(** aic is not: errors of the order of the sampling error of a covariance matrix, 1 / sqrt N, can make it report a source in white noise
    for every N, although the covariance estimates converge to s I (Limitation).  mdl is right on the same matrices from some N on. *)
Definition two_values (a b : R) : cmat := mdiag 2 (fun i => RtoC (if Nat.eqb i 0 then a else b)).
Lemma INR_unbounded r : exists n, r < INR n.
Proof.
  exists (Z.to_nat (up r)). destruct (archimed r) as (A & _). rewrite INR_IZR_INZ. destruct (Z.le_gt_cases 0 (up r)) as [L|L]; [rewrite Z2Nat.id by exact L; lra|].
  apply IZR_lt in L. apply Rlt_le_trans with 0; [lra|]. apply IZR_le. lia.
Qed.
Lemma two_values_eig a b : a <= b -> eigh_ok (two_values a b) [a; b] (mid 2).
Proof.
  intros Hab. split; [reflexivity|]. split; [reflexivity|]. split; [reflexivity|]. split; [reflexivity|]. split; [apply SSorted_cons; [apply SSorted_cons; [apply SSorted_nil | constructor] | constructor; [exact Hab | constructor]]|]. split.
  - split; [reflexivity|]. split; [reflexivity|]. intros i j Hi Hj. cbn in Hi, Hj. destruct i as [|[|i]]; [| |lia]; destruct j as [|[|j]]; try lia; cbn; unfold Cconj; cbn; apply injective_projections; cbn; ring.
  - split; [reflexivity|]. split; [reflexivity|]. intros i j Hi Hj. cbn in Hi, Hj. destruct i as [|[|i]]; [| |lia]; destruct j as [|[|j]]; try lia; cbn; ring.
Qed.
Lemma two_values_herm a b : hermitian (two_values a b).
Proof. split; [reflexivity|]. intros i j Hi Hj. cbn in Hi, Hj. destruct i as [|[|i]]; [| |lia]; destruct j as [|[|j]]; try lia; cbn; apply injective_projections; cbn; ring. Qed.
Lemma two_values_distance s t : distance (mscal (RtoC s) (mid 2)) (two_values (s - t) (s + t)) * distance (mscal (RtoC s) (mid 2)) (two_values (s - t) (s + t)) = 2 * (t * t).
Proof.
  unfold distance. rewrite sqrt_sqrt; [cbn; unfold Cnorm2; cbn; ring|]. apply rsum_nonneg. intros i _. apply rsum_nonneg. intros j _. apply Cnorm2_nonneg.
Qed.
Lemma aic_two s u N eigvalsh : 0 < s -> 0 < u < 1 -> 3 < N * (u * u) -> aic eigvalsh (EVec [s - s * u; s + s * u]) N = Ok 1%nat.
Proof.
  intros Hs Hu HN. assert (SU : 0 < s * u < s) by (split; nra). assert (HP : Forall (Rlt 0) [s - s * u; s + s * u]) by (repeat constructor; lra).
  assert (N0 : 0 < N). { destruct (Rlt_le_dec 0 N) as [L|L]; [exact L|]. exfalso. assert (0 <= u * u) by nra. nra. }
  destruct (C53_first_minimiser eigvalsh _ N HP ltac:(cbn; lia)) as ((p & E & (P1 & P2 & P3)) & _ & _). rewrite E. f_equal. cbn in P1. destruct p as [|[|p]]; [|reflexivity | lia]. exfalso.
  specialize (P2 1%nat ltac:(cbn; lia)). unfold aic_crit, log_am_gm in P2. cbn [List.length Nat.sub nth INR] in P2. cbn in P2.
  replace ((0 + (s - s * u) + (s + s * u)) / (1 + 1)) with s in P2 by field. replace ((0 + (s - s * u)) / 1) with (s - s * u) in P2 by field.
  assert (L : ln (s - s * u) + ln (s + s * u) <= 2 * ln s - u * u).
  { rewrite <- ln_mult by lra. replace ((s - s * u) * (s + s * u)) with (s * s * (1 - u * u)) by ring. assert (U1 : 0 < 1 - u * u) by nra. rewrite !ln_mult by (try exact Hs; try exact U1; now apply Rmult_lt_0_compat). pose proof (ln_le_sub (1 - u * u) U1). lra. }
  assert (Q : N * (u * u) <= N * (2 * ln s - (ln (s - s * u) + ln (s + s * u)))) by (apply Rmult_le_compat_l; lra). nra.
Qed.
Theorem C100_aic_inconsistent : forall s, 0 < s -> let Rm := mscal (RtoC s) (mid 2) in let Ns := fun i => INR i + 5 in
  let Rs := fun i => two_values (s - 2 * s / sqrt (Ns i)) (s + 2 * s / sqrt (Ns i)) in
  converges Rs Rm /\ root_n_error Ns Rs Rm (8 * (s * s)) /\ (forall i, pd (Rs i) /\ nr (Rs i) = 2%nat) /\
  (forall eigvalsh i, eigvalsh_contract 2 eigvalsh -> aic eigvalsh (EMat (Rs i)) (Ns i) = Ok 1%nat) /\
  (exists i0, forall eigvalsh i, eigvalsh_contract 2 eigvalsh -> (i0 <= i)%nat -> mdl eigvalsh (EMat (Rs i)) (Ns i) = Ok 0%nat).
Proof.
  intros s Hs Rm Ns Rs. assert (N5 : forall i, 5 <= Ns i) by (intros i; unfold Ns; pose proof (pos_INR i); lra).
  set (u := fun i => 2 / sqrt (Ns i)). assert (UU : forall i, u i * u i = 4 / Ns i). { intros i. specialize (N5 i). unfold u. pose proof (sqrt_sqrt (Ns i) ltac:(lra)) as SS. pose proof (sqrt_lt_R0 (Ns i) ltac:(lra)). rewrite <- SS at 3. field. lra. }
  assert (U0 : forall i, 0 < u i) by (intros i; specialize (N5 i); apply Rdiv_lt_0_compat; [lra | apply sqrt_lt_R0; lra]).
  assert (U1 : forall i, u i < 1). { intros i. specialize (N5 i). specialize (UU i). specialize (U0 i). destruct (Rlt_le_dec (u i) 1) as [L|L]; [exact L|]. exfalso. assert (4 / Ns i < 1) by (apply (Rmult_lt_reg_r (Ns i)); [lra|]; unfold Rdiv; rewrite Rmult_assoc, Rinv_l by lra; lra). nra. }
  assert (RE : forall i, Rs i = two_values (s - s * u i) (s + s * u i)) by (intros i; unfold Rs, u; f_equal; unfold Rdiv; ring).
  assert (DD : forall i, distance Rm (Rs i) * distance Rm (Rs i) = 8 * (s * s) / Ns i). { intros i. rewrite RE. unfold Rm. rewrite two_values_distance. replace (s * u i * (s * u i)) with (s * s * (u i * u i)) by ring. rewrite UU. unfold Rdiv. ring. }
  assert (RN : root_n_error Ns Rs Rm (8 * (s * s))) by (intros i; rewrite DD; specialize (N5 i); right; field; lra).
  assert (SP : forall i, 0 < s * u i < s) by (intros i; specialize (U0 i); specialize (U1 i); split; nra).
  split; [|split; [exact RN|split; [|split]]].
  - intros eps He. assert (E2 : 0 < eps * eps) by now apply Rmult_lt_0_compat. destruct (INR_unbounded (8 * (s * s) / (eps * eps))) as (n0 & Hn0). exists n0. intros n Hn. apply le_INR in Hn.
    assert (L : distance Rm (Rs n) * distance Rm (Rs n) < eps * eps).
    { rewrite DD. specialize (N5 n). apply (Rmult_lt_reg_r (Ns n)); [lra|]. unfold Rdiv. rewrite Rmult_assoc, Rinv_l, Rmult_1_r by lra. apply (Rmult_lt_reg_r (/ (eps * eps))); [now apply Rinv_0_lt_compat|].
      replace (eps * eps * Ns n * / (eps * eps)) with (Ns n) by (field; lra). unfold Ns. unfold Rdiv in Hn0. lra. }
    destruct (Rlt_le_dec (distance Rm (Rs n)) eps) as [X|X]; [exact X|]. exfalso. assert (eps * eps <= distance Rm (Rs n) * distance Rm (Rs n)) by (apply Rmult_le_compat; lra). lra.
  - intros i. split; [|reflexivity]. rewrite RE. apply (P_perf5.pd_mdiag 2 (fun k => if Nat.eqb k 0 then s - s * u i else s + s * u i)). intros k _. specialize (SP i). destruct (Nat.eqb k 0); lra.
  - intros ev i EC. specialize (SP i). pose proof (two_values_herm (s - s * u i) (s + s * u i)) as HH. destruct (EC (Rs i) ltac:(now rewrite RE) (le_n _)) as (w & E & EW & OE). rewrite RE in OE.
    rewrite (eig_unique _ w E [s - s * u i; s + s * u i] (mid 2) HH OE ltac:(apply two_values_eig; lra)) in EW. rewrite (proj1 (C53_matrix_argument ev (Rs i) _ (Ns i) EW)).
    apply aic_two; [exact Hs | split; auto |]. rewrite UU. specialize (N5 i). replace (Ns i * (4 / Ns i)) with 4 by (field; lra). lra.
  - set (A := (Mat 2 0 (fun _ _ => RtoC 0) : cmat)). set (P := (mdiag 0 (fun _ => RtoC 1) : cmat)).
    apply (C100_mdl_consistency Rm A P s Ns Rs).
    + split; [reflexivity|]. split; [reflexivity|]. split; [reflexivity|]. split; [reflexivity|]. intros i j Hi Hj. cbn [Rm mscal mid mdiag nr nc] in Hi, Hj. unfold Rm, A, P. cbn [madd mscal mmul mher mid mdiag ent nr nc csum]. cbn. ring.
    + intros x _ j Hj. cbn in Hj. lia.
    + apply (P_perf5.pd_mdiag 0 (fun _ => 1)). intros i Hi. lia.
    + exact Hs.
    + cbn. lia.
    + intros B. destruct (INR_unbounded B) as (n0 & Hn0). exists n0. intros i Hi. apply le_INR in Hi. unfold Ns. lra.
    + intros i. split; [rewrite RE; apply two_values_herm | reflexivity].
    + intros c Hc. destruct (INR_unbounded (exp (8 * (s * s) / c))) as (n0 & Hn0). exists n0. intros i Hi. apply le_INR in Hi. specialize (N5 i). eapply Rle_trans; [apply RN|].
      assert (L : 8 * (s * s) / c <= ln (Ns i)) by (rewrite <- (ln_exp (8 * (s * s) / c)); left; apply ln_increasing; [apply exp_pos | unfold Ns; lra]).
      apply (Rmult_le_compat_l c) in L; [|lra]. replace (c * (8 * (s * s) / c)) with (8 * (s * s)) in L by (field; lra). exact L.
Qed.

(** *** a program that detects, then locates *)
(** k = mdl(R', N), then MUSIC with that k, on a uniform linear array: for N >= N0 snapshots and a covariance estimate R' with N |R' - R|^2 <= c ln N
    the count is right and the directions are exact, after any history of calls *)
Theorem C100_detect_then_music : forall find_peaks argsort n d name lam u angles dt caching h0 g sg e0 h1 truth (A P Rm : cmat) s,
  mk_ULA (Z.of_nat n) (D0Scalar d) name no_kwargs = Ok g -> mk_grid_axes G1D [angles] dt u = Ok sg ->
  new_estimator (gd_array g) lam sg (find_peaks_simple find_peaks) argsort caching h0 = Ok (e0, h1) ->
  scipy_find_peaks find_peaks -> (forall x, is_argsort x (argsort x)) ->
  0 < d -> 0 < lam -> unambiguous d lam u angles -> separated (List.length angles) truth -> (1 <= List.length truth < n)%nat ->
  steering_matrix (gd_array g) (FF1 (at_positions angles truth) u) lam false "all" true = Ok (Flat A, []) ->
  exact_cov Rm A P s -> pd P -> 0 < s ->
  exists c N0, 0 < c /\ forall eigvalsh eigh e h Rm' N o, eigvalsh_contract n eigvalsh -> eigh_contract n eigh -> music_reach eigh n e0 h1 e h -> hermitian Rm' -> nr Rm' = n -> o_refine o = false ->
    N0 <= N -> N * (distance Rm Rm' * distance Rm Rm') <= c * ln N ->
    exists k sp est e' h', mdl eigvalsh (EMat Rm') N = Ok k /\ k = List.length truth /\
      music_estimate eigh n e h Rm' (Z.of_nat k) o = (Ok (Outcome true (Some est) (if o_spectrum o then Some sp else None)), e', h') /\
      buf h' est = map (fun a => [a]) (at_positions angles truth).
Proof.
  intros fp asort n d nm lam u angles dt cg h0 g sg e0 h1 truth A P Rm s Eg Es HN FP AS Hd Hl U SEP Hk HA HX HP Hs.
  destruct (C99_music_on_ula fp asort n d nm lam u angles dt cg h0 g sg e0 h1 truth A P Rm s Eg Es HN FP AS Hd Hl U SEP Hk HA HX HP) as (eps0 & He & ST).
  apply grid_axes_inv in Es. subst sg. destruct (estimator_valid _ _ _ _ _ _ _ _ _ _ _ HN) as (K & V). destruct (ULA_facts _ _ _ _ Eg) as (PL & Pe & I & DT & _).
  assert (IB : forall i, In i truth -> (i < List.length angles)%nat) by (destruct SEP as (_ & F); rewrite Forall_forall in F; intros i Hi; apply F in Hi; lia).
  assert (VT : valid_sources (FF1 (at_positions angles truth) u)).
  { split; [exact K|]. apply Forall_forall. intros a Ia. apply in_map_iff in Ia as (i & <- & Hi). rewrite Forall_forall in V. apply V, nth_In. now apply IB. }
  pose proof (ula_steering g n d u _ lam PL Pe I VT A HA) as EA. pose proof EA as (A1 & A2 & _). cbn [ula_matrix nr nc] in A1, A2. unfold at_positions in A2. rewrite !map_length in A2.
  assert (IA : inj A).
  { apply (Base_Lin.inj_eq (ula_matrix n (map (zof d lam u) (at_positions angles truth)))); [now symmetry|]. apply ula_inj; [|rewrite map_length; unfold at_positions; rewrite map_length; lia].
    unfold at_positions. rewrite map_map. pose proof (sep_lt _ _ SEP) as (_ & NT). apply NoDup_map_in; [exact NT|]. intros i j Hi Hj E. destruct U as (UN & UU). apply (zof_inj d lam u angles) in E; try assumption; [|split; assumption | now apply nth_In, IB | now apply nth_In, IB].
    apply (proj1 (NoDup_nth angles 0%R) UN); auto. }
  destruct (C100_covariance Rm A P s HX IA HP Hs ltac:(lia)) as (c & N0 & Hc & HC). destruct (log_small c eps0 Hc He) as (N1 & H1).
  exists c, (Rmax N0 N1). split; [exact Hc|]. intros ev eigh e h Rm' N o VC EC HR H' N' Hr LN B.
  assert (L0 : N0 <= N) by (eapply Rle_trans; [apply Rmax_l | exact LN]). assert (L1 : N1 <= N) by (eapply Rle_trans; [apply Rmax_r | exact LN]).
  destruct (HC ev Rm' N ltac:(rewrite A1; exact VC) H' ltac:(congruence) L0) as (_ & HM). specialize (HM B). rewrite A2 in HM.
  assert (DS : distance Rm Rm' < eps0) by (apply (H1 N); [exact L1 | apply sqrt_pos | exact B]).
  destruct (ST eigh e h Rm' o EC HR H' N' DS Hr) as (sp & est & e' & h' & R1 & R2). exists (List.length truth), sp, est, e', h'. auto.
Qed.
(** along a growing record: the program that does not know the number of sources eventually returns exactly the true directions *)
Theorem C100_detect_consistency : forall find_peaks argsort n d name lam u angles dt caching h0 g sg e0 h1 truth (A P Rm : cmat) s (Ns : nat -> R) (Rs : nat -> cmat),
  mk_ULA (Z.of_nat n) (D0Scalar d) name no_kwargs = Ok g -> mk_grid_axes G1D [angles] dt u = Ok sg ->
  new_estimator (gd_array g) lam sg (find_peaks_simple find_peaks) argsort caching h0 = Ok (e0, h1) ->
  scipy_find_peaks find_peaks -> (forall x, is_argsort x (argsort x)) ->
  0 < d -> 0 < lam -> unambiguous d lam u angles -> separated (List.length angles) truth -> (1 <= List.length truth < n)%nat ->
  steering_matrix (gd_array g) (FF1 (at_positions angles truth) u) lam false "all" true = Ok (Flat A, []) ->
  exact_cov Rm A P s -> pd P -> 0 < s -> unbounded Ns -> (forall i, hermitian (Rs i) /\ nr (Rs i) = n) -> faster_than_log Ns Rs Rm ->
  exists i0, forall i eigvalsh eigh e h o, (i0 <= i)%nat -> eigvalsh_contract n eigvalsh -> eigh_contract n eigh -> music_reach eigh n e0 h1 e h -> o_refine o = false ->
    exists k sp est e' h', mdl eigvalsh (EMat (Rs i)) (Ns i) = Ok k /\ k = List.length truth /\
      music_estimate eigh n e h (Rs i) (Z.of_nat k) o = (Ok (Outcome true (Some est) (if o_spectrum o then Some sp else None)), e', h') /\
      buf h' est = map (fun a => [a]) (at_positions angles truth).
Proof.
  intros fp asort n d nm lam u angles dt cg h0 g sg e0 h1 truth A P Rm s Ns Rs Eg Es HN FP AS Hd Hl U SEP Hk HA HX HP Hs HU HH HF.
  destruct (C100_detect_then_music fp asort n d nm lam u angles dt cg h0 g sg e0 h1 truth A P Rm s Eg Es HN FP AS Hd Hl U SEP Hk HA HX HP Hs) as (c & N0 & Hc & ST).
  destruct (HU N0) as (i1 & H1). destruct (HF c Hc) as (i2 & H2). exists (Nat.max i1 i2). intros i ev eigh e h o Hi VC EC HR Hr. destruct (HH i) as (X & Y).
  apply ST; try assumption; [apply H1 | apply H2]; lia.
Qed.

(** ** Non-vacuity *)
(** two sources on three sensors, default grid: an inexact covariance, a finite number of snapshots, the right count and the exact directions *)
Example C100_example : exists g l e0 h1 (A P Rm Rm' : cmat) x N est e' h',
  mk_ULA 3 (D0Scalar 1) None no_kwargs = Ok g /\ mk_grid1d None None 180 "deg" = Ok (SGrid G1D [vec1 l] "deg" DFloat) /\
  new_estimator (gd_array g) 2 (SGrid G1D [vec1 l] "deg" DFloat) (find_peaks_simple peaks_ref) Prop_subspace.argsort_R true [] = Ok (e0, h1) /\
  steering_matrix (gd_array g) (FF1 (at_positions l [30; 100]%nat) "deg") 2 false "all" true = Ok (Flat A, []) /\ pd P /\ exact_cov Rm A P 1 /\
  0 < x /\ hermitian Rm' /\ distance Rm Rm' = x /\ mdl eigvalsh_ref (EMat Rm') N = Ok 2%nat /\
  music_estimate P_oracles.eigh_ref 3 e0 h1 Rm' 2 (Opts false false 10 3) = (Ok (Outcome true (Some est) None), e', h') /\
  buf h' est = map (fun a => [a]) (at_positions l [30; 100]%nat).
Proof.
  destruct C83_example as (g & l & e0 & h1 & A & P & Rm & sp & est & e' & h' & X1 & X2 & X3 & X4 & X5 & _ & X7 & _).
  assert (K : known_unit "deg") by (right; left; reflexivity). destruct (default_unambiguous 1 2 "deg" 180 l K ltac:(lra) X2) as (_ & U). destruct (ULA_facts _ _ _ _ X1) as (PL & Q1 & Q2 & _).
  assert (Ll : List.length l = 180%nat). { destruct (Prop_grid.C43_uniform_1d None None 180 "deg") as (Y & _). destruct (Y K) as (l' & El & Ll & _). change (Z.of_nat 180) with 180%Z in El. rewrite X2 in El. injection El as ->. exact Ll. }
  destruct (ex_dims Rm A P 1 X7) as (D1 & D2). destruct (estimator_valid _ _ _ _ _ _ _ _ _ _ _ X3) as (_ & V).
  assert (VT : valid_sources (FF1 (at_positions l [30; 100]%nat) "deg")) by (rewrite Forall_forall in V; split; [exact K|]; repeat (constructor; [apply V, nth_In; lia|]); constructor).
  pose proof (ula_steering g 3 1 "deg" _ 2 PL Q1 Q2 VT A X4) as (A1 & A2 & _). cbn [ula_matrix nr nc] in A1, A2. cbn in A2.
  assert (SEP : separated (List.length l) [30; 100]%nat) by (rewrite Ll; split; [repeat (constructor; [|repeat (constructor; [lia|]); constructor]); constructor | repeat (constructor; [lia|]); constructor]).
  pose proof (exact_herm _ _ _ _ X7 (proj1 X5)) as HR.
  destruct (C100_detect_then_music peaks_ref Prop_subspace.argsort_R 3 1 None 2 "deg" l DFloat true [] g _ e0 h1 [30; 100]%nat A P Rm 1 X1 eq_refl X3 peaks_ref_ok Prop_subspace.argsort_R_ok ltac:(lra) ltac:(lra) U SEP ltac:(cbn; lia) X4 X7 X5 ltac:(lra)) as (c & N0 & Hc & ST).
  set (N := Rmax N0 3). assert (N3 : 3 <= N) by apply Rmax_r. assert (L1 : 0 < ln N) by (rewrite <- ln_1; apply ln_increasing; lra).
  set (b := c * ln N / N). assert (Hb : 0 < b) by (apply Rdiv_lt_0_compat; [now apply Rmult_lt_0_compat | lra]). set (x := sqrt b). assert (Hx : 0 < x) by now apply sqrt_lt_R0. assert (XX : x * x = b) by (apply sqrt_sqrt; lra).
  assert (DS : distance Rm (off_by x Rm) = x) by (apply off_by_distance; [exact Hx | lia | destruct HR; lia]).
  destruct (ST eigvalsh_ref P_oracles.eigh_ref e0 h1 (off_by x Rm) N (Opts false false 10 3) (eigvalsh_ref_contract 3) (P_oracles.eigh_ref_contract 3) ltac:(constructor)) as (k & sp2 & est2 & e2 & h2 & R0 & CK & R1 & R2); [now apply off_by_herm | cbn [off_by nr]; congruence | reflexivity | apply Rmax_l | rewrite DS, XX; right; unfold b; field; lra|].
  exists g, l, e0, h1, A, P, Rm, (off_by x Rm), x, N, est2, e2, h2. subst k. split; [exact X1|]. split; [exact X2|]. split; [exact X3|]. split; [exact X4|]. split; [exact X5|]. split; [exact X7|]. split; [exact Hx|].
  split; [now apply off_by_herm|]. split; [exact DS|]. split; [exact R0|]. split; [exact R1 | exact R2].
Qed.
(** the error budget in numbers: white noise on three sensors, 100 snapshots, one eigenvalue off by 1/1000 *)
Example C100_budget_example : forall eig, aic eig (EVec [1; 1; 1 + 1 / 1000]) 100 = Ok 0%nat.
Proof.
  intros eig. assert (HP : Forall (Rlt 0) [1; 1; 1]) by (repeat constructor; lra).
  assert (Z : forall k, (k < 3)%nat -> log_am_gm [1; 1; 1] k = 0). { intros k Hk. apply (am_gm_zero [1; 1; 1] k HP Hk). intros i j Hi Hj. cbn [List.length] in Hi, Hj. destruct i as [|[|[|i]]]; [| | |lia]; destruct j as [|[|[|j]]]; try lia; reflexivity. }
  apply (C100_budget eig [1; 1; 1] _ (1 / 1000) 1 100 5).
  - split; [reflexivity|]. intros j Hj. cbn in Hj. destruct j as [|[|[|j]]]; [| | |lia]; cbn; apply Rabs_le; lra.
  - lra.
  - intros j Hj. cbn in Hj. destruct j as [|[|[|j]]]; [| | |lia]; cbn; lra.
  - lra.
  - cbn; lia.
  - lra.
  - cbn. lra.
  - apply (C53_white_noise eig 1 100 3); [lra | lia | lra].
  - intros i Hi Ni. cbn [List.length] in Hi. unfold aic_crit. rewrite !Z by lia. destruct i as [|[|[|i]]]; [lia | | |lia]; cbn; lra.
Qed.
(** one noise eigenvalue off *)
Example C100_sorte_example : exists eps0, 0 < eps0 /\ forall eig, sorte eig (EVec [1; 1; 1; 1 + Rmin eps0 1; 3; 4]) = Ok 2%nat.
Proof.
  destruct (C100_sorte [1; 1; 1; 1; 3; 4] 2 1 C87_aic_mdl_example) as (e0 & E0 & ST); [cbn; lia | cbn; lia | |].
  - cbn. assert (float_eps < 1 / 8). { unfold float_eps. replace (1 / 8) with (/ 2 ^ 3) by (cbn; lra). apply Rinv_lt_contravar; [apply Rmult_lt_0_compat; apply pow_lt; lra|]. apply Rlt_pow; [lra | lia]. } lra.
  - exists e0. split; [exact E0|]. intros eig. apply ST. split; [reflexivity|]. intros j Hj. cbn in Hj. pose proof (Rmin_l e0 1) as M1. assert (M0 : 0 < Rmin e0 1) by (apply Rmin_glb_lt; lra).
    do 6 (destruct j as [|j]; [cbn; apply Rabs_le; lra|]). lia.
Qed.
Print Assumptions C100_aic_mdl.
Print Assumptions C100_sorte.
Print Assumptions C100_budget.
Print Assumptions C100_covariance.
Print Assumptions C100_covariance_sorte.
Print Assumptions C100_mdl_consistency.
Print Assumptions C100_aic_inconsistent.
Print Assumptions C100_detect_then_music.
Print Assumptions C100_detect_consistency.
