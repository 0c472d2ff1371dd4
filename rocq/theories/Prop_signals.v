(** C74 signal generators, C75 narrowband snapshots *)
From Verif Require Import Base_Np Base_Trig Base_Lin M_utils M_sources M_array M_designs M_signals S_model S_signals P_model P_subspace3 P_perf3 P_signals P_oracles.
Open Scope C_scope.

(** C74.  A documented covariance argument is accepted; with some C2 with C2 C2^H = C, every emission is C2 times white
    samples, has dim rows and n columns, and uses 2 dim n fresh normal draws *)
Theorem C74_stochastic : forall sqrtm dim c, sqrtm_ok sqrtm -> carg_ok dim c -> exists g C2,
  mk_stochastic sqrtm dim c = Ok g /\ sto_dim g = dim /\ nr C2 = dim /\ nc C2 = dim /\ C2 *m mher C2 ==m carg_cov dim c /\
  forall d n st, exists Y W, let st' := Rng (used_normals st + 2 * (dim * n)) (used_uniforms st) in
    randcn d dim n st = (W, st') /\ sto_emit d g n st = (Ok Y, st') /\ nr Y = dim /\ nc Y = n /\ Y ==m C2 *m W /\
    sample_cov Y ==m C2 *m sample_cov W *m mher C2.
Proof.
  intros sqrtm dim c HS HC. destruct (mk_stochastic_ok sqrtm dim c HS HC) as (g & Eg & Dg & Wg & GG). exists g, (gain g). pose proof Wg as (G1 & G2). rewrite Dg in G1, G2. repeat (split; [assumption|]). intros d n st. destruct (sto_emit_ok d g n st Wg) as (Y & W & ER & EY & W1 & W2 & Y1 & Y2 & YW & _). rewrite Dg in *.
  exists Y, W. cbv zeta. repeat (split; [assumption|]). unfold sample_cov. rewrite Y2, W2.
  assert (YY : Y *m mher Y ==m gain g *m (W *m mher W) *m mher (gain g)).
  { assert (HY : mher Y ==m mher W *m mher (gain g)) by (etransitivity; [apply mher_eq; exact YW | apply mher_mmul; congruence]). etransitivity; [apply mmul_eq; [cbn [mher nr]; reflexivity | exact YW | exact HY]|]. etransitivity; [apply mmul_assoc|]. etransitivity; [|symmetry; apply mmul_assoc]. apply mmul_eq_r; [cbn [mmul nr]; congruence|]. symmetry. apply mmul_assoc. }
  etransitivity; [apply mscal_eq'; exact YY|]. etransitivity; [symmetry; apply mscal_mmul_l|]. apply mmul_eq_l. symmetry. apply mscal_mmul_r.
Qed.

(** zero mean, covariance C, uncorrelated snapshots, circularly symmetric *)
Theorem C74_moments : forall sqrtm dim c g N E n st u, sqrtm_ok sqrtm -> carg_ok dim c -> mk_stochastic sqrtm dim c = Ok g ->
  white N E -> (used_normals st + 2 * (dim * n) <= N)%nat ->
  let y := fun x i t => ent (emitted (sto_emit (Draws x u) g n st)) i t in
  forall i j t t', (i < dim)%nat -> (j < dim)%nat -> (t < n)%nat -> (t' < n)%nat ->
    expect E (fun x => y x i t) = RtoC 0 /\
    expect E (fun x => y x i t * Cconj (y x j t')) = (if Nat.eqb t t' then ent (carg_cov dim c) i j else RtoC 0) /\
    expect E (fun x => y x i t * y x j t') = RtoC 0.
Proof.
  intros sqrtm dim c g N E n st u HS HC Eg HW HN y i j t t' Hi Hj Ht Ht'. destruct (mk_stochastic_ok sqrtm dim c HS HC) as (g' & Eg' & Dg & Wg & GG). rewrite Eg in Eg'. injection Eg' as <-. pose proof Wg as (G1 & G2). rewrite Dg in G1, G2.
  set (ws := white_sample (used_normals st) dim n). assert (Yv : forall x i t, (i < dim)%nat -> (t < n)%nat -> y x i t = csum dim (fun a => ent (gain g) i a * ws x a t)).
  { intros x i0 t0 Hi0 Ht0. destruct (sto_emit_ok (Draws x u) g n st Wg) as (Y & W & _ & EY & W1 & W2 & Y1 & Y2 & YW & Wv). unfold y, emitted. rewrite EY. cbn [fst]. rewrite (meq_ent _ _ i0 t0 YW) by congruence. cbn [mmul ent]. rewrite G2. apply csum_ext. intros a Ha. rewrite Wv, Dg. reflexivity. }
  split; [|split].
  - rewrite (ex_ext N E HW _ (fun x => csum dim (fun a => ent (gain g) i a * ws x a t))) by (intros; now apply Yv). rewrite (ex_csum N E HW dim (fun a x => ent (gain g) i a * ws x a t)). apply csum_0. intros a Ha. rewrite (ex_scal N E HW). unfold ws. rewrite (ws_mean N E HW _ _ _ HN) by assumption. ring.
  - rewrite (ex_ext N E HW _ (fun x => csum dim (fun a => ent (gain g) i a * ws x a t) * Cconj (csum dim (fun a => ent (gain g) j a * ws x a t')))) by (intros; rewrite !Yv by assumption; reflexivity).
    rewrite (ex_bilin N E HW dim dim (fun a => ent (gain g) i a) (fun a => ent (gain g) j a) (fun a x => ws x a t) (fun a x => ws x a t') Cconj Cplus_conj Cmult_conj Cconj_0).
    rewrite (csum_ext _ _ (fun a => if Nat.eqb t t' then ent (gain g) i a * Cconj (ent (gain g) j a) else RtoC 0)).
    + destruct (Nat.eqb t t'); [|now apply csum_0]. rewrite <- (meq_ent _ _ i j GG) by (cbn [mmul mher nr nc]; congruence). cbn [mmul mher ent]. rewrite G2. reflexivity.
    + intros a Ha. rewrite (csum_single _ _ a Ha).
      * unfold ws. rewrite (ws_cov N E HW _ _ _ HN) by assumption. rewrite Nat.eqb_refl. cbn [andb]. destruct (Nat.eqb t t'); ring.
      * intros b Hb Nb. unfold ws. rewrite (ws_cov N E HW _ _ _ HN) by assumption. destruct (Nat.eqb_spec a b); [congruence|]. cbn [andb]. ring.
  - rewrite (ex_ext N E HW _ (fun x => csum dim (fun a => ent (gain g) i a * ws x a t) * (csum dim (fun a => ent (gain g) j a * ws x a t')))) by (intros; rewrite !Yv by assumption; reflexivity).
    rewrite (ex_bilin N E HW dim dim (fun a => ent (gain g) i a) (fun a => ent (gain g) j a) (fun a x => ws x a t) (fun a x => ws x a t') (fun z => z) (fun _ _ => eq_refl) (fun _ _ => eq_refl) eq_refl).
    apply csum_0. intros a Ha. apply csum_0. intros b Hb. unfold ws. rewrite (ws_rel N E HW _ _ _ HN) by assumption. ring.
Qed.
(** other arguments are refused; a list is refused with AttributeError, not ValueError *)
Theorem C74_stochastic_rejects : forall sqrtm dim,
  (forall l, List.length l <> dim -> mk_stochastic sqrtm dim (CVec l) = Raise ValueError) /\
  (forall c, nr c <> dim \/ nc c <> dim -> mk_stochastic sqrtm dim (CMat c) = Raise ValueError) /\
  (forall k, mk_stochastic sqrtm dim (COther k) = Raise ValueError).
Proof.
  intros sqrtm dim. split; [|split; [|reflexivity]].
  - intros l H. unfold mk_stochastic. destruct (Nat.eqb_spec (List.length l) dim); [contradiction | reflexivity].
  - intros c H. unfold mk_stochastic. destruct (Nat.eqb_spec (nr c) dim), (Nat.eqb_spec (nc c) dim); cbn [negb orb]; reflexivity || (exfalso; tauto).
Qed.
Theorem C74_list_defect : forall sqrtm dim, mk_stochastic sqrtm dim CList = Raise AttributeError. Proof. reflexivity. Qed.

(** RandomPhaseSignal with a vector of amplitudes: s_i(t) = a_i e^{j phi}, phi = -pi + 2 pi u for fresh uniform draws u *)
Theorem C74_random_phase : forall dim a, List.length a = dim -> exists g, mk_random_phase dim (AArr a) = Ok g /\ rp_dim g = dim /\
  forall d n st, exists Y, rp_emit d g n st = (Ok Y, Rng (used_normals st) (used_uniforms st + dim * n)) /\ nr Y = dim /\ nc Y = n /\
    forall i t, (i < dim)%nat -> (t < n)%nat ->
      ent Y i t = RtoC (nth i a 0%R) * cis (- PI + 2 * PI * uniforms d (used_uniforms st + (i * n + t)))%R /\ Cmod (ent Y i t) = Rabs (nth i a 0%R).
Proof.
  intros dim a HL. unfold mk_random_phase. rewrite HL, Nat.eqb_refl. cbn [negb]. eexists. split; [reflexivity|]. split; [reflexivity|]. intros d n st. eexists. split; [reflexivity|]. split; [reflexivity|]. split; [reflexivity|]. intros i t Hi Ht. cbn [ent rp_dim].
  set (ph := (- PI + (PI - - PI) * _)%R). replace (- PI + 2 * PI * uniforms d (used_uniforms st + (i * n + t)))%R with ph by (unfold ph; ring). assert (EC : RtoC (sin ph) * Ci + RtoC (cos ph) = cis ph) by (unfold cis, RtoC, Ci, Cmult, Cplus; apply injective_projections; cbn [fst snd]; ring). rewrite EC. split; [reflexivity|]. rewrite Cmod_mult, Cmod_R, cis_mod. ring.
Qed.
Theorem C74_random_phase_rejects : forall dim, (forall a, List.length a <> dim -> mk_random_phase dim (AArr a) = Raise ValueError).
Proof. intros dim a H. unfold mk_random_phase. destruct (Nat.eqb_spec (List.length a) dim); [contradiction | reflexivity]. Qed.
(** a scalar amplitude (also the default 1.0) never works: np.full gets its arguments in the wrong order.  Floats: TypeError;
    integers other than 2: ValueError; 2 is accepted, and the samples of two snapshots get the amplitudes dim and 1. *)
Theorem C74_scalar_amplitude_defect : forall dim,
  (forall x, mk_random_phase dim (AFloat x) = Raise TypeError) /\ (forall z, z <> 2%Z -> mk_random_phase dim (AInt z) = Raise ValueError) /\
  exists g, mk_random_phase dim (AInt 2) = Ok g /\ forall d st, exists Y, fst (rp_emit d g 2 st) = Ok Y /\ forall i, (i < dim)%nat -> Cmod (ent Y i 0) = INR dim /\ Cmod (ent Y i 1) = 1%R.
Proof.
  intros dim. split; [reflexivity|]. split; [intros z H; unfold mk_random_phase; destruct (Z.eqb_spec z 2); [contradiction | reflexivity]|]. eexists. split; [reflexivity|]. intros d st. eexists. split; [reflexivity|]. intros i Hi. cbn [ent nth].
  assert (EC : forall ph, RtoC (sin ph) * Ci + RtoC (cos ph) = cis ph) by (intros ph; unfold cis, RtoC, Ci, Cmult, Cplus; apply injective_projections; cbn [fst snd]; ring). rewrite !EC, !Cmod_mult, !Cmod_R, !cis_mod. rewrite (Rabs_pos_eq (INR dim)) by apply pos_INR. rewrite Rabs_R1. split; ring.
Qed.

(** C75.  y_i(t) = sum_a A_ia s_a(t) + n_i(t), and R = (1/n) sum_t y(t) y(t)^H *)
Definition is_snapshots (A Sg : cmat) (noise : nat -> nat -> C) (Y : cmat) : Prop :=
  nr Y = nr A /\ nc Y = nc Sg /\ forall i t, (i < nr A)%nat -> (t < nc Sg)%nat -> ent Y i t = csum (nc A) (fun a => ent A i a * ent Sg a t) + noise i t.
Definition is_result (n : nat) (rc : bool) (Y : cmat) (r : snapshots) : Prop :=
  match rc, r with
  | false, Snap Y' => Y' = Y
  | true, SnapCov Y' (Some Rm) => Y' = Y /\ (0 < n)%nat /\ nr Rm = nr Y /\ nc Rm = nr Y /\
      forall i j, (i < nr Y)%nat -> (j < nr Y)%nat -> ent Rm i j = csum (nc Y) (fun t => ent Y i t * Cconj (ent Y j t)) / RtoC (INR n)
  | true, SnapCov Y' None => Y' = Y /\ n = 0%nat
  | _, _ => False
  end.
Lemma finish_ok n (rc : bool) Y : exists r, (if rc then let! R := matmul Y (mher Y) in Ok (SnapCov Y (if Nat.eqb n 0 then None else Some (mscal (/ RtoC (INR n))%C R))) else Ok (Snap Y)) = Ok r /\ is_result n rc Y r.
Proof.
  destruct rc; [|eexists; split; reflexivity]. rewrite matmul_ok by reflexivity. cbn [bind]. eexists. split; [reflexivity|]. destruct (Nat.eqb_spec n 0) as [->|Hn]; cbn [is_result]; [auto|]. split; [reflexivity|]. split; [lia|]. split; [reflexivity|]. split; [reflexivity|]. intros i j Hi Hj. cbn [mscal mmul mher ent]. unfold Cdiv. ring.
Qed.
(** no noise: only the source generator runs, once *)
Theorem C75_noiseless : forall St arr s lam (src : gen St) n rc st st1 A DA Sg, steering_matrix arr s lam false "all" true = Ok (Flat A, DA) ->
  src n st = (Ok Sg, st1) -> nr Sg = nc A ->
  exists r Y, get_narrowband_snapshots arr s lam src None n rc st = (Ok r, st1) /\ is_snapshots A Sg (fun _ _ => RtoC 0) Y /\ is_result n rc Y r.
Proof.
  intros St arr s lam src n rc st st1 A DA Sg HA HS HN. unfold get_narrowband_snapshots. rewrite HA, HS. cbn [bind]. rewrite matmul_ok by congruence. destruct (finish_ok n rc (A *m Sg)) as (r & Er & Ir). exists r, (A *m Sg).
  split; [|split; [|exact Ir]].
  - destruct rc; [|congruence]. f_equal. exact Er.
  - split; [reflexivity|]. split; [reflexivity|]. intros i t Hi Ht. cbn [mmul ent]. ring.
Qed.
(** with noise: the source generator runs once, then the noise generator once, in the state the source generator left *)
Theorem C75_noisy : forall St arr s lam (src noise : gen St) n rc st st1 st2 A DA Sg Nm, steering_matrix arr s lam false "all" true = Ok (Flat A, DA) ->
  src n st = (Ok Sg, st1) -> nr Sg = nc A -> noise n st1 = (Ok Nm, st2) -> nr Nm = nr A -> nc Nm = nc Sg ->
  exists r Y, get_narrowband_snapshots arr s lam src (Some noise) n rc st = (Ok r, st2) /\ is_snapshots A Sg (ent Nm) Y /\ is_result n rc Y r.
Proof.
  intros St arr s lam src noise n rc st st1 st2 A DA Sg Nm HA HS HN HM M1 M2. unfold get_narrowband_snapshots. rewrite HA, HS. cbn [bind]. rewrite matmul_ok by congruence. rewrite HM. cbn [bind]. unfold iadd. cbn [mmul nr nc]. rewrite M1, M2, !Nat.eqb_refl. cbn [orb andb].
  set (Y := Mat (nr A) (nc Sg) _). destruct (finish_ok n rc Y) as (r & Er & Ir). exists r, Y. split; [|split; [|exact Ir]].
  - destruct rc; [|congruence]. f_equal. exact Er.
  - split; [reflexivity|]. split; [reflexivity|]. intros i t Hi Ht. cbn [Y mmul ent]. f_equal. f_equal.
    + destruct (Nat.eqb_spec (nr A) 1) as [E|]; [|reflexivity]. lia.
    + destruct (Nat.eqb_spec (nc Sg) 1) as [E|]; [|reflexivity]. lia.
Qed.
(** failures: no generator runs if the steering matrix fails; the noise generator does not run if the source signals do not fit *)
Theorem C75_failures : forall St arr s lam (src : gen St) noise n rc st,
  (forall e, steering_matrix arr s lam false "all" true = Raise e -> get_narrowband_snapshots arr s lam src noise n rc st = (Raise e, st)) /\
  (forall A DA e st1, steering_matrix arr s lam false "all" true = Ok (Flat A, DA) -> src n st = (Raise e, st1) -> get_narrowband_snapshots arr s lam src noise n rc st = (Raise e, st1)) /\
  (forall A DA Sg st1, steering_matrix arr s lam false "all" true = Ok (Flat A, DA) -> src n st = (Ok Sg, st1) -> nr Sg <> nc A -> get_narrowband_snapshots arr s lam src noise n rc st = (Raise ValueError, st1)).
Proof.
  intros St arr s lam src noise n rc st. unfold get_narrowband_snapshots. split; [|split].
  - intros e ->. reflexivity.
  - intros A DA e st1 -> ->. reflexivity.
  - intros A DA Sg st1 -> -> HN. cbn [bind]. unfold matmul. destruct (Nat.eqb_spec (nc A) (nr Sg)); [congruence | reflexivity].
Qed.
(** noise of another shape: a single row (column) is added to every sensor (snapshot), anything else raises ValueError after both generators ran *)
Theorem C75_noise_shape : forall St arr s lam (src noise : gen St) n rc st st1 st2 A DA Sg Nm,
  steering_matrix arr s lam false "all" true = Ok (Flat A, DA) -> src n st = (Ok Sg, st1) -> nr Sg = nc A -> noise n st1 = (Ok Nm, st2) ->
  ((nr Nm <> nr A /\ nr Nm <> 1%nat) \/ (nc Nm <> nc Sg /\ nc Nm <> 1%nat) -> get_narrowband_snapshots arr s lam src (Some noise) n rc st = (Raise ValueError, st2)) /\
  (nr Nm = 1%nat -> nc Nm = nc Sg -> exists r Y, get_narrowband_snapshots arr s lam src (Some noise) n rc st = (Ok r, st2) /\ is_snapshots A Sg (fun _ t => ent Nm 0 t) Y /\ is_result n rc Y r) /\
  (nr Nm = nr A -> nc Nm = 1%nat -> exists r Y, get_narrowband_snapshots arr s lam src (Some noise) n rc st = (Ok r, st2) /\ is_snapshots A Sg (fun i _ => ent Nm i 0) Y /\ is_result n rc Y r).
Proof.
  intros St arr s lam src noise n rc st st1 st2 A DA Sg Nm HA HS HN HM. unfold get_narrowband_snapshots. rewrite HA, HS. cbn [bind]. rewrite matmul_ok by congruence. rewrite HM. cbn [bind]. unfold iadd. cbn [mmul nr nc]. split; [|split].
  - intros [(H1 & H2)|(H1 & H2)].
    + rewrite (proj2 (Nat.eqb_neq (nr Nm) (nr A)) H1), (proj2 (Nat.eqb_neq (nr Nm) 1) H2). reflexivity.
    + rewrite (proj2 (Nat.eqb_neq (nc Nm) (nc Sg)) H1), (proj2 (Nat.eqb_neq (nc Nm) 1) H2), andb_false_r. reflexivity.
  - intros M1 M2. rewrite M1, M2, !Nat.eqb_refl, orb_true_r. cbn [orb andb]. set (Y := Mat (nr A) (nc Sg) _). destruct (finish_ok n rc Y) as (r & Er & Ir). exists r, Y. split; [|split; [|exact Ir]].
    + destruct rc; [|congruence]. f_equal. exact Er.
    + split; [reflexivity|]. split; [reflexivity|]. intros i t Hi Ht. cbn [Y mmul ent]. f_equal. f_equal. destruct (Nat.eqb_spec (nc Sg) 1) as [E|]; [lia | reflexivity].
  - intros M1 M2. rewrite M1, M2, !Nat.eqb_refl, orb_true_r. cbn [orb andb]. set (Y := Mat (nr A) (nc Sg) _). destruct (finish_ok n rc Y) as (r & Er & Ir). exists r, Y. split; [|split; [|exact Ir]].
    + destruct rc; [|congruence]. f_equal. exact Er.
    + split; [reflexivity|]. split; [reflexivity|]. intros i t Hi Ht. cbn [Y mmul ent]. f_equal. f_equal. destruct (Nat.eqb_spec (nr A) 1) as [E|]; [lia | reflexivity].
Qed.
(** the sample covariance is Hermitian positive semidefinite, and its trace is the mean snapshot power *)
Theorem C75_covariance : forall n Y Rm, is_result n true Y (SnapCov Y (Some Rm)) ->
  psd Rm /\ mtrace Rm = RtoC (rsum (nc Y) (fun t => vnorm2 (nr Y) (col Y t)) / INR n).
Proof.
  intros n Y Rm (_ & Hn & R1 & R2 & RE). assert (N0 : (0 < INR n)%R) by now apply lt_0_INR. assert (NC : RtoC (INR n) <> RtoC 0) by (intros H; injection H; lra).
  assert (EQ : mscal (RtoC (/ INR n)) (Y *m mher Y) ==m Rm).
  { split; [symmetry; exact R1|]. split; [symmetry; exact R2|]. intros i j Hi Hj. cbn [mscal mmul mher nr nc ent] in *. rewrite RE by assumption. unfold Cdiv. rewrite RtoC_inv by lra. ring. }
  split.
  - apply (psd_eq _ _ EQ). apply psd_mscal; [left; now apply Rinv_0_lt_compat | apply psd_gram'].
  - unfold mtrace. rewrite R1. unfold Rdiv. rewrite RtoC_mult. rewrite (csum_ext _ _ (fun i => csum (nc Y) (fun t => RtoC (Cnorm2 (ent Y i t))) * RtoC (/ INR n))).
    + rewrite csum_scal_r. f_equal. rewrite csum_swap, <- csum_RtoC. apply csum_ext. intros t Ht. rewrite csum_RtoC. reflexivity.
    + intros i Hi. rewrite RE by assumption. unfold Cdiv. rewrite RtoC_inv by lra. f_equal. apply csum_ext. intros t Ht. apply Cmult_conj_norm2.
Qed.
(** the sample covariance is unbiased: for stochastic sources with covariance C and stochastic noise with covariance Cn its
    expectation is A C A^H + Cn *)
Theorem C75_unbiased : forall sqrtm arr s lam k c cn g gn N E n st u A DA, sqrtm_ok sqrtm -> steering_matrix arr s lam false "all" true = Ok (Flat A, DA) ->
  nc A = k -> carg_ok k c -> carg_ok (nr A) cn -> mk_stochastic sqrtm k c = Ok g -> mk_stochastic sqrtm (nr A) cn = Ok gn ->
  (0 < n)%nat -> white N E -> (used_normals st + 2 * (k * n) + 2 * (nr A * n) <= N)%nat ->
  let run := fun x => get_narrowband_snapshots arr s lam (sto_emit (Draws x u) g) (Some (sto_emit (Draws x u) gn)) n true st in
  (forall x, exists Y Rm, run x = (Ok (SnapCov Y (Some Rm)), Rng (used_normals st + 2 * (k * n) + 2 * (nr A * n)) (used_uniforms st))) /\
  forall i j, (i < nr A)%nat -> (j < nr A)%nat -> expect E (fun x => ent (snap_cov (run x)) i j) = ent (A *m carg_cov k c *m mher A +m carg_cov (nr A) cn) i j.
Proof.
  intros sqrtm arr s lam k c cn g gn N E n st u A DA HS HA HAk HC HCn Eg Egn Hn HW HN run.
  destruct (mk_stochastic_ok sqrtm k c HS HC) as (g' & Eg' & Dg & Wg & GG). rewrite Eg in Eg'. injection Eg' as <-. pose proof Wg as (G1 & G2). rewrite Dg in G1, G2.
  destruct (mk_stochastic_ok sqrtm (nr A) cn HS HCn) as (gn' & Egn' & Dgn & Wgn & GGn). rewrite Egn in Egn'. injection Egn' as <-. pose proof Wgn as (Gn1 & Gn2). rewrite Dgn in Gn1, Gn2.
  set (m := nr A) in *. set (u0 := used_normals st) in *. set (u1 := (u0 + 2 * (k * n))%nat) in *. set (ws := white_sample u0 k n). set (wn := white_sample u1 m n).
  set (B := A *m gain g). set (Gn := gain gn) in *.
  set (ys := fun x i t => csum k (fun a => ent B i a * ws x a t)). set (yn := fun x i t => csum m (fun a => ent Gn i a * wn x a t)). set (y := fun x i t => ys x i t + yn x i t).
  assert (NC : RtoC (INR n) <> RtoC 0) by (intros H; injection H; apply not_0_INR; lia).
  assert (RUN : forall x, exists Y Rm, run x = (Ok (SnapCov Y (Some Rm)), Rng (u1 + 2 * (m * n)) (used_uniforms st)) /\
    forall i j, (i < m)%nat -> (j < m)%nat -> ent Rm i j = csum n (fun t => y x i t * Cconj (y x j t)) / RtoC (INR n)).
  { intros x. destruct (sto_emit_ok (Draws x u) g n st Wg) as (Sg & W & _ & ES & W1 & W2 & S1 & S2 & SW & Wv). rewrite Dg in *. destruct (sto_emit_ok (Draws x u) gn n (Rng u1 (used_uniforms st)) Wgn) as (Nm & V & _ & EN & V1 & V2 & N1 & N2 & NV & Vv). rewrite Dgn in *. fold m in EN, N1. cbn [used_normals used_uniforms] in *.
    destruct (C75_noisy _ arr s lam (sto_emit (Draws x u) g) (sto_emit (Draws x u) gn) n true st _ _ A DA Sg Nm HA ES ltac:(congruence) EN N1 ltac:(congruence)) as (r & Y & ER & (Y1 & Y2 & YE) & IR).
    destruct r as [|Y' [Rm|]]; cbn [is_result] in IR; [contradiction | | lia]. destruct IR as (-> & _ & R1 & R2 & RE). exists Y, Rm. split; [exact ER|].
    assert (YV : forall i t, (i < m)%nat -> (t < n)%nat -> ent Y i t = y x i t).
    { intros i t Hi Ht. rewrite YE by (rewrite ?S2; assumption). unfold y. f_equal.
      - unfold ys. rewrite HAk. rewrite (csum_ext _ _ (fun a => csum k (fun b => ent A i a * ent (gain g) a b * ws x b t))).
        + rewrite csum_swap. apply csum_ext. intros b Hb. unfold B. cbn [mmul ent]. rewrite HAk, csum_scal_r. reflexivity.
        + intros a Ha. rewrite (meq_ent _ _ a t SW) by (rewrite ?S1, ?S2; assumption). cbn [mmul ent]. rewrite G2, <- csum_scal. apply csum_ext. intros b Hb. rewrite Wv. unfold ws. fold u0. cbn [normals]. ring.
      - unfold yn. rewrite (meq_ent _ _ i t NV) by (rewrite ?N1, ?N2; assumption). cbn [mmul ent]. fold Gn. rewrite Gn2. apply csum_ext. intros a Ha. rewrite Vv. reflexivity. }
    intros i j Hi Hj. rewrite RE by (rewrite Y1; assumption). f_equal. rewrite Y2, S2. apply csum_ext. intros t Ht. rewrite !YV by assumption. reflexivity. }
  split; [intros x; destruct (RUN x) as (Y & Rm & HR & _); now exists Y, Rm|].
  intros i j Hi Hj. rewrite (ex_ext N E HW _ (fun x => / RtoC (INR n) * csum n (fun t => y x i t * Cconj (y x j t)))) by (intros x; destruct (RUN x) as (Y & Rm & HR & HE); unfold snap_cov; rewrite HR; cbn [fst]; rewrite HE by assumption; unfold Cdiv; ring).
  rewrite (ex_scal N E HW), (ex_csum N E HW n (fun t x => y x i t * Cconj (y x j t))).
  set (T := ent _ i j).
  assert (ET : forall t, (t < n)%nat -> expect E (fun x => y x i t * Cconj (y x j t)) = T).
  { intros t Ht. rewrite (ex_ext N E HW _ (fun x => (ys x i t * Cconj (ys x j t) + ys x i t * Cconj (yn x j t)) + (yn x i t * Cconj (ys x j t) + yn x i t * Cconj (yn x j t)))) by (intros x; unfold y; rewrite Cplus_conj; ring).
    rewrite !(ex_plus N E HW). assert (HU : (u0 + 2 * (k * n) <= N)%nat) by (unfold u1 in HN; lia).
    assert (T1 : expect E (fun x => ys x i t * Cconj (ys x j t)) = ent (B *m mher B) i j).
    { unfold ys. rewrite (ex_bilin N E HW k k (fun a => ent B i a) (fun a => ent B j a) (fun a x => ws x a t) (fun a x => ws x a t) Cconj Cplus_conj Cmult_conj Cconj_0).
      cbn [mmul mher ent]. change (nc B) with (nc (gain g)). rewrite G2. apply csum_ext. intros a Ha. rewrite (csum_single _ _ a Ha).
      - unfold ws. rewrite (ws_cov N E HW _ _ _ HU) by assumption. rewrite !Nat.eqb_refl. cbn [andb]. cbn [B mmul ent]. ring.
      - intros b Hb Nb. unfold ws. rewrite (ws_cov N E HW _ _ _ HU) by assumption. destruct (Nat.eqb_spec a b); [congruence|]. cbn [andb]. ring. }
    assert (T2 : expect E (fun x => yn x i t * Cconj (yn x j t)) = ent (Gn *m mher Gn) i j).
    { unfold yn. rewrite (ex_bilin N E HW m m (fun a => ent Gn i a) (fun a => ent Gn j a) (fun a x => wn x a t) (fun a x => wn x a t) Cconj Cplus_conj Cmult_conj Cconj_0).
      cbn [mmul mher ent]. rewrite Gn2. apply csum_ext. intros a Ha. rewrite (csum_single _ _ a Ha).
      - unfold wn. rewrite (ws_cov N E HW _ _ _ HN) by assumption. rewrite !Nat.eqb_refl. cbn [andb]. ring.
      - intros b Hb Nb. unfold wn. rewrite (ws_cov N E HW _ _ _ HN) by assumption. destruct (Nat.eqb_spec a b); [congruence|]. cbn [andb]. ring. }
    assert (T3 : expect E (fun x => ys x i t * Cconj (yn x j t)) = RtoC 0).
    { unfold ys, yn. rewrite (ex_bilin N E HW k m (fun a => ent B i a) (fun a => ent Gn j a) (fun a x => ws x a t) (fun a x => wn x a t) Cconj Cplus_conj Cmult_conj Cconj_0). apply csum_0. intros a Ha. apply csum_0. intros b Hb. unfold ws, wn. rewrite (proj1 (ws_cross N E HW u0 k n HU u1 m n a b t t (le_n _) HN Ha Hb Ht Ht)). ring. }
    assert (T4 : expect E (fun x => yn x i t * Cconj (ys x j t)) = RtoC 0).
    { unfold ys, yn. rewrite (ex_bilin N E HW m k (fun a => ent Gn i a) (fun a => ent B j a) (fun a x => wn x a t) (fun a x => ws x a t) Cconj Cplus_conj Cmult_conj Cconj_0). apply csum_0. intros a Ha. apply csum_0. intros b Hb. unfold ws, wn. rewrite (proj2 (ws_cross N E HW u0 k n HU u1 m n b a t t (le_n _) HN Hb Ha Ht Ht)). ring. }
    rewrite T1, T2, T3, T4. unfold T. cbn [madd ent]. rewrite <- (meq_ent _ _ i j GGn) by (cbn [mmul mher nr nc]; rewrite Gn1; assumption).
    assert (BB : B *m mher B ==m A *m carg_cov k c *m mher A).
    { unfold B. etransitivity; [apply mmul_eq_r; [reflexivity | apply mher_mmul; congruence]|]. etransitivity; [symmetry; apply mmul_assoc|]. apply mmul_eq_l. etransitivity; [apply mmul_assoc|]. apply mmul_eq_r; [cbn [mmul nr]; congruence | exact GG]. }
    rewrite (meq_ent _ _ i j BB) by (cbn [mmul mher nr nc B]; assumption). ring. }
  rewrite (csum_ext _ _ (fun _ => T)) by exact ET. rewrite csum_const. field. exact NC.
Qed.

(** ** The hypotheses can be met *)
(** uniformly distributed signs are white: the expectation averages over all assignments of +1 and -1 to the first N draws *)
Fixpoint sign_mean (N : nat) (f : (nat -> R) -> R) : R :=
  match N with
  | O => f (fun _ => 0%R)
  | S N => ((sign_mean N (fun x => f (fun i => if Nat.eqb i N then 1 else x i)) + sign_mean N (fun x => f (fun i => if Nat.eqb i N then -1 else x i))) / 2)%R
  end.
Lemma sign_mean_ext : forall N f g, (forall x, f x = g x) -> sign_mean N f = sign_mean N g.
Proof. induction N as [|N IH]; intros f g H; cbn [sign_mean]; [apply H|]. rewrite (IH _ _ (fun x => H _)). f_equal. f_equal. apply IH. intros x. apply H. Qed.
Lemma sign_mean_lin : forall N a b f g, sign_mean N (fun x => a * f x + b * g x)%R = (a * sign_mean N f + b * sign_mean N g)%R.
Proof. induction N as [|N IH]; intros a b f g; cbn [sign_mean]; [reflexivity|]. rewrite (IH a b (fun x => f _) (fun x => g _)), (IH a b (fun x => f _) (fun x => g _)). field. Qed.
Lemma sign_mean_const : forall N c, sign_mean N (fun _ => c) = c.
Proof. induction N as [|N IH]; intros c; cbn [sign_mean]; [reflexivity|]. rewrite !IH. field. Qed.
Lemma sign_mean_scal N c f : sign_mean N (fun x => c * f x)%R = (c * sign_mean N f)%R.
Proof. rewrite (sign_mean_ext N _ (fun x => c * f x + 0 * f x)%R) by (intros; ring). rewrite sign_mean_lin. ring. Qed.
Lemma sign_mean_first : forall N i, (i < N)%nat -> sign_mean N (fun x => x i) = 0%R.
Proof.
  induction N as [|N IH]; intros i Hi; [lia|]. cbn [sign_mean]. destruct (Nat.eqb_spec i N) as [->|Ne]; [rewrite !sign_mean_const; field|]. rewrite !(IH i) by lia. field.
Qed.
Lemma sign_mean_second : forall N i j, (i < N)%nat -> (j < N)%nat -> sign_mean N (fun x => x i * x j)%R = if Nat.eqb i j then 1%R else 0%R.
Proof.
  induction N as [|N IH]; intros i j Hi Hj; [lia|]. cbn [sign_mean]. destruct (Nat.eqb_spec i N) as [Ei|Ni], (Nat.eqb_spec j N) as [Ej|Nj].
  - subst i j. rewrite !sign_mean_const, Nat.eqb_refl. field.
  - rewrite !(sign_mean_scal N _ (fun x => x j)), !(sign_mean_first N j) by lia. destruct (Nat.eqb_spec i j); [lia|]. field.
  - rewrite (sign_mean_ext N _ (fun x => 1 * x i)%R) by (intros; ring). rewrite (sign_mean_ext N (fun x => x i * -1)%R (fun x => -1 * x i)%R) by (intros; ring). rewrite !sign_mean_scal, !(sign_mean_first N i) by lia. destruct (Nat.eqb_spec i j); [lia|]. field.
  - rewrite !(IH i j) by lia. destruct (Nat.eqb i j); field.
Qed.
Example white_exists : forall N, white N (sign_mean N).
Proof. intros N. split; [apply sign_mean_ext | apply sign_mean_lin | apply sign_mean_first | apply sign_mean_second]. Qed.
(** sqrtm has an instance for every order ([sqrtm_ref], by the spectral theorem); a coherent pair with the covariance [[1,i],[-i,2]] *)
Definition ex_gram : cmat := Mat 2 2 (fun i j => match i, j with 0%nat, 0%nat => RtoC 1 | 0%nat, _ => Ci | _, 0%nat => RtoC 0 | _, _ => RtoC 1 end).
Example C74_instance : exists g, mk_stochastic sqrtm_ref 2 (CMat (mher ex_gram *m ex_gram)) = Ok g /\
  forall n, (0 < n)%nat -> expect (sign_mean (4 * n)) (fun x => ent (emitted (sto_emit (Draws x (fun _ => 0%R)) g n (Rng 0 0))) 0 0 * Cconj (ent (emitted (sto_emit (Draws x (fun _ => 0%R)) g n (Rng 0 0))) 1 0)) = Ci.
Proof.
  set (c := CMat (mher ex_gram *m ex_gram)). assert (HC : carg_ok 2 c) by (split; [reflexivity|]; split; [reflexivity | apply psd_gram]).
  destruct (C74_stochastic sqrtm_ref 2 c sqrtm_ref_ok HC) as (g & _ & Eg & _). exists g. split; [exact Eg|]. intros n Hn.
  destruct (C74_moments sqrtm_ref 2 c g (4 * n) (sign_mean (4 * n)) n (Rng 0 0) (fun _ => 0%R) sqrtm_ref_ok HC Eg (white_exists _) ltac:(cbn [used_normals]; lia) 0 1 0 0 ltac:(lia) ltac:(lia) Hn Hn)%nat as (_ & H & _).
  cbn [Nat.eqb] in H. etransitivity; [exact H|]. unfold c. cbn [carg_cov mmul mher ex_gram nr nc ent csum]. apply injective_projections; cbn; ring.
Qed.
Example C75_instance : exists v, mk_ULA 3 (D0Scalar (1 / 2)) None no_kwargs = Ok v /\ exists g gn,
  mk_stochastic sqrtm_ref 1 (CScalar 4) = Ok g /\ mk_stochastic sqrtm_ref 3 (CVec [1; 2; 3]%R) = Ok gn /\
  forall n, (0 < n)%nat ->
    let run := fun x => get_narrowband_snapshots (gd_array v) (FF1 [0%R] "rad") 1 (sto_emit (Draws x (fun _ => 0%R)) g) (Some (sto_emit (Draws x (fun _ => 0%R)) gn)) n true (Rng 0 0) in
    expect (sign_mean (8 * n)) (fun x => ent (snap_cov (run x)) 1 1) = RtoC 6 /\ expect (sign_mean (8 * n)) (fun x => ent (snap_cov (run x)) 0 2) = RtoC 4.
Proof.
  assert (H4 : carg_ok 1 (CScalar 4)) by (cbn; lra). assert (H3 : carg_ok 3 (CVec [1; 2; 3]%R)) by (split; [reflexivity | repeat (apply Forall_cons || apply Forall_nil); lra]).
  destruct (C74_stochastic sqrtm_ref 1 _ sqrtm_ref_ok H4) as (g & _ & Eg & _). destruct (C74_stochastic sqrtm_ref 3 _ sqrtm_ref_ok H3) as (gn & _ & Egn & _).
  assert (HV : exists v, mk_ULA 3 (D0Scalar (1 / 2)) None no_kwargs = Ok v /\ exists A, steering_matrix (gd_array v) (FF1 [0%R] "rad") 1 false "all" true = Ok (Flat A, []) /\ nr A = 3%nat /\ nc A = 1%nat /\ forall i, (i < 3)%nat -> ent A i 0 = RtoC 1).
  { eexists. split; [reflexivity|]. eexists. split; [unfold steering_matrix, phase_delay_matrix; rewrite (P_sources.Reqb_neq 1 0 R1_neq_R0); reflexivity|]. split; [reflexivity|]. split; [reflexivity|]. intros [|[|[|i]]] Hi; try lia; cbn; rewrite sin_0, !Rmult_0_r, cis_0; reflexivity. }
  destruct HV as (v & Ev & A & HA & A1 & A2 & AE). exists v. split; [exact Ev|]. exists g, gn. split; [exact Eg|]. split; [exact Egn|]. intros n Hn. rewrite <- A1 in H3, Egn.
  destruct (C75_unbiased sqrtm_ref _ _ 1 1 (CScalar 4) _ g gn (8 * n) (sign_mean (8 * n)) n (Rng 0 0) (fun _ => 0%R) A [] sqrtm_ref_ok HA A2 H4 H3 Eg Egn Hn (white_exists _) ltac:(cbn [used_normals]; rewrite A1; lia)) as (_ & HE).
  intros run. split; (etransitivity; [apply HE; rewrite A1; lia|]).
  - cbn [madd mmul mher carg_cov mdiag nc nr ent]. rewrite A2. cbn [csum Nat.eqb nth]. rewrite !AE by lia. apply injective_projections; cbn; ring.
  - cbn [madd mmul mher carg_cov mdiag nc nr ent]. rewrite A2. cbn [csum Nat.eqb nth]. rewrite !AE by lia. apply injective_projections; cbn; ring.
Qed.
Print Assumptions C74_stochastic. Print Assumptions C74_moments. Print Assumptions C74_random_phase. Print Assumptions C75_noisy. Print Assumptions C75_covariance. Print Assumptions C75_unbiased.
