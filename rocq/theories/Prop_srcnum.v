(** Properties of source number detection and of preprocessing (C52-C57). *)
From Verif Require Import Base_Np Base_Mem Base_Trig M_utils P_utils M_coarray M_core M_srcnum S_srcnum P_srcnum.
Open Scope R_scope.

(** C52: ld_stat for positive eigenvalues (shape = [M], ascending or not). *)
Theorem C52_ld_stat : forall (x : list R) (k : nat) (N : R), Forall (Rlt 0) x -> (k < List.length x)%nat ->
  exists v, ld_stat [List.length x] x (Z.of_nat k) N = Ok v /\
    v = N * log_am_gm x k /\ (0 <= N -> 0 <= v) /\
    (0 < N -> (v = 0 <-> forall i j, (i < List.length x - k)%nat -> (j < List.length x - k)%nat -> nth i x 0 = nth j x 0)).
Proof.
  intros x k N HP Hk. exists (N * log_am_gm x k). split; [now apply ld_stat_value|]. split; [reflexivity|]. pose proof (am_gm_nonneg x k HP Hk) as H0. split.
  - intros HN. now apply Rmult_le_pos.
  - intros HN. rewrite <- (am_gm_zero x k HP Hk). split; intros H; [|rewrite H; ring]. destruct (Rmult_integral _ _ H); lra.
Qed.
(** linear in the number of snapshots, invariant under scaling *)
Theorem C52_linear_and_scale_invariant : forall (x : list R) (k : nat) (N a c : R), Forall (Rlt 0) x -> (k < List.length x)%nat -> 0 < c ->
  exists v, ld_stat [List.length x] x (Z.of_nat k) N = Ok v /\ ld_stat [List.length x] x (Z.of_nat k) (a * N) = Ok (a * v) /\
    ld_stat [List.length x] (map (Rmult c) x) (Z.of_nat k) N = Ok v.
Proof.
  intros x k N a c HP Hk Hc. exists (N * log_am_gm x k). split; [now apply ld_stat_value|]. split; [rewrite ld_stat_value by assumption; f_equal; ring|].
  assert (L : List.length (map (Rmult c) x) = List.length x) by apply map_length. rewrite <- L. rewrite ld_stat_value; [rewrite am_gm_scale by assumption; reflexivity | | lia].
  rewrite Forall_map. eapply Forall_impl; [|exact HP]. intros r Hr. now apply Rmult_lt_0_compat.
Qed.
Theorem C52_vectors_only : forall shape x k N, List.length shape <> 1%nat -> ld_stat shape x k N = Raise ValueError.
Proof. intros shape x k N H. unfold ld_stat. destruct (Nat.eqb_spec (List.length shape) 1); [congruence | reflexivity]. Qed.
Example C52_example : exists v, ld_stat [3%nat] [2; 2; 7] 1 10 = Ok v /\ v = 0.
Proof.
  destruct (C52_ld_stat [2; 2; 7] 1 10) as (v & E & _ & _ & H); [repeat (apply Forall_cons || apply Forall_nil); lra | cbn; lia |].
  exists v. split; [exact E|]. apply H; [lra|]. intros [|[|i]] [|[|j]] Hi Hj; cbn in *; lia || reflexivity.
Qed.

(** C53: AIC and MDL. *)
Lemma mdl_pos eigvalsh x N : 0 < N -> mdl eigvalsh (EVec x) N = criterion (mdl_penalty N) x N.
Proof. intros H. unfold mdl, eigenvalues, bind. unfold Rleb. destruct (Rle_dec N 0); [lra | reflexivity]. Qed.
Theorem C53_first_minimiser : forall eigvalsh (x : list R) (N : R), Forall (Rlt 0) x -> (0 < List.length x)%nat ->
  (exists p, aic eigvalsh (EVec x) N = Ok p /\ first_min (List.length x) (aic_crit x N) p) /\
  (0 < N -> exists q, mdl eigvalsh (EVec x) N = Ok q /\ first_min (List.length x) (mdl_crit x N) q) /\
  (N <= 0 -> mdl eigvalsh (EVec x) N = Raise ValueError).
Proof.
  intros eig x N HP HL. split; [|split].
  - destruct (criterion_spec aic_penalty x N HP HL) as (p & E & H). exists p. split; [exact E | exact H].
  - intros HN. destruct (criterion_spec (mdl_penalty N) x N HP HL) as (p & E & H). exists p. split; [rewrite mdl_pos by exact HN; exact E|].
    destruct H as (H1 & H2 & H3). unfold mdl_crit. unfold mdl_penalty in *. replace 0.5 with (/ 2) in * by lra. split; [exact H1 | split; assumption].
  - intros HN. unfold mdl, eigenvalues, bind. unfold Rleb. destruct (Rle_dec N 0); [reflexivity | contradiction].
Qed.
(** a covariance matrix is replaced by its eigenvalues *)
Theorem C53_matrix_argument : forall eigvalsh R x N, eigvalsh R = Ok x ->
  aic eigvalsh (EMat R) N = aic eigvalsh (EVec x) N /\ mdl eigvalsh (EMat R) N = mdl eigvalsh (EVec x) N.
Proof. intros eig R x N H. unfold aic, mdl, eigenvalues. now rewrite H. Qed.
Theorem C53_scale_invariant : forall eigvalsh (x : list R) (N c : R), Forall (Rlt 0) x -> (0 < List.length x)%nat -> 0 < c ->
  aic eigvalsh (EVec (map (Rmult c) x)) N = aic eigvalsh (EVec x) N /\ mdl eigvalsh (EVec (map (Rmult c) x)) N = mdl eigvalsh (EVec x) N.
Proof.
  intros eig x N c HP HL Hc.
  assert (HP' : Forall (Rlt 0) (map (Rmult c) x)) by (rewrite Forall_map; eapply Forall_impl; [|exact HP]; intros r Hr; now apply Rmult_lt_0_compat).
  assert (L : List.length (map (Rmult c) x) = List.length x) by apply map_length.
  assert (G : forall pen, criterion pen (map (Rmult c) x) N = criterion pen x N).
  { intros pen. destruct (criterion_spec pen x N HP HL) as (p & E & Hp). destruct (criterion_spec pen (map (Rmult c) x) N HP' ltac:(lia)) as (q & E' & Hq).
    rewrite E, E'. f_equal. apply (first_min_unique (List.length x) (fun i => N * log_am_gm x i + pen (List.length x) i)); [|exact Hp].
    rewrite L in Hq. destruct Hq as (A1 & A2 & A3).
    assert (X : forall i, (i < List.length x)%nat -> log_am_gm (map (Rmult c) x) i = log_am_gm x i) by (intros i Hi; now apply am_gm_scale).
    split; [exact A1|]. split; intros i Hi; rewrite <- !X by lia; [apply A2 | apply A3]; exact Hi. }
  split; [apply G|]. unfold mdl, eigenvalues, bind. now rewrite G.
Qed.
(** if the M-k smallest eigenvalues coincide, at most k sources are reported *)
Theorem C53_no_overestimation : forall eigvalsh (x : list R) (N : R) (k : nat), Forall (Rlt 0) x -> (k < List.length x)%nat -> 1 <= N ->
  (forall i j, (i < List.length x - k)%nat -> (j < List.length x - k)%nat -> nth i x 0 = nth j x 0) ->
  (exists p, aic eigvalsh (EVec x) N = Ok p /\ (p <= k)%nat) /\ (exists q, mdl eigvalsh (EVec x) N = Ok q /\ (q <= k)%nat).
Proof.
  intros eig x N k HP Hk HN HE. destruct (C53_first_minimiser eig x N HP ltac:(lia)) as ((p & E & Hp) & Hm & _). destruct (Hm ltac:(lra)) as (q & E' & Hq). clear Hm.
  pose proof (proj2 (am_gm_zero x k HP Hk) HE) as Z0. set (M := List.length x) in *.
  assert (HlnN : 0 <= ln N). { destruct HN as [HN|<-]; [left; rewrite <- ln_1; apply ln_increasing; lra | rewrite ln_1; lra]. }
  assert (Pen : forall i, (k < i < M)%nat -> INR k * (2 * INR M - INR k) <= INR i * (2 * INR M - INR i)).
  { intros i [H1 H2]. apply lt_INR in H1, H2. pose proof (pos_INR k). nra. }
  split; [exists p | exists q]; (split; [assumption|]).
  - destruct (Nat.le_gt_cases p k) as [H|H]; [exact H|]. exfalso. destruct Hp as (A1 & A2 & A3). specialize (A3 k H). unfold aic_crit in A3. fold M in A3. rewrite Z0 in A3.
    specialize (Pen p ltac:(lia)). pose proof (am_gm_nonneg x p HP ltac:(fold M; lia)). assert (0 <= N * log_am_gm x p) by (apply Rmult_le_pos; lra). lra.
  - destruct (Nat.le_gt_cases q k) as [H|H]; [exact H|]. exfalso. destruct Hq as (A1 & A2 & A3). specialize (A3 k H). unfold mdl_crit in A3. fold M in A3. rewrite Z0 in A3.
    specialize (Pen q ltac:(lia)). pose proof (am_gm_nonneg x q HP ltac:(fold M; lia)). assert (0 <= N * log_am_gm x q) by (apply Rmult_le_pos; lra).
    assert (/ 2 * (INR k * (2 * INR M - INR k) + 1) * ln N <= / 2 * (INR q * (2 * INR M - INR q) + 1) * ln N) by (apply Rmult_le_compat_r; lra). lra.
Qed.
Theorem C53_white_noise : forall eigvalsh (sigma2 N : R) (M : nat), 0 < sigma2 -> (0 < M)%nat -> 1 <= N ->
  aic eigvalsh (EVec (repeat sigma2 M)) N = Ok 0%nat /\ mdl eigvalsh (EVec (repeat sigma2 M)) N = Ok 0%nat.
Proof.
  intros eig s N M Hs HM HN. destruct (C53_no_overestimation eig (repeat s M) N 0) as ((p & E & Hp) & (q & E' & Hq)).
  - apply Forall_forall. intros y Hy. apply repeat_spec in Hy. now subst.
  - now rewrite repeat_length.
  - exact HN.
  - intros i j. rewrite repeat_length. intros Hi Hj. rewrite !(nth_indep _ 0 s) by (rewrite repeat_length; lia). now rewrite !nth_repeat.
  - rewrite E, E'. split; f_equal; lia.
Qed.
Example C53_example : forall eig, exists p q, aic eig (EVec [1; 1; 5]) 100 = Ok p /\ mdl eig (EVec [1; 1; 5]) 100 = Ok q /\ (p <= 1)%nat /\ (q <= 1)%nat.
Proof.
  intros eig. destruct (C53_no_overestimation eig [1; 1; 5] 100 1) as ((p & E & Hp) & (q & E' & Hq)).
  - repeat (apply Forall_cons || apply Forall_nil); lra.
  - cbn; lia.
  - lra.
  - intros [|[|i]] [|[|j]] Hi Hj; cbn in *; lia || reflexivity.
  - exists p, q. auto.
Qed.

(** C54: SORTE. *)
Theorem C54_first_minimiser : forall eigvalsh (x : list R),
  ((List.length x < 4)%nat -> sorte eigvalsh (EVec x) = Raise ValueError) /\
  ((4 <= List.length x)%nat -> exists p, sorte eigvalsh (EVec x) = Ok (p + 1)%nat /\ first_omin (List.length x - 3) (sorte_ratio float_eps x) p).
Proof. intros eig x. split; [apply sorte_short | apply sorte_spec]. Qed.
Theorem C54_matrix_argument : forall eigvalsh R x, eigvalsh R = Ok x -> sorte eigvalsh (EMat R) = sorte eigvalsh (EVec x).
Proof. intros eig R x H. unfold sorte, eigenvalues. now rewrite H. Qed.
(** adding a constant changes nothing; scaling changes nothing as long as no gap variance crosses the absolute threshold *)
Theorem C54_affine_invariant : forall eigvalsh (x : list R) (a c : R), 0 < a ->
  (forall k, (k + 3 < List.length x)%nat -> (gap_var x k < float_eps <-> a * a * gap_var x k < float_eps)) ->
  sorte eigvalsh (EVec (map (fun v => a * v + c) x)) = sorte eigvalsh (EVec x).
Proof.
  intros eig x a c Ha H. apply sorte_ext; [apply map_length|]. rewrite map_length. intros k Hk. unfold sorte_ratio. rewrite !gap_var_affine by lia. specialize (H k ltac:(lia)).
  destruct (Rlt_dec (gap_var x k) float_eps) as [L|L]; destruct (Rlt_dec (a * a * gap_var x k) float_eps) as [L'|L']; try reflexivity; [tauto | tauto |].
  f_equal. assert (0 < float_eps) by (apply Rinv_0_lt_compat, pow_lt; lra). field. split; [|lra]. intros E. rewrite E in L. lra.
Qed.
Theorem C54_shift_invariant : forall eigvalsh (x : list R) (c : R), sorte eigvalsh (EVec (map (fun v => v + c) x)) = sorte eigvalsh (EVec x).
Proof.
  intros eig x c. rewrite <- (C54_affine_invariant eig x 1 c) by (try lra; intros; rewrite !Rmult_1_l; reflexivity). do 2 f_equal. apply map_ext. intros. ring.
Qed.
(** Finding: scaling alone can change the answer: two sources become one when the eigenvalues are given in small units. *)
Lemma var_11122_0 : gap_var [1; 1; 1; 2; 2] 0 = 3 / 16.
Proof. unfold gap_var, gap_mean, gap. cbn -[Rplus Rmult Rdiv]. cbn. field. Qed.
Lemma var_11122_1 : gap_var [1; 1; 1; 2; 2] 1 = 2 / 9.
Proof. unfold gap_var, gap_mean, gap. cbn. field. Qed.
Lemma var_11122_2 : gap_var [1; 1; 1; 2; 2] 2 = 0.
Proof. unfold gap_var, gap_mean, gap. cbn. field. Qed.
Theorem C54_scale_dependent_defect : forall eigvalsh,
  sorte eigvalsh (EVec [1; 1; 1; 2; 2]) = Ok 2%nat /\ sorte eigvalsh (EVec (map (Rmult (/ 2 ^ 30)) [1; 1; 1; 2; 2])) = Ok 1%nat.
Proof.
  intros eig. assert (Heps : float_eps < 1 / 100) by (unfold float_eps; apply (Rmult_lt_reg_l (2 ^ 52)); [apply pow_lt; lra|]; rewrite Rinv_r by (apply pow_nonzero; lra); lra).
  split.
  - destruct (proj2 (C54_first_minimiser eig [1; 1; 1; 2; 2])) as (p & E & H1 & H2 & H3); [cbn; lia|]. rewrite E. cbn in H1. f_equal.
    destruct p as [|[|p]]; [|reflexivity | lia]. exfalso. specialize (H2 1%nat ltac:(cbn; lia)). unfold sorte_ratio in H2. cbn [Nat.add] in H2. rewrite var_11122_0, var_11122_1, var_11122_2 in H2.
    destruct (Rlt_dec (3 / 16) float_eps); [lra|]. destruct (Rlt_dec (2 / 9) float_eps); [lra|]. cbn in H2. replace (2 / 9 / (3 / 16)) with (32 / 27) in H2 by field. replace (0 / (2 / 9)) with 0 in H2 by field. lra.
  - set (y := map _ _). destruct (proj2 (C54_first_minimiser eig y)) as (p & E & H1 & H2 & H3); [cbn; lia|]. rewrite E. cbn in H1. f_equal.
    destruct p as [|[|p]]; [reflexivity | exfalso | lia]. specialize (H3 0%nat ltac:(lia)). unfold sorte_ratio in H3. cbn [Nat.add] in H3.
    assert (EY : y = map (fun v => / 2 ^ 30 * v + 0) [1; 1; 1; 2; 2]) by (unfold y; apply map_ext; intros; ring).
    assert (V0 : gap_var y 0 < float_eps). { rewrite EY, gap_var_affine by (cbn; lia). rewrite var_11122_0. unfold float_eps. apply (Rmult_lt_reg_l (2 ^ 60)); [apply pow_lt; lra|].
      replace (2 ^ 60 * (/ 2 ^ 30 * / 2 ^ 30 * (3 / 16))) with (3 / 16) by (field). replace (2 ^ 60 * / 2 ^ 52) with 256 by field. lra. }
    assert (V1 : gap_var y 1 < float_eps). { rewrite EY, gap_var_affine by (cbn; lia). rewrite var_11122_1. unfold float_eps. apply (Rmult_lt_reg_l (2 ^ 60)); [apply pow_lt; lra|].
      replace (2 ^ 60 * (/ 2 ^ 30 * / 2 ^ 30 * (2 / 9))) with (2 / 9) by (field). replace (2 ^ 60 * / 2 ^ 52) with 256 by field. lra. }
    destruct (Rlt_dec (gap_var y 0) float_eps); [|lra]. destruct (Rlt_dec (gap_var y 1) float_eps); [|lra]. exact H3.
Qed.
Example C54_example : forall eig, sorte eig (EVec [1; 2; 3]) = Raise ValueError /\ sorte eig (EVec [1; 1; 1; 2; 2]) = Ok 2%nat.
Proof. intros eig. split; [apply C54_first_minimiser; cbn; lia | apply C54_scale_dependent_defect]. Qed.

(** C55: spatial smoothing.  The matrix is an array [R] in memory [m]; the result is a new array. *)
Theorem C55_spatial_smooth : forall ty m (R : view) (l : nat) (fb : bool), ty <> MInt -> v_ok m R -> (1 <= l <= v_nr R)%nat ->
  exists m' v, spatial_smooth_mem ty m R (Z.of_nat l) fb = Ok (m', v) /\
    v_nr v = (v_nr R - l + 1)%nat /\ v_nc v = (v_nr R - l + 1)%nat /\
    (* no existing array changes, the result shares memory with none of them *)
    (forall w, (v_buf w < m_next m)%nat -> v_read m' w ==m v_read m w /\ v_buf v <> v_buf w) /\
    forall a b, (a < v_nr R - l + 1)%nat -> (b < v_nr R - l + 1)%nat ->
      let S := smoothed (v_read m R) l in
      let a' := (v_nr R - l - a)%nat in let b' := (v_nr R - l - b)%nat in
      ent (v_read m' v) a b = if fb then (RtoC (/ 2) * (S a b + match ty with MComplex => Cconj (S a' b') | _ => S a' b' end))%C else S a b.
Proof.
  intros ty m R l fb HT HR Hl. destruct (smooth_value ty (v_read m R) l fb HT Hl) as (B & E & B1 & B2 & B3).
  destruct (proj2 (smooth_mem_spec ty m R (Z.of_nat l) fb HR) B E) as (m' & v & E' & (V1 & V2 & V3) & HF & HV & HO).
  exists m', v. split; [exact E'|]. cbn [v_read nr nc] in V1, V2, B1, B2. split; [congruence|]. split; [congruence|]. split.
  { intros w Hw. split; [now apply frame_read_eq | lia]. }
  intros a b Ha Hb. cbv zeta. rewrite V3 by (cbn [v_read nr nc]; lia). rewrite B3. destruct fb; [|reflexivity]. cbn [fwd_back fwd nr nc ent].
  change (nr (v_read m R)) with (v_nr R). replace (v_nr R - l + 1 - 1 - a)%nat with (v_nr R - l - a)%nat by lia. replace (v_nr R - l + 1 - 1 - b)%nat with (v_nr R - l - b)%nat by lia.
  destruct ty; reflexivity.
Qed.
Theorem C55_errors : forall ty m R l fb, v_ok m R -> ((l < 1)%Z \/ (Z.of_nat (v_nr R) < l)%Z) -> spatial_smooth_mem ty m R l fb = Raise ValueError.
Proof. intros ty m R l fb HR H. apply (smooth_mem_spec ty m R l fb HR). now apply smooth_error. Qed.
Theorem C55_one_subarray : forall ty m R, ty <> MInt -> v_ok m R -> v_nr R = v_nc R -> (1 <= v_nr R)%nat ->
  exists m' v, spatial_smooth_mem ty m R 1 false = Ok (m', v) /\ v_read m' v ==m v_read m R.
Proof.
  intros ty m R HT HR Hs H1. destruct (C55_spatial_smooth ty m R 1 false HT HR ltac:(lia)) as (m' & v & E & N1 & N2 & _ & H).
  exists m', v. split; [exact E|]. split; [cbn; lia|]. split; [cbn; lia|]. cbn [v_read nr nc]. intros a b Ha Hb. change (ent (v_read m' v) a b = ent (v_read m R) a b). rewrite H by lia. cbv zeta. unfold smoothed.
  cbn [csum INR]. rewrite Rinv_1. change (RtoC 1 * (RtoC 0 + ent (v_read m R) (0 + a) (0 + b)) = ent (v_read m R) a b)%C. cbn [Nat.add]. ring.
Qed.
(** Finding: integer matrices are not supported: the in-place true division raises TypeError. *)
Theorem C55_integer_matrix_defect : forall m R l fb, v_ok m R -> (1 <= l <= Z.of_nat (v_nr R))%Z -> spatial_smooth_mem MInt m R l fb = Raise TypeError.
Proof.
  intros m R l fb HR Hl. apply (smooth_mem_spec MInt m R l fb HR). unfold spatial_smooth. change (nr (v_read m R)) with (v_nr R). destruct (Z.ltb_spec l 1); [lia|]. destruct (Z.gtb_spec l (Z.of_nat (v_nr R))); [lia|]. reflexivity.
Qed.
Example C55_example : let R := View 0 0 3 3 3 in let m := Mem 1 (fun _ o => RtoC (INR o)) in
  exists m' v, spatial_smooth_mem MReal m R 2 false = Ok (m', v) /\ ent (v_read m' v) 0 1 = RtoC 3 /\ v_nr v = 2%nat.
Proof.
  cbv zeta. destruct (C55_spatial_smooth MReal (Mem 1 (fun _ o => RtoC (INR o))) (View 0 0 3 3 3) 2 false) as (m' & v & E & N1 & _ & _ & H); [discriminate | split; cbn; lia | cbn; lia |].
  exists m', v. split; [exact E|]. split; [|exact N1]. rewrite H by (cbn; lia). cbv zeta. unfold smoothed. cbn. unfold v_off; cbn. apply C_eq; cbn; field.
Qed.

(** C56: structure.  An array of real dtype has real entries. *)
Definition well_typed (ty : mtype) (A : cmat) : Prop := match ty with MInt => False | MReal => forall i j, (i < nr A)%nat -> (j < nr A)%nat -> Im (ent A i j) = 0 | MComplex => True end.
Lemma real_conj (z : C) : Im z = 0 -> Cconj z = z. Proof. destruct z as [a b]. cbn. intros ->. unfold Cconj. cbn. f_equal. ring. Qed.
Lemma smoothed_real A l a b : (forall i j, (i < nr A)%nat -> (j < nr A)%nat -> Im (ent A i j) = 0) -> (a < nr A - l + 1)%nat -> (b < nr A - l + 1)%nat -> (1 <= l <= nr A)%nat ->
  Cconj (smoothed A l a b) = smoothed A l a b.
Proof. intros H Ha Hb Hl. unfold smoothed. rewrite Cmult_conj, Cconj_RtoC, csum_conj. f_equal. apply csum_ext. intros i Hi. apply real_conj, H; lia. Qed.
(** entries of the result for a square, well-typed matrix: in both dtypes the flipped matrix is conjugated *)
Lemma smooth_typed ty A l fb : well_typed ty A -> (1 <= l <= nr A)%nat ->
  exists B, spatial_smooth ty A (Z.of_nat l) fb = Ok B /\ B ==m (if fb then fwd_back true (fwd A l) else fwd A l).
Proof.
  intros HT Hl. destruct (smooth_value ty A l fb) as (B & E & B1 & B2 & B3); [destruct ty; [contradiction HT | discriminate | discriminate] | exact Hl |].
  exists B. split; [exact E|]. split; [destruct fb; exact B1|]. split; [destruct fb; exact B2|]. intros i j Hi Hj. rewrite B3. destruct fb; [|reflexivity]. destruct ty; [contradiction HT | | reflexivity].
  cbn [fwd_back fwd nr nc ent]. f_equal. f_equal. symmetry. apply smoothed_real; [exact HT | lia | lia | exact Hl].
Qed.
Lemma fwd_back_split F : nr F = nc F -> fwd_back true F ==m mscal (RtoC (/ 2)) (madd F (mconj (flip F))).
Proof. intros H. split; [reflexivity|]. split; [reflexivity|]. intros i j Hi Hj. cbn [fwd_back mscal madd mconj mmap flip nr nc ent]. now rewrite <- H. Qed.
Lemma half_double (z : C) : (RtoC (/ 2) * (z + z) = z)%C.
Proof. destruct z as [a b]. apply C_eq; cbn; field. Qed.
Lemma Symmetric_meq {T} {A B : mat T} : A ==m B -> B ==m A. Proof. intros H. now symmetry. Qed.
Theorem C56_hermitian_psd_toeplitz : forall ty A l fb, well_typed ty A -> (1 <= l <= nr A)%nat ->
  exists B, spatial_smooth ty A (Z.of_nat l) fb = Ok B /\
    (hermitian A -> hermitian B) /\ (psd A -> psd B) /\ (toeplitz A -> toeplitz B) /\
    (hermitian A -> toeplitz A -> B ==m block A 0 (nr A - l + 1)) /\
    (fb = true -> centro_hermitian B).
Proof.
  intros ty A l fb HT Hl. destruct (smooth_typed ty A l fb HT Hl) as (B & E & HB). exists B. split; [exact E|].
  assert (TS : toeplitz A -> forall i a b, (i + a < nr A)%nat -> (i + b < nr A)%nat -> ent A (i + a) (i + b) = ent A a b).
  { intros [_ T] i. induction i as [|i IH]; intros a b Ha Hb; [reflexivity|]. replace (S i + a)%nat with (i + a + 1)%nat by lia. replace (S i + b)%nat with (i + b + 1)%nat by lia. rewrite T by lia. apply IH; lia. }
  assert (FL : toeplitz A -> forall a b, (a < nr A - l + 1)%nat -> (b < nr A - l + 1)%nat -> smoothed A l a b = ent A a b).
  { intros T a b Ha Hb. unfold smoothed. rewrite (csum_ext l _ (fun _ => ent A a b)) by (intros i Hi; apply TS; [exact T | lia | lia]). rewrite csum_const.
    rewrite Cmult_assoc, <- RtoC_mult, Rinv_l by (apply not_0_INR; lia). ring. }
  repeat split.
  - destruct HB as (B1 & B2 & _). rewrite B1, B2. now destruct fb.
  - revert H. change (hermitian A -> forall i j, (i < nr B)%nat -> (j < nr B)%nat -> ent B i j = Cconj (ent B j i)). intros H.
    enough (HH : hermitian B) by apply HH. apply (hermitian_eq _ _ (Symmetric_meq HB)). destruct fb; [|now apply fwd_hermitian].
    apply (hermitian_eq _ _ (Symmetric_meq (fwd_back_split (fwd A l) eq_refl))). apply hermitian_mscal, hermitian_madd; [reflexivity | now apply fwd_hermitian | apply mconj_hermitian, flip_hermitian; now apply fwd_hermitian].
  - destruct HB as (B1 & B2 & _). rewrite B1, B2. now destruct fb.
  - enough (HH : psd B) by apply HH. apply (psd_eq _ _ (Symmetric_meq HB)). destruct fb; [|now apply fwd_psd].
    apply (psd_eq _ _ (Symmetric_meq (fwd_back_split (fwd A l) eq_refl))). apply psd_mscal; [lra|]. apply psd_madd; [reflexivity | now apply fwd_psd | apply mconj_psd, flip_psd; now apply fwd_psd].
  - enough (HH : psd B) by apply HH. apply (psd_eq _ _ (Symmetric_meq HB)). destruct fb; [|now apply fwd_psd].
    apply (psd_eq _ _ (Symmetric_meq (fwd_back_split (fwd A l) eq_refl))). apply psd_mscal; [lra|]. apply psd_madd; [reflexivity | now apply fwd_psd | apply mconj_psd, flip_psd; now apply fwd_psd].
  - destruct HB as (B1 & B2 & _). rewrite B1, B2. now destruct fb.
  - intros i j Hi Hj. destruct HB as (B1 & B2 & B3). assert (NB : nr B = (nr A - l + 1)%nat) by (rewrite B1; now destruct fb). assert (NC : nc B = (nr A - l + 1)%nat) by (rewrite B2; now destruct fb).
    rewrite !B3 by lia. destruct H as [Hs T]. destruct fb; cbn [fwd_back fwd nr nc ent].
    + assert (TT : toeplitz A) by (split; assumption). rewrite !FL by (assumption || lia). f_equal. f_equal; [apply T; lia|]. f_equal.
      replace (nr A - l + 1 - 1 - i)%nat with (nr A - l + 1 - 1 - (i + 1) + 1)%nat by lia. replace (nr A - l + 1 - 1 - j)%nat with (nr A - l + 1 - 1 - (j + 1) + 1)%nat by lia. symmetry. apply T; lia.
    + assert (TT : toeplitz A) by (split; assumption). rewrite !FL by (assumption || lia). apply T; lia.
  - destruct HB as (B1 & B2 & _). rewrite B1. now destruct fb.
  - destruct HB as (B1 & B2 & _). rewrite B2. now destruct fb.
  - intros i j Hi Hj. destruct HB as (B1 & B2 & B3). assert (NB : nr B = (nr A - l + 1)%nat) by (rewrite B1; now destruct fb). assert (NC : nc B = (nr A - l + 1)%nat) by (rewrite B2; now destruct fb).
    rewrite !B3 by lia. cbn [block ent Nat.add]. destruct fb; cbn [fwd_back fwd nr nc ent]; rewrite !FL by (assumption || lia); [|reflexivity].
    assert (EC : Cconj (ent A (nr A - l + 1 - 1 - i) (nr A - l + 1 - 1 - j)) = ent A i j).
    { destruct H as [Hs He]. rewrite <- He by lia. destruct (Nat.le_ge_cases (i + j) (nr A - l)) as [L|L].
      - rewrite <- (TS H0 (nr A - l - i - j)%nat i j) by lia. f_equal; lia.
      - pose proof (TS H0 (i + j - (nr A - l))%nat (nr A - l + 1 - 1 - j)%nat (nr A - l + 1 - 1 - i)%nat ltac:(lia) ltac:(lia)) as X. rewrite <- X. f_equal; lia. }
    rewrite EC. apply half_double.
  - destruct HB as (B1 & B2 & _). rewrite B1, B2. now destruct fb.
  - intros i j Hi Hj. subst fb. destruct HB as (B1 & B2 & B3). cbn [fwd_back fwd nr nc ent] in B1, B2. rewrite !B3 by lia. rewrite B1. cbn [fwd_back fwd nr nc ent].
    replace (nr A - l + 1 - 1 - (nr A - l + 1 - 1 - i))%nat with i by lia. replace (nr A - l + 1 - 1 - (nr A - l + 1 - 1 - j))%nat with j by lia.
    rewrite Cmult_conj, Cconj_RtoC, Cplus_conj, Cconj_conj. f_equal. ring.
Qed.
Theorem C56_forward_backward_idempotent : forall ty A l B, well_typed ty A -> (1 <= l <= nr A)%nat -> spatial_smooth ty A (Z.of_nat l) true = Ok B ->
  exists B', spatial_smooth ty B 1 true = Ok B' /\ B' ==m B.
Proof.
  intros ty A l B HT Hl E. destruct (C56_hermitian_psd_toeplitz ty A l true HT Hl) as (B0 & E0 & _ & _ & _ & _ & HC). rewrite E in E0. injection E0 as <-. specialize (HC eq_refl).
  destruct (smooth_typed ty A l true HT Hl) as (B0 & E0 & HB). rewrite E in E0. injection E0 as <-.
  assert (NB : nr B = (nr A - l + 1)%nat) by (destruct HB as (-> & _); reflexivity).
  assert (HT' : well_typed ty B).
  { destruct ty; [contradiction HT | | exact I]. intros i j Hi Hj. destruct HB as (B1 & B2 & B3). cbn [fwd_back fwd nr nc] in B1, B2. rewrite B3 by lia. cbn [fwd_back fwd nr nc ent].
    rewrite smoothed_real by (assumption || lia). 
    assert (R1 : forall a b, (a < nr A - l + 1)%nat -> (b < nr A - l + 1)%nat -> Im (smoothed A l a b) = 0).
    { intros a b Ha Hb. pose proof (smoothed_real A l a b HT Ha Hb Hl) as X. apply (f_equal Im) in X. rewrite Im_conj in X. lra. }
    rewrite Im_mult, Re_RtoC, Im_RtoC, Im_plus, !R1 by lia. ring. }
  destruct (smooth_typed ty B 1 true HT' ltac:(lia)) as (B' & E' & HB'). exists B'. split; [exact E'|]. destruct HC as [HS HC].
  destruct HB' as (X1 & X2 & X3). cbn [fwd_back fwd nr nc] in X1, X2. split; [lia|]. split; [lia|]. intros i j Hi Hj. rewrite X3 by assumption. cbn [fwd_back fwd nr nc ent].
  assert (S1 : forall a b, smoothed B 1 a b = ent B a b). { intros a b. unfold smoothed. cbn [INR]. rewrite Rinv_1. change (csum 1 (fun i0 => ent B (i0 + a) (i0 + b))) with (RtoC 0 + ent B a b)%C. ring. }
  rewrite !S1. replace (nr B - 1 + 1 - 1 - i)%nat with (nr B - 1 - i)%nat by lia. replace (nr B - 1 + 1 - 1 - j)%nat with (nr B - 1 - j)%nat by lia. rewrite <- HC by lia. apply half_double.
Qed.
Example C56_example : let A := mid 3 in well_typed MComplex A /\ hermitian A /\ toeplitz A /\ exists B, spatial_smooth MComplex A 2 true = Ok B /\ B ==m mid 2.
Proof.
  cbv zeta. assert (H : hermitian (mid 3)) by apply hermitian_mid. assert (T : toeplitz (mid 3)). { split; [reflexivity|]. intros i j Hi Hj. cbn [mid ent]. destruct (Nat.eqb_spec i j), (Nat.eqb_spec (i + 1) (j + 1)); reflexivity || lia. }
  split; [exact I|]. split; [exact H|]. split; [exact T|]. destruct (C56_hermitian_psd_toeplitz MComplex (mid 3) 2 true I ltac:(cbn; lia)) as (B & E & _ & _ & _ & HB & _).
  exists B. split; [exact E|]. exact (HB H T).
Qed.

(** C57: l1_svd.  The thin SVD: Y = U diag(s) Vh with orthonormal columns of U and rows of Vh. *)
Definition thin_svd (Y U : cmat) (s : list R) (Vh : cmat) : Prop :=
  let r := Nat.min (nr Y) (nc Y) in
  nr U = nr Y /\ nc U = r /\ List.length s = r /\ nr Vh = r /\ nc Vh = nc Y /\
  Y ==m U *m mdiag r (fun i => RtoC (nth i s 0)) *m Vh /\ Vh *m mher Vh ==m mid r /\ mher U *m U ==m mid r.
(** the first k right singular vectors as columns, and the discarded part of Y (left singular vectors k, k+1, ...) *)
Definition leading (Vh : cmat) (k : nat) : cmat := Mat (nc Vh) k (fun i j => Cconj (ent Vh j i)).
Definition discarded (U : cmat) (s : list R) (k : nat) : cmat := Mat (nr U) (nc U - k) (fun i j => ent U i (k + j) * RtoC (nth (k + j) s 0))%C.
Theorem C57_l1_svd : forall svd Y U s Vh (k : nat), svd Y = Ok (U, s, Vh) -> thin_svd Y U s Vh -> (k <= Nat.min (nr Y) (nc Y))%nat ->
  exists Ysv, l1_svd svd Y (Z.of_nat k) = Ok Ysv /\ nr Ysv = nr Y /\ nc Ysv = k /\
    Ysv ==m Y *m leading Vh k /\
    Y *m mher Y ==m Ysv *m mher Ysv +m discarded U s k *m mher (discarded U s k) /\
    (Y *m mher Y ==m Ysv *m mher Ysv <-> forall i, (k <= i < Nat.min (nr Y) (nc Y))%nat -> nth i s 0 = 0).
Proof.
  intros svd Y U s Vh k HS (U1 & U2 & S1 & V1 & V2 & HY & HV & HU) Hk. set (r := Nat.min (nr Y) (nc Y)) in *.
  unfold l1_svd. rewrite HS. cbn [bind]. unfold col_slice, slice_bounds. rewrite pslice_prefix.
  assert (CB : clip_bound (nc U) (Z.of_nat k) = k). { unfold clip_bound. destruct (Z.ltb_spec (Z.of_nat k) 0); [lia|]. rewrite U2. lia. }
  rewrite CB, Nat.sub_0_r. cbn [nr nc ent]. rewrite firstn_length, S1, Nat.min_l by exact Hk. rewrite Nat.eqb_refl. cbn [negb].
  eexists. split; [reflexivity|]. set (Ysv := Mat _ _ _). split; [exact U1|]. split; [reflexivity|].
  assert (EY : forall i j, (i < nr Y)%nat -> (j < k)%nat -> ent Ysv i j = (ent U i j * RtoC (nth j s 0))%C). { intros i j Hi Hj. unfold Ysv. cbn [ent Nat.add]. now rewrite nth_firstn_lt by exact Hj. }
  assert (HYe : forall i c, (i < nr Y)%nat -> (c < nc Y)%nat -> ent Y i c = csum r (fun q => ent U i q * RtoC (nth q s 0) * ent Vh q c)%C).
  { intros i c Hi Hc. destruct HY as (_ & _ & HY). rewrite HY by assumption. cbn [mmul ent nc mdiag]. apply csum_ext. intros q Hq. f_equal. rewrite U2.
    rewrite (csum_single r _ q Hq) by (intros t Ht Nt; destruct (Nat.eqb_spec t q); [lia | ring]). now rewrite Nat.eqb_refl. }
  assert (HVe : forall p q, (p < r)%nat -> (q < r)%nat -> csum (nc Y) (fun c => ent Vh p c * Cconj (ent Vh q c))%C = if Nat.eqb p q then RtoC 1 else RtoC 0).
  { intros p q Hp Hq. destruct HV as (_ & _ & HV). specialize (HV p q). cbn [mmul mher nr nc ent mid] in HV. rewrite V1, V2 in HV. apply HV; assumption. }
  split.
  { split; [exact U1|]. split; [reflexivity|]. intros i j Hi Hj. change (nr Ysv) with (nr U) in Hi. change (nc Ysv) with k in Hj. rewrite EY by lia. cbn [mmul leading ent nc].
    rewrite (csum_ext _ _ (fun c => csum r (fun q => ent U i q * RtoC (nth q s 0) * (ent Vh q c * Cconj (ent Vh j c))))%C).
    2:{ intros c Hc. rewrite HYe by lia. rewrite <- csum_scal_r. apply csum_ext. intros; ring. }
    rewrite csum_swap. rewrite (csum_ext r _ (fun q => ent U i q * RtoC (nth q s 0) * (if Nat.eqb q j then RtoC 1 else RtoC 0))%C).
    2:{ intros q Hq. rewrite csum_scal. rewrite HVe by lia. reflexivity. }
    rewrite (csum_single r _ j) by (lia || (intros t Ht Nt; destruct (Nat.eqb_spec t j); [lia | ring])). rewrite Nat.eqb_refl. ring. }
  assert (GY : forall i j, (i < nr Y)%nat -> (j < nr Y)%nat -> ent (Y *m mher Y) i j = csum r (fun q => ent U i q * RtoC (nth q s 0) * Cconj (ent U j q * RtoC (nth q s 0)))%C).
  { intros i j Hi Hj. cbn [mmul mher ent nc].
    rewrite (csum_ext _ _ (fun c => csum r (fun p => csum r (fun q => ent U i p * RtoC (nth p s 0) * Cconj (ent U j q * RtoC (nth q s 0)) * (ent Vh p c * Cconj (ent Vh q c)))))%C).
    2:{ intros c Hc. rewrite !HYe by lia. rewrite csum_conj, <- csum_scal_r. apply csum_ext. intros p Hp. rewrite <- csum_scal. apply csum_ext. intros q Hq. rewrite !Cmult_conj. ring. }
    rewrite csum_swap. apply csum_ext. intros p Hp. rewrite csum_swap. rewrite (csum_ext r _ (fun q => ent U i p * RtoC (nth p s 0) * Cconj (ent U j q * RtoC (nth q s 0)) * (if Nat.eqb p q then RtoC 1 else RtoC 0))%C).
    2:{ intros q Hq. rewrite csum_scal. rewrite HVe by lia. reflexivity. }
    rewrite (csum_single r _ p) by (lia || (intros t Ht Nt; destruct (Nat.eqb_spec p t); [lia | ring])). rewrite Nat.eqb_refl. ring. }
  assert (SPL : forall i j, (i < nr Y)%nat -> (j < nr Y)%nat -> ent (Y *m mher Y) i j = (ent (Ysv *m mher Ysv) i j + ent (discarded U s k *m mher (discarded U s k)) i j)%C).
  { intros i j Hi Hj. rewrite GY by assumption. replace r with (k + (r - k))%nat by lia. rewrite csum_app. f_equal.
    - cbn [mmul mher ent nc Ysv]. apply csum_ext. intros q Hq. fold Ysv. change (Mat (nr U) k _) with Ysv. rewrite <- !EY by assumption. reflexivity.
    - cbn [mmul mher ent nc discarded]. rewrite U2. reflexivity. }
  split.
  { split; [cbn; congruence|]. split; [cbn; congruence|]. intros i j Hi Hj. cbn [mmul mher nr nc] in Hi, Hj. cbn [madd ent]. now rewrite <- SPL. }
  assert (TR : forall q, (q < r)%nat -> csum (nr Y) (fun i => Cconj (ent U i q) * ent U i q)%C = RtoC 1).
  { intros q Hq. destruct HU as (_ & _ & HU). specialize (HU q q). cbn [mmul mher nr nc ent mid] in HU. rewrite U1, U2, Nat.eqb_refl in HU. apply HU; assumption. }
  split.
  - intros HE.
    assert (Z0 : forall i, (i < nr Y)%nat -> ent (discarded U s k *m mher (discarded U s k)) i i = RtoC 0).
    { intros i Hi. pose proof (SPL i i Hi Hi) as X. destruct HE as (_ & _ & HE). rewrite HE in X by (cbn; lia). 
      set (z := ent (discarded U s k *m mher (discarded U s k)) i i) in *. set (w := ent (Ysv *m mher Ysv) i i) in *. replace z with (w + z - w)%C by ring. rewrite <- X. ring. }
    assert (SUM : rsum (r - k) (fun j => nth (k + j) s 0 * nth (k + j) s 0) = 0).
    { assert (X : csum (nr Y) (fun i => ent (discarded U s k *m mher (discarded U s k)) i i) = RtoC 0) by (apply csum_0; exact Z0).
      cbn [mmul mher ent nc discarded] in X. rewrite U2 in X. rewrite csum_swap in X.
      rewrite (csum_ext (r - k) _ (fun j => RtoC (nth (k + j) s 0 * nth (k + j) s 0))) in X; [rewrite csum_RtoC in X; now injection X|].
      intros j Hj. rewrite (csum_ext _ _ (fun i => RtoC (nth (k + j) s 0 * nth (k + j) s 0) * (Cconj (ent U i (k + j)) * ent U i (k + j))))%C.
      2:{ intros i Hi. rewrite Cmult_conj, Cconj_RtoC, RtoC_mult. ring. }
      rewrite csum_scal, TR by lia. ring. }
    intros i Hi. pose proof (rsum_nonneg_0 (r - k) (fun j => nth (k + j) s 0 * nth (k + j) s 0) ltac:(intros; apply Rle_0_sqr) SUM (i - k)%nat ltac:(lia)) as X. cbv beta in X.
    replace (k + (i - k))%nat with i in X by lia. destruct (Rmult_integral _ _ X); assumption.
  - intros HZ. split; [cbn; congruence|]. split; [cbn; congruence|]. intros i j Hi Hj. cbn [mmul mher nr nc] in Hi, Hj. rewrite SPL by assumption.
    assert (X : ent (discarded U s k *m mher (discarded U s k)) i j = RtoC 0).
    { cbn [mmul mher ent nc discarded]. apply csum_0. intros q Hq. rewrite U2 in Hq. rewrite HZ by lia. ring. }
    rewrite X. ring.
Qed.
Example C57_example : thin_svd (mid 2) (mid 2) [1; 1] (mid 2).
Proof.
  unfold thin_svd. cbn [mid nr nc]. cbn [Nat.min List.length]. repeat (split; [reflexivity|]). split; [|split].
  - split; [reflexivity|]. split; [reflexivity|]. intros [|[|i]] [|[|j]] Hi Hj; cbn in Hi, Hj; try lia; cbn; apply C_eq; cbn; ring.
  - split; [reflexivity|]. split; [reflexivity|]. intros [|[|i]] [|[|j]] Hi Hj; cbn in Hi, Hj; try lia; cbn; apply C_eq; cbn; ring.
  - split; [reflexivity|]. split; [reflexivity|]. intros [|[|i]] [|[|j]] Hi Hj; cbn in Hi, Hj; try lia; cbn; apply C_eq; cbn; ring.
Qed.

Print Assumptions C52_ld_stat.
Print Assumptions C53_first_minimiser.
Print Assumptions C53_no_overestimation.
Print Assumptions C54_first_minimiser.
Print Assumptions C55_spatial_smooth.
Print Assumptions C56_hermitian_psd_toeplitz.
Print Assumptions C57_l1_svd.
