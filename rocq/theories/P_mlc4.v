(** Near-optimal WSF fits have directions near the true ones (conclusion). *)
From Coq Require Import Sorting.Permutation Sorting.Sorted.
From Verif Require Import Base_Np Base_Lin M_utils S_utils S_subspace S_stable S_ml P_utils P_subspace P_subspace2 P_subspace3 P_spectral P_perf3 P_ml3 P_ml4 P_ml6 P_oracles P_stable P_stable2 P_stable3 P_cont4 P_pipeline P_mlc P_mlc2 P_mlc3.
Open Scope C_scope.

Definition wsf_fit (w : list R) (E : cmat) (m k : nat) : cmat := Es_of E m k *m mdiag k (fun c => RtoC (wsf_weight (noise_mean w m k) (nth (m - k + c) w 0%R))) *m mher (Es_of E m k).

Lemma mean_close n f (s e : R) : (0 < n)%nat -> (forall i, (i < n)%nat -> (Rabs (f i - s) <= e)%R) -> (Rabs (rsum n f / INR n - s) <= e)%R.
Proof.
  intros Hn H. assert (Np : (0 < INR n)%R) by (now apply lt_0_INR). assert (U : (rsum n f <= INR n * (s + e))%R) by (rewrite <- rsum_const; apply rsum_le; intros i Hi; specialize (H i Hi); apply Rcomplements.Rabs_le_between in H; lra).
  assert (L : (INR n * (s - e) <= rsum n f)%R) by (rewrite <- rsum_const; apply rsum_le; intros i Hi; specialize (H i Hi); apply Rcomplements.Rabs_le_between in H; lra).
  apply Rcomplements.Rabs_le_between. assert (X : (rsum n f = INR n * (rsum n f / INR n))%R) by (field; lra). rewrite X in U, L. apply Rmult_le_reg_l in U; [|exact Np]. apply Rmult_le_reg_l in L; [|exact Np]. lra.
Qed.
Lemma vlen_unit m z : Cmod z = 1%R -> (vlen m (fun i => cpow z i) = sqrt (INR m))%R.
Proof. intros H. unfold vlen. f_equal. unfold vnorm2. rewrite (rsum_ext _ _ (fun _ => 1%R)); [rewrite rsum_const; ring|]. intros i _. apply Cnorm2_one. rewrite P_fta.Cmod_cpow, H. apply pow1. Qed.

(** bounds of the WSF weights near an exact covariance *)
Lemma weight_bounds s d L l n e : (0 <= s)%R -> (0 < d)%R -> (0 <= e <= d / 4)%R -> (s + d - e <= l <= L + e)%R -> (Rabs (n - s) <= e)%R -> (0 < L)%R ->
  ((d / 2) * (d / 2) / (L + d) <= wsf_weight n l <= (L + 2 * d) * (L + 2 * d) / (d / 2))%R.
Proof.
  intros Hs Hd He Hl Hn HL. apply Rcomplements.Rabs_le_between in Hn. unfold wsf_weight. assert (lp : (d / 2 <= l)%R) by lra. assert (x1 : (d / 2 <= l - n)%R) by lra. assert (x2 : (l - n <= L + 2 * d)%R) by lra.
  split; unfold Rdiv; apply Rmult_le_compat.
  - nra.
  - left. apply Rinv_0_lt_compat. lra.
  - apply Rmult_le_compat; lra.
  - apply Rinv_le_contravar; lra.
  - nra.
  - left. apply Rinv_0_lt_compat. lra.
  - apply Rmult_le_compat; lra.
  - apply Rinv_le_contravar; lra.
Qed.

Lemma wsf_conv m zs (Rm P0 : cmat) s tol : NoDup zs -> (forall z, In z zs -> Cmod z = 1%R) -> (1 <= List.length zs < m)%nat -> exact_cov Rm (ula_matrix m zs) P0 s -> pd P0 -> (0 <= s)%R -> (0 < tol)%R ->
  exists eps, (0 < eps)%R /\ forall (Rm' P P' : cmat) zs' w' E', hermitian Rm' -> nr Rm' = m -> (distance Rm Rm' < eps)%R -> eigh_ok Rm' w' E' -> List.length zs' = List.length zs -> (forall w, In w zs' -> Cmod w = 1%R) ->
    orth_projector_onto (ula_matrix m zs) P -> orth_projector_onto (ula_matrix m zs') P' ->
    (Re (mtrace ((mid m -m P') *m wsf_fit w' E' m (List.length zs))) <= Re (mtrace ((mid m -m P) *m wsf_fit w' E' m (List.length zs))) + eps)%R ->
    exists z0, Permutation z0 zs' /\ Forall2 (fun a b => (Cmod (a - b)%C < tol)%R) zs z0.
Proof.
  intros ND U0 Hk HX HP Hs Ht. set (k := List.length zs) in *. set (A := ula_matrix m zs) in *. set (q := (m - k)%nat).
  assert (HA : inj A) by (apply ula_inj; [exact ND | unfold k in Hk; lia]). pose proof (exact_herm Rm A P0 s HX (proj1 HP)) as HH. destruct (ex_dims Rm A P0 s HX) as (D1 & D2). change (nr A) with m in D1, D2.
  destruct (eigh_ref_contract (nr Rm) Rm HH (le_n _)) as (w & E & _ & OE). pose proof OE as (_ & E1 & E2 & Lw & SS & _). rewrite D1 in E1, E2, Lw.
  destruct (floor_exists Rm A P0 s w E HX HA HP OE ltac:(change (nr A) with m; change (nc A) with k; lia)) as (FL & Dp). change (nr A) with m in Dp, FL. change (nc A) with k in Dp, FL. fold q in Dp, FL. set (d := (nth q w 0 - s)%R) in *.
  destruct (upper_bound m (fun i => nth i w 0%R)) as (L & Lp & HL).
  destruct (matching zs tol ND Ht) as (tau & Tp & HM).
  pose proof (pow_lt 4 k ltac:(lra)) as F4. set (g := sqrt (tau / 4 ^ k)). assert (Gp : (0 < g)%R) by (apply sqrt_lt_R0; now apply Rdiv_lt_0_compat). assert (Gs : (g * g = tau / 4 ^ k)%R) by (apply sqrt_sqrt; left; now apply Rdiv_lt_0_compat).
  assert (Mp : (0 < sqrt (INR m))%R) by (apply sqrt_lt_R0, lt_0_INR; lia).
  destruct (tilt_small d (g / 2 / sqrt (INR m)) Dp ltac:(apply Rdiv_lt_0_compat; lra)) as (e1 & (e1p & e1d) & TS).
  assert (Kp : (0 < INR k)%R) by (apply lt_0_INR; lia).
  set (h := (g / 2 / (INR k * sqrt (INR m)))%R). assert (Hp : (0 < h)%R) by (apply Rdiv_lt_0_compat; [lra | now apply Rmult_lt_0_compat]).
  set (lo := ((d / 2) * (d / 2) / (L + d))%R). assert (lop : (0 < lo)%R) by (apply Rdiv_lt_0_compat; [|lra]; apply Rmult_lt_0_compat; lra).
  set (hi := ((L + 2 * d) * (L + 2 * d) / (d / 2))%R). assert (hip : (0 < hi)%R) by (apply Rdiv_lt_0_compat; [|lra]; apply Rmult_lt_0_compat; lra).
  set (K1 := (INR k * (hi * (4 / (d * d))))%R). assert (dd : (0 < d * d)%R) by now apply Rmult_lt_0_compat. assert (K1p : (0 < K1)%R) by (apply Rmult_lt_0_compat; [exact Kp|]; apply Rmult_lt_0_compat; [exact hip|]; apply Rdiv_lt_0_compat; lra).
  set (e2 := (lo * (h * h) / (K1 + 1))%R). assert (e2p : (0 < e2)%R) by (apply Rdiv_lt_0_compat; [|lra]; apply Rmult_lt_0_compat; [exact lop | now apply Rmult_lt_0_compat]).
  set (eps := Rmin (Rmin e1 (d / 4)) (Rmin 1 e2)). assert (Ep : (0 < eps)%R) by (repeat apply Rmin_glb_lt; lra).
  assert (B1 : (eps <= e1)%R) by (unfold eps; eapply Rle_trans; [apply Rmin_l | apply Rmin_l]). assert (B2 : (eps <= d / 4)%R) by (unfold eps; eapply Rle_trans; [apply Rmin_l | apply Rmin_r]).
  assert (B3 : (eps <= 1)%R) by (unfold eps; eapply Rle_trans; [apply Rmin_r | apply Rmin_l]). assert (B4 : (eps <= e2)%R) by (unfold eps; eapply Rle_trans; [apply Rmin_r | apply Rmin_r]). clearbody eps.
  exists eps. split; [exact Ep|]. intros Rm' P P' zs' w' E' HH' R1' DS OE' LZ U OP OP' HO. set (dist := distance Rm Rm') in *. pose proof (distance_nonneg Rm Rm') as DN. fold dist in DN.
  assert (WY : forall i, (i < m)%nat -> (Rabs (nth i w 0 - nth i w' 0) <= dist)%R) by (intros i Hi; apply (weyl Rm Rm' w E w' E' i HH HH'); congruence || assumption || (rewrite D1; exact Hi)).
  assert (NM : (Rabs (noise_mean w' m k - s) <= dist)%R).
  { unfold noise_mean. apply mean_close; [lia|]. intros i Hi. pose proof (WY i ltac:(lia)) as X. rewrite (ex_noise_level Rm A P0 s w E HX HP OE i) in X by (change (nr A) with m; change (nc A) with k; exact Hi). rewrite Rabs_minus_sym. exact X. }
  set (wt := fun c => wsf_weight (noise_mean w' m k) (nth (m - k + c) w' 0%R)).
  assert (LV : forall c, (c < k)%nat -> (s + d - dist <= nth (q + c) w' 0 <= L + dist)%R).
  { intros c Hc. pose proof (WY (q + c)%nat ltac:(unfold q; lia)) as X. apply Rcomplements.Rabs_le_between in X. pose proof (HL (q + c)%nat ltac:(unfold q; lia)). pose proof (sorted_le w q (q + c)%nat SS ltac:(unfold q; lia)). unfold d. lra. }
  assert (WB : forall c, (c < k)%nat -> (lo <= wt c <= hi)%R). { intros c Hc. apply (weight_bounds s d L _ _ dist); try assumption; try lra. exact (LV c Hc). }
  assert (MW : forall B Pb, orth_projector_onto B Pb -> nr B = m -> Re (mtrace ((mid m -m Pb) *m wsf_fit w' E' m k)) = rsum k (fun c => wt c * resid B Pb (col E' (q + c)))%R).
  { intros B Pb OB HB. pose proof (wsf_trace B Pb OB k (Es_of E' m k) wt (eq_sym HB) eq_refl) as X. rewrite HB in X. exact X. }
  rewrite (MW _ P OP eq_refl), (MW _ P' OP' eq_refl) in HO.
  assert (T1 : forall c, (c < k)%nat -> (resid A P (col E' (q + c)) <= 4 / (d * d) * (dist * dist))%R).
  { intros c Hc. pose proof (wsf_truth A P OP Rm P0 s Rm' w' E' (q + c)%nat HX HH' R1' OE' ltac:(change (nr A) with m; unfold q; lia)) as X. fold dist in X. pose proof (LV c Hc) as LC. set (y := (nth (q + c) w' 0 - s)%R) in *. assert (y0 : (d / 2 <= y)%R) by (unfold y; lra).
    pose proof (vnorm2_nonneg (nr A) (mvec (mid (nr A) -m P) (col E' (q + c)))) as RN. fold (resid A P (col E' (q + c))) in RN.
    assert (Y : ((d * d) / 4 * resid A P (col E' (q + c)) <= dist * dist)%R) by (eapply Rle_trans; [|exact X]; rewrite Rmult_comm; apply Rmult_le_compat_l; [exact RN | nra]).
    apply Rmult_le_reg_l with ((d * d) / 4)%R; [lra|]. eapply Rle_trans; [exact Y|]. right. field. lra. }
  assert (OT : (rsum k (fun c => wt c * resid A P (col E' (q + c))) <= K1 * dist)%R).
  { apply Rle_trans with (rsum k (fun _ => hi * (4 / (d * d) * (dist * dist)))%R).
    - apply rsum_le. intros c Hc. apply Rmult_le_compat; [destruct (WB c Hc); lra | apply vnorm2_nonneg | apply WB; exact Hc | now apply T1].
    - rewrite rsum_const. unfold K1. rewrite !Rmult_assoc. apply Rmult_le_compat_l; [lra|]. apply Rmult_le_compat_l; [lra|]. apply Rmult_le_compat_l; [left; apply Rdiv_lt_0_compat; lra|]. nra. }
  assert (RC : forall c, (c < k)%nat -> (resid (ula_matrix m zs') P' (col E' (q + c)) <= h * h)%R).
  { intros c Hc. set (r := fun c => resid (ula_matrix m zs') P' (col E' (q + c))) in *. assert (RN : forall c, (0 <= r c)%R) by (intros; apply vnorm2_nonneg).
    assert (X : (wt c * r c <= rsum k (fun c => wt c * r c))%R) by (apply (rsum_ge k (fun c => wt c * r c)%R c Hc); intros j Hj; apply Rmult_le_pos; [destruct (WB j Hj); lra | apply RN]).
    assert (Y : (lo * r c <= wt c * r c)%R) by (apply Rmult_le_compat_r; [apply RN | apply WB; exact Hc]).
    assert (Z : (lo * r c <= lo * (h * h))%R). { apply Rle_trans with ((K1 + 1) * eps)%R; [|apply Rle_trans with ((K1 + 1) * e2)%R; [apply Rmult_le_compat_l; lra | right; unfold e2; field; lra]]. pose proof (Rmult_lt_compat_l K1 _ _ K1p DS). fold r in HO. change (rsum k (fun c => wt c * resid (ula_matrix m zs') P' (col E' (q + c)))%R) with (rsum k (fun c => wt c * r c)%R) in HO. lra. }
    apply Rmult_le_reg_l in Z; assumption. }
  apply HM; [exact LZ|]. intros z Hz. pose proof (resid_ula m zs' P' z OP' ltac:(rewrite LZ; lia) U) as RU. rewrite LZ in RU. fold k in RU. set (a := fun i => cpow z i) in *.
  assert (SA : in_span A a). { destruct (In_nth zs z (RtoC 0) Hz) as (c & Hc & Ec). exists (fun j => if Nat.eqb j c then RtoC 1 else RtoC 0). intros i Hi. unfold mvec. cbn [A ula_matrix nc ent]. rewrite (csum_single _ _ c); [|exact Hc|]; [rewrite Nat.eqb_refl, Ec; unfold a; ring|]. intros j Hj Nj. destruct (Nat.eqb_spec j c); [lia|]. ring. }
  pose proof (part_close Rm Rm' w E w' E' q a d HH HH' ltac:(congruence) OE OE' ltac:(rewrite D1; unfold q; lia)) as PC.
  pose proof (part_span_0 Rm A P0 s w E HX HA HP OE a SA) as P00. change (nr A - nc A)%nat with q in P00. change (nr A) with m in P00. rewrite D1 in PC. rewrite P00, sqrt_0, Rminus_0_r in PC.
  assert (VL : vlen m a = sqrt (INR m)) by (apply vlen_unit, U0; exact Hz). fold dist in PC. rewrite VL in PC.
  assert (GQ : (d <= nth q w 0 - nth (q - 1) w 0)%R) by (apply (floor_gap Rm A P0 s w E HX HA HP OE ltac:(change (nr A) with m; change (nc A) with k; lia) d FL)).
  specialize (PC GQ ltac:(lra)). rewrite Rabs_right in PC by (apply Rle_ge, sqrt_pos).
  pose proof (TS dist ltac:(lra)) as TL. assert (TL' : (tilt dist d * sqrt (INR m) < g / 2)%R). { apply Rmult_lt_compat_r with (r := sqrt (INR m)) in TL; [|exact Mp]. replace (g / 2 / sqrt (INR m) * sqrt (INR m))%R with (g / 2)%R in TL by (field; lra). exact TL. }
  pose proof (resid_signal (ula_matrix m zs') P' OP' Rm' w' E' q a h HH' R1' OE' ltac:(change (q <= m)%nat; unfold q; lia) ltac:(lra)) as RS. change (nr (ula_matrix m zs')) with m in RS. replace (m - q)%nat with k in RS by (unfold q; lia). specialize (RS RC). rewrite VL in RS.
  assert (HK : (INR k * sqrt (INR m) * h = g / 2)%R) by (unfold h; field; lra).
  set (r := resid (ula_matrix m zs') P' a) in *. assert (RN : (0 <= r)%R) by apply vnorm2_nonneg. assert (SQ : (sqrt r < g)%R) by lra.
  assert (RL : (r < g * g)%R) by (rewrite <- (sqrt_sqrt r RN); pose proof (sqrt_pos r); nra). rewrite Gs in RL.
  eapply Rle_lt_trans; [exact RU|]. apply Rmult_lt_compat_l with (r := (4 ^ k)%R) in RL; [|exact F4]. replace (4 ^ k * (tau / 4 ^ k))%R with tau in RL by (field; lra). exact RL.
Qed.
