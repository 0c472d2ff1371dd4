(** Phases along a uniform linear array, and the shape of the null spectrum around the sources. *)
From Coq Require Import Lra Lia Sorted Permutation.
From Coquelicot Require Import Complex.
From Verif Require Import Base_Np Base_Trig Base_Lin M_utils S_utils P_utils S_subspace P_subspace P_fta2 P_rootc P_rootc2 P_rootc3 P_invar P_pipeline P_cont4 S_offgrid P_off2.
Open Scope R_scope.

(** *** chords *)
Lemma chord_sq x y : (Cmod (cis x - cis y)%C * Cmod (cis x - cis y)%C = 4 * (sin ((x - y) / 2) * sin ((x - y) / 2)))%R.
Proof.
  rewrite Cmod_sq. pose proof (cos_2a_sin ((x - y) / 2)) as E. replace (2 * ((x - y) / 2)) with (x - y) in E by field. rewrite cos_minus in E.
  unfold Cnorm2, cis, Cminus, Cplus, Copp, Re, Im. cbn [fst snd]. pose proof (sin2_cos2 x) as T. pose proof (sin2_cos2 y) as Y. unfold Rsqr in *. nra.
Qed.
Lemma chord x y : Cmod (cis x - cis y)%C = 2 * Rabs (sin ((x - y) / 2)).
Proof.
  apply Rsqr_inj; [apply Cmod_ge_0|pose proof (Rabs_pos (sin ((x - y) / 2))); lra|]. unfold Rsqr. rewrite chord_sq.
  pose proof (Rsqr_abs (sin ((x - y) / 2))) as E. unfold Rsqr in E. rewrite E. ring.
Qed.
Lemma sin_small t : 0 <= t <= 1 / 2 -> t / 2 <= sin t.
Proof.
  intros [[H|<-] L]; [|rewrite sin_0; lra]. destruct (MVT_cor2 sin cos 0 t H ltac:(intros; apply derivable_pt_lim_sin)) as (c & E & Hc). rewrite sin_0, !Rminus_0_r in E. rewrite E.
  assert (P3 : 1 / 2 < PI / 3) by (pose proof PI2_3_2; lra). assert (cos (PI / 3) <= cos c) by (apply cos_decr_1; lra). rewrite cos_PI3 in H0. nra.
Qed.
Lemma chord_upper x y : Cmod (cis x - cis y)%C <= Rabs (x - y).
Proof.
  rewrite chord. assert (H : forall t, 0 <= t -> Rabs (sin t) <= t).
  { intros t [Ht|<-]; [|rewrite sin_0, Rabs_R0; lra]. destruct (MVT_cor2 sin cos 0 t Ht ltac:(intros; apply derivable_pt_lim_sin)) as (c & E & _). rewrite sin_0, !Rminus_0_r in E. rewrite E, Rabs_mult, (Rabs_right t) by lra.
    assert (Rabs (cos c) <= 1) by (apply Rabs_le; pose proof (COS_bound c); lra). nra. }
  set (t := (x - y) / 2). assert (E : Rabs (sin t) <= Rabs t).
  { destruct (Rle_lt_dec 0 t) as [L|L]; [rewrite (Rabs_right t) by lra; now apply H|]. rewrite (Rabs_left t) by lra. rewrite <- (Rabs_Ropp (sin t)), <- sin_neg. apply H. lra. }
  replace (Rabs (x - y)) with (2 * Rabs t); [lra|]. unfold t. unfold Rdiv. rewrite Rabs_mult, (Rabs_right (/ 2)) by lra. field.
Qed.
Lemma chord_local x y : Rabs (x - y) <= 1 -> Rabs (x - y) / 2 <= Cmod (cis x - cis y)%C.
Proof.
  intros H. rewrite chord. set (t := (x - y) / 2). assert (E : Rabs (x - y) = 2 * Rabs t) by (unfold t, Rdiv; rewrite Rabs_mult, (Rabs_right (/ 2)) by lra; field). rewrite E in *.
  assert (Rabs t / 2 <= Rabs (sin t)); [|lra]. destruct (Rle_lt_dec 0 t) as [L|L].
  - rewrite (Rabs_right t) in * by lra. pose proof (sin_small t ltac:(lra)). rewrite Rabs_right by lra. lra.
  - rewrite (Rabs_left t) in * by lra. pose proof (sin_small (- t) ltac:(lra)) as X. rewrite sin_neg in X. rewrite Rabs_left by lra. lra.
Qed.
Lemma chord_floor a b : 0 < a -> a <= b -> b < 2 * PI -> exists e, 0 < e /\ forall x y, a <= Rabs (x - y) <= b -> e <= Cmod (cis x - cis y)%C.
Proof.
  intros Ha L Hb. exists (2 * Rmin (sin (a / 2)) (sin (b / 2))). split.
  - assert (0 < sin (a / 2)) by (apply sin_gt_0; lra). assert (0 < sin (b / 2)) by (apply sin_gt_0; lra). pose proof (Rmin_glb_lt _ _ _ H H0). lra.
  - intros x y H. rewrite chord. set (t := (x - y) / 2). assert (E : Rabs (x - y) = 2 * Rabs t) by (unfold t, Rdiv; rewrite Rabs_mult, (Rabs_right (/ 2)) by lra; field). rewrite E in H.
    assert (G : forall u, a / 2 <= u <= b / 2 -> Rmin (sin (a / 2)) (sin (b / 2)) <= sin u).
    { intros u Hu. destruct (Rle_lt_dec u (PI / 2)) as [Q|Q].
      - eapply Rle_trans; [apply Rmin_l|]. apply sin_incr_1; lra.
      - eapply Rle_trans; [apply Rmin_r|]. apply sin_decr_1; lra. }
    assert (S2 : Rabs (sin t) = Rabs (sin (Rabs t))).
    { unfold Rabs at 3. destruct (Rcase_abs t); [|reflexivity]. now rewrite sin_neg, Rabs_Ropp. }
    rewrite S2. pose proof (G (Rabs t) ltac:(lra)). pose proof (Rle_abs (sin (Rabs t))). lra.
Qed.

(** *** phases *)
Definition phase (d lam : R) (u : string) (a : R) : R := 2 * PI / lam * d * sin (to_rad u a).
Lemma zof_phase d lam u a : zof d lam u a = cis (phase d lam u a). Proof. reflexivity. Qed.
Lemma sin_lip x y : Rabs (sin x - sin y) <= Rabs (x - y).
Proof.
  rewrite form4. assert (C1 : Rabs (cos ((x + y) / 2)) <= 1) by (apply Rabs_le; pose proof (COS_bound ((x + y) / 2)); lra).
  pose proof (chord_upper x y) as U. rewrite chord in U. rewrite !Rabs_mult, (Rabs_right 2) by lra. pose proof (Rabs_pos (sin ((x - y) / 2))). nra.
Qed.
Section Phase.
Variables (d lam : R) (u : string).
Hypotheses (Hd : 0 < d) (Hl : 0 < lam).
Let c := 2 * PI / lam * d.
Lemma phase_pos : 0 < c. Proof. unfold c. pose proof PI_RGT_0. apply Rmult_lt_0_compat; [apply Rdiv_lt_0_compat; lra|exact Hd]. Qed.
Lemma phase_mono a b : valid_angle u a -> valid_angle u b -> a < b -> phase d lam u a < phase d lam u b.
Proof.
  intros Va Vb L. pose proof (to_rad_range u a Va) as Ra. pose proof (to_rad_range u b Vb) as Rb. unfold phase. apply Rmult_lt_compat_l; [exact phase_pos|].
  apply sin_increasing_1; try lra. pose proof PI_RGT_0 as PP.
  destruct Va as [(-> & Ha)|[(-> & Ha)|(-> & Ha)]], Vb as [(E & Hb)|[(E & Hb)|(E & Hb)]]; try discriminate; unfold to_rad in *; cbn [String.eqb Ascii.eqb Bool.eqb] in *.
  - exact L.
  - apply Rmult_lt_compat_r; [lra|exact L].
  - now apply asin_increasing_lt || (destruct (Rle_lt_dec (asin b) (asin a)) as [Q|Q]; [|exact Q]; exfalso; assert (sin (asin b) <= sin (asin a)) by (apply sin_incr_1; lra); rewrite !sin_asin in H by lra; lra).
Qed.
Lemma phase_lip a b : valid_angle u a -> valid_angle u b -> Rabs (phase d lam u a - phase d lam u b) <= c * Rabs (a - b).
Proof.
  intros Va Vb. unfold phase. rewrite <- Rmult_minus_distr_l, Rabs_mult. fold c. pose proof phase_pos as PC. rewrite (Rabs_right c) by lra. apply Rmult_le_compat_l; [lra|]. pose proof PI_RGT_0 as PP. pose proof PI_4 as P4.
  destruct Va as [(-> & Ha)|[(-> & Ha)|(-> & Ha)]], Vb as [(E & Hb)|[(E & Hb)|(E & Hb)]]; try discriminate; unfold to_rad in *; cbn [String.eqb Ascii.eqb Bool.eqb] in *.
  - apply sin_lip.
  - eapply Rle_trans; [apply sin_lip|]. rewrite <- Rmult_minus_distr_r, Rabs_mult, (Rabs_right (PI / 180)) by lra. pose proof (Rabs_pos (a - b)). nra.
  - rewrite !sin_asin by lra. lra.
Qed.
Lemma valid_between a b x : valid_angle u a -> valid_angle u b -> a <= x <= b -> valid_angle u x.
Proof. intros [(-> & Ha)|[(-> & Ha)|(-> & Ha)]] [(E & Hb)|[(E & Hb)|(E & Hb)]] Hx; try discriminate; [left|right; left|right; right]; split; auto; lra. Qed.
Lemma phase_le a b : valid_angle u a -> valid_angle u b -> a <= b -> phase d lam u a <= phase d lam u b.
Proof. intros Va Vb [L| ->]; [left; now apply phase_mono|lra]. Qed.
(** angles that are far apart have phases that are far apart *)
Lemma phase_apart lo hi a tol : valid_angle u lo -> valid_angle u hi -> lo <= a <= hi -> 0 < tol ->
  exists e, 0 < e /\ forall x, lo <= x <= hi -> tol <= Rabs (x - a) -> e <= Rabs (phase d lam u x - phase d lam u a).
Proof.
  intros Vl Vh Ha Ht. assert (V : forall x, lo <= x <= hi -> valid_angle u x) by (intros; now apply (valid_between lo hi)).
  assert (R : exists e, 0 < e /\ forall x, lo <= x <= hi -> a + tol <= x -> e <= phase d lam u x - phase d lam u a).
  { destruct (Rle_lt_dec (a + tol) hi) as [L|L].
    - exists (phase d lam u (a + tol) - phase d lam u a). split; [assert (phase d lam u a < phase d lam u (a + tol)) by (apply phase_mono; [apply V; lra|apply V; lra|lra]); lra|].
      intros x Hx Lx. assert (phase d lam u (a + tol) <= phase d lam u x) by (apply phase_le; [apply V; lra|apply V; lra|exact Lx]). lra.
    - exists 1. split; [lra|]. intros x Hx Lx. lra. }
  assert (L : exists e, 0 < e /\ forall x, lo <= x <= hi -> x <= a - tol -> e <= phase d lam u a - phase d lam u x).
  { destruct (Rle_lt_dec lo (a - tol)) as [L|L].
    - exists (phase d lam u a - phase d lam u (a - tol)). split; [assert (phase d lam u (a - tol) < phase d lam u a) by (apply phase_mono; [apply V; lra|apply V; lra|lra]); lra|].
      intros x Hx Lx. assert (phase d lam u x <= phase d lam u (a - tol)) by (apply phase_le; [apply V; lra|apply V; lra|exact Lx]). lra.
    - exists 1. split; [lra|]. intros x Hx Lx. lra. }
  destruct R as (e1 & p1 & R), L as (e2 & p2 & L). exists (Rmin e1 e2). split; [now apply Rmin_glb_lt|]. intros x Hx H. pose proof (Rmin_l e1 e2). pose proof (Rmin_r e1 e2).
  destruct (Rle_lt_dec 0 (x - a)) as [Q|Q].
  - rewrite Rabs_right in H by lra. pose proof (R x Hx ltac:(lra)). rewrite Rabs_right by lra. lra.
  - rewrite Rabs_left in H by lra. pose proof (L x Hx ltac:(lra)). rewrite Rabs_left by lra. lra.
Qed.
End Phase.

(** *** the null spectrum: floor away from the sources, quadratic growth at the sources *)
(** f is at least a multiple of the squared polynomial with the zeros exp(i p) *)
Definition above_zeros (ps : list R) (f : R -> R) : Prop :=
  exists kap, 0 < kap /\ forall x, kap * (Cmod (lin_prod (map cis ps) (cis x)) * Cmod (lin_prod (map cis ps) (cis x))) <= f x.
Section Shape.
Variables (ps : list R) (plo phi : R) (f : R -> R).
Let zs := map cis ps.
Hypotheses (Wd : phi - plo <= 2 * PI) (In_ : forall p, In p ps -> plo < p < phi) (ND : NoDup ps) (AZ : above_zeros ps f).

Lemma shape_nodup : NoDup zs.
Proof.
  apply NoDup_map_in; [exact ND|]. intros p q Ip Iq E. destruct (Req_dec p q) as [|NQ]; [assumption|exfalso]. pose proof (In_ p Ip). pose proof (In_ q Iq).
  assert (Ha : 0 < Rabs (p - q)) by (apply Rabs_pos_lt; lra). assert (Hb : Rabs (p - q) < 2 * PI) by (apply Rabs_def1; lra).
  destruct (chord_floor (Rabs (p - q)) (Rabs (p - q)) Ha ltac:(lra) Hb) as (e & He & H1). pose proof (H1 p q ltac:(lra)) as X. rewrite E in X.
  replace (cis q - cis q)%C with (RtoC 0) in X by ring. rewrite Cmod_0 in X. lra.
Qed.
Lemma inner_gap : exists g, 0 < g /\ forall p x, In p ps -> plo <= x <= phi -> Rabs (x - p) <= 2 * PI - g.
Proof.
  destruct (list_eps (fun p e => plo + e <= p <= phi - e) ps) as (g & Hg & H).
  - intros a e e' H1 H2 H3. lra.
  - intros p Ip. pose proof (In_ p Ip). exists (Rmin (p - plo) (phi - p)). split; [apply Rmin_glb_lt; lra|]. pose proof (Rmin_l (p - plo) (phi - p)). pose proof (Rmin_r (p - plo) (phi - p)). lra.
  - exists g. split; [exact Hg|]. intros p x Ip Hx. pose proof (H p Ip). apply Rabs_le. lra.
Qed.
Lemma shape_floor r : 0 < r -> exists D, 0 < D /\ forall x, plo <= x <= phi -> (forall p, In p ps -> r <= Rabs (x - p)) -> D <= f x.
Proof.
  intros Hr. destruct AZ as (kap & Hk & HL). fold zs in HL. destruct inner_gap as (g & Hg & HG). pose proof PI_RGT_0 as PP.
  set (g' := Rmin g PI). assert (G1 : 0 < g') by (apply Rmin_glb_lt; lra). pose proof (Rmin_l g PI) as G2. pose proof (Rmin_r g PI) as G3. fold g' in G2, G3.
  set (r' := Rmin r PI). assert (R1 : 0 < r') by (apply Rmin_glb_lt; lra). pose proof (Rmin_l r PI) as R2. pose proof (Rmin_r r PI) as R3. fold r' in R2, R3.
  destruct (chord_floor r' (2 * PI - g') R1 ltac:(lra) ltac:(lra)) as (e & He & HC).
  exists (kap * (e ^ List.length zs * e ^ List.length zs)). assert (P0 : 0 < e ^ List.length zs) by (now apply pow_lt). split; [apply Rmult_lt_0_compat; [exact Hk|nra]|].
  intros x Hx HF. eapply Rle_trans; [|apply HL]. apply Rmult_le_compat_l; [lra|].
  assert (L : e ^ List.length zs <= Cmod (lin_prod zs (cis x))).
  { apply lin_prod_lower; [lra|]. intros w Iw. apply in_map_iff in Iw as (p & <- & Ip). apply HC. pose proof (HF p Ip). pose proof (HG p x Ip Hx). lra. }
  nra.
Qed.
Lemma shape_growth p : In p ps -> exists kap r, 0 < kap /\ 0 < r /\ forall x, Rabs (x - p) <= r -> kap * (x - p) ^ 2 <= f x.
Proof.
  intros Ip. destruct AZ as (kap & Hk & HL). fold zs in HL. destruct (in_split p ps Ip) as (l1 & l2 & E).
  assert (OTH : forall q, In q (l1 ++ l2) -> In q ps /\ q <> p).
  { intros q Iq. assert (N2 : NoDup (l1 ++ p :: l2)) by (rewrite <- E; exact ND). apply NoDup_remove_2 in N2. split; [rewrite E; apply in_app_or in Iq as [I|I]; apply in_or_app; [now left|right; now right]|]. intros ->. contradiction. }
  destruct (list_eps (fun q e => 2 * e <= Cmod (cis p - cis q)%C) (l1 ++ l2)) as (e & He & HE).
  - intros a e e' H1 H2 H3. lra.
  - intros q Iq. destruct (OTH q Iq) as (Iq' & NQ). pose proof (In_ p Ip). pose proof (In_ q Iq').
    assert (Ha : 0 < Rabs (p - q)) by (apply Rabs_pos_lt; lra). assert (Hb : Rabs (p - q) < 2 * PI) by (apply Rabs_def1; lra).
    destruct (chord_floor (Rabs (p - q)) (Rabs (p - q)) Ha ltac:(lra) Hb) as (e & He & H1). exists (e / 2). split; [lra|]. pose proof (H1 p q ltac:(lra)). lra.
  - set (m := List.length (map cis (l1 ++ l2))). exists (kap * ((e ^ m * e ^ m) / 4)), (Rmin e 1). assert (P0 : 0 < e ^ m) by (now apply pow_lt).
    split; [apply Rmult_lt_0_compat; [exact Hk|nra]|]. split; [apply Rmin_glb_lt; lra|]. intros x Hx. pose proof (Rmin_l e 1). pose proof (Rmin_r e 1). eapply Rle_trans; [|apply HL].
    assert (L1 : Rabs (x - p) / 2 <= Cmod (cis x - cis p)%C) by (apply chord_local; lra).
    assert (L2 : e ^ m <= Cmod (lin_prod (map cis (l1 ++ l2)) (cis x))).
    { apply lin_prod_lower; [lra|]. intros w Iw. apply in_map_iff in Iw as (q & <- & Iq). pose proof (HE q Iq). pose proof (chord_upper x p) as U.
      pose proof (Cmod_triangle (cis p - cis x)%C (cis x - cis q)%C) as T. replace (cis p - cis x + (cis x - cis q))%C with (cis p - cis q)%C in T by ring.
      assert (S0 : Cmod (cis p - cis x)%C = Cmod (cis x - cis p)%C) by (rewrite <- Cmod_opp; f_equal; ring). lra. }
    assert (EP : Cmod (lin_prod zs (cis x)) = Cmod (cis x - cis p)%C * Cmod (lin_prod (map cis (l1 ++ l2)) (cis x))).
    { rewrite <- Cmod_mult. f_equal. unfold zs. rewrite E. rewrite (lin_prod_perm _ (cis p :: map cis (l1 ++ l2))); [reflexivity|].
      rewrite <- map_cons. apply Permutation_map. symmetry. apply Permutation_middle. }
    rewrite EP. set (c1 := Cmod (cis x - cis p)%C) in *. set (c2 := Cmod (lin_prod _ _)) in *. rewrite Rmult_assoc. apply Rmult_le_compat_l; [lra|].
    assert (Q1 : (x - p) ^ 2 = Rabs (x - p) * Rabs (x - p)) by (pose proof (Rsqr_abs (x - p)) as S0; unfold Rsqr in S0; rewrite <- S0; ring). rewrite Q1.
    pose proof (Rabs_pos (x - p)) as A0. set (t := Rabs (x - p)) in *.
    assert (X : (t / 2) * e ^ m <= c1 * c2) by (apply Rmult_le_compat; lra).
    assert (Y : 0 <= (t / 2) * e ^ m) by (apply Rmult_le_pos; lra).
    replace (e ^ m * e ^ m / 4 * (t * t)) with ((t / 2 * e ^ m) * (t / 2 * e ^ m)) by field. apply Rmult_le_compat; assumption.
Qed.
End Shape.

(** the null spectrum of sources on the unit circle *)
Section Noise.
Variables (n : nat) (ps : list R) (En : cmat).
Let zs := map cis ps.
Hypotheses (ND : NoDup zs) (NE : nr En = n) (ON : orthonormal En) (Lk : (List.length ps < n)%nat) (NS : forall a, proj_power En a = 0 <-> in_span (ula_matrix n zs) a).
Let f x := proj_power En (fun i => cpow (cis x) i).
Lemma noise_above : above_zeros ps f.
Proof.
  destruct (noise_lower En n zs NE ON ND) as (kap & Hk & H); [unfold zs; rewrite map_length; exact Lk|exact NS|]. exists kap. split; [exact Hk|]. intros x. apply H.
Qed.
Lemma noise_zero p : In p ps -> f p = 0.
Proof.
  intros Ip. apply NS. assert (Iz : In (cis p) zs) by (apply in_map; exact Ip). apply In_nth with (d := RtoC 0) in Iz as (j & Hj & Ej).
  exists (fun i => if Nat.eqb i j then RtoC 1 else RtoC 0). intros i Hi. cbn [ula_matrix nr] in Hi. unfold mvec. cbn [ula_matrix nc ent]. rewrite (csum_single _ _ j Hj).
  - rewrite Nat.eqb_refl, Ej. ring.
  - intros k Hk NK. apply Nat.eqb_neq in NK. rewrite NK. ring.
Qed.
End Noise.
