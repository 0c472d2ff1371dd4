(** Continuity of the roots of a complex polynomial. *)
From Coq Require Import Sorting.Sorted Sorting.Permutation.
From Verif Require Import Base_Np Base_Lin Base_Trig S_subspace P_subspace P_subspace2 P_spectral P_fta P_fta2 P_cont4.
Open Scope C_scope.

Definition cnear (e : R) (c c' : list C) : Prop := Forall2 (fun a b => (Cmod (a - b)%C <= e)%R) c c'.
Lemma cnear_mono e e' c c' : (e <= e')%R -> cnear e c c' -> cnear e' c c'.
Proof. intros H F. refine (F2_impl_in _ _ _ _ _ F). intros a b _ HP. cbn beta in HP. lra. Qed.
Lemma Cmod_close (a b : C) t : (Cmod (a - b)%C <= t)%R -> (Cmod a - t <= Cmod b <= Cmod a + t)%R.
Proof. intros H. pose proof (Cmod_sub_abs a b) as Q. apply Rabs_le_inv in Q || idtac. unfold Rabs in Q. destruct (Rcase_abs _) in Q; lra. Qed.

(** *** evaluation is continuous in the coefficients and the point *)
Lemma pe_cnear c M tol : (0 <= M)%R -> (0 < tol)%R -> exists eps, (0 < eps)%R /\ forall c' x y, cnear eps c c' -> (Cmod x <= M)%R -> (Cmod (x - y)%C <= eps)%R -> (Cmod (pe c x - pe c' y)%C <= tol)%R.
Proof.
  intros HM. revert tol. induction c as [|a c IH]; intros tol Ht.
  - exists 1%R. split; [lra|]. intros c' x y F _ _. inversion F; subst. cbn [pe]. replace (RtoC 0 - RtoC 0)%C with (RtoC 0) by ring. rewrite Cmod_0. lra.
  - destruct (bounded c M) as (B & B0 & HB). set (t1 := Rmin 1 (tol / (3 * (M + 1)))%R).
    assert (T1 : (0 < t1)%R) by (apply Rmin_glb_lt; [lra|apply Rdiv_lt_0_compat; lra]).
    destruct (IH t1 T1) as (e1 & p1 & H1). set (e := Rmin e1 (tol / (3 * (B + 2)))%R).
    assert (Ep : (0 < e)%R) by (apply Rmin_glb_lt; [exact p1|apply Rdiv_lt_0_compat; lra]).
    exists e. split; [exact Ep|]. intros c' x y F Hx Hxy. inversion F as [|? b ? d Hab F' E1 E2]; subst. cbn [pe].
    assert (H2 : (Cmod (pe c x - pe d y)%C <= t1)%R) by (apply H1; [apply (cnear_mono e); [apply Rmin_l|exact F'] | exact Hx | pose proof (Rmin_l e1 (tol / (3 * (B + 2)))); unfold e in Hxy; lra]).
    replace (a + x * pe c x - (b + y * pe d y))%C with ((a - b) + (x * (pe c x - pe d y) + (x - y) * pe d y))%C by ring.
    eapply Rle_trans; [apply Cmod_triangle|]. eapply Rle_trans; [apply Rplus_le_compat_l, Cmod_triangle|]. rewrite !Cmod_mult.
    pose proof (Cmod_close _ _ _ H2) as (_ & Q). pose proof (HB x Hx) as Q2.
    assert (L1 : (t1 <= 1)%R) by apply Rmin_l. assert (L2 : (t1 <= tol / (3 * (M + 1)))%R) by apply Rmin_r. assert (L3 : (e <= tol / (3 * (B + 2)))%R) by apply Rmin_r.
    pose proof (Cmod_ge_0 x) as X0. pose proof (Cmod_ge_0 (pe d y)) as X1. pose proof (Cmod_ge_0 (x - y)%C) as X2. pose proof (Cmod_ge_0 (pe c x - pe d y)%C) as X3.
    assert (S1 : (Cmod x * Cmod (pe c x - pe d y)%C <= (M + 1) * (tol / (3 * (M + 1))))%R) by (apply Rmult_le_compat; lra).
    assert (S2 : (Cmod (x - y)%C * Cmod (pe d y) <= tol / (3 * (B + 2)) * (B + 1))%R) by (apply Rmult_le_compat; lra).
    replace ((M + 1) * (tol / (3 * (M + 1))))%R with (tol / 3)%R in S1 by (field; lra).
    assert (S3 : (e + tol / (3 * (B + 2)) * (B + 1) <= 2 * (tol / 3))%R).
    { assert (I : (0 < / (3 * (B + 2)))%R) by (apply Rinv_0_lt_compat; lra). assert (J : (tol / (3 * (B + 2)) * (B + 2) = tol / 3)%R) by (field; lra). unfold Rdiv in *. nra. }
    lra.
Qed.
Lemma quot_cnear c z tol : (0 < tol)%R -> exists eps, (0 < eps)%R /\ forall c' y, cnear eps c c' -> (Cmod (z - y)%C <= eps)%R -> cnear tol (quot c z) (quot c' y).
Proof.
  intros Ht. induction c as [|a c IH]; [exists 1%R; split; [lra|]; intros c' y F _; inversion F; constructor|]. destruct c as [|b c].
  - exists 1%R. split; [lra|]. intros c' y F _. inversion F as [|? ? ? ? _ F']; subst. inversion F'; subst. constructor.
  - destruct IH as (e1 & p1 & H1). destruct (pe_cnear (b :: c) (Cmod z) tol (Cmod_ge_0 z) Ht) as (e2 & p2 & H2). destruct (pick2 e1 e2 p1 p2) as (e & p & L1 & L2).
    exists e. split; [exact p|]. intros c' y F Hy. inversion F as [|? a' ? c1 _ F']; subst. pose proof F' as F''. inversion F'' as [|? b' ? c2 Hb F3]; subst. rewrite !quot_cons. constructor.
    + apply H2; [exact (cnear_mono _ _ _ _ L2 F')|lra|lra].
    + apply H1; [exact (cnear_mono _ _ _ _ L1 F')|lra].
Qed.

(** *** limits *)
Lemma pe_limit c z K (Q : C -> Prop) : (forall e, (0 < e)%R -> exists x, x <> z /\ (Cmod (x - z)%C < e)%R /\ Q x) -> (forall x, Q x -> x <> z -> (Cmod (x - z)%C < 1)%R -> (Cmod (pe c x) <= K * Cmod (x - z)%C)%R) -> pe c z = RtoC 0.
Proof.
  intros HQ HB. destruct (C_eq_dec (pe c z) (RtoC 0)) as [E|N]; [exact E|]. exfalso. assert (M0 : (0 < Cmod (pe c z))%R) by now apply Cmod_gt_0.
  destruct (lipschitz c (Cmod z + 1)) as (L & L0 & HL). set (T := (L + Rabs K + 1)%R). assert (T0 : (0 < T)%R) by (unfold T; pose proof (Rabs_pos K); lra).
  set (e := Rmin 1 (Cmod (pe c z) / T)%R). assert (e0 : (0 < e)%R) by (apply Rmin_glb_lt; [lra|now apply Rdiv_lt_0_compat]). destruct (HQ e e0) as (x & Nx & Hx & Qx).
  assert (x1 : (Cmod (x - z)%C < 1)%R) by (eapply Rlt_le_trans; [exact Hx|apply Rmin_l]). assert (x2 : (Cmod (x - z)%C < Cmod (pe c z) / T)%R) by (eapply Rlt_le_trans; [exact Hx|apply Rmin_r]).
  specialize (HB x Qx Nx x1). assert (Bx : (Cmod x <= Cmod z + 1)%R) by (replace x with ((x - z) + z)%C by ring; eapply Rle_trans; [apply Cmod_triangle|lra]).
  specialize (HL x z Bx ltac:(lra)). pose proof (Cmod_close _ _ _ HL) as (_ & Q1). pose proof (Cmod_sub_abs (pe c x) (pe c z)) as Q2. unfold Rabs in Q2. 
  assert (Q3 : (Cmod (pe c z) <= Cmod (pe c x) + L * Cmod (x - z)%C)%R) by (destruct (Rcase_abs _) in Q2; lra).
  pose proof (Rle_abs K) as KA. pose proof (Cmod_ge_0 (x - z)%C) as P0.
  assert (Q4 : (Cmod (pe c z) <= T * Cmod (x - z)%C)%R) by (unfold T; nra).
  apply (Rmult_lt_compat_l T) in x2; [|exact T0]. replace (T * (Cmod (pe c z) / T))%R with (Cmod (pe c z)) in x2 by (field; lra). lra.
Qed.
Lemma near_points z e : (0 < e)%R -> exists x : C, x <> z /\ (Cmod (x - z)%C < e)%R /\ True.
Proof.
  intros He. exists (z + RtoC (e / 2)). replace (z + RtoC (e / 2) - z)%C with (RtoC (e / 2)) by ring. rewrite Cmod_R, Rabs_right by lra. split; [|split; [lra|exact Logic.I]].
  intros E. assert (X : RtoC (e / 2) = RtoC 0) by (replace (RtoC (e / 2)) with (z + RtoC (e / 2) - z) by ring; rewrite E; ring). apply (RtoC_neq_0 (e / 2)); [lra|exact X].
Qed.
Lemma circle_points z e : Cmod z = 1%R -> (0 < e)%R -> exists x : C, x <> z /\ (Cmod (x - z)%C < e)%R /\ Cmod x = 1%R.
Proof.
  intros Hz He. set (t := Rmin (e / 2) 1%R). assert (t0 : (0 < t)%R) by (apply Rmin_glb_lt; lra). assert (t1 : (t <= 1)%R) by apply Rmin_r. assert (t2 : (t <= e / 2)%R) by apply Rmin_l.
  pose proof PI_RGT_0 as PP. pose proof PI2_1 as P1.
  assert (MC : Cmod (cis t) = 1%R) by apply cis_mod.
  exists (cis t * z). split.
  - intros E. assert (X : cis t = RtoC 1). { transitivity (cis t * z * / z); [field|rewrite E; field]; intros ->; rewrite Cmod_0 in Hz; lra. }
    apply (f_equal Im) in X. cbn in X. pose proof (sin_gt_0 t t0 ltac:(lra)). lra.
  - split; [|rewrite Cmod_mult, MC, Hz; ring]. replace (cis t * z - z)%C with ((cis t - RtoC 1) * z)%C by ring. rewrite Cmod_mult, Hz, Rmult_1_r.
    apply Rle_lt_trans with t; [|lra]. 
    assert (Q : (Cmod (cis t - RtoC 1)%C ^ 2 <= t ^ 2)%R).
    { unfold Cmod. rewrite pow2_sqrt by (apply Rplus_le_le_0_compat; apply pow2_ge_0). cbn [fst snd cis Cminus Cplus Copp RtoC]. 
      replace ((cos t + - (1)) ^ 2 + (sin t + - 0) ^ 2)%R with (cos t * cos t + sin t * sin t + 1 - 2 * cos t)%R by ring. pose proof (sin2_cos2 t) as SC. unfold Rsqr in SC.
      assert (CB : (1 - t ^ 2 / 2 <= cos t)%R). { destruct (cos_bound t 0 ltac:(lra) ltac:(lra)) as (LB & _). unfold cos_approx, cos_term in LB. cbn [sum_f_R0 Nat.mul Nat.add fact INR pow] in LB. cbn in LB. lra. }
      lra. }
    apply Rsqr_incr_0; [unfold Rsqr; lra|apply Cmod_ge_0|lra].
Qed.

(** *** products of linear factors *)
Lemma lin_prod_perm l l' x : Permutation l l' -> lin_prod l x = lin_prod l' x.
Proof. induction 1; cbn [lin_prod]; [reflexivity|congruence|ring|congruence]. Qed.
Lemma lin_prod_app l l' x : lin_prod (l ++ l') x = lin_prod l x * lin_prod l' x.
Proof. induction l as [|a l IH]; cbn [app lin_prod]; [ring|rewrite IH; ring]. Qed.
Lemma lin_prod_pe l : exists d, forall x, pe d x = lin_prod l x.
Proof.
  induction l as [|a l (d & H)]; [exists [RtoC 1]; intros x; cbn [pe lin_prod]; ring|]. exists (padd (RtoC 0 :: d) (map (fun b => (- a) * b) d)). intros x. rewrite pe_padd, pe_scal. cbn [pe lin_prod]. rewrite H. ring.
Qed.
Lemma pe_agree c d z : (forall x, x <> z -> pe c x = pe d x) -> forall x, pe c x = pe d x.
Proof.
  intros H x. destruct (C_eq_dec x z) as [->|N]; [|now apply H].
  assert (E : pe (padd c (map (fun a => (- RtoC 1) * a) d)) z = RtoC 0).
  { apply (pe_limit _ z 0 (fun _ => True)); [intros e He; exact (near_points z e He)|]. intros y _ Ny _. rewrite pe_padd, pe_scal, H by exact Ny. replace (pe d y + (- RtoC 1) * pe d y) with (RtoC 0) by ring. rewrite Cmod_0. lra. }
  rewrite pe_padd, pe_scal in E. replace (pe c z) with (pe c z + (- RtoC 1) * pe d z + pe d z); [rewrite E; ring|]. ring.
Qed.
Lemma Cdiff_0 (x z : C) : x <> z -> x - z <> RtoC 0.
Proof. intros N E. apply N. replace x with (x - z + z) by ring. rewrite E. ring. Qed.
Lemma Ccancel (u a b : C) : u <> RtoC 0 -> u * a = u * b -> a = b.
Proof. intros N E. transitivity (/ u * (u * a)); [field; exact N|]. rewrite E. field. exact N. Qed.
Lemma deflate c a z l : (forall x, pe c x = a * lin_prod (z :: l) x) -> forall x, pe (quot c z) x = a * lin_prod l x.
Proof.
  intros H. destruct (lin_prod_pe l) as (d & Hd). assert (Z : pe c z = RtoC 0) by (rewrite H; cbn [lin_prod]; ring).
  assert (A : forall x, pe (quot c z) x = pe (map (fun b => a * b) d) x).
  { apply (pe_agree _ _ z). intros x N. rewrite pe_scal, Hd. apply (Ccancel (x - z)); [now apply Cdiff_0|]. transitivity (pe c x); [rewrite (quot_spec c z x), Z; ring|]. rewrite H. cbn [lin_prod]. ring. }
  intros x. rewrite A, pe_scal, Hd. reflexivity.
Qed.
Lemma lin_len l : forall c a, a <> RtoC 0 -> (forall x, pe c x = a * lin_prod l x) -> (List.length l < List.length c)%nat.
Proof.
  induction l as [|z l IH]; intros c a Na H.
  - destruct c; [|cbn; lia]. exfalso. apply Na. specialize (H (RtoC 0)). cbn [pe lin_prod] in H. rewrite Cmult_1_r in H. now symmetry.
  - pose proof (IH (quot c z) a Na (deflate c a z l H)) as X. rewrite quot_length in X. cbn [List.length]. lia.
Qed.
Lemma lin_prod_grow l (x z : C) t : (0 <= t)%R -> (forall w, In w l -> (Cmod (x - w)%C <= t * Cmod (z - w)%C)%R) -> (Cmod (lin_prod l x) <= t ^ List.length l * Cmod (lin_prod l z))%R.
Proof.
  intros Ht. induction l as [|w l IH]; intros H; cbn [lin_prod List.length pow]; [lra|]. rewrite !Cmod_mult. specialize (H w (or_introl eq_refl)) as H1. specialize (IH (fun v Iv => H v (or_intror Iv))).
  replace (t * t ^ List.length l * (Cmod (z - w)%C * Cmod (lin_prod l z)))%R with ((t * Cmod (z - w)%C) * (t ^ List.length l * Cmod (lin_prod l z)))%R by ring.
  apply Rmult_le_compat; auto using Cmod_ge_0.
Qed.
Lemma nearby_nonroot z0 l t : (0 < t)%R -> exists x, (Cmod (x - z0)%C <= t)%R /\ ~ In x (z0 :: l).
Proof.
  intros Ht. destruct (separation (z0 :: l)) as (s & Hs & S). set (r := Rmin t (s / 2)%R). assert (r0 : (0 < r)%R) by (apply Rmin_glb_lt; lra). assert (r1 : (r <= t)%R) by apply Rmin_l. assert (r2 : (r <= s / 2)%R) by apply Rmin_r.
  assert (M : Cmod ((z0 + RtoC r) - z0)%C = r) by (replace (z0 + RtoC r - z0)%C with (RtoC r) by ring; rewrite Cmod_R, Rabs_right; lra).
  exists (z0 + RtoC r). split; [lra|]. intros I. destruct (C_eq_dec (z0 + RtoC r) z0) as [E|N]; [|specialize (S _ _ I (or_introl eq_refl) N); lra]. rewrite E in M. replace (z0 - z0)%C with (RtoC 0) in M by ring. rewrite Cmod_0 in M. lra.
Qed.

(** *** a root of a nearby polynomial near every root *)
Lemma root_near c a z0 l tol : a <> RtoC 0 -> (forall x, pe c x = a * lin_prod (z0 :: l) x) -> (0 < tol)%R ->
  exists eps, (0 < eps)%R /\ forall c' a' l', cnear eps c c' -> a' <> RtoC 0 -> (forall x, pe c' x = a' * lin_prod l' x) -> exists w, In w l' /\ (Cmod (z0 - w)%C < tol)%R.
Proof.
  intros Na H Ht. destruct (nearby_nonroot z0 l (tol / 2) ltac:(lra)) as (x & Hx & Nx).
  assert (Nq : pe c x <> RtoC 0) by (rewrite H; apply Cmult_neq_0; [exact Na|intros E; apply Nx; now apply lin_prod_0]).
  set (dl := Cmod (pe c x)). assert (dl0 : (0 < dl)%R) by now apply Cmod_gt_0. set (G := ((3 / 2) ^ List.length c)%R). assert (G0 : (0 < G)%R) by (apply pow_lt; lra).
  destruct (pe_cnear c (Cmod x) (dl / 2) (Cmod_ge_0 x) ltac:(lra)) as (e1 & p1 & H1).
  destruct (pe_cnear c (Cmod z0) (dl / (4 * G)) (Cmod_ge_0 z0) ltac:(apply Rdiv_lt_0_compat; lra)) as (e2 & p2 & H2). destruct (pick2 e1 e2 p1 p2) as (e & p & L1 & L2).
  exists e. split; [exact p|]. intros c' a' l' F Na' H'. destruct (Classical_Prop.classic (exists w, In w l' /\ (Cmod (z0 - w)%C < tol)%R)) as [Y|N]; [exact Y|]. exfalso.
  assert (Far : forall w, In w l' -> (tol <= Cmod (z0 - w)%C)%R). { intros w Iw. destruct (Rle_lt_dec tol (Cmod (z0 - w)%C)) as [Y|Y]; [exact Y|]. exfalso. apply N. now exists w. }
  assert (Gr : (Cmod (pe c' x) <= G * Cmod (pe c' z0))%R).
  { rewrite !H', !Cmod_mult. pose proof (lin_prod_grow l' x z0 (3 / 2) ltac:(lra)) as Q. assert (Q1 : (Cmod (lin_prod l' x) <= (3 / 2) ^ List.length l' * Cmod (lin_prod l' z0))%R).
    { apply Q. intros w Iw. pose proof (Far w Iw). pose proof (Cmod_tri x z0 w). lra. }
    assert (LL : (List.length l' <= List.length c)%nat) by (pose proof (lin_len l' c' a' Na' H') as LN; rewrite <- (F2_len _ _ _ F) in LN; lia).
    assert (PW : ((3 / 2) ^ List.length l' <= G)%R) by (apply Rle_pow; [lra|exact LL]).
    pose proof (Cmod_ge_0 (lin_prod l' z0)) as Z1. pose proof (Cmod_ge_0 a') as Z2.
    assert (Q2 : (Cmod (lin_prod l' x) <= G * Cmod (lin_prod l' z0))%R) by (eapply Rle_trans; [exact Q1|]; now apply Rmult_le_compat_r). nra. }
  assert (C1 : (Cmod (pe c x - pe c' x)%C <= dl / 2)%R) by (apply H1; [exact (cnear_mono _ _ _ _ L1 F)|lra|replace (x - x)%C with (RtoC 0) by ring; rewrite Cmod_0; lra]).
  assert (C2 : (Cmod (pe c z0 - pe c' z0)%C <= dl / (4 * G))%R) by (apply H2; [exact (cnear_mono _ _ _ _ L2 F)|lra|replace (z0 - z0)%C with (RtoC 0) by ring; rewrite Cmod_0; lra]).
  assert (Z : pe c z0 = RtoC 0) by (rewrite H; cbn [lin_prod]; ring). rewrite Z in C2. replace (RtoC 0 - pe c' z0)%C with (- pe c' z0)%C in C2 by ring. rewrite Cmod_opp in C2.
  pose proof (Cmod_close _ _ _ C1) as (Q & _). fold dl in Q. apply (Rmult_le_compat_l G) in C2; [|lra]. replace (G * (dl / (4 * G)))%R with (dl / 4)%R in C2 by (field; lra). lra.
Qed.
Lemma roots_match l : forall c a rest, a <> RtoC 0 -> (forall x, pe c x = a * lin_prod (l ++ rest) x) ->
  exists d, (forall x, pe d x = a * lin_prod rest x) /\ forall tol, (0 < tol)%R ->
  exists eps, (0 < eps)%R /\ forall c' a' l', cnear eps c c' -> a' <> RtoC 0 -> (forall x, pe c' x = a' * lin_prod l' x) ->
    exists l1 rest' d', Permutation l' (l1 ++ rest') /\ Forall2 (fun u v => (Cmod (u - v)%C < tol)%R) l l1 /\ (forall x, pe d' x = a' * lin_prod rest' x) /\ cnear tol d d'.
Proof.
  induction l as [|z l IH]; intros c a rest Na H.
  - exists c. split; [exact H|]. intros tol Ht. exists tol. split; [exact Ht|]. intros c' a' l' F Na' H'. exists [], l', c'. split; [reflexivity|]. split; [constructor|]. auto.
  - cbn [app] in H. destruct (IH (quot c z) a rest Na (deflate c a z _ H)) as (d & Hd & IH'). exists d. split; [exact Hd|]. intros tol Ht. destruct (IH' tol Ht) as (e1 & p1 & H1).
    destruct (quot_cnear c z e1 p1) as (e2 & p2 & H2). destruct (pick2 e2 tol p2 Ht) as (e3 & p3 & L2 & L3).
    destruct (root_near c a z (l ++ rest) e3 Na H p3) as (e4 & p4 & H4). destruct (pick2 e3 e4 p3 p4) as (e & p & L4 & L5).
    exists e. split; [exact p|]. intros c' a' l' F Na' H'. destruct (H4 c' a' l' (cnear_mono _ _ _ _ L5 F) Na' H') as (w & Iw & Cw).
    apply in_split in Iw as (x1 & x2 & ->). assert (PM : Permutation (x1 ++ w :: x2) (w :: x1 ++ x2)) by (symmetry; apply Permutation_middle).
    assert (H'' : forall x, pe c' x = a' * lin_prod (w :: (x1 ++ x2)) x) by (intros x; rewrite H'; f_equal; now apply lin_prod_perm).
    destruct (H1 (quot c' w) a' (x1 ++ x2)) as (l1 & rest' & d' & P1 & P2 & P5 & P6).
    + apply H2; [apply (cnear_mono e); [lra|exact F]|lra].
    + exact Na'.
    + exact (deflate c' a' w _ H'').
    + exists (w :: l1), rest', d'. split; [rewrite PM; cbn [app]; now constructor|]. split; [constructor; [lra|exact P2]|]. auto.
Qed.
