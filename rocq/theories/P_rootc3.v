(** Continuity of root-MUSIC: the noise polynomial. *)
From Coq Require Import Sorting.Sorted Sorting.Permutation.
From Verif Require Import Base_Np Base_Lin Base_Trig P_utils M_sources M_grid S_grid M_core P_core M_subspace S_subspace P_subspace P_subspace2 P_subspace3 P_subspace5 P_spectral P_courant P_fta P_fta2 S_stable P_stable P_stable2 P_invar P_cont P_cont2 P_cont4 P_oracles P_pipeline P_rootc P_rootc2 S_rootc Prop_subspace Prop_root.
Open Scope C_scope.

(** *** coefficients *)
Lemma pe_app l a z : pe (l ++ [a]) z = pe l z + cpow z (List.length l) * a.
Proof. induction l as [|b l IH]; cbn [app pe List.length cpow]; [ring|]. rewrite IH. ring. Qed.
Lemma poly_pe c z : poly c z = pe (rev c) z.
Proof. induction c as [|a c IH]; [reflexivity|]. cbn [poly rev]. rewrite pe_app, rev_length, IH. ring. Qed.
Lemma pe_csum l z n : (List.length l <= n)%nat -> pe l z = csum n (fun i => nth i l (RtoC 0) * cpow z i).
Proof.
  revert n. induction l as [|a l IH]; intros n Hn; [symmetry; apply csum_0; intros i _; destruct i; cbn [nth]; ring|]. cbn [List.length] in Hn. destruct n as [|n]; [lia|]. cbn [pe]. rewrite (IH n) by lia. rewrite csum_S_l. cbn [nth cpow]. rewrite <- csum_scal. f_equal; [ring|]. apply csum_ext. intros k _. ring.
Qed.
Lemma F2_nth {A} (P : A -> A -> Prop) d l l' : List.length l = List.length l' -> (forall i, (i < List.length l)%nat -> P (nth i l d) (nth i l' d)) -> Forall2 P l l'.
Proof.
  revert l'. induction l as [|a l IH]; intros [|b l'] L H; try discriminate; constructor; [exact (H O ltac:(cbn; lia))|]. apply IH; [now injection L|]. intros i Hi. exact (H (S i) ltac:(cbn; lia)).
Qed.
Lemma Cconj_sub_mod (a b : C) : Cmod (Cconj a - Cconj b)%C = Cmod (a - b)%C.
Proof. rewrite <- Cminus_conj. apply Cmod_conj. Qed.
Lemma coeffs_near e A B : (0 < nr A)%nat -> nc A = nr A -> (0 <= e)%R -> near e A B -> cnear (INR (nr A) * e) (rev (root_coeffs A)) (rev (root_coeffs B)).
Proof.
  intros Hm SQ He (N1 & N2 & H). assert (DS : forall i, (Cmod (diag_sum A i - diag_sum B i)%C <= INR (nr A) * e)%R).
  { intros i. unfold diag_sum. rewrite N1, <- csum_minus. eapply Rle_trans; [apply (Cmod_sum_le _ _ e)|].
    - intros r Hr. apply H; lia.
    - apply Rmult_le_compat_r; [exact He|]. apply le_INR. lia. }
  assert (L : List.length (root_coeffs A) = List.length (root_coeffs B)) by (rewrite !root_coeffs_length by lia; lia).
  apply (F2_nth _ (RtoC 0)); [rewrite !rev_length; exact L|]. intros i Hi. rewrite rev_length in Hi. rewrite !rev_nth by lia. rewrite <- L. rewrite root_coeffs_length in * by lia. rewrite !root_coeffs_nth by lia. rewrite N1.
  destruct (Nat.leb _ _); [apply DS|]. rewrite Cconj_sub_mod. apply DS.
Qed.
Lemma padd_length p : forall q, List.length (padd p q) = Nat.max (List.length p) (List.length q).
Proof. induction p as [|a p IH]; intros [|b q]; cbn [padd List.length]; rewrite ?IH; reflexivity || lia. Qed.
Lemma lin_prod_pe_len l : exists d, List.length d = S (List.length l) /\ forall x, pe d x = lin_prod l x.
Proof.
  induction l as [|a l (d & L & H)]; [exists [RtoC 1]; split; [reflexivity|]; intros x; cbn [pe lin_prod]; ring|]. exists (padd (RtoC 0 :: d) (map (fun b => (- a) * b) d)). split; [rewrite padd_length, map_length; cbn [List.length]; lia|]. intros x. rewrite pe_padd, pe_scal. cbn [pe lin_prod]. rewrite H. ring.
Qed.
Lemma product_lin l x : product_at l x = lin_prod l x.
Proof. induction l as [|a l IH]; cbn [product_at lin_prod]; congruence. Qed.

(** *** the polynomial of the exact noise subspace on the unit circle *)
Lemma noise_poly_mod En m x : nr En = m -> (0 < m)%nat -> Cmod x = 1%R -> Cmod (pe (rev (root_coeffs (En *m mher En))) x) = proj_power En (fun i => cpow x i).
Proof.
  intros N1 Hm Hx. rewrite <- poly_pe. assert (HH : hermitian (En *m mher En)) by apply (psd_gram' En). rewrite (C61_on_unit_circle _ m x HH) by (cbn [mmul nr]; assumption || lia).
  unfold form_at. rewrite <- proj_power_qform, Cmod_mult, Cmod_cpow, Hx, pow1, Cmod_R, Rabs_right; [ring|]. apply Rle_ge, proj_power_nonneg.
Qed.
Lemma cpow_lip x z i : Cmod x = 1%R -> Cmod z = 1%R -> (Cmod (cpow x i - cpow z i)%C <= INR i * Cmod (x - z)%C)%R.
Proof.
  intros Hx Hz. induction i as [|i IH]; [cbn [cpow]; rewrite Cmod_self; cbn; lra|]. cbn [cpow]. replace (x * cpow x i - z * cpow z i)%C with (x * (cpow x i - cpow z i) + (x - z) * cpow z i)%C by ring.
  eapply Rle_trans; [apply Cmod_triangle|]. rewrite !Cmod_mult, Cmod_cpow, Hx, Hz, pow1, S_INR. lra.
Qed.
Lemma noise_upper En m z : nr En = m -> Cmod z = 1%R -> proj_power En (fun i => cpow z i) = 0%R ->
  exists K, (0 <= K)%R /\ forall x, Cmod x = 1%R -> (proj_power En (fun i => cpow x i) <= K * (Cmod (x - z)%C * Cmod (x - z)%C))%R.
Proof.
  intros N1 Hz Z. destruct (entries_bounded En) as (M & M1 & HM). rewrite proj_power_0 in Z. set (b := (INR m * (M * INR m))%R). assert (b0 : (0 <= b)%R) by (apply Rmult_le_pos; [apply pos_INR|apply Rmult_le_pos; [lra|apply pos_INR]]).
  exists (INR (nc En) * (b * b))%R. split; [apply Rmult_le_pos; [apply pos_INR|now apply Rmult_le_pos]|]. intros x Hx. unfold proj_power. set (dl := Cmod (x - z)%C). assert (dl0 : (0 <= dl)%R) by apply Cmod_ge_0.
  replace (INR (nc En) * (b * b) * (dl * dl))%R with (INR (nc En) * ((b * dl) * (b * dl)))%R by ring. 
  eapply Rle_trans; [apply (rsum_le _ _ (fun _ => ((b * dl) * (b * dl))%R))|rewrite rsum_const; lra].
  intros j Hj. rewrite <- Cmod_sq. assert (Q : (Cmod (vdot (nr En) (col En j) (fun i => cpow x i)) <= b * dl)%R); [|apply Rmult_le_compat; auto using Cmod_ge_0].
  replace (vdot (nr En) (col En j) (fun i => cpow x i)) with (vdot (nr En) (col En j) (fun i => cpow x i - cpow z i)) by (pose proof (Z j Hj) as ZJ; rewrite (vdot_minus (nr En) (col En j) (fun i => cpow x i) (fun i => cpow z i)); etransitivity; [apply f_equal; exact ZJ | ring]).
  unfold vdot. eapply Rle_trans; [apply (Cmod_sum_le _ _ (M * (INR m * dl))%R)|unfold b; rewrite N1; right; ring].
  intros i Hi. rewrite Cmod_mult, Cmod_conj. apply Rmult_le_compat; [apply Cmod_ge_0|apply Cmod_ge_0|unfold col; now apply HM|].
  eapply Rle_trans; [now apply cpow_lip|]. apply Rmult_le_compat_r; [exact dl0|]. apply le_INR. lia.
Qed.
Lemma noise_lower En m zs : nr En = m -> orthonormal En -> NoDup zs -> (List.length zs < m)%nat -> (forall a, proj_power En a = 0%R <-> in_span (ula_matrix m zs) a) ->
  exists kap, (0 < kap)%R /\ forall x, (kap * (Cmod (lin_prod zs x) * Cmod (lin_prod zs x)) <= proj_power En (fun i => cpow x i))%R.
Proof.
  intros N1 OE ND Lk HS. destruct (lin_prod_pe_len zs) as (d & Ld & Hd). set (v := fun i => Cconj (nth i d (RtoC 0))).
  assert (VX : forall x, vdot m v (fun i => cpow x i) = lin_prod zs x). { intros x. rewrite <- Hd, (pe_csum d x m) by lia. unfold vdot, v. apply csum_ext. intros i _. now rewrite Cconj_conj. }
  set (T := (vnorm2 m v + 1)%R). assert (T0 : (0 < T)%R) by (unfold T; pose proof (vnorm2_nonneg m v); lra).
  exists (/ T)%R. split; [now apply Rinv_0_lt_compat|]. intros x. rewrite <- VX. set (a := fun i => cpow x i). set (y := mvec (mher En) a).
  assert (E1 : proj_power En a = vnorm2 (nc En) y) by reflexivity.
  assert (G : forall j, (j < nc En)%nat -> mvec (mher En) (mvec En y) j = y j). { intros j Hj. rewrite <- mvec_mmul. rewrite (mvec_eq _ _ y j OE) by (cbn; exact Hj). now apply mvec_mid. }
  assert (Z : in_span (ula_matrix m zs) (fun i => a i - mvec En y i)).
  { apply HS. apply proj_power_0. intros j Hj. rewrite vdot_minus. change (vdot (nr En) (col En j) a) with (y j). change (vdot (nr En) (col En j) (mvec En y)) with (mvec (mher En) (mvec En y) j). rewrite G by exact Hj. ring. }
  destruct Z as (u & Hu). cbn [ula_matrix nr] in Hu.
  assert (VA : vdot m v (fun i => a i - mvec En y i) = RtoC 0).
  { transitivity (vdot m v (mvec (ula_matrix m zs) u)); [apply csum_ext; intros i Hi; f_equal; now apply Hu|]. unfold vdot, mvec. cbn [ula_matrix nc ent].
    rewrite (csum_ext _ _ (fun i => csum (List.length zs) (fun c => u c * (Cconj (v i) * cpow (nth c zs (RtoC 0)) i)))) by (intros i _; rewrite <- csum_scal; apply csum_ext; intros; ring).
    rewrite csum_swap. apply csum_0. intros c Hc. rewrite csum_scal. change (csum m (fun i => Cconj (v i) * cpow (nth c zs (RtoC 0)) i)) with (vdot m v (fun i => cpow (nth c zs (RtoC 0)) i)). rewrite VX. rewrite (proj2 (lin_prod_0 zs _)) by (apply nth_In; exact Hc). ring. }
  rewrite vdot_minus in VA. assert (VE : vdot m v a = vdot m v (mvec En y)) by (replace (vdot m v a) with (vdot m v a - vdot m v (mvec En y) + vdot m v (mvec En y)) by ring; rewrite VA; ring).
  rewrite VE, Cmod_sq, E1. pose proof (vdot_cs m v (mvec En y)) as CS. rewrite <- N1 in CS at 3. rewrite orth_norm in CS by exact OE.
  apply (Rmult_le_reg_l T); [exact T0|]. rewrite <- Rmult_assoc, Rinv_r, Rmult_1_l by lra. eapply Rle_trans; [exact CS|]. apply Rmult_le_compat_r; [apply vnorm2_nonneg|unfold T; lra].
Qed.
Lemma uniform_upper En m zs : nr En = m -> (forall z, In z zs -> Cmod z = 1%R) -> (forall z, In z zs -> proj_power En (fun i => cpow z i) = 0%R) ->
  exists K, forall z x, In z zs -> Cmod x = 1%R -> (proj_power En (fun i => cpow x i) <= K * (Cmod (x - z)%C * Cmod (x - z)%C))%R.
Proof.
  intros N1 U Z. induction zs as [|z zs IH]; [exists 0%R; intros ? ? []|]. destruct IH as (K1 & H1); [intros; apply U; now right|intros; apply Z; now right|].
  destruct (noise_upper En m z N1 (U z (or_introl eq_refl)) (Z z (or_introl eq_refl))) as (K2 & K0 & H2). exists (Rmax K1 K2). intros y x [<-|Iy] Hx.
  - eapply Rle_trans; [now apply H2|]. apply Rmult_le_compat_r; [apply Rmult_le_pos; apply Cmod_ge_0|apply Rmax_r].
  - eapply Rle_trans; [now apply (H1 y)|]. apply Rmult_le_compat_r; [apply Rmult_le_pos; apply Cmod_ge_0|apply Rmax_l].
Qed.
Lemma exact_factor En m zs : nr En = m -> orthonormal En -> NoDup zs -> (List.length zs < m)%nat -> (forall z, In z zs -> Cmod z = 1%R) -> (forall a, proj_power En a = 0%R <-> in_span (ula_matrix m zs) a) ->
  exists a rest, a <> RtoC 0 /\ (forall x, pe (rev (root_coeffs (En *m mher En))) x = a * lin_prod ((zs ++ zs) ++ rest) x) /\ forall w, In w rest -> Cmod w <> 1%R.
Proof.
  intros N1 OE ND Lk U HS. destruct (noise_lower En m zs N1 OE ND Lk HS) as (kap & kp & LB).
  destruct (uniform_upper En m zs N1 U) as (K & UB). { intros z Iz. apply HS. apply (ula_span m zs z ND ltac:(lia)). exact Iz. }
  set (c := rev (root_coeffs (En *m mher En))). assert (CM : forall x, Cmod x = 1%R -> Cmod (pe c x) = proj_power En (fun i => cpow x i)) by (intros x Hx; apply (noise_poly_mod En m x N1 ltac:(lia) Hx)).
  assert (NZ : nonzero c).
  { destruct (zero_or c) as [Y|Y]; [exact Y|]. exfalso. destruct (nearby_nonroot (RtoC 1) zs 1 ltac:(lra)) as (x0 & _ & _).
    assert (X : exists x, Cmod x = 1%R /\ ~ In x zs).
    { destruct (separation (RtoC 1 :: zs)) as (s & sp & S). destruct (circle_points (RtoC 1) s Cmod_1 sp) as (x & Nx & Cx & Hx). exists x. split; [exact Hx|]. intros Ix. specialize (S x (RtoC 1) (or_intror Ix) (or_introl eq_refl) Nx). lra. }
    destruct X as (x & Hx & Nx). specialize (LB x). rewrite <- (CM x Hx), (pe_zero c Y), Cmod_0 in LB. apply Nx, lin_prod_0, Cmod_eq_0. destruct (Rle_lt_or_eq_dec _ _ (Cmod_ge_0 (lin_prod zs x))) as [Q|Q]; [|now symmetry]. pose proof (Rmult_lt_0_compat _ _ kp (Rmult_lt_0_compat _ _ Q Q)). lra. }
  destruct (factor c NZ) as (a & rho & Na & HF). destruct (circle_factor c a rho zs K kap Na HF ND U kp) as (rest & PR & OR).
  - intros z x Iz Hx. rewrite (CM x Hx). now apply UB.
  - intros x Hx. rewrite (CM x Hx). apply LB.
  - exists a, rest. split; [exact Na|]. split; [|exact OR]. intros x. rewrite HF, (lin_prod_perm _ _ x PR), app_assoc. reflexivity.
Qed.

(** *** the noise projector *)
Lemma noise_near (Rm : cmat) w E m k tol : nr Rm = m -> hermitian Rm -> eigh_ok Rm w E -> (1 <= k < m)%nat -> (nth (m - k - 1) w 0 < nth (m - k) w 0)%R -> (0 < tol)%R ->
  exists eps, (0 < eps)%R /\ forall (Rm' : cmat) w' E', hermitian Rm' -> nr Rm' = m -> eigh_ok Rm' w' E' -> (distance Rm Rm' < eps)%R ->
    near tol (win m 0 (m - k) E *m mher (win m 0 (m - k) E)) (win m 0 (m - k) E' *m mher (win m 0 (m - k) E')).
Proof.
  intros R1 HH OE Hk Gap Ht. set (q := (m - k)%nat). set (g := (nth q w 0 - nth (q - 1) w 0)%R). assert (Gp : (0 < g)%R) by (unfold g, q; lra).
  assert (Srt : StronglySorted Rle w) by apply OE. assert (Lw : List.length w = m) by (rewrite <- R1; apply OE).
  destruct (near_mul (win m 0 q E) (mher (win m 0 q E)) tol eq_refl Ht) as (e1 & p1 & H1).
  destruct (align Rm w E 0 q g e1 HH OE ltac:(unfold q; lia) Gp) as (e2 & p2 & H2).
  { intros i j Hi Ho Hj. assert (q <= i)%nat by (unfold q in *; lia). pose proof (sorted_nth w q i Srt ltac:(lia) ltac:(rewrite Lw, <- R1; exact Hi)). pose proof (sorted_nth w (0 + j) (q - 1) Srt ltac:(lia) ltac:(unfold q; lia)). unfold g.
 rewrite Rabs_pos_eq.
 all: unfold g in Gp; lra. }
  { exact p1. }
  exists e2. split; [exact p2|]. intros Rm' w' E' HH' N' OE' DS. destruct (H2 Rm' w' E' HH' ltac:(lia) OE' DS) as (U & u1 & u2 & HU & NW). rewrite R1 in NW.
  eapply near_eq; [reflexivity| |exact (H1 _ _ NW (near_her _ _ _ NW))].
  assert (U2 : U *m mher U ==m mid q) by (apply left_inv_right; cbn; auto).
  set (W := win m 0 q E'). transitivity ((W *m U) *m (mher U *m mher W)); [apply mmul_eq_r; [reflexivity|apply mher_mmul; cbn; congruence]|].
  rewrite mmul_assoc. etransitivity; [apply (mmul_eq_r W (U *m (mher U *m mher W)) (mher W)); [cbn; lia|]|reflexivity].
  rewrite <- mmul_assoc. etransitivity; [apply (mmul_eq_l (U *m mher U) (mid q) (mher W) U2)|]. now apply mmul_id_l.
Qed.
