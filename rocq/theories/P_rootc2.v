(** Roots near the unit circle of a self-reciprocal polynomial. *)
From Coq Require Import Sorting.Sorted Sorting.Permutation.
From Verif Require Import Base_Np Base_Lin Base_Trig S_subspace P_subspace P_subspace2 P_subspace5 P_spectral P_fta P_fta2 P_cont4 P_rootc.
Open Scope C_scope.

(** *** the roots on the circle have multiplicity two *)
Lemma double_root c a rho zs z K kap : a <> RtoC 0 -> (forall x, pe c x = a * lin_prod rho x) -> NoDup zs -> Cmod z = 1%R -> In z zs -> (0 < kap)%R ->
  (forall x, Cmod x = 1%R -> (Cmod (pe c x) <= K * (Cmod (x - z)%C * Cmod (x - z)%C))%R) -> (forall x, Cmod x = 1%R -> (kap * (Cmod (lin_prod zs x) * Cmod (lin_prod zs x)) <= Cmod (pe c x))%R) ->
  exists rho', Permutation rho (z :: z :: rho') /\ ~ In z rho'.
Proof.
  intros Na H ND Hz Iz Hk UB LB.
  assert (PQ : forall e, (0 < e)%R -> exists x : C, x <> z /\ (Cmod (x - z)%C < e)%R /\ Cmod x = 1%R) by (intros e He; exact (circle_points z e Hz He)).
  assert (I1 : In z rho).
  { apply lin_prod_0. apply (Ccancel a); [exact Na|]. rewrite Cmult_0_r, <- H. apply (pe_limit c z K (fun x => Cmod x = 1%R) PQ). intros x Hx Nx Lx. eapply Rle_trans; [apply UB, Hx|].
    pose proof (Cmod_ge_0 (x - z)%C). pose proof (Cmod_ge_0 (pe c x)) as G0. pose proof (UB x Hx) as G1.
    assert (M0 : (0 < Cmod (x - z)%C)%R) by (apply Cmod_gt_0, Cdiff_0, Nx). assert (K0 : (0 <= K)%R) by (pose proof (Rmult_lt_0_compat _ _ M0 M0); nra). nra. }
  apply in_split in I1 as (r1 & r2 & E1). assert (P1 : Permutation rho (z :: (r1 ++ r2))) by (rewrite E1; symmetry; apply Permutation_middle). set (rho1 := r1 ++ r2) in *. clearbody rho1. clear r1 r2 E1.
  assert (H1 : forall x, pe (quot c z) x = a * lin_prod rho1 x) by (apply deflate; intros x; rewrite H; f_equal; now apply lin_prod_perm).
  assert (E1 : forall x, pe c x = (x - z) * pe (quot c z) x) by (intros x; rewrite H, (lin_prod_perm _ _ x P1), H1; cbn [lin_prod]; ring).
  assert (I2 : In z rho1).
  { apply lin_prod_0. apply (Ccancel a); [exact Na|]. rewrite Cmult_0_r, <- H1. apply (pe_limit _ z K (fun x => Cmod x = 1%R) PQ). intros x Hx Nx Lx.
    pose proof (UB x Hx) as G1. rewrite E1, Cmod_mult in G1. assert (M0 : (0 < Cmod (x - z)%C)%R) by (apply Cmod_gt_0, Cdiff_0, Nx). apply (Rmult_le_reg_l (Cmod (x - z)%C)); [exact M0|]. lra. }
  apply in_split in I2 as (r1 & r2 & E2). assert (P2 : Permutation rho1 (z :: (r1 ++ r2))) by (rewrite E2; symmetry; apply Permutation_middle). set (rho2 := r1 ++ r2) in *. clearbody rho2. clear r1 r2 E2.
  exists rho2. split; [rewrite P1; now constructor|]. intros I3.
  apply in_split in I3 as (r1 & r2 & E3). assert (P3 : Permutation rho2 (z :: (r1 ++ r2))) by (rewrite E3; symmetry; apply Permutation_middle). set (rho3 := r1 ++ r2) in *. clearbody rho3. clear r1 r2 E3.
  apply in_split in Iz as (z1 & z2 & Ez). assert (PZ : Permutation zs (z :: (z1 ++ z2))) by (rewrite Ez; symmetry; apply Permutation_middle). set (zs' := z1 ++ z2) in *. clearbody zs'. clear z1 z2 Ez.
  assert (Nz : ~ In z zs') by (pose proof (Permutation_NoDup PZ ND) as Q; now inversion Q).
  apply Nz. assert (X : In z (zs' ++ zs')); [|apply in_app_or in X; tauto].
  destruct (lin_prod_pe (zs' ++ zs')) as (d & Hd). destruct (lin_prod_pe rho3) as (f & Hf). destruct (bounded f 1) as (B & B0 & HB).
  apply lin_prod_0. rewrite <- Hd. apply (pe_limit d z (Cmod a * B / kap) (fun x => Cmod x = 1%R) PQ). intros x Hx Nx Lx.
  pose proof (LB x Hx) as G. rewrite H in G. rewrite (lin_prod_perm _ _ x P1) in G. cbn [lin_prod] in G. rewrite (lin_prod_perm _ _ x P2) in G. cbn [lin_prod] in G. rewrite (lin_prod_perm _ _ x P3) in G. cbn [lin_prod] in G. rewrite (lin_prod_perm _ _ x PZ) in G. cbn [lin_prod] in G.
  rewrite !Cmod_mult, <- Hf in G. rewrite Hd, lin_prod_app, Cmod_mult. specialize (HB x ltac:(lra)).
  assert (M0 : (0 < Cmod (x - z)%C)%R) by (apply Cmod_gt_0, Cdiff_0, Nx). set (dl := Cmod (x - z)%C) in *. set (Lz := Cmod (lin_prod zs' x)) in *. set (Fx := Cmod (pe f x)) in *.
  assert (G2 : (kap * (Lz * Lz) <= Cmod a * Fx * dl)%R). { apply (Rmult_le_reg_l (dl * dl)); [now apply Rmult_lt_0_compat|]. lra. }
  apply (Rmult_le_reg_l kap); [exact Hk|]. eapply Rle_trans; [exact G2|]. replace (kap * (Cmod a * B / kap * dl))%R with (Cmod a * B * dl)%R by (field; lra).
  apply Rmult_le_compat_r; [lra|]. apply Rmult_le_compat_l; [apply Cmod_ge_0|exact HB].
Qed.
Lemma doubles zs : forall rho : list C, NoDup zs -> (forall z, In z zs -> exists rho', Permutation rho (z :: z :: rho') /\ ~ In z rho') -> exists rest, Permutation rho (zs ++ zs ++ rest) /\ forall z, In z zs -> ~ In z rest.
Proof.
  induction zs as [|z zs IH]; intros rho ND H; [exists rho; split; [reflexivity|intros ? []]|]. inversion ND as [|? ? Nz ND']; subst.
  destruct (H z (or_introl eq_refl)) as (r1 & P1 & N1). destruct (IH r1 ND') as (rest & P2 & N2).
  - intros y Iy. assert (Ny : y <> z) by (intros ->; contradiction). destruct (H y (or_intror Iy)) as (r2 & P3 & N3). assert (Q : Permutation (z :: z :: r1) (y :: y :: r2)) by (rewrite <- P1; exact P3).
    assert (I1 : In y r1). { assert (X : In y (z :: z :: r1)) by (eapply Permutation_in; [symmetry; exact Q|now left]). destruct X as [X|[X|X]]; [congruence|congruence|exact X]. }
    apply in_split in I1 as (s1 & s2 & ->). assert (Q1 : Permutation (y :: z :: z :: s1 ++ s2) (y :: y :: r2)). { rewrite <- Q. rewrite <- (Permutation_middle s1 s2 y). etransitivity; [apply perm_swap|]. apply perm_skip, perm_swap. }
    apply Permutation_cons_inv in Q1.
    assert (I2 : In y (s1 ++ s2)). { assert (X : In y (z :: z :: s1 ++ s2)) by (eapply Permutation_in; [symmetry; exact Q1|now left]). destruct X as [X|[X|X]]; [congruence|congruence|exact X]. }
    apply in_split in I2 as (t1 & t2 & E). assert (Q2 : Permutation (y :: z :: z :: t1 ++ t2) (y :: r2)). { rewrite <- Q1, E. rewrite <- (Permutation_middle t1 t2 y). etransitivity; [apply perm_swap|]. apply perm_skip, perm_swap. }
    apply Permutation_cons_inv in Q2. exists (t1 ++ t2). split.
    + rewrite <- (Permutation_middle s1 s2 y), E, <- (Permutation_middle t1 t2 y). reflexivity.
    + intros X. apply N3. eapply Permutation_in; [exact Q2|]. now do 2 right.
  - exists rest. split.
    + rewrite P1. cbn [app]. apply perm_skip. rewrite <- (Permutation_middle zs (zs ++ rest) z). now apply perm_skip.
    + intros y [<-|Iy]; [|now apply N2]. intros X. apply N1. eapply Permutation_in; [symmetry; exact P2|]. apply in_or_app. right. apply in_or_app. now right.
Qed.
Lemma circle_factor c a rho zs K kap : a <> RtoC 0 -> (forall x, pe c x = a * lin_prod rho x) -> NoDup zs -> (forall z, In z zs -> Cmod z = 1%R) -> (0 < kap)%R ->
  (forall z x, In z zs -> Cmod x = 1%R -> (Cmod (pe c x) <= K * (Cmod (x - z)%C * Cmod (x - z)%C))%R) -> (forall x, Cmod x = 1%R -> (kap * (Cmod (lin_prod zs x) * Cmod (lin_prod zs x)) <= Cmod (pe c x))%R) ->
  exists rest, Permutation rho (zs ++ zs ++ rest) /\ forall w, In w rest -> Cmod w <> 1%R.
Proof.
  intros Na H ND U Hk UB LB. destruct (doubles zs rho ND) as (rest & PR & NR).
  - intros z Iz. apply (double_root c a rho zs z K kap); auto.
  - exists rest. split; [exact PR|]. intros w Iw Hw. apply (NR w); [|exact Iw]. apply lin_prod_0. specialize (LB w Hw).
    assert (Z : pe c w = RtoC 0). { rewrite H. assert (Q : lin_prod rho w = RtoC 0) by (apply lin_prod_0; eapply Permutation_in; [symmetry; exact PR|]; apply in_or_app; right; apply in_or_app; now right). rewrite Q. ring. }
    rewrite Z, Cmod_0 in LB. apply Cmod_eq_0. destruct (Rle_lt_or_eq_dec _ _ (Cmod_ge_0 (lin_prod zs w))) as [Q|Q]; [|now symmetry]. pose proof (Rmult_lt_0_compat _ _ Hk (Rmult_lt_0_compat _ _ Q Q)). lra.
Qed.

(** *** which roots are inside *)
Lemma F2_unique zs A z u u' t s : NoDup zs -> (forall a b, In a zs -> In b zs -> a <> b -> (s <= Cmod (a - b)%C)%R) -> (3 * t <= s)%R -> Forall2 (fun a b => (Cmod (a - b)%C < t)%R) zs A -> In z zs -> In u A -> In u' A ->
  (Cmod (z - u)%C < 2 * t)%R -> (Cmod (z - u')%C < 2 * t)%R -> u = u'.
Proof.
  intros ND S Ht F Iz Iu Iu' Cu Cu'.
  assert (M : forall v, In v A -> (Cmod (z - v)%C < 2 * t)%R -> forall y, In y zs -> (Cmod (y - v)%C < t)%R -> y = z).
  { intros v Iv Cv y Iy Cy. destruct (C_eq_dec y z) as [E|N]; [exact E|]. specialize (S y z Iy Iz N). pose proof (Cmod_tri y v z) as Q. rewrite (Cmod_comm v z) in Q. lra. }
  clear S Ht Iz. induction F as [|a b zs A Hab F IH]; [destruct Iu|]. inversion ND as [|? ? Na ND']; subst.
  assert (R1 : forall v, In v A -> (Cmod (z - v)%C < 2 * t)%R -> In z zs). { intros v Iv Cv. destruct (F2_in_r _ _ _ _ F Iv) as (y & Iy & Cy). rewrite <- (M v (or_intror Iv) Cv y (or_intror Iy) Cy). exact Iy. }
  destruct Iu as [<-|Iu], Iu' as [<-|Iu'].
  - reflexivity.
  - exfalso. apply Na. rewrite (M b (or_introl eq_refl) Cu a (or_introl eq_refl) Hab). now apply (R1 u').
  - exfalso. apply Na. rewrite (M b (or_introl eq_refl) Cu' a (or_introl eq_refl) Hab). now apply (R1 u).
  - apply IH; auto. intros v Iv Cv y Iy Cy. apply (M v (or_intror Iv) Cv y (or_intror Iy) Cy).
Qed.
Lemma split_pairs zs t : forall A B, Forall2 (fun a b => (Cmod (a - b)%C < t)%R) zs A -> Forall2 (fun a b => (Cmod (a - b)%C < t)%R) zs B ->
  (forall z u v, In z zs -> In u A -> In v B -> (Cmod (z - u)%C < t)%R -> (Cmod (z - v)%C < t)%R -> (Cmod u < 1 < Cmod v \/ Cmod v < 1 < Cmod u)%R) ->
  exists In' Out, Permutation (A ++ B) (In' ++ Out) /\ Forall2 (fun a b => (Cmod (a - b)%C < t)%R) zs In' /\ (forall w, In w In' -> (Cmod w < 1)%R) /\ (forall w, In w Out -> (1 < Cmod w)%R).
Proof.
  induction zs as [|z zs IH]; intros A B FA FB H.
  - inversion FA; inversion FB; subst. exists [], []. repeat split; try (intros ? []); constructor.
  - inversion FA as [|? u ? A' Hu FA']; inversion FB as [|? v ? B' Hv FB']; subst.
    destruct (IH A' B' FA' FB') as (I0 & O0 & P0 & F0 & HI & HO). { intros y p q Iy Ip Iq. apply H; now right. }
    assert (PP : Permutation ((u :: A') ++ v :: B') (u :: v :: (I0 ++ O0))) by (cbn [app]; apply perm_skip; rewrite <- (Permutation_middle A' B' v); now apply perm_skip).
    destruct (H z u v (or_introl eq_refl) (or_introl eq_refl) (or_introl eq_refl) Hu Hv) as [(L1 & L2)|(L1 & L2)].
    + exists (u :: I0), (v :: O0). split; [rewrite PP; cbn [app]; apply perm_skip, Permutation_middle|]. split; [now constructor|]. split; intros w [<-|Iw]; auto.
    + exists (v :: I0), (u :: O0). split; [rewrite PP, perm_swap; cbn [app]; apply perm_skip, Permutation_middle|]. split; [now constructor|]. split; intros w [<-|Iw]; auto.
Qed.
Lemma filter_all {A} (p : A -> bool) l : (forall w, In w l -> p w = true) -> filter p l = l.
Proof. induction l as [|a l IH]; intros H; [reflexivity|]. cbn [filter]. rewrite (H a (or_introl eq_refl)), IH; [reflexivity|]. intros w Iw. apply H. now right. Qed.
Lemma filter_none {A} (p : A -> bool) l : (forall w, In w l -> p w = false) -> filter p l = [].
Proof. induction l as [|a l IH]; intros H; [reflexivity|]. cbn [filter]. rewrite (H a (or_introl eq_refl)). apply IH. intros w Iw. apply H. now right. Qed.
Lemma lin_prod_lower l x h : (0 <= h)%R -> (forall w, In w l -> (h <= Cmod (x - w)%C)%R) -> (h ^ List.length l <= Cmod (lin_prod l x))%R.
Proof.
  intros Hh. induction l as [|w l IH]; intros H; cbn [lin_prod List.length pow]; [rewrite Cmod_1; lra|]. rewrite Cmod_mult. apply Rmult_le_compat; [exact Hh|now apply pow_le|apply H; now left|apply IH; intros; apply H; now right].
Qed.
Lemma recip_close (z u : C) t : Cmod z = 1%R -> (t <= 1 / 2)%R -> (Cmod (z - u)%C < t)%R -> u <> RtoC 0 /\ (Cmod (z - / Cconj u)%C < 2 * t)%R /\ Cmod (/ Cconj u) = (/ Cmod u)%R.
Proof.
  intros Hz Ht H. pose proof (Cmod_close z u t ltac:(lra)) as (L & _). assert (Nu : u <> RtoC 0) by (intros ->; rewrite Cmod_0 in L; lra).
  assert (Nc : Cconj u <> RtoC 0) by (intros E; apply Nu; rewrite <- (Cconj_conj u), E; apply Cconj_0). split; [exact Nu|].
  assert (Zz : z * Cconj z = RtoC 1) by (pose proof (cpow_1_conj z 1 Hz) as Q; cbn [cpow] in Q; rewrite !Cmult_1_r in Q; exact Q).
  split.
  - replace (z - / Cconj u)%C with (z * Cconj (u - z) * / Cconj u)%C.
    + rewrite !Cmod_mult, Cmod_conj, Cmod_inv, Cmod_conj, Hz by exact Nc. rewrite (Cmod_comm u z). rewrite Rmult_1_l. assert (M : (1 / 2 <= Cmod u)%R) by lra. assert (I : (/ Cmod u <= 2)%R) by (replace 2%R with (/ (1 / 2))%R by field; apply Rinv_le_contravar; lra).
      assert (0 < / Cmod u)%R by (apply Rinv_0_lt_compat; lra). pose proof (Cmod_ge_0 (z - u)%C). nra.
    + rewrite Cminus_conj. replace (z * (Cconj u - Cconj z)) with (z * Cconj u - RtoC 1) by (rewrite <- Zz; ring). field. exact Nc.
  - rewrite Cmod_inv, Cmod_conj by exact Nc. reflexivity.
Qed.
Lemma circle_roots zs c a rest tol : NoDup zs -> (forall z, In z zs -> Cmod z = 1%R) -> a <> RtoC 0 -> (forall x, pe c x = a * lin_prod ((zs ++ zs) ++ rest) x) -> (forall w, In w rest -> Cmod w <> 1%R) -> (0 < tol)%R ->
  exists eps, (0 < eps)%R /\ forall c' a' l', cnear eps c c' -> a' <> RtoC 0 -> (forall x, pe c' x = a' * lin_prod l' x) ->
    (forall w, w <> RtoC 0 -> pe c' w = RtoC 0 -> pe c' (/ Cconj w) = RtoC 0) -> (forall w, In w l' -> Cmod w <> 1%R) ->
    exists I F r, Permutation (filter inside l') (I ++ F) /\ Forall2 (fun u v => (Cmod (u - v)%C < tol)%R) zs I /\ (forall w, In w I -> (r < Cmod w)%R) /\ (forall w, In w F -> (Cmod w <= r)%R).
Proof.
  intros ND U Na H HO Ht.
  destruct (list_eps (fun w h => (2 * h <= Rabs (Cmod w - 1))%R) rest) as (h0 & h0p & Hh0). { intros; lra. }
  { intros w Iw. exists (Rabs (Cmod w - 1) / 2)%R. assert (Q : (0 < Rabs (Cmod w - 1))%R) by (apply Rabs_pos_lt; specialize (HO w Iw); lra). split; lra. }
  destruct (pick2 h0 (1 / 2) h0p ltac:(lra)) as (h & hp & hl1 & hl2).
  destruct (separation zs) as (s & sp & S).
  destruct (roots_match (zs ++ zs) c a rest Na H) as (d & Hd & HM).
  set (mu := (Cmod a * h ^ List.length rest)%R). assert (mup : (0 < mu)%R) by (apply Rmult_lt_0_compat; [now apply Cmod_gt_0|now apply pow_lt]).
  destruct (pe_cnear d 2 (mu / 2) ltac:(lra) ltac:(lra)) as (e1 & p1 & H1).
  destruct (pick2 e1 tol p1 Ht) as (t1 & t1p & a1 & a2). destruct (pick2 t1 (s / 3) t1p ltac:(lra)) as (t2 & t2p & a3 & a4). destruct (pick2 t2 (h / 4) t2p ltac:(lra)) as (t & tp & a5 & a6).
  destruct (HM t tp) as (eps & ep & HE). exists eps. split; [exact ep|]. intros c' a' l' F Na' H' Rec Off.
  destruct (HE c' a' l' F Na' H') as (l1 & rest' & d' & PL & FL & Hd' & Nd).
  assert (OffR : forall w, In w rest' -> (h < Rabs (Cmod w - 1))%R).
  { intros w Iw. destruct (Rle_lt_dec (Rabs (Cmod w - 1)) h) as [L|L]; [|exact L]. exfalso. assert (B : (Cmod w - 1 <= h /\ - h <= Cmod w - 1)%R) by (unfold Rabs in L; destruct (Rcase_abs _) in L; lra).
    assert (Z : pe d' w = RtoC 0) by (rewrite Hd', (proj2 (lin_prod_0 rest' w) Iw); ring).
    assert (C1 : (Cmod (pe d w - pe d' w)%C <= mu / 2)%R) by (apply H1; [apply (cnear_mono t); [lra|exact Nd]|lra|replace (w - w)%C with (RtoC 0) by ring; rewrite Cmod_0; lra]).
    rewrite Z in C1. replace (pe d w - RtoC 0)%C with (pe d w) in C1 by ring. rewrite Hd, Cmod_mult in C1.
    assert (Q : (h ^ List.length rest <= Cmod (lin_prod rest w))%R). { apply lin_prod_lower; [lra|]. intros v Iv. specialize (Hh0 v Iv). pose proof (Cmod_sub_abs w v) as Q. unfold Rabs in Q, Hh0, L. destruct (Rcase_abs _) in Q; destruct (Rcase_abs _) in Hh0; lra. }
    apply (Rmult_le_compat_l (Cmod a)) in Q; [|apply Cmod_ge_0]. fold mu in Q. lra. }
  apply Forall2_app_inv_l in FL as (A & B & FA & FB & ->).
  assert (Roots : forall w, In w (A ++ B) -> In w l') by (intros w Iw; eapply Permutation_in; [symmetry; exact PL|]; apply in_or_app; now left).
  destruct (split_pairs zs t A B FA FB) as (I0 & O0 & P0 & F0 & HI & HOu).
  { intros z u v Iz Iu Iv Cu Cv. destruct (recip_close z u t (U z Iz) ltac:(lra) Cu) as (Nu & CR & MR). set (r := / Cconj u) in *.
    assert (Zu : pe c' u = RtoC 0) by (rewrite H', (proj2 (lin_prod_0 l' u)); [ring|apply Roots, in_or_app; now left]).
    pose proof (Rec u Nu Zu) as Zr. fold r in Zr. assert (Ir : In r l'). { apply lin_prod_0. apply (Ccancel a'); [exact Na'|]. rewrite <- H', Zr. ring. }
    assert (Ou : Cmod u <> 1%R) by (apply Off, Roots, in_or_app; now left).
    pose proof (Cmod_close z r (2 * t) ltac:(lra)) as MRc. rewrite (U z Iz) in MRc.
    assert (Iv' : r = v).
    { eapply Permutation_in in Ir; [|exact PL]. apply in_app_or in Ir as [Ir|Ir]; [apply in_app_or in Ir as [Ir|Ir]|].
      - exfalso. assert (E : r = u) by (apply (F2_unique zs A z r u t s); auto; lra). rewrite E in MR. apply Ou. pose proof (Cmod_ge_0 u). assert (M0 : (0 < Cmod u)%R) by now apply Cmod_gt_0. apply (Rmult_eq_compat_l (Cmod u)) in MR. rewrite Rinv_r in MR by lra. nra.
      - apply (F2_unique zs B z r v t s); auto; lra.
      - exfalso. specialize (OffR r Ir). unfold Rabs in OffR. destruct (Rcase_abs _) in OffR; lra. }
    rewrite <- Iv', MR. assert (M0 : (0 < Cmod u)%R) by now apply Cmod_gt_0. destruct (Rtotal_order (Cmod u) 1) as [L|[L|L]]; [left|contradiction|right].
    - split; [exact L|]. rewrite <- Rinv_1. apply Rinv_lt_contravar; lra.
    - split; [|exact L]. rewrite <- Rinv_1. apply Rinv_lt_contravar; lra. }
  exists I0, (filter inside rest'), (1 - h)%R. split; [|split; [|split]].
  - rewrite (filter_perm inside _ _ PL), filter_app, (filter_perm inside _ _ P0), filter_app. rewrite (filter_all inside I0), (filter_none inside O0), app_nil_r; [reflexivity| |].
    + intros w Iw. unfold inside. destruct (Rlt_dec _ _); [|reflexivity]. specialize (HOu w Iw). lra.
    + intros w Iw. unfold inside. destruct (Rlt_dec _ _); [reflexivity|]. specialize (HI w Iw). lra.
  - refine (F2_impl_in _ _ _ _ _ F0). intros x y _ HP. cbn beta in HP. lra.
  - intros w Iw. destruct (F2_in_r _ _ _ _ F0 Iw) as (z & Iz & Cz). pose proof (Cmod_close z w t ltac:(lra)) as (Q & _). rewrite (U z Iz) in Q. lra.
  - intros w Iw. apply filter_In in Iw as (Iw & L). unfold inside in L. destruct (Rlt_dec _ _) as [L'|]; [|discriminate]. specialize (OffR w Iw). unfold Rabs in OffR. destruct (Rcase_abs _) in OffR; lra.
Qed.

(** the k elements of largest modulus *)
Lemma top_k (chosen rest I F : list C) r : Permutation (chosen ++ rest) (I ++ F) -> List.length chosen = List.length I -> (forall a b, In a chosen -> In b rest -> (Cmod b <= Cmod a)%R) ->
  (forall w, In w I -> (r < Cmod w)%R) -> (forall w, In w F -> (Cmod w <= r)%R) -> Permutation chosen I.
Proof.
  intros P L HC HI HF. set (p := fun w : C => if Rlt_dec r (Cmod w) then true else false).
  assert (PI : filter p I = I) by (apply filter_all; intros w Iw; unfold p; destruct (Rlt_dec _ _); [reflexivity|]; specialize (HI w Iw); lra).
  assert (PF : filter p F = []) by (apply filter_none; intros w Iw; unfold p; destruct (Rlt_dec _ _); [|reflexivity]; specialize (HF w Iw); lra).
  pose proof (filter_perm p _ _ P) as Q. rewrite !filter_app, PI, PF, app_nil_r in Q.
  destruct (filter p rest) as [|b q] eqn:E.
  - rewrite app_nil_r in Q. rewrite (filter_all p chosen) in Q; [exact Q|]. pose proof (Permutation_length Q) as LQ. rewrite <- L in LQ. clear - LQ. induction chosen as [|x l IH]; [intros ? []|]. cbn [filter] in LQ.
    assert (G : (List.length (filter p l) <= List.length l)%nat) by (clear; induction l as [|y l IH]; cbn [filter]; [lia|destruct (p y); cbn [List.length]; lia]).
    destruct (p x) eqn:E; cbn [List.length] in LQ; [|lia]. intros w [<-|Iw]; [exact E|]. apply IH; [lia|exact Iw].
  - exfalso. assert (Ib : In b (filter p rest)) by (rewrite E; now left). apply filter_In in Ib as (Ib & Pb). unfold p in Pb. destruct (Rlt_dec r (Cmod b)) as [Lb|]; [|discriminate].
    rewrite (filter_all p chosen) in Q. 2:{ intros w Iw. unfold p. destruct (Rlt_dec _ _) as [|N]; [reflexivity|]. specialize (HC w b Iw Ib). lra. }
    pose proof (Permutation_length Q) as LQ. rewrite app_length in LQ. cbn [List.length] in LQ. lia.
Qed.
