(** Continuity of ESPRIT. *)
From Coq Require Import Sorting.Sorted Sorting.Permutation.
From Verif Require Import Base_Np Base_Lin P_courant M_sources P_sources M_core M_subspace S_subspace P_subspace P_subspace3 P_subspace4 P_equiv2 P_ml7 P_signals Prop_subspace S_stable P_stable P_stable5 S_invar S_invar2 P_invar P_invar4 P_cont P_cont2 P_cont3.
Open Scope C_scope.

(** *** matching of the eigenvalues *)
Lemma list_eps {A} (P : A -> R -> Prop) (l : list A) : (forall a e e', (0 < e')%R -> (e' <= e)%R -> P a e -> P a e') -> (forall a, In a l -> exists e, (0 < e)%R /\ P a e) -> exists e, (0 < e)%R /\ forall a, In a l -> P a e.
Proof.
  intros M. induction l as [|a l IH]; intros H; [exists 1%R; split; [lra|intros ? []]|].
  destruct (H a (or_introl eq_refl)) as (e1 & p1 & H1). destruct IH as (e2 & p2 & H2); [intros; apply H; now right|].
  exists (Rmin e1 e2). split; [now apply Rmin_glb_lt|]. intros b [<-|Hb].
  - apply (M a e1); [now apply Rmin_glb_lt|apply Rmin_l|exact H1].
  - apply (M b e2); [now apply Rmin_glb_lt|apply Rmin_r|now apply H2].
Qed.
Lemma Cmod_diff_pos (a b : C) : a <> b -> (0 < Cmod (a - b)%C)%R.
Proof. intros H. apply Cmod_gt_0. intros Q. apply H. replace a with (a - b + b)%C by ring. rewrite Q. ring. Qed.
Lemma separation (z : list C) : exists s, (0 < s)%R /\ forall a b, In a z -> In b z -> a <> b -> (s <= Cmod (a - b)%C)%R.
Proof.
  destruct (list_eps (fun a s => forall b, In b z -> a <> b -> (s <= Cmod (a - b)%C)%R) z) as (s & Hs & H).
  - intros a e e' _ L H b Hb N. specialize (H b Hb N). lra.
  - intros a _. destruct (list_eps (fun b s => a <> b -> (s <= Cmod (a - b)%C)%R) z) as (s & Hs & H).
    + intros b e e' _ L H N. specialize (H N). lra.
    + intros b _. destruct (Classical_Prop.classic (a = b)) as [->|N]; [exists 1%R; split; [lra|tauto]|].
      exists (Cmod (a - b)%C). split; [now apply Cmod_diff_pos|intros _; lra].
    + exists s. split; [exact Hs|]. intros b Hb N. exact (H b Hb N).
  - exists s. split; [exact Hs|]. intros a b Ha Hb N. exact (H a Ha b Hb N).
Qed.
Lemma Cmod_tri (a b c : C) : (Cmod (a - c)%C <= Cmod (a - b)%C + Cmod (b - c)%C)%R.
Proof. replace (a - c)%C with ((a - b) + (b - c))%C by ring. apply Cmod_triangle. Qed.
Lemma Cmod_comm (a b : C) : Cmod (a - b)%C = Cmod (b - a)%C.
Proof. replace (a - b)%C with (- (b - a))%C by ring. apply Cmod_opp. Qed.
Lemma choose_close z l t : (forall a, In a z -> exists b, In b l /\ (Cmod (a - b)%C < t)%R) ->
  exists l0, Forall2 (fun a b => In b l /\ (Cmod (a - b)%C < t)%R) z l0.
Proof.
  induction z as [|a z IH]; intros H; [exists []; constructor|]. destruct (H a (or_introl eq_refl)) as (b & Hb). destruct IH as (l0 & H0); [intros; apply H; now right|].
  exists (b :: l0). now constructor.
Qed.
Lemma F2_len {A B} (P : A -> B -> Prop) l l' : Forall2 P l l' -> List.length l = List.length l'.
Proof. induction 1; cbn; lia. Qed.
Lemma F2_in_r {A B} (P : A -> B -> Prop) l l' b : Forall2 P l l' -> In b l' -> exists a, In a l /\ P a b.
Proof. induction 1; intros []; [subst; exists x; split; [now left|assumption]|]. destruct IHForall2 as (a & I & Q); [assumption|]. exists a. split; [now right|assumption]. Qed.
Lemma F2_impl_in {A B} (P Q : A -> B -> Prop) l l' : (forall a b, In a l -> P a b -> Q a b) -> Forall2 P l l' -> Forall2 Q l l'.
Proof. intros H F. induction F; constructor; [apply H; [now left|assumption]|]. apply IHF. intros a b I. apply H. now right. Qed.
Lemma close_nodup z l0 s t : NoDup z -> (forall a b, In a z -> In b z -> a <> b -> (s <= Cmod (a - b)%C)%R) -> (2 * t <= s)%R -> Forall2 (fun a b => (Cmod (a - b)%C < t)%R) z l0 -> NoDup l0.
Proof.
  intros ND S T F. induction F as [|a b z l0 HA F IH]; [constructor|]. inversion ND as [|? ? Ni ND']; subst. constructor; [|apply IH; auto; intros; apply S; auto; now right].
  intros Hb. destruct (F2_in_r _ _ _ _ F Hb) as (a' & Ha' & HA'). specialize (S a a' (or_introl eq_refl) (or_intror Ha') ltac:(intros ->; contradiction)).
  pose proof (Cmod_tri a b a') as Q. rewrite (Cmod_comm b a') in Q. lra.
Qed.
Lemma eigenvalues_close X k z tol : nr X = k -> nc X = k -> NoDup z -> List.length z = k -> (forall x, In x z <-> eigenvalue X x) -> (0 < tol)%R ->
  exists eps, (0 < eps)%R /\ forall X' l, near eps X X' -> List.length l = k -> (forall x, In x l <-> eigenvalue X' x) ->
    exists l0, Permutation l0 l /\ Forall2 (fun a b => (Cmod (a - b)%C < tol)%R) z l0.
Proof.
  intros X1 X2 ND L HZ Ht. destruct (separation z) as (s & Hs & S). set (t := Rmin tol (s / 2)). assert (Tp : (0 < t)%R) by (apply Rmin_glb_lt; lra).
  destruct (list_eps (fun lam eps => forall X', near eps X X' -> exists b, eigenvalue X' b /\ (Cmod (lam - b)%C < t)%R) z) as (eps & He & H).
  - intros a e e' _ Le H X' HX. apply H. exact (near_mono _ _ _ _ Le HX).
  - intros a Ha. apply eigenvalue_close; [congruence|now apply HZ|exact Tp].
  - exists eps. split; [exact He|]. intros X' l HX Ll HL.
    destruct (choose_close z l t) as (l0 & F). { intros a Ha. destruct (H a Ha X' HX) as (b & E & C). exists b. split; [now apply HL|exact C]. }
    assert (F' : Forall2 (fun a b => (Cmod (a - b)%C < t)%R) z l0) by (apply (F2_impl_in _ _ _ _ (fun a b _ HP => proj2 HP) F)).
    exists l0. split.
    + apply NoDup_Permutation_bis; [apply (close_nodup z l0 s t); auto; unfold t; pose proof (Rmin_r tol (s / 2)); lra|rewrite Ll, <- (F2_len _ _ _ F); lia|].
      intros b Hb. destruct (F2_in_r _ _ _ _ F Hb) as (a & _ & I & _). exact I.
    + refine (F2_impl_in _ _ _ _ _ F'). intros a b _ HP. cbn beta in HP. pose proof (Rmin_l tol (s / 2)). unfold t in HP. lra.
Qed.

(** *** the rotation matrix *)
Lemma pick2 e1 e2 : (0 < e1)%R -> (0 < e2)%R -> exists e, (0 < e)%R /\ (e <= e1)%R /\ (e <= e2)%R.
Proof. intros. exists (Rmin e1 e2). split; [now apply Rmin_glb_lt|]. split; [apply Rmin_l|apply Rmin_r]. Qed.
Lemma ls_cont A1 A2 k X tol : nr A2 = nr A1 -> nc A1 = k -> nc A2 = k -> inj A1 -> nr X = k -> nc X = k -> (mher A1 *m A1) *m X ==m mher A1 *m A2 -> (0 < tol)%R ->
  exists eps, (0 < eps)%R /\ forall B1 B2, near eps A1 B1 -> near eps A2 B2 -> inj B1 /\ forall X', nr X' = k -> nc X' = k -> (mher B1 *m B1) *m X' ==m mher B1 *m B2 -> near tol X X'.
Proof.
  intros N2 C1 C2 HI x1 x2 HX Ht.
  destruct (near_inj A1 HI) as (e1 & p1 & H1).
  destruct (near_solve_l k (mher A1 *m A1) X (mher A1 *m A2) tol) as (e2 & p2 & H2); [exact C1|exact C1|apply pd_inj, gram_pd, HI|exact x1|exact HX|exact Ht|].
  destruct (near_mul (mher A1) A1 e2 eq_refl p2) as (e3 & p3 & H3). destruct (near_mul (mher A1) A2 e2 ltac:(cbn; congruence) p2) as (e4 & p4 & H4).
  destruct (pick2 e1 e3 p1 p3) as (f & pf & f1 & f2). destruct (pick2 f e4 pf p4) as (e & pe & g1 & g2).
  exists e. split; [exact pe|]. intros B1 B2 N1 N2'. split; [apply H1; apply (near_mono e); [lra|exact N1]|].
  intros X' y1 y2 HX'. apply (H2 (mher B1 *m B1) (mher B1 *m B2) X'); auto; [| |congruence].
  - apply H3; [apply near_her|]; apply (near_mono e); auto; lra.
  - apply H4; [apply near_her|]; apply (near_mono e); auto; lra.
Qed.
Lemma near_hcat e A1 A2 B1 B2 : nr A2 = nr A1 -> near e A1 B1 -> near e A2 B2 -> near e (hcat A1 A2) (hcat B1 B2).
Proof.
  intros N (a1 & b1 & H1) (a2 & b2 & H2). split; [exact a1|]. split; [cbn; congruence|]. intros i j Hi Hj. cbn [hcat nr nc ent] in *. rewrite b1.
  destruct (Nat.ltb_spec j (nc A1)); [apply H1; lia|apply H2; lia].
Qed.
Lemma T22_mix k V U e : nr V = (2 * k)%nat -> nr U = k -> nc U = k -> forall V0, near e (win (2 * k) 0 k V0) (win (2 * k) 0 k V *m U) ->
  near e (T22 k V0) (T22 k V *m U) /\ near e (T12 k V0) (T12 k V *m U).
Proof.
  intros v1 u1 u2 V0 (_ & _ & H). split; (split; [reflexivity|]; split; [exact u2|]); intros i j Hi Hj; cbn [T22 T12 nr nc] in Hi, Hj.
  - specialize (H (k + i)%nat j ltac:(cbn; lia) Hj). cbn [win mmul nr nc ent T22] in *. exact H.
  - specialize (H i j ltac:(cbn; lia) Hj). cbn [win mmul nr nc ent T12] in *. exact H.
Qed.
Lemma inj_mix N U k : nr U = k -> nc U = k -> nc N = k -> mher U *m U ==m mid k -> inj (N *m U) -> inj N.
Proof.
  intros u1 u2 n2 HU HI x Hx j Hj.
  assert (U2 : U *m mher U ==m mid k) by (apply left_inv_right; cbn; auto).
  assert (Q : forall i, (i < k)%nat -> mvec U (mvec (mher U) x) i = x i).
  { intros i Hi. rewrite <- mvec_mmul. rewrite (mvec_eq _ _ x i U2) by (cbn; lia). now apply mvec_mid. }
  assert (Z : forall i, (i < k)%nat -> mvec (mher U) x i = RtoC 0).
  { intros i Hi. apply (HI (mvec (mher U) x)); [|cbn; lia]. intros r Hr. rewrite mvec_mmul. rewrite <- (Hx r Hr). unfold mvec at 1 3. apply csum_ext. intros s Hs. rewrite Q by lia. reflexivity. }
  rewrite <- (Q j) by lia. unfold mvec at 1. apply csum_0. intros s Hs. rewrite Z by lia. ring.
Qed.
Lemma tls_cont A1 A2 k w V X tol : (1 <= k)%nat -> nr A2 = nr A1 -> nc A1 = k -> nc A2 = k -> eigh_ok (mher (hcat A1 A2) *m hcat A1 A2) w V -> (nth (k - 1) w 0 < nth k w 0)%R -> inj (T22 k V) ->
  nr X = k -> nc X = k -> X *m T22 k V ==m mscal (RtoC (-1)) (T12 k V) -> (0 < tol)%R ->
  exists eps, (0 < eps)%R /\ forall B1 B2, near eps A1 B1 -> near eps A2 B2 -> forall w' V', eigh_ok (mher (hcat B1 B2) *m hcat B1 B2) w' V' ->
    (nth (k - 1) w' 0 < nth k w' 0)%R /\ inj (T22 k V') /\ forall X', nr X' = k -> nc X' = k -> X' *m T22 k V' ==m mscal (RtoC (-1)) (T12 k V') -> near tol X X'.
Proof.
  intros Hk N2 C1 C2 OV Gap HI x1 x2 HX Ht. set (Gm := mher (hcat A1 A2) *m hcat A1 A2) in *.
  assert (GN : nr Gm = (2 * k)%nat) by (cbn [Gm mmul mher nr hcat nc]; lia). assert (GC : nc Gm = (2 * k)%nat) by (cbn [Gm mmul mher nr hcat nc]; lia).
  assert (HG : hermitian Gm) by (apply hermitian_gram).
  assert (Srt : StronglySorted Rle w) by apply OV. assert (Lw : List.length w = (2 * k)%nat) by (rewrite <- GN; apply OV).
  set (g := (nth k w 0 - nth (k - 1) w 0)%R). assert (Gp : (0 < g)%R) by (unfold g; lra).
  destruct (near_inj (T22 k V) HI) as (e1 & p1 & H1).
  destruct (near_solve k (T22 k V) X (mscal (RtoC (-1)) (T12 k V)) tol eq_refl eq_refl HI x2 HX Ht) as (e2 & p2 & H2).
  destruct (near_scal (RtoC (-1)) (T12 k V) e2 p2) as (e3 & p3 & H3).
  destruct (pick2 e1 e2 p1 p2) as (f1 & pf1 & f11 & f12). destruct (pick2 f1 e3 pf1 p3) as (f & pf & ff1 & ff2).
  destruct (align Gm w V 0 k g f HG OV ltac:(lia) Gp) as (e4 & p4 & H4).
  { intros i j Hi Ho Hj. assert (k <= i)%nat by lia. pose proof (sorted_nth w k i Srt ltac:(lia) ltac:(lia)). pose proof (sorted_nth w (0 + j) (k - 1) Srt ltac:(lia) ltac:(lia)).
    unfold g. rewrite Rabs_pos_eq by lra. lra. }
  { exact pf. }
  (* gram near -> distance small *)
  destruct (pick2 e4 (g / 2) p4 ltac:(lra)) as (e5 & p5 & e51 & e52).
  set (e6 := (e5 / (INR (2 * k) + 1))%R). pose proof (pos_INR (2 * k)) as PI2. assert (p6 : (0 < e6)%R) by (apply Rdiv_lt_0_compat; lra).
  assert (Q6 : (INR (2 * k) * e6 < e5)%R). { unfold e6. apply (Rmult_lt_reg_r (INR (2 * k) + 1)); [lra|]. unfold Rdiv. rewrite <- Rmult_assoc, Rmult_assoc, Rinv_l, Rmult_1_r by lra. nra. }
  destruct (near_mul (mher (hcat A1 A2)) (hcat A1 A2) e6 eq_refl p6) as (e7 & p7 & H7).
  exists e7. split; [exact p7|]. intros B1 B2 NB1 NB2 w' V' OV'. set (Gm' := mher (hcat B1 B2) *m hcat B1 B2) in *.
  pose proof (near_hcat e7 A1 A2 B1 B2 N2 NB1 NB2) as NH. pose proof (H7 _ _ (near_her _ _ _ NH) NH) as NG. fold Gm Gm' in NG.
  assert (HG' : hermitian Gm') by (apply hermitian_gram). assert (GN' : nr Gm' = nr Gm) by (destruct NG; assumption).
  pose proof (near_distance (2 * k) e6 Gm Gm' GN GC ltac:(lra) NG) as D.
  destruct (H4 Gm' w' V' HG' GN' OV' ltac:(lra)) as (U & u1 & u2 & HU & NW). rewrite GN in NW.
  assert (v1 : nr V' = (2 * k)%nat) by (rewrite <- GN, <- GN'; apply OV').
  destruct (T22_mix k V' U f v1 u1 u2 V NW) as (M22 & M12).
  split; [|split].
  - pose proof (weyl Gm Gm' w V w' V' k HG HG' (eq_sym GN') OV OV' ltac:(lia)) as W1. pose proof (weyl Gm Gm' w V w' V' (k - 1) HG HG' (eq_sym GN') OV OV' ltac:(lia)) as W2.
    pose proof (Rle_abs (nth k w 0 - nth k w' 0)%R) as H. pose proof (Rle_abs (- (nth (k - 1) w 0 - nth (k - 1) w' 0))%R) as H0. rewrite Rabs_Ropp in H0. unfold g in *. lra.
  - apply (inj_mix (T22 k V') U k u1 u2 eq_refl HU). apply H1. apply (near_mono f); [lra|exact M22].
  - intros X' y1 y2 HX'. apply (H2 (T22 k V' *m U) (mscal (RtoC (-1)) (T12 k V' *m U)) X').
    + apply (near_mono f); [lra|exact M22].
    + apply H3. apply (near_mono f); [lra|exact M12].
    + congruence.
    + exact y2.
    + rewrite <- mmul_assoc. rewrite (mmul_eq_l _ _ U HX'). apply mscal_mmul_l.
Qed.

Lemma rot_cont eigh solve f A1 A2 k X tol : (1 <= k)%nat -> nr A2 = nr A1 -> nc A1 = k -> nc A2 = k -> determined f k A1 A2 ->
  solve_contract k solve -> (f = "tls"%string -> eigh_contract (2 * k) eigh) -> rotation eigh solve f (Z.of_nat k) A1 A2 = Ok X -> (0 < tol)%R ->
  exists eps, (0 < eps)%R /\ forall B1 B2, near eps A1 B1 -> near eps A2 B2 -> determined f k B1 B2 /\
    forall eigh' solve' X', solve_contract k solve' -> (f = "tls"%string -> eigh_contract (2 * k) eigh') -> rotation eigh' solve' f (Z.of_nat k) B1 B2 = Ok X' -> near tol X X'.
Proof.
  intros Hk N2 C1 C2 [(-> & HI)|(-> & HT)] HS HEc RX Ht.
  - assert (LS : forall B1 B2 so ei Y, nr B2 = nr B1 -> nc B1 = k -> nc B2 = k -> inj B1 -> solve_contract k so -> rotation ei so "ls" (Z.of_nat k) B1 B2 = Ok Y -> nr Y = k /\ nc Y = k /\ (mher B1 *m B1) *m Y ==m mher B1 *m B2).
    { intros B1 B2 so ei Y n2 c1 c2 IB SO RY. unfold rotation in RY. cbn [String.eqb Ascii.eqb Bool.eqb] in RY. rewrite !matmul_ok in RY by (cbn [mher nc]; congruence). cbn [bind] in RY.
      destruct (SO (mher B1 *m B1) (mher B1 *m B2)) as (Y' & EY & Y1 & Y2 & Y3); [reflexivity | cbn [mmul mher nr]; lia | apply pd_inj, gram_pd, IB | reflexivity |].
      rewrite RY in EY. injection EY as <-. cbn [mmul mher nr nc] in Y1, Y2. split; [congruence|]. split; [congruence|exact Y3]. }
    destruct (LS A1 A2 solve eigh X N2 C1 C2 HI HS RX) as (x1 & x2 & x3).
    destruct (ls_cont A1 A2 k X tol N2 C1 C2 HI x1 x2 x3 Ht) as (eps & pe & H). exists eps. split; [exact pe|]. intros B1 B2 NB1 NB2. destruct (H B1 B2 NB1 NB2) as (IB & HB).
    split; [left; split; [reflexivity|exact IB]|]. intros eigh' solve' X' HS' _ RX'. destruct NB1 as (a1 & b1 & _), NB2 as (a2 & b2 & _).
    destruct (LS B1 B2 solve' eigh' X' ltac:(congruence) ltac:(congruence) ltac:(congruence) IB HS' RX') as (y1 & y2 & y3). now apply HB.
  - specialize (HEc eq_refl).
    assert (TL : forall B1 B2 so ei Y w V, nr B2 = nr B1 -> nc B1 = k -> nc B2 = k -> ei (mher (hcat B1 B2) *m hcat B1 B2) = Ok (w, V) -> eigh_ok (mher (hcat B1 B2) *m hcat B1 B2) w V -> inj (T22 k V) -> solve_contract k so -> rotation ei so "tls" (Z.of_nat k) B1 B2 = Ok Y ->
      nr Y = k /\ nc Y = k /\ Y *m T22 k V ==m mscal (RtoC (-1)) (T12 k V)).
    { intros B1 B2 so ei Y w V n2 c1 c2 EV OV IV SO RY. destruct OV as (_ & v1 & v2 & _). cbn [mmul mher nr hcat nc] in v1, v2.
      destruct (rot_tls_value ei so k B1 B2 w V SO n2 EV ltac:(lia) ltac:(lia) IV) as (Y' & EY & Y1 & Y2 & Y3). rewrite RY in EY. injection EY as <-. auto. }
    destruct (HEc (mher (hcat A1 A2) *m hcat A1 A2) (hermitian_gram _) ltac:(cbn [mmul mher nr hcat nc]; lia)) as (w & V & EV & OV).
    destruct (HT w V OV) as (Gap & IV). change (inj (T22 k V)) in IV.
    destruct (TL A1 A2 solve eigh X w V N2 C1 C2 EV OV IV HS RX) as (x1 & x2 & x3).
    destruct (tls_cont A1 A2 k w V X tol Hk N2 C1 C2 OV Gap IV x1 x2 x3 Ht) as (eps & pe & H). exists eps. split; [exact pe|]. intros B1 B2 NB1 NB2.
    split; [right; split; [reflexivity|]; intros w' V' OV'; destruct (H B1 B2 NB1 NB2 w' V' OV') as (h1 & h2 & _); split; [exact h1|exact h2]|].
    intros eigh' solve' X' HS' HE' RX'. specialize (HE' eq_refl). pose proof NB1 as (a1 & b1 & _). pose proof NB2 as (a2 & b2 & _).
    destruct (HE' (mher (hcat B1 B2) *m hcat B1 B2) (hermitian_gram _) ltac:(cbn [mmul mher nr hcat nc]; lia)) as (w' & V' & EV' & OV').
    destruct (H B1 B2 NB1 NB2 w' V' OV') as (_ & IV' & HX).
    destruct (TL B1 B2 solve' eigh' X' w' V' ltac:(congruence) ltac:(congruence) ltac:(congruence) EV' OV' IV' HS' RX') as (y1 & y2 & y3). now apply HX.
Qed.

(** the rotation of mixed subarrays *)
Lemma rot_mixed eigh solve f k A1 A2 B1 B2 G : solve_contract k solve -> (f = "tls"%string -> eigh_contract (2 * k) eigh) -> (1 <= k)%nat -> nr A2 = nr A1 -> nc A1 = k -> nc A2 = k -> nr G = k -> nc G = k -> mher G *m G ==m mid k ->
  B1 ==m A1 *m G -> B2 ==m A2 *m G -> determined f k A1 A2 ->
  exists X X', rotation eigh solve f (Z.of_nat k) A1 A2 = Ok X /\ rotation eigh solve f (Z.of_nat k) B1 B2 = Ok X' /\ nr X = k /\ nc X = k /\ nr X' = k /\ nc X' = k /\ G *m X' ==m X *m G.
Proof.
  intros HS HEc Hk N2 C1 C2 g1 g2 U Q1 Q2 [(-> & HI)|(-> & HT)].
  - now apply rot_ls_inv.
  - specialize (HEc eq_refl). now apply rot_tls_inv.
Qed.
