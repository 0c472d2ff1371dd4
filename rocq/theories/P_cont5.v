(** Continuity of the shifts found by ESPRIT. *)
From Coq Require Import Sorting.Sorted Sorting.Permutation.
From Verif Require Import Base_Np Base_Lin P_courant M_sources P_sources M_core M_subspace S_subspace P_subspace P_subspace3 P_subspace4 P_equiv2 P_ml7 P_signals Prop_subspace S_stable P_stable P_stable5 S_invar S_invar2 P_invar P_invar4 P_cont P_cont2 P_cont3 P_cont4.
Open Scope C_scope.

Lemma near_sub_rows E m k d r0 g tol : (r0 <= d)%nat -> (d < m)%nat -> (0 < tol)%R -> exists eps, (0 < eps)%R /\ forall E' U, nr U = k -> nc U = k -> near eps (last_cols m k E) (last_cols m k E' *m U) ->
  near tol (sub_rows E m k d r0 g) (sub_rows E' m k d r0 g *m U).
Proof.
  intros Hr Hd Ht. destruct (entries_bounded (Mat m 1 (fun i _ => g i))) as (M & M1 & HM). cbn [nr nc ent] in HM.
  exists (tol / M)%R. split; [apply Rdiv_lt_0_compat; lra|]. intros E' U u1 u2 (_ & _ & H). split; [reflexivity|]. split; [exact u2|].
  intros i j Hi Hj. cbn [sub_rows nr nc] in Hi, Hj. specialize (H (r0 + i)%nat j ltac:(cbn; lia) Hj). cbn [last_cols mmul nc ent] in H. cbn [sub_rows mmul nc ent].
  rewrite (csum_ext k _ (fun q => g (r0 + i)%nat * (ent E' (r0 + i) (m - k + q) * ent U q j))) by (intros; ring). rewrite csum_scal.
  replace (ent E (r0 + i) (m - k + j) * g (r0 + i)%nat - g (r0 + i)%nat * csum k (fun q => ent E' (r0 + i) (m - k + q) * ent U q j)) with (g (r0 + i)%nat * (ent E (r0 + i) (m - k + j) - csum k (fun q => ent E' (r0 + i) (m - k + q) * ent U q j))) by ring.
  rewrite Cmod_mult. specialize (HM (r0 + i)%nat 0%nat ltac:(lia) ltac:(lia)).
  apply Rle_trans with (M * (tol / M))%R; [apply Rmult_le_compat; auto; apply Cmod_ge_0|]. right. field. lra.
Qed.
Lemma near_eq_r e A B B' : B ==m B' -> near e A B -> near e A B'.
Proof. intros Q. apply near_eq; [reflexivity|exact Q]. Qed.

Lemma weights_len rw m d wt : check_row_weights rw (Z.of_nat (m - d)) = Ok wt -> match wt with None => True | Some l => List.length l = (m - d)%nat end.
Proof.
  intros CW. unfold check_row_weights in CW. destruct rw as [s0|sh l|]; [|destruct (_ || _)%bool eqn:EB; [discriminate|]|discriminate].
  - destruct (String.eqb s0 "none"); [injection CW as <-; exact I|]. destruct (String.eqb s0 "default"); [|discriminate]. injection CW as <-. rewrite Nat2Z.id. apply default_weights.
  - injection CW as <-. apply orb_false_iff in EB as (_ & EB). apply negb_false_iff, Z.eqb_eq in EB. lia.
Qed.
Lemma esprit_z_value eigh solve eigvals Rm m k d f rw wt w E A1 A2 X : nr Rm = m -> (1 <= k)%nat -> (1 <= d)%nat -> (k + d <= m)%nat -> check_row_weights rw (Z.of_nat (m - d)) = Ok wt -> eigh Rm = Ok (w, E) ->
  esprit_subarrays E (Z.of_nat k) (Z.of_nat d) wt = Ok (A1, A2) -> rotation eigh solve f (Z.of_nat k) A1 A2 = Ok X -> esprit_z eigh solve eigvals Rm (Z.of_nat k) (Z.of_nat d) f rw = eigvals X.
Proof.
  intros R1 Hk Hd Hkd CW EE SA RX. unfold esprit_z. rewrite R1. destruct (Z.ltb_spec (Z.of_nat d) 1); [lia|].
  replace (Z.of_nat m - Z.of_nat d)%Z with (Z.of_nat (m - d)) by lia.
  unfold ensure_n_resolvable_sources. destruct (Z.gtb_spec (Z.of_nat k) (Z.of_nat (m - d))); [lia|]. cbn [bind]. rewrite CW. cbn [bind]. rewrite EE. cbn [bind]. rewrite SA. cbn [bind]. rewrite RX. reflexivity.
Qed.

Lemma esprit_z_cont eigh solve eigvals m (Rm : cmat) w E k d f rw z tol :
  solve_contract k solve -> eigvals_contract k eigvals -> (f = "tls"%string -> eigh_contract (2 * k) eigh) ->
  nr Rm = m -> hermitian Rm -> eigh Rm = Ok (w, E) -> eigh_ok Rm w E -> (1 <= k)%nat -> (1 <= d)%nat -> (k + d <= m)%nat -> (nth (m - k - 1) w 0 < nth (m - k) w 0)%R ->
  esprit_determined f rw m k d E -> esprit_z eigh solve eigvals Rm (Z.of_nat k) (Z.of_nat d) f rw = Ok z -> NoDup z -> (0 < tol)%R ->
  exists eps, (0 < eps)%R /\ forall eigh' solve' eigvals' (Rm' : cmat), eigh_contract (Nat.max m (2 * k)) eigh' -> solve_contract k solve' -> eigvals_contract k eigvals' ->
    hermitian Rm' -> nr Rm' = m -> (distance Rm Rm' < eps)%R ->
    exists z' z0, esprit_z eigh' solve' eigvals' Rm' (Z.of_nat k) (Z.of_nat d) f rw = Ok z' /\ Permutation z0 z' /\ Forall2 (fun a b => (Cmod (a - b)%C < tol)%R) z z0.
Proof.
  intros HS HV HEc R1 HH EE OE Hk Hd Hkd Gap (wt & E1 & E2 & CW & SE & DT) HZ ND Ht.
  assert (R2 : nc Rm = m) by (destruct HH; congruence). pose proof (weights_len rw m d wt CW) as LW.
  destruct (OE) as (_ & e1 & e2 & _). rewrite R1 in e1, e2. assert (Lw : List.length w = m) by (rewrite <- R1; apply OE). assert (Srt : StronglySorted Rle w) by apply OE.
  destruct (esprit_subarrays_value E m k d wt e1 e2 ltac:(lia) ltac:(lia) LW) as (A1 & A2 & SA & HA1 & HA2). rewrite SA in SE. injection SE as <- <-. set (g := row_factor wt m d) in *.
  assert (DA1 : nr A1 = (m - d)%nat /\ nc A1 = k) by (split; [apply (meq_nr _ _ HA1)|apply (meq_nc _ _ HA1)]).
  assert (DA2 : nr A2 = (m - d)%nat /\ nc A2 = k) by (split; [apply (meq_nr _ _ HA2)|apply (meq_nc _ _ HA2)]).
  destruct DA1 as (a1 & c1), DA2 as (a2 & c2).
  assert (UM : mher (mid k) *m mid k ==m mid k) by (rewrite (mmul_eq_l _ _ (mid k) (mher_mid k)); now apply mmul_id_l).
  destruct (rot_mixed eigh solve f k A1 A2 A1 A2 (mid k) HS HEc Hk ltac:(congruence) c1 c2 eq_refl eq_refl UM ltac:(symmetry; apply mmul_id_r; congruence) ltac:(symmetry; apply mmul_id_r; congruence) DT) as (X & _ & RX & _ & x1 & x2 & _).
  assert (ZX : eigvals X = Ok z) by (rewrite <- HZ; symmetry; apply (esprit_z_value eigh solve eigvals Rm m k d f rw wt w E A1 A2 X); auto).
  destruct (HV X ltac:(congruence) ltac:(lia)) as (z1 & Z1 & Z2 & Z3). rewrite ZX in Z1. injection Z1 as <-.
  destruct (eigenvalues_close X k z tol x1 x2 ND ltac:(congruence) Z3 Ht) as (t1 & p1 & H1).
  destruct (rot_cont eigh solve f A1 A2 k X t1 Hk ltac:(congruence) c1 c2 DT HS HEc RX p1) as (t2 & p2 & H2).
  destruct (near_sub_rows E m k d 0 g t2 ltac:(lia) ltac:(lia) p2) as (t3 & p3 & H3). destruct (near_sub_rows E m k d d g t2 ltac:(lia) ltac:(lia) p2) as (t4 & p4 & H4).
  destruct (pick2 t3 t4 p3 p4) as (t & pt & l3 & l4).
  set (gp := (nth (m - k) w 0 - nth (m - k - 1) w 0)%R).
  destruct (align Rm w E (m - k) k gp t HH OE ltac:(lia) ltac:(unfold gp; lra)) as (eps & pe & HA); [|exact pt|].
  { intros i j Hi Ho Hj. rewrite R1 in Hi. assert (i < m - k)%nat by lia. pose proof (sorted_nth w i (m - k - 1) Srt ltac:(lia) ltac:(lia)). pose proof (sorted_nth w (m - k) (m - k + j) Srt ltac:(lia) ltac:(lia)).
    unfold gp. rewrite Rabs_left1 by lra. lra. }
  exists eps. split; [exact pe|]. intros eigh' solve' eigvals' Rm' HE' HS' HV' HH' R1' HD.
  destruct (HE' Rm' HH' ltac:(lia)) as (w' & E' & EE' & OE').
  destruct (HA Rm' w' E' HH' ltac:(congruence) OE' HD) as (U & u1 & u2 & HU & NW). rewrite R1 in NW.
  destruct (OE') as (_ & e1' & e2' & _). rewrite R1' in e1', e2'.
  destruct (esprit_subarrays_value E' m k d wt e1' e2' ltac:(lia) ltac:(lia) LW) as (B1 & B2 & SB & HB1 & HB2). fold g in HB1, HB2.
  change (near t (last_cols m k E) (last_cols m k E' *m U)) in NW.
  assert (N1 : near t2 A1 (B1 *m U)).
  { apply (near_eq t2 (sub_rows E m k d 0 g) A1 (sub_rows E' m k d 0 g *m U)); [now symmetry|apply mmul_eq_l; now symmetry|]. apply H3; auto. apply (near_mono t); [lra|exact NW]. }
  assert (N2 : near t2 A2 (B2 *m U)).
  { apply (near_eq t2 (sub_rows E m k d d g) A2 (sub_rows E' m k d d g *m U)); [now symmetry|apply mmul_eq_l; now symmetry|]. apply H4; auto. apply (near_mono t); [lra|exact NW]. }
  destruct (H2 _ _ N1 N2) as (DT' & HX).
  assert (b1 : nr B1 = (m - d)%nat /\ nc B1 = k) by (split; [apply (meq_nr _ _ HB1)|apply (meq_nc _ _ HB1)]).
  assert (b2 : nr B2 = (m - d)%nat /\ nc B2 = k) by (split; [apply (meq_nr _ _ HB2)|apply (meq_nc _ _ HB2)]).
  destruct b1 as (b1 & b1'), b2 as (b2 & b2').
  assert (U2 : U *m mher U ==m mid k) by (apply left_inv_right; cbn; auto).
  assert (BK : forall B : cmat, nc B = k -> B ==m (B *m U) *m mher U).
  { intros B HB. rewrite (mmul_assoc B U). rewrite (mmul_eq_r B (U *m mher U) (mid k) ltac:(cbn; congruence) U2). symmetry. apply mmul_id_r. congruence. }
  assert (HU' : mher (mher U) *m mher U ==m mid k) by (rewrite (mmul_eq_l _ _ (mher U) (mher_mher U)); exact U2).
  assert (HEc' : f = "tls"%string -> eigh_contract (2 * k) eigh') by (intros _ A HA0 LA; apply HE'; [exact HA0|lia]).
  destruct (rot_mixed eigh' solve' f k (B1 *m U) (B2 *m U) B1 B2 (mher U) HS' HEc' Hk ltac:(cbn; congruence) u2 u2 u2 u1 HU' (BK B1 b1') (BK B2 b2') DT') as (Y & Y' & RY & RY' & y1 & y2 & y1' & y2' & SY).
  pose proof (HX eigh' solve' Y HS' HEc' RY) as NX.
  destruct (HV' Y' ltac:(congruence) ltac:(lia)) as (z' & Q1 & Q2 & Q3).
  destruct (H1 Y z' NX ltac:(congruence)) as (z0 & PZ & FZ).
  { intros x. rewrite Q3. apply (eigenvalue_similar Y Y' (mher U) k x); auto. }
  exists z', z0. split; [|split; assumption]. rewrite <- Q1. apply (esprit_z_value eigh' solve' eigvals' Rm' m k d f rw wt w' E' B1 B2 Y'); auto.
Qed.
