(** Perturbation of eigenvalues and eigenspaces of Hermitian matrices (Weyl, Davis-Kahan) and of the spectra computed from them. *)
From Coq Require Import Sorting.Sorted.
From Verif Require Import Base_Np Base_Lin S_subspace P_subspace P_subspace2 P_spectral P_ml6 P_courant P_invar P_invar6 S_invar S_stable.
Open Scope C_scope.

Lemma vlen_nonneg n x : (0 <= vlen n x)%R. Proof. apply sqrt_pos. Qed.
Lemma vlen_sq n x : (vlen n x * vlen n x = vnorm2 n x)%R. Proof. apply sqrt_sqrt, vnorm2_nonneg. Qed.
Lemma sq_le_len a b : (0 <= b)%R -> (a * a <= b * b)%R -> (a <= b)%R.
Proof. intros Hb H. destruct (Rle_lt_dec a b) as [L|L]; [exact L|]. exfalso. assert (b * b < a * a)%R; [|lra]. apply Rmult_le_0_lt_compat; lra. Qed.
Lemma vnorm2_add n (x y : nat -> C) : vnorm2 n (fun i => x i + y i) = (vnorm2 n x + 2 * Re (vdot n x y) + vnorm2 n y)%R.
Proof.
  unfold vnorm2, vdot. rewrite csum_Re, <- rsum_scal, <- rsum_plus, <- rsum_plus. apply rsum_ext. intros i Hi. destruct (x i), (y i). unfold Cnorm2. cbn. ring.
Qed.
Lemma Re_vdot_le n x y : (Re (vdot n x y) <= vlen n x * vlen n y)%R.
Proof.
  pose proof (vdot_cs n x y) as H. rewrite <- !vlen_sq in H. apply sq_le_len; [apply Rmult_le_pos; apply vlen_nonneg|].
  unfold Cnorm2 in H. pose proof (pow2_ge_0 (Im (vdot n x y))). lra.
Qed.
Lemma vlen_triangle n (x y : nat -> C) : (vlen n (fun i => x i + y i)%C <= vlen n x + vlen n y)%R.
Proof.
  apply sq_le_len; [pose proof (vlen_nonneg n x); pose proof (vlen_nonneg n y); lra|]. rewrite vlen_sq, vnorm2_add. pose proof (Re_vdot_le n x y). pose proof (vlen_sq n x). pose proof (vlen_sq n y). lra.
Qed.
Lemma vlen_ext n x y : (forall i, (i < n)%nat -> x i = y i) -> vlen n x = vlen n y.
Proof. intros H. unfold vlen. now rewrite (vnorm2_ext n x y H). Qed.

(** *** matrices acting on vectors *)
Lemma mvec_norm D x : (vnorm2 (nr D) (mvec D x) <= frob (nr D) (nc D) D * vnorm2 (nc D) x)%R.
Proof.
  unfold frob. rewrite Rmult_comm, <- rsum_scal. unfold vnorm2 at 1. apply rsum_le. intros i Hi. rewrite Rmult_comm.
  pose proof (vdot_cs (nc D) (fun j => Cconj (ent D i j)) x) as H. unfold vdot in H. rewrite (csum_ext _ _ (fun j => ent D i j * x j)) in H by (intros; now rewrite Cconj_conj).
  rewrite (vnorm2_conj (nc D) (fun j => ent D i j)) in H. exact H.
Qed.
Lemma qform_small D x : nr D = nc D -> (Rabs (Re (qform D x)) <= sqrt (frob (nr D) (nr D) D) * vnorm2 (nr D) x)%R.
Proof.
  intros S. rewrite qform_vdot by exact S. assert (F : (0 <= frob (nr D) (nr D) D)%R) by (apply rsum_nonneg; intros; apply rsum_nonneg; intros; apply Cnorm2_nonneg).
  pose proof (vdot_cs (nr D) x (mvec D x)) as H. pose proof (mvec_norm D x) as M. rewrite <- S in M.
  apply sq_le_len; [apply Rmult_le_pos; [apply sqrt_pos | apply vnorm2_nonneg]|].
  replace (sqrt (frob (nr D) (nr D) D) * vnorm2 (nr D) x * (sqrt (frob (nr D) (nr D) D) * vnorm2 (nr D) x))%R with (frob (nr D) (nr D) D * (vnorm2 (nr D) x * vnorm2 (nr D) x))%R by (rewrite <- (sqrt_sqrt _ F) at 1; ring).
  rewrite <- Rabs_mult, Rabs_right by (pose proof (pow2_ge_0 (Re (vdot (nr D) x (mvec D x)))); lra).
  unfold Cnorm2 in H. pose proof (pow2_ge_0 (Im (vdot (nr D) x (mvec D x)))). pose proof (Rmult_le_compat_l _ _ _ (vnorm2_nonneg (nr D) x) M). lra.
Qed.
Lemma distance_frob A B : distance A B = sqrt (frob (nr A) (nc A) (A -m B)). Proof. reflexivity. Qed.
Lemma distance_nonneg A B : (0 <= distance A B)%R. Proof. apply sqrt_pos. Qed.
Lemma distance_sym A B : nr A = nr B -> nc A = nc B -> distance A B = distance B A.
Proof. intros H1 H2. unfold distance. rewrite H1, H2. f_equal. apply rsum_ext. intros i Hi. apply rsum_ext. intros j Hj. destruct (ent A i j), (ent B i j). unfold Cnorm2. cbn. ring. Qed.
Lemma qform_msub A B x : nr A = nr B -> nc A = nc B -> qform (A -m B) x = qform A x - qform B x.
Proof. intros H1 H2. unfold qform. cbn [msub nr nc ent]. rewrite <- H1, <- H2, <- csum_minus. apply csum_ext. intros i Hi. rewrite <- csum_minus. apply csum_ext. intros j Hj. ring. Qed.
Lemma qform_close A B x : nr A = nc A -> nr B = nr A -> nc B = nr A -> (Rabs (Re (qform A x) - Re (qform B x)) <= distance A B * vnorm2 (nr A) x)%R.
Proof.
  intros S B1 B2. rewrite <- Re_minus, <- qform_msub by congruence. rewrite distance_frob. rewrite <- S. exact (qform_small (A -m B) x S).
Qed.

(** *** eigenvalues *)
Lemma eigh_shift A w E t : eigh_ok A w E -> eigh_ok (A +m mscal (RtoC t) (mid (nr A))) (map (fun x => (x + t)%R) w) E.
Proof.
  intros (a & b & c & d & e & f & g). cbn [eigh_ok madd nr nc]. split; [exact a|]. split; [exact b|]. split; [exact c|]. split; [now rewrite map_length|]. split.
  - clear -e. induction e as [|x l S IH F]; constructor; [exact IH|]. apply Forall_map. eapply Forall_impl; [|exact F]. intros y Hy. cbn in *. lra.
  - split; [exact f|]. split; [cbn; lia|]. split; [cbn; lia|]. intros i j Hi Hj. cbn [madd mmul nr nc] in Hi, Hj. rewrite c in Hj.
    pose proof (meq_ent _ _ i j g Hi ltac:(cbn; lia)) as G. cbn [mmul madd mscal mid mdiag ent nr nc] in G |- *. rewrite c in G |- *.
    rewrite (csum_ext (nc A) _ (fun k => ent A i k * ent E k j + RtoC t * ((if Nat.eqb i k then RtoC 1 else RtoC 0) * ent E k j))) by (intros; ring).
    rewrite csum_plus, csum_scal, G. rewrite (csum_single (nc A) _ i); [|lia | intros k Hk N; destruct (Nat.eqb_spec i k); [lia | ring]]. rewrite Nat.eqb_refl.
    rewrite !(csum_single (nr A) _ j); [|exact Hj | intros k Hk N; destruct (Nat.eqb_spec k j); [lia | ring] | exact Hj | intros k Hk N; destruct (Nat.eqb_spec k j); [lia | ring]].
    rewrite !Nat.eqb_refl. rewrite (nth_indep (map _ w) 0%R (0 + t)%R) by (rewrite map_length; lia). rewrite (map_nth (fun x => (x + t)%R)), RtoC_plus. ring.
Qed.
Lemma weyl_upper A B w E w' E' i : hermitian A -> hermitian B -> nr A = nr B -> eigh_ok A w E -> eigh_ok B w' E' -> (i < nr A)%nat ->
  (nth i w 0 <= nth i w' 0 + distance A B)%R.
Proof.
  intros HA HB N OA OB Hi. pose proof HA as (SA & _). pose proof HB as (SB & _). pose proof (eigh_shift B w' E' (distance A B) OB) as OB'. set (B' := B +m _) in OB'.
  assert (HB' : hermitian B') by (apply hermitian_madd; [reflexivity | exact HB | apply hermitian_mscal, hermitian_mid]).
  pose proof (eig_mono A B' w E (map (fun x => (x + distance A B)%R) w') E' HA HB' N) as M.
  rewrite <- (map_nth (fun x => (x + distance A B)%R)). rewrite (nth_indep _ (0 + distance A B)%R 0%R) by (rewrite map_length; destruct OB as (_ & _ & _ & L & _); lia).
  apply M; [|exact OA | exact OB' | exact Hi]. intros x. unfold B'. rewrite qform_madd by (cbn; congruence). rewrite qform_mscal, qform_mid, <- RtoC_mult, Re_plus, Re_RtoC.
  pose proof (qform_close A B x SA ltac:(congruence) ltac:(congruence)) as Q. rewrite <- N. pose proof (Rle_abs (Re (qform A x) - Re (qform B x))). lra.
Qed.
Lemma weyl A B w E w' E' i : hermitian A -> hermitian B -> nr A = nr B -> eigh_ok A w E -> eigh_ok B w' E' -> (i < nr A)%nat ->
  (Rabs (nth i w 0 - nth i w' 0) <= distance A B)%R.
Proof.
  intros HA HB N OA OB Hi. pose proof (weyl_upper A B w E w' E' i HA HB N OA OB Hi) as U1. pose proof (weyl_upper B A w' E' w E i HB HA (eq_sym N) OB OA ltac:(lia)) as U2.
  pose proof HA as (SA & _). pose proof HB as (SB & _). rewrite (distance_sym B A) in U2 by congruence. apply Rabs_le. lra.
Qed.

(** *** eigenspaces *)
Lemma eig_unitary A w E : eigh_ok A w E -> unitary (nr A) (mher E).
Proof.
  intros H. pose proof (eigh_right A w E H) as R. pose proof H as (a & b & c & _). split; [exact c|]. split; [exact b|].
  split; [cbn; exact b|]. split; [cbn; exact b|]. intros i j Hi Hj. cbn [mmul mher nr nc] in Hi, Hj. rewrite <- (meq_ent _ _ i j R) by (cbn; assumption). cbn [mmul mher ent nc nr]. apply csum_ext. intros; now rewrite Cconj_conj.
Qed.
Lemma eig_unitary' A w E : eigh_ok A w E -> unitary (nr A) E.
Proof. intros H. pose proof H as (a & b & c & _ & _ & f & _). split; [exact b|]. split; [exact c|exact f]. Qed.
(** the error seen between eigenvectors of the two matrices *)
Lemma cross_value A B w E w' E' i j : hermitian A -> nr A = nr B -> nc B = nr A -> eigh_ok A w E -> eigh_ok B w' E' -> (i < nr A)%nat -> (j < nr A)%nat ->
  vdot (nr A) (col E i) (mvec (B -m A) (col E' j)) = RtoC (nth j w' 0 - nth i w 0)%R * vdot (nr A) (col E i) (col E' j).
Proof.
  intros HA N C OA OB Hi Hj. pose proof HA as (SA & _).
  transitivity (vdot (nr A) (col E i) (mvec B (col E' j)) - vdot (nr A) (col E i) (mvec A (col E' j))).
  { unfold vdot. rewrite <- csum_minus. apply csum_ext. intros r Hr. unfold mvec. cbn [msub nc ent]. rewrite <- SA, C.
    rewrite (csum_ext _ (fun k => (ent B r k - ent A r k) * _) (fun k => ent B r k * col E' j k - ent A r k * col E' j k)) by (intros; ring). rewrite csum_minus. ring. }
  rewrite (hermitian_bform A _ _ HA).
  rewrite (vdot_ext _ (col E i) (mvec B (col E' j)) (col E i) (fun r => RtoC (nth j w' 0%R) * col E' j r)); [|reflexivity | intros r Hr; apply (eigh_vec B w' E' j OB); lia].
  rewrite P_spectral.vdot_scal.
  rewrite (vdot_ext _ (mvec A (col E i)) (col E' j) (fun r => RtoC (nth i w 0%R) * col E i r) (col E' j)); [|intros r Hr; apply (eigh_vec A w E i OA); lia | reflexivity].
  rewrite <- (vdot_conj _ (col E' j) (fun r => RtoC (nth i w 0%R) * col E i r)), P_spectral.vdot_scal, Cmult_conj, Cconj_RtoC, vdot_conj. rewrite RtoC_minus. ring.
Qed.
Lemma cross_total A B E w w' E' : nr A = nr B -> nc A = nr A -> nc B = nr A -> eigh_ok A w E -> eigh_ok B w' E' ->
  rsum (nr A) (fun i => rsum (nr A) (fun j => Cnorm2 (vdot (nr A) (col E i) (mvec (B -m A) (col E' j))))) = frob (nr A) (nr A) (B -m A).
Proof.
  intros N CA CB OA OB. set (D := B -m A). assert (D1 : nr D = nr B) by reflexivity. assert (D2 : nc D = nc B) by reflexivity. clearbody D. set (m := nr A). pose proof OA as (_ & a2 & a3 & _). pose proof OB as (_ & b2 & b3 & _).
  pose proof (eig_unitary A w E OA) as U1. pose proof (eig_unitary B w' E' OB) as U2. rewrite <- N in U2. fold m in U1, U2.
  assert (X : rsum m (fun i => rsum m (fun j => Cnorm2 (vdot m (col E i) (mvec D (col E' j))))) = frob m m (mher E *m (D *m E'))).
  { unfold frob. apply rsum_ext. intros i Hi. apply rsum_ext. intros j Hj. f_equal. cbn [mmul mher ent nc]. rewrite a2. unfold vdot. apply csum_ext. intros r Hr. f_equal. }
  rewrite X. rewrite (frob_mul m m (mher E) (D *m E') U1) by (cbn; unfold m; congruence). rewrite <- (frob_her m m (D *m E')), <- (frob_her m m D).
  assert (Y : mher (D *m E') ==m mher E' *m mher D) by (apply mher_mmul; cbn; congruence).
  rewrite (frob_eq m m _ _ Y) by (cbn; unfold m; congruence). apply frob_mul; [exact U2 | cbn; unfold m; congruence].
Qed.
(** the blocks of E^H E' between eigenvalues that are at least eta apart are small *)
Lemma rsum_sub n p q f : (p + q <= n)%nat -> (forall i, (i < n)%nat -> (0 <= f i)%R) -> (rsum q (fun i => f (p + i)%nat) <= rsum n f)%R.
Proof.
  intros H F. replace n with (p + (q + (n - p - q)))%nat by lia. rewrite rsum_app, rsum_app.
  pose proof (rsum_nonneg p f ltac:(intros; apply F; lia)). pose proof (rsum_nonneg (n - p - q) (fun i => f (p + (q + i))%nat) ltac:(intros; apply F; lia)). lra.
Qed.
Lemma cross_block A B w E w' E' eta p q p' q' : hermitian A -> hermitian B -> nr A = nr B -> eigh_ok A w E -> eigh_ok B w' E' -> (0 < eta)%R ->
  (p + q <= nr A)%nat -> (p' + q' <= nr A)%nat ->
  (forall i j, (i < q)%nat -> (j < q')%nat -> (eta <= Rabs (nth (p' + j) w' 0 - nth (p + i) w 0))%R) ->
  (rsum q (fun i => rsum q' (fun j => Cnorm2 (vdot (nr A) (col E (p + i)) (col E' (p' + j))))) <= (distance A B / eta) * (distance A B / eta))%R.
Proof.
  intros HA HB N OA OB He Hq Hq' G. pose proof HA as (SA & _). pose proof HB as (SB & _).
  pose proof (cross_total A B E w w' E' N ltac:(congruence) ltac:(congruence) OA OB) as T. assert (CB : nc B = nr A) by congruence.
  set (F := fun i j => Cnorm2 (vdot (nr A) (col E i) (mvec (B -m A) (col E' j)))) in *.
  assert (L : (eta * eta * rsum q (fun i => rsum q' (fun j => Cnorm2 (vdot (nr A) (col E (p + i)) (col E' (p' + j))))) <= rsum q (fun i => rsum q' (fun j => F (p + i)%nat (p' + j)%nat)))%R).
  { rewrite <- rsum_scal. apply rsum_le. intros i Hi. rewrite <- rsum_scal. apply rsum_le. intros j Hj. unfold F.
    rewrite (cross_value A B w E w' E' (p + i) (p' + j) HA N CB OA OB) by lia. rewrite Cnorm2_mult. apply Rmult_le_compat_r; [apply Cnorm2_nonneg|].
    specialize (G i j Hi Hj). set (d := (nth (p' + j) w' 0 - nth (p + i) w 0)%R) in *. unfold Cnorm2. rewrite Re_RtoC, Im_RtoC.
    assert (eta * eta <= Rabs d * Rabs d)%R by (apply Rmult_le_compat; lra). rewrite <- Rabs_mult, Rabs_right in H by (pose proof (pow2_ge_0 d); lra). lra. }
  assert (L2 : (rsum q (fun i => rsum q' (fun j => F (p + i)%nat (p' + j)%nat)) <= frob (nr A) (nr A) (B -m A))%R).
  { rewrite <- T. assert (NF : forall i j, (0 <= F i j)%R) by (intros; apply Cnorm2_nonneg).
    eapply Rle_trans; [|exact (rsum_sub (nr A) p q (fun i => rsum (nr A) (fun j => F i j)) Hq (fun i _ => rsum_nonneg _ _ (fun j _ => NF i j)))]. apply rsum_le. intros i Hi. exact (rsum_sub (nr A) p' q' (fun j => F (p + i)%nat j) Hq' (fun j _ => NF _ j)). }
  assert (DF : (distance A B * distance A B)%R = frob (nr A) (nr A) (B -m A)).
  { rewrite (distance_sym A B) by (congruence || exact N). unfold distance. rewrite sqrt_sqrt; [|apply rsum_nonneg; intros; apply rsum_nonneg; intros; apply Cnorm2_nonneg]. rewrite CB, <- N. reflexivity. }
  apply Rmult_le_reg_l with (eta * eta)%R; [apply Rmult_lt_0_compat; lra|].
  replace (eta * eta * (distance A B / eta * (distance A B / eta)))%R with (distance A B * distance A B)%R by (field; lra). rewrite DF. lra.
Qed.

(** *** lengths of projections onto the first q eigenvectors *)
Definition part (m : nat) (E : cmat) (q : nat) (a : nat -> C) : R := rsum q (fun j => Cnorm2 (vdot m (col E j) a)).
Lemma part_nonneg m E q a : (0 <= part m E q a)%R. Proof. apply rsum_nonneg. intros; apply Cnorm2_nonneg. Qed.
Lemma part_le A w E q a : hermitian A -> eigh_ok A w E -> (q <= nr A)%nat -> (part (nr A) E q a <= vnorm2 (nr A) a)%R.
Proof.
  intros HA OA Hq. rewrite <- (parseval A w E a HA OA). exact (rsum_sub (nr A) 0 q (fun j => Cnorm2 (vdot (nr A) (col E j) a)) ltac:(lia) (fun j _ => Cnorm2_nonneg _)).
Qed.
Lemma vdot_plus n x y z : vdot n x (fun i => y i + z i) = vdot n x y + vdot n x z.
Proof. unfold vdot. rewrite <- csum_plus. apply csum_ext. intros; ring. Qed.
Lemma part_half A B w E w' E' q a t : hermitian A -> hermitian B -> nr A = nr B -> eigh_ok A w E -> eigh_ok B w' E' -> (q <= nr A)%nat -> (0 <= t)%R ->
  (rsum (nr A - q) (fun i => rsum q (fun j => Cnorm2 (vdot (nr A) (col E (q + i)) (col E' j)))) <= t * t)%R ->
  (sqrt (part (nr A) E' q a) <= sqrt (part (nr A) E q a) + t * vlen (nr A) a)%R.
Proof.
  intros HA HB N OA OB Hq Ht X. set (x := fun i => csum q (fun l => vdot (nr A) (col E l) a * col E l i)).
  set (y := fun i => csum (nr A - q) (fun l => vdot (nr A) (col E (q + l)) a * col E (q + l) i)).
  assert (SP : forall i, (i < nr A)%nat -> a i = x i + y i).
  { intros i Hi. rewrite (eigh_expand A w E a i OA Hi) at 1. replace (nr A) with (q + (nr A - q))%nat at 1 by lia. rewrite csum_app. reflexivity. }
  assert (PX : forall j, (j < nr A)%nat -> vdot (nr A) (col E j) x = if Nat.ltb j q then vdot (nr A) (col E j) a else RtoC 0).
  { intros j Hj. unfold x. rewrite (vdot_sum q (nr A) (fun l => vdot (nr A) (col E l) a) (fun l => col E l) (col E j)). destruct (Nat.ltb_spec j q) as [L|L].
    - rewrite (csum_single q _ j L); [rewrite (eigh_orth A w E j j OA Hj Hj), Nat.eqb_refl; ring|]. intros l Hl NL. rewrite (eigh_orth A w E j l OA Hj ltac:(lia)). destruct (Nat.eqb_spec j l); [lia | ring].
    - apply csum_0. intros l Hl. rewrite (eigh_orth A w E j l OA Hj ltac:(lia)). destruct (Nat.eqb_spec j l); [lia | ring]. }
  assert (NX : vnorm2 (nr A) x = part (nr A) E q a).
  { rewrite <- (parseval A w E x HA OA). unfold part. replace (nr A) with (q + (nr A - q))%nat at 1 by lia. rewrite rsum_app. rewrite (rsum_0 (nr A - q)), Rplus_0_r.
    - apply rsum_ext. intros j Hj. rewrite PX by lia. now rewrite (proj2 (Nat.ltb_lt j q) Hj).
    - intros j Hj. rewrite PX by lia. destruct (Nat.ltb_spec (q + j) q); [lia|]. apply Cnorm2_0. reflexivity. }
  set (u := fun j => vdot (nr A) (col E' j) x). set (v := fun j => vdot (nr A) (col E' j) y).
  assert (PA : part (nr A) E' q a = vnorm2 q (fun j => u j + v j)).
  { unfold part, vnorm2. apply rsum_ext. intros j Hj. f_equal. unfold u, v. rewrite <- vdot_plus. apply P_spectral.vdot_ext; [reflexivity | exact SP]. }
  assert (PU : (vnorm2 q u <= part (nr A) E q a)%R). { rewrite <- NX, N. unfold u. rewrite N. exact (part_le B w' E' q x HB OB ltac:(lia)). }
  assert (PV : (vnorm2 q v <= (t * t) * vnorm2 (nr A) a)%R).
  { set (b := fun l => vdot (nr A) (col E (q + l)) a).
    assert (V1 : forall j, (Cnorm2 (v j) <= rsum (nr A - q) (fun l => Cnorm2 (vdot (nr A) (col E (q + l)) (col E' j))) * vnorm2 (nr A - q) b)%R).
    { intros j. unfold v, y. rewrite (vdot_sum (nr A - q) (nr A) (fun l => vdot (nr A) (col E (q + l)) a) (fun l => col E (q + l)) (col E' j)).
      pose proof (vdot_cs (nr A - q) (fun l => vdot (nr A) (col E (q + l)) (col E' j)) b) as CS. unfold vdot at 1 in CS.
      rewrite (csum_ext _ _ (fun l => vdot (nr A) (col E (q + l)) a * vdot (nr A) (col E' j) (col E (q + l)))) in CS by (intros l Hl; rewrite vdot_conj; unfold b; ring). exact CS. }
    assert (V2 : (vnorm2 (nr A - q) b <= vnorm2 (nr A) a)%R).
    { rewrite <- (parseval A w E a HA OA). exact (rsum_sub (nr A) q (nr A - q) (fun j => Cnorm2 (vdot (nr A) (col E j) a)) ltac:(lia) (fun j _ => Cnorm2_nonneg _)). }
    rewrite rsum_swap in X. set (cr := fun j => rsum (nr A - q) (fun l => Cnorm2 (vdot (nr A) (col E (q + l)) (col E' j)))) in *.
    apply Rle_trans with (rsum q cr * vnorm2 (nr A - q) b)%R.
    - rewrite Rmult_comm, <- rsum_scal. unfold vnorm2 at 1. apply rsum_le. intros j _. rewrite Rmult_comm. apply V1.
    - apply Rmult_le_compat; [|apply vnorm2_nonneg | exact X | exact V2]. apply rsum_nonneg. intros j _. apply rsum_nonneg. intros; apply Cnorm2_nonneg. }
  rewrite PA. fold (vlen q (fun j => u j + v j)). eapply Rle_trans; [apply vlen_triangle|]. apply Rplus_le_compat; [apply sqrt_le_1; [apply vnorm2_nonneg | apply part_nonneg | exact PU]|].
  apply sq_le_len; [apply Rmult_le_pos; [exact Ht | apply vlen_nonneg]|]. rewrite vlen_sq. pose proof (vlen_sq (nr A) a) as L. 
  replace (t * vlen (nr A) a * (t * vlen (nr A) a))%R with (t * t * (vlen (nr A) a * vlen (nr A) a))%R by ring. rewrite L. exact PV.
Qed.
(** Davis-Kahan: with a gap delta after the first q eigenvalues of A *)
Lemma sorted_le w i j : StronglySorted Rle w -> (i <= j < List.length w)%nat -> (nth i w 0 <= nth j w 0)%R.
Proof. intros S H. destruct (Nat.eq_dec i j) as [->|N]; [lra|]. apply (sorted_nth w); [exact S | lia | lia]. Qed.
Lemma part_close A B w E w' E' q a delta : hermitian A -> hermitian B -> nr A = nr B -> eigh_ok A w E -> eigh_ok B w' E' -> (0 < q < nr A)%nat ->
  (delta <= nth q w 0 - nth (q - 1) w 0)%R -> (distance A B < delta)%R ->
  (Rabs (sqrt (part (nr A) E' q a) - sqrt (part (nr A) E q a)) <= tilt (distance A B) delta * vlen (nr A) a)%R.
Proof.
  intros HA HB N OA OB Hq G Hd. pose proof (distance_nonneg A B) as D0. pose proof HA as (SA & _). pose proof HB as (SB & _).
  assert (T0 : (0 <= tilt (distance A B) delta)%R) by (unfold tilt; apply Rmult_le_pos; [exact D0 | apply Rlt_le, Rinv_0_lt_compat; lra]).
  pose proof OA as (_ & _ & _ & LA & SrA & _). pose proof OB as (_ & _ & _ & LB & SrB & _).
  assert (W : forall i, (i < nr A)%nat -> (Rabs (nth i w 0 - nth i w' 0) <= distance A B)%R) by (intros i Hi; exact (weyl A B w E w' E' i HA HB N OA OB Hi)).
  assert (Wq := W q ltac:(lia)). assert (Wp := W (q - 1)%nat ltac:(lia)). pose proof (Rle_abs (nth q w 0 - nth q w' 0)%R) as H. pose proof (Rle_abs (- (nth (q - 1) w 0 - nth (q - 1) w' 0))%R) as H0.
  rewrite Rabs_Ropp in H0.
  pose proof (cross_block A B w E w' E' (delta - distance A B) q (nr A - q) 0 q HA HB N OA OB ltac:(lra) ltac:(lia) ltac:(lia)) as C1.
  pose proof (cross_block B A w' E' w E (delta - distance A B) q (nr B - q) 0 q HB HA (eq_sym N) OB OA ltac:(lra) ltac:(lia) ltac:(lia)) as C2.
  rewrite (distance_sym B A) in C2 by congruence.
  assert (H1 := part_half A B w E w' E' q a _ HA HB N OA OB ltac:(lia) T0). assert (H2 := part_half B A w' E' w E q a _ HB HA (eq_sym N) OB OA ltac:(lia) T0).
  rewrite <- N in H2, C2. apply Rabs_le. split.
  - enough (sqrt (part (nr A) E q a) <= sqrt (part (nr A) E' q a) + tilt (distance A B) delta * vlen (nr A) a)%R by lra. apply H2. apply C2. intros i j Hi Hj.
    cbn [Nat.add]. pose proof (sorted_le w' q (q + i) SrB ltac:(lia)). pose proof (sorted_le w j (q - 1) SrA ltac:(lia)). rewrite Rabs_minus_sym, Rabs_right; lra.
  - enough (sqrt (part (nr A) E' q a) <= sqrt (part (nr A) E q a) + tilt (distance A B) delta * vlen (nr A) a)%R by lra. apply H1. apply C1. intros i j Hi Hj.
    cbn [Nat.add]. pose proof (sorted_le w q (q + i) SrA ltac:(lia)). pose proof (sorted_le w' j (q - 1) SrB ltac:(lia)). rewrite Rabs_minus_sym, Rabs_right; lra.
Qed.
