(** Lemmas about the performance module: real symmetric forms, Schur products, bounds. *)
From Verif Require Import Base_Np Base_Lin Base_Trig M_utils M_sources M_array S_utils S_array P_utils P_array2 M_perf S_perf P_subspace3.
Open Scope R_scope.

Definition rmv (S : rmat) (x : nat -> R) (i : nat) : R := rsum (nr S) (fun j => ent S i j * x j).
Definition rdot (n : nat) (x y : nat -> R) : R := rsum n (fun i => x i * y i).
Lemma rform_dot S x : rform S x = rdot (nr S) x (rmv S x). Proof. reflexivity. Qed.
Definition inv_of (S X : rmat) : Prop := nr S = nc S /\ nr X = nr S /\ nc X = nr S /\
  forall i j, (i < nr S)%nat -> (j < nr S)%nat -> rsum (nr S) (fun r => ent S i r * ent X r j) = rident i j.

Lemma rsum_rident_r n j f : (j < n)%nat -> rsum n (fun a => f a * rident a j) = f j.
Proof. intros H. rewrite (rsum_single n _ j H); [unfold rident; rewrite Nat.eqb_refl; ring|]. intros i Hi N. unfold rident. destruct (Nat.eqb_spec i j); [contradiction | ring]. Qed.
Lemma rsum_rident_l n j f : (j < n)%nat -> rsum n (fun a => rident a j * f a) = f j.
Proof. intros H. rewrite (rsum_ext n _ (fun a => f a * rident a j)) by (intros; ring). now apply rsum_rident_r. Qed.

Lemma inv_sym S X : rsym S -> inv_of S X -> rsym X.
Proof.
  intros (_ & HS) (E1 & E2 & E3 & HX). split; [congruence|]. rewrite E2. intros i j Hi Hj. set (n := nr S) in *.
  assert (A1 : rsum n (fun a => rsum n (fun b => ent X a i * (ent S a b * ent X b j))) = ent X j i).
  { rewrite (rsum_ext n _ (fun a => ent X a i * rident a j)); [now rewrite rsum_rident_r|]. intros a Ha. rewrite rsum_scal. f_equal. now apply HX. }
  assert (A2 : rsum n (fun a => rsum n (fun b => ent X a i * (ent S a b * ent X b j))) = ent X i j).
  { rewrite rsum_swap. rewrite (rsum_ext n _ (fun b => rident b i * ent X b j)); [now rewrite rsum_rident_l|]. intros b Hb. rewrite <- HX by assumption. rewrite Rmult_comm, <- rsum_scal. apply rsum_ext. intros a Ha. rewrite (HS b a) by assumption. ring. }
  congruence.
Qed.
Lemma inv_mv S X x i : inv_of S X -> (i < nr S)%nat -> rmv S (rmv X x) i = x i.
Proof.
  intros (E1 & E2 & E3 & HX) Hi. unfold rmv. rewrite E2. set (n := nr S) in *.
  rewrite (rsum_ext n _ (fun a => rsum n (fun b => ent S i a * ent X a b * x b))) by (intros; rewrite <- rsum_scal; apply rsum_ext; intros; ring).
  rewrite rsum_swap. rewrite (rsum_ext n _ (fun b => rident b i * x b)); [now rewrite rsum_rident_l|]. intros b Hb. replace (rident b i) with (rident i b) by (unfold rident; now rewrite Nat.eqb_sym). rewrite <- HX by assumption.
  rewrite Rmult_comm, <- rsum_scal. apply rsum_ext. intros. ring.
Qed.
Lemma rdot_comm n x y : rdot n x y = rdot n y x. Proof. apply rsum_ext. intros. ring. Qed.
Lemma rdot_ext n x y x' y' : (forall i, (i < n)%nat -> x i = x' i) -> (forall i, (i < n)%nat -> y i = y' i) -> rdot n x y = rdot n x' y'.
Proof. intros H1 H2. apply rsum_ext. intros i Hi. now rewrite H1, H2. Qed.
Lemma inv_form S X x : inv_of S X -> rform X x = rform S (rmv X x).
Proof.
  intros H. pose proof H as (E1 & E2 & _). rewrite !rform_dot, E2, rdot_comm. apply rdot_ext; [reflexivity|]. intros i Hi. symmetry. now apply inv_mv.
Qed.
Lemma inv_psd S X : rpsd S -> inv_of S X -> rpsd X.
Proof. intros (HS & HP) H. split; [now apply (inv_sym S)|]. intros x. rewrite (inv_form S X x H). apply HP. Qed.
Lemma rform_sym_dot S x y : rsym S -> rdot (nr S) x (rmv S y) = rdot (nr S) y (rmv S x).
Proof.
  intros (E & HS). unfold rdot, rmv. rewrite (rsum_ext _ _ (fun i => rsum (nr S) (fun j => x i * ent S i j * y j))) by (intros; rewrite <- rsum_scal; apply rsum_ext; intros; ring).
  rewrite rsum_swap. apply rsum_ext. intros j Hj. rewrite <- rsum_scal. apply rsum_ext. intros i Hi. rewrite (HS i j) by assumption. ring.
Qed.
Lemma rform_diff S x y : rsym S -> rform S (fun i => x i - y i) = rform S x - 2 * rdot (nr S) x (rmv S y) + rform S y.
Proof.
  intros H. rewrite !rform_dot. replace (2 * rdot (nr S) x (rmv S y)) with (rdot (nr S) x (rmv S y) + rdot (nr S) y (rmv S x)) by (rewrite (rform_sym_dot S y x H); ring).
  assert (L : forall i, rmv S (fun i => x i - y i) i = rmv S x i - rmv S y i) by (intros i; unfold rmv; rewrite <- rsum_minus; apply rsum_ext; intros; ring).
  unfold rdot. rewrite (rsum_ext _ _ (fun i => (x i * rmv S x i - x i * rmv S y i) - (y i * rmv S x i - y i * rmv S y i))) by (intros; rewrite L; ring).
  rewrite !rsum_minus. ring.
Qed.
(** inversion reverses the order of positive semidefinite forms *)
Lemma inv_antitone S1 S2 X1 X2 x : nr S1 = nr S2 -> rpsd S1 -> rpsd S2 -> inv_of S1 X1 -> inv_of S2 X2 -> (forall z, rform S1 z <= rform S2 z) -> rform X2 x <= rform X1 x.
Proof.
  intros E (Y1 & P1) (Y2 & P2) I1 I2 LE. set (y1 := rmv X1 x). set (y2 := rmv X2 x).
  pose proof (P1 (fun i => y2 i - y1 i)) as H. rewrite (rform_diff S1 y2 y1 Y1) in H.
  assert (D1 : rdot (nr S1) y2 (rmv S1 y1) = rdot (nr S1) y2 x) by (apply rdot_ext; [reflexivity | intros i Hi; now apply inv_mv]).
  assert (D2 : rform X1 x = rform S1 y1) by now apply inv_form.
  assert (D3 : rform X2 x = rform S2 y2) by now apply inv_form.
  assert (D4 : rform S2 y2 = rdot (nr S1) y2 x) by (rewrite rform_dot, <- E; apply rdot_ext; [reflexivity | intros i Hi; apply inv_mv; [exact I2 | lia]]).
  rewrite D1 in H. specialize (LE y2). lra.
Qed.

(** Schur product with a Gram matrix *)
Open Scope C_scope.
Definition gram_info (H Q : cmat) : rmat := mre (mhad H (mtr Q)).
Lemma gram_info_form G H Q x : H ==m mher G *m G -> nr Q = nc G -> nc Q = nc G ->
  rform (gram_info H Q) x = rsum (nr G) (fun r => Re (qform Q (fun j => Cconj (ent G r j) * RtoC (x j)))).
Proof.
  intros (E1 & E2 & E3) Q1 Q2. cbn [mmul mher nr nc] in E1, E2. unfold rform, gram_info. cbn [mre mmap mhad nr nc ent mtr]. rewrite E1.
  set (k := nc G) in *.
  transitivity (Re (csum (nr G) (fun r => qform Q (fun j => Cconj (ent G r j) * RtoC (x j))))); [|apply csum_Re].
  unfold qform. rewrite Q1, Q2.
  rewrite (rsum_ext k _ (fun i => Re (csum k (fun j => RtoC (x i) * (ent H i j * ent Q j i) * RtoC (x j))))).
  2:{ intros i Hi. rewrite csum_Re. rewrite <- rsum_scal. apply rsum_ext. intros j Hj. rewrite !Re_mult, !Im_mult, !Re_RtoC, !Im_RtoC. ring. }
  rewrite <- csum_Re. f_equal.
  rewrite (csum_ext k _ (fun i => csum k (fun j => csum (nr G) (fun r => RtoC (x i) * (Cconj (ent G r i) * ent G r j * ent Q j i) * RtoC (x j))))).
  2:{ intros i Hi. apply csum_ext. intros j Hj. rewrite E3 by lia. cbn [mmul mher ent nc]. fold k. rewrite <- csum_scal_r, <- csum_scal, <- csum_scal_r. reflexivity. }
  rewrite csum_swap. rewrite (csum_ext k _ (fun j => csum (nr G) (fun r => csum k (fun i => RtoC (x i) * (Cconj (ent G r i) * ent G r j * ent Q j i) * RtoC (x j))))) by (intros; apply csum_swap).
  rewrite csum_swap. apply csum_ext. intros r Hr. apply csum_ext. intros j Hj. apply csum_ext. intros i Hi. rewrite Cmult_conj, Cconj_conj, Cconj_RtoC. ring.
Qed.
Lemma gram_info_sym H Q : hermitian H -> hermitian Q -> nr Q = nr H -> rsym (gram_info H Q).
Proof.
  intros (E1 & H1) (E2 & H2) E. split; [exact E1|]. unfold gram_info. cbn [mre mmap mhad nr nc ent mtr]. intros i j Hi Hj.
  rewrite (H1 i j), (H2 i j) by lia. rewrite <- (Re_conj (_ * _)), Cmult_conj, !Cconj_conj. reflexivity.
Qed.
Lemma gram_info_psd G H Q : H ==m mher G *m G -> nr Q = nc G -> psd Q -> rpsd (gram_info H Q).
Proof.
  intros E E1 (HQ & PQ). split.
  - apply gram_info_sym; [eapply hermitian_eq; [symmetry; exact E | apply hermitian_gram] | exact HQ | rewrite (meq_nr _ _ E); exact E1].
  - intros x. rewrite (gram_info_form G H Q x E E1); [|rewrite <- (proj1 HQ); exact E1]. apply rsum_nonneg. intros r _. apply PQ.
Qed.

(** steering matrix and derivatives: shapes *)
Lemma steering_der_iso a s lam sel fl r : steering_matrix a s lam true sel fl = Ok r -> scalar_isotropic a.
Proof.
  unfold steering_matrix. intros H. apply bind_Ok_inv in H as (ps & _ & H). unfold scalar_isotropic. destruct (el_isotropic (ar_elem a)) eqn:E1; [|discriminate].
  unfold is_scalar in H. destruct (Nat.eqb_spec (el_output_size (ar_elem a)) 1); [auto | discriminate].
Qed.
Lemma steering_AD_inv a s lam sel A D : steering_AD a s lam sel = Ok (A, D) -> steering_matrix a s lam true sel false = Ok (Flat A, [D]).
Proof.
  unfold steering_AD. intros H. apply bind_Ok_inv in H as ((St & DA) & HS & H). destruct St as [A1|]; [|discriminate]. destruct DA as [|D1 [|]]; try discriminate. injection H as <- <-. exact HS.
Qed.
Lemma steering_AD_eq a s lam sel A D : steering_matrix a s lam true sel false = Ok (Flat A, [D]) -> steering_AD a s lam sel = Ok (A, D).
Proof. intros H. unfold steering_AD. now rewrite H. Qed.
Lemma steering_shape a l u lam sel A D : wf_array a -> steering_matrix a (FF1 l u) lam true sel false = Ok (Flat A, [D]) ->
  nr A = ar_size a /\ nc A = List.length l /\ nr D = ar_size a /\ nc D = List.length l.
Proof.
  intros W H. pose proof (steering_der_iso _ _ _ _ _ _ H) as I.
  destruct (steering_scalar_inv a _ lam true sel false _ _ W I H) as (ps & L & T & DT & A1 & F1 & F2 & F3 & F4 & F5 & F6 & F7 & F8 & F9).
  injection F7 as <-. inversion F9 as [|X D1 DT0 DA0 F10 F11]; subst. inversion F11; subst.
  assert (NT : nr T = ar_size a) by (rewrite F5; exact (mv_rows _ _ _ F3)).
  assert (NC : nc T = List.length l).
  { clear -F4. unfold phase_delay_matrix in F4. destruct (_ || _)%bool; [discriminate|]. destruct (Reqb lam 0); [discriminate|].
    unfold phase_delay_sin, phase_delay_rad in F4. destruct (String.eqb u "sin"), (Nat.eqb (nc (la_m L)) 1); injection F4 as <- _; cbn; rewrite ?map_length; try reflexivity; destruct (String.eqb u "deg"); rewrite ?map_length; reflexivity. }
  assert (PN : forall X : cmat, nr X = ar_size a -> nr (perturbed ps X) = ar_size a /\ nc (perturbed ps X) = nc X).
  { intros Y HX. destruct (perturbed_linear ps Y) as (Lx & Lr & _); [rewrite HX; intros p Hp; destruct (F6 p Hp); auto|]. rewrite (meq_nc _ _ Lx), (meq_nr _ _ Lx). cbn [mmul nr nc]. split; [|reflexivity]. rewrite Lr. exact HX. }
  rewrite (meq_nr _ _ F8), (meq_nc _ _ F8), (meq_nr _ _ F10), (meq_nc _ _ F10).
  destruct (PN (mmap cis T)) as (-> & ->); [exact NT|]. destruct (PN (deriv0 (mmap cis T) X)) as (-> & ->); [exact NT|]. cbn [mmap nc deriv0]. auto.
Qed.

(** projections *)
Definition perp (Pi : cmat) : cmat := mid (nr Pi) -m Pi.
Lemma perp_her A Pi : orth_projector_onto A Pi -> mher (perp Pi) ==m perp Pi.
Proof.
  intros [(S1 & S2) _ Hh _ _]. unfold perp. etransitivity; [apply mher_msub; cbn; congruence|]. apply msub_eq; [cbn; congruence | cbn; congruence | apply mher_mid | exact Hh].
Qed.
Lemma perp_idem A Pi : orth_projector_onto A Pi -> perp Pi *m perp Pi ==m perp Pi.
Proof.
  intros [(S1 & S2) Hi _ _ _]. unfold perp. etransitivity; [apply mmul_sub_l; cbn; congruence|].
  assert (E1 : mid (nr Pi) *m (mid (nr Pi) -m Pi) ==m mid (nr Pi) -m Pi) by (apply mmul_id_l; reflexivity).
  assert (E2 : Pi *m (mid (nr Pi) -m Pi) ==m Pi -m Pi).
  { etransitivity; [apply mmul_sub_r|]. apply msub_eq; [cbn; congruence | cbn; congruence | apply mmul_id_r; congruence | exact Hi]. }
  etransitivity; [apply msub_eq; [cbn; congruence | cbn; congruence | exact E1 | exact E2]|].
  repeat split; cbn; try congruence. intros i j _ _. ring.
Qed.
Lemma perp_gram A Pi D : orth_projector_onto A Pi -> nr D = nr A -> mher D *m perp Pi *m D ==m mher (perp Pi *m D) *m (perp Pi *m D).
Proof.
  intros HO ED. pose proof (op_shape _ _ HO) as (S1 & S2). assert (EN : nr (perp Pi) = nr D /\ nc (perp Pi) = nr D) by (unfold perp; cbn; lia). destruct EN as (N1 & N2).
  symmetry. etransitivity; [apply mmul_eq_l, mher_mmul; exact N2|].
  etransitivity; [apply mmul_assoc|]. symmetry. etransitivity; [apply mmul_assoc|]. apply mmul_eq_r; [cbn; lia|].
  symmetry. etransitivity; [symmetry; apply mmul_assoc|]. apply mmul_eq_l.
  etransitivity; [apply mmul_eq_l, (perp_her A Pi HO)|]. apply (perp_idem A Pi HO).
Qed.
Lemma info_gram_ent D Pi Q H i j : nr Pi = nr D -> nc Pi = nr D -> H ==m mher D *m perp Pi *m D -> (i < nc D)%nat -> (j < nc D)%nat ->
  ent (info_matrix D Pi Q) i j = ent (gram_info H Q) i j.
Proof.
  intros S1 S2 (E1 & E2 & E) Hi Hj. unfold info_matrix, gram_info. cbn [ent mre mmap mhad mtr]. cbn [mmul mher nr nc] in E1, E2. rewrite E by lia. do 2 f_equal.
  cbn [mmul ent mher nc perp]. unfold perp. rewrite <- S1. unfold bform, col. cbn [msub mid nr nc ent].
  rewrite (csum_ext (nr Pi) (fun r => csum (nr Pi) _ * ent D r j) (fun r => csum (nr Pi) (fun q => Cconj (ent D q i) * ((if Nat.eqb q r then RtoC 1 else RtoC 0) - ent Pi q r) * ent D r j))).
  - apply csum_swap.
  - intros r Hr. rewrite <- csum_scal_r. cbn [msub mid nc mher]. apply csum_ext. intros. reflexivity.
Qed.
Lemma info_gram D Pi Q H : nr Pi = nr D -> nc Pi = nr D -> H ==m mher D *m perp Pi *m D -> meq (info_matrix D Pi Q) (gram_info H Q).
Proof.
  intros S1 S2 E. pose proof E as (E1 & E2 & _). cbn [mmul mher nr nc] in E1, E2. split; [symmetry; exact E1|]. split; [symmetry; exact E2|].
  intros i j Hi Hj. cbn [info_matrix nr nc] in Hi, Hj. now apply info_gram_ent.
Qed.

Lemma rform_meq S S' x : meq S S' -> nr S = nc S -> rform S x = rform S' x.
Proof.
  intros (E1 & E2 & E) N. unfold rform. rewrite <- E1. apply rsum_ext. intros i Hi. f_equal. apply rsum_ext. intros j Hj. rewrite E by lia. reflexivity.
Qed.
Lemma rsym_meq S S' : meq S S' -> rsym S -> rsym S'.
Proof. intros (E1 & E2 & E) (N & Hs). split; [congruence|]. intros i j Hi Hj. rewrite <- !E by lia. apply Hs; lia. Qed.
Lemma rpsd_meq S S' : meq S S' -> rpsd S -> rpsd S'.
Proof. intros E (Hs & P). split; [now apply (rsym_meq S)|]. intros x. rewrite <- (rform_meq S S' x E (proj1 Hs)). apply P. Qed.
Lemma meq_rsym (S S' : rmat) : meq S S' -> meq S' S.
Proof. intros (E1 & E2 & E). repeat split; try congruence. intros i j Hi Hj. symmetry. apply E; lia. Qed.

Lemma info_sym A D Pi Q : orth_projector_onto A Pi -> nr D = nr A -> nr Q = nc D -> hermitian Q -> rsym (info_matrix D Pi Q).
Proof.
  intros HO ED EQ HQ. pose proof (op_shape _ _ HO) as (S1 & S2). eapply rsym_meq; [apply meq_rsym, (info_gram D Pi Q (mher D *m perp Pi *m D)); [lia | lia | reflexivity]|].
  apply gram_info_sym; [|exact HQ | cbn; exact EQ]. eapply hermitian_eq; [symmetry; apply (perp_gram A Pi D HO ED) | apply hermitian_gram].
Qed.
Lemma info_psd A D Pi Q : orth_projector_onto A Pi -> nr D = nr A -> nr Q = nc D -> psd Q -> rpsd (info_matrix D Pi Q).
Proof.
  intros HO ED EQ HQ. pose proof (op_shape _ _ HO) as (S1 & S2). eapply rpsd_meq; [apply meq_rsym, (info_gram D Pi Q (mher D *m perp Pi *m D)); [lia | lia | reflexivity]|].
  eapply gram_info_psd; [apply (perp_gram A Pi D HO ED) | cbn; exact EQ | exact HQ].
Qed.
Lemma info_le A D Pi Q Q' : orth_projector_onto A Pi -> nr D = nr A -> nr Q = nc D -> nc Q = nc D -> nr Q' = nc D -> nc Q' = nc D -> (forall z, (Re (qform Q z) <= Re (qform Q' z))%R) ->
  forall x, (rform (info_matrix D Pi Q) x <= rform (info_matrix D Pi Q') x)%R.
Proof.
  intros HO ED E1 E2 E3 E4 L x. pose proof (op_shape _ _ HO) as (S1 & S2).
  rewrite (rform_meq _ _ x (info_gram D Pi Q (mher D *m perp Pi *m D) ltac:(lia) ltac:(lia) ltac:(reflexivity)) eq_refl).
  rewrite (rform_meq _ _ x (info_gram D Pi Q' (mher D *m perp Pi *m D) ltac:(lia) ltac:(lia) ltac:(reflexivity)) eq_refl).
  rewrite (gram_info_form (perp Pi *m D) _ Q x (perp_gram A Pi D HO ED) E1 E2), (gram_info_form (perp Pi *m D) _ Q' x (perp_gram A Pi D HO ED) E3 E4).
  apply rsum_le. intros r _. apply L.
Qed.
(** 0.5 (X + X^T) for X = c V *)
Lemma symmetrised_sym X : nr X = nc X -> rsym (symmetrised X).
Proof. intros E. split; [exact E|]. intros i j Hi Hj. cbn [symmetrised ent]. ring. Qed.
Lemma symmetrised_inverse S V c : inv_of S V -> rsym S -> scaled_inverse S c (symmetrised (rscal c V)).
Proof.
  intros HI HS. pose proof (inv_sym _ _ HS HI) as (_ & HV). destruct HI as (E1 & E2 & E3 & HI). split; [exact E2|]. split; [exact E3|]. intros i j Hi Hj.
  rewrite <- HI by assumption. rewrite <- rsum_scal. apply rsum_ext. intros r Hr. cbn [symmetrised rscal ent]. rewrite (HV j r) by lia. field.
Qed.
Lemma scaled_inv_of S c V : nr S = nc S -> scaled_inverse S c V -> c <> 0%R -> inv_of S (rscal (/ c) V).
Proof.
  intros E (E1 & E2 & H) Hc. split; [exact E|]. split; [exact E1|]. split; [exact E2|]. intros i j Hi Hj. cbn [rscal ent].
  rewrite (rsum_ext _ _ (fun r => / c * (ent S i r * ent V r j)))%R by (intros; ring). rewrite rsum_scal, H by assumption. field. exact Hc.
Qed.
Lemma rform_rscal c V x : rform (rscal c V) x = (c * rform V x)%R.
Proof. unfold rform. cbn [rscal nr ent]. rewrite <- rsum_scal. apply rsum_ext. intros i _. replace (c * (x i * rsum (nr V) (fun j => ent V i j * x j)))%R with (x i * (c * rsum (nr V) (fun j => ent V i j * x j)))%R by ring. f_equal. rewrite <- rsum_scal. apply rsum_ext. intros; ring. Qed.
