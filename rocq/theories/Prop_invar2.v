(** C96: search-free estimates and source counts depend on the physical scene only. *)
From Coq Require Import Sorting.Sorted Sorting.Permutation.
From Verif Require P_pipeline.
From Verif Require Import Base_Np Base_Lin P_courant P_utils M_utils M_sources P_sources P_sources3 M_designs S_designs P_designs M_coarray S_coarray P_coarray P_coarray2 Prop_coarray M_core M_srcnum S_srcnum P_srcnum Prop_srcnum M_subspace S_subspace P_subspace P_subspace3 P_subspace4 P_oracles Prop_esprit
  Prop_subspace Prop_pipeline5 S_invar S_invar2 P_invar P_invar2 P_invar3 Prop_invar P_invar4.
Open Scope nat_scope.

(** *** from_z: order of the roots and unit of length *)
Lemma sorted_unique {A} (le : A -> A -> Prop) (anti : forall x y, le x y -> le y x -> x = y) : forall l l', StronglySorted le l -> StronglySorted le l' -> Permutation l l' -> l = l'.
Proof.
  induction l as [|a l IH]; intros l' S1 S2 P; [now apply Permutation_nil in P|]. destruct l' as [|b l']; [symmetry in P; now apply Permutation_nil in P|].
  inversion S1; inversion S2; subst. rewrite Forall_forall in *.
  assert (a = b). { assert (I1 : In a (b :: l')) by (eapply Permutation_in; [exact P|now left]). assert (I2 : In b (a :: l)) by (eapply Permutation_in; [symmetry; exact P|now left]).
    destruct I1 as [->|I1]; [reflexivity|]. destruct I2 as [->|I2]; [reflexivity|]. apply anti; auto. }
  subst b. f_equal. apply IH; auto. now apply Permutation_cons_inv in P.
Qed.
Lemma sort_by_unique {A} (le : A -> A -> bool) l l' : (forall x y, le x y = false -> le y x = true) -> (forall x y z, le x y = true -> le y z = true -> le x z = true) ->
  (forall x y, le x y = true -> le y x = true -> x = y) -> Permutation l l' -> sort_by le l = sort_by le l'.
Proof.
  intros T1 T2 T3 P. apply (sorted_unique (fun x y => le x y = true)); auto; try (now apply sort_by_sorted).
  rewrite (sort_by_perm le l), (sort_by_perm le l'). exact P.
Qed.
Lemma Rleb_tot x y : Rleb x y = false -> Rleb y x = true.
Proof. unfold Rleb. destruct (Rle_dec x y), (Rle_dec y x); auto; try discriminate. lra. Qed.
Lemma Rleb_trans x y z : Rleb x y = true -> Rleb y z = true -> Rleb x z = true.
Proof. unfold Rleb. destruct (Rle_dec x y), (Rle_dec y z), (Rle_dec x z); auto; try discriminate. lra. Qed.
Lemma Rleb_anti x y : Rleb x y = true -> Rleb y x = true -> x = y.
Proof. unfold Rleb. destruct (Rle_dec x y), (Rle_dec y x); try discriminate. intros; lra. Qed.
Lemma oleb_tot x y : oleb x y = false -> oleb y x = true.
Proof. destruct x, y; cbn; auto. apply Rleb_tot. Qed.
Lemma oleb_trans x y z : oleb x y = true -> oleb y z = true -> oleb x z = true.
Proof. destruct x, y, z; cbn; auto; try discriminate. apply Rleb_trans. Qed.
Lemma oleb_anti x y : oleb x y = true -> oleb y x = true -> x = y.
Proof. destruct x, y; cbn; auto; try discriminate. intros. f_equal. now apply Rleb_anti. Qed.
Lemma existsb_perm {A} (p : A -> bool) l l' : Permutation l l' -> existsb p l = existsb p l'.
Proof. induction 1; cbn; try congruence. destruct (p x), (p y); reflexivity. Qed.
Lemma from_z_perm z z' lam d0 u : Permutation z z' -> from_z z lam d0 u = from_z z' lam d0 u.
Proof.
  intros P. unfold from_z. destruct (Reqb lam 0); [reflexivity|]. destruct (Reqb d0 0).
  - rewrite (existsb_perm _ _ _ P). assert (Q : map (fun _ : C => @None R) z = map (fun _ => None) z').
    { apply Permutation_length in P. clear -P. revert z' P. induction z; intros [|b z'] P; cbn in *; try lia; [reflexivity|]. f_equal. apply IHz. lia. }
    now rewrite Q.
  - set (f := fun w : C => _).
    rewrite (sort_by_unique Rleb (map f z) (map f z') Rleb_tot Rleb_trans Rleb_anti (Permutation_map f P)).
    rewrite (sort_by_unique oleb (map np_arcsin (map f z)) (map np_arcsin (map f z')) oleb_tot oleb_trans oleb_anti (Permutation_map _ (Permutation_map f P))). reflexivity.
Qed.
Lemma Reqb_mul a x : a <> 0%R -> Reqb (a * x) 0 = Reqb x 0.
Proof.
  intros N. destruct (Req_EM_T x 0) as [->|Nx]; [now rewrite Rmult_0_r|]. rewrite (Reqb_neq x 0 Nx). apply Reqb_neq. intros Q. apply Rmult_integral in Q. tauto.
Qed.
Lemma from_z_unit z alpha lam d0 u : alpha <> 0%R -> from_z z (alpha * lam) (alpha * d0) u = from_z z lam d0 u.
Proof.
  intros N. unfold from_z. rewrite !Reqb_mul by exact N. destruct (Reqb lam 0) eqn:EL; [reflexivity|]. destruct (Reqb d0 0); [reflexivity|].
  assert (NL : lam <> 0%R) by (intros ->; now rewrite Reqb_refl in EL).
  replace (2 * PI * (alpha * d0) / (alpha * lam))%R with (2 * PI * d0 / lam)%R by (field; split; assumption). reflexivity.
Qed.
Lemma spacing_unit alpha lam d0 : match in_unit alpha d0 with None => (alpha * lam / 2)%R | Some d => d end = (alpha * match d0 with None => (lam / 2)%R | Some d => d end)%R.
Proof. destruct d0; cbn; [reflexivity|]. lra. Qed.

Lemma rescaled_recorded c delta Rm Rm' m : nr Rm = m -> nc Rm = m -> rescaled c delta Rm Rm' -> recorded_cov m (mid m) c delta Rm Rm'.
Proof. intros R1 R2 (_ & H). rewrite R1 in H. now apply recorded_scaled. Qed.
Lemma root_coeffs_eq A B : A ==m B -> nr A = nc A -> root_coeffs A = root_coeffs B.
Proof.
  intros (a & b & H) SQ. assert (D : forall i, i < nr A -> diag_sum A i = diag_sum B i).
  { intros i Hi. unfold diag_sum. rewrite <- a. apply csum_ext. intros r Hr. apply H; lia. }
  unfold root_coeffs. rewrite <- a. destruct (nr A) as [|n] eqn:E.
  - cbn [seq map rev Nat.sub app]. unfold diag_sum. rewrite <- a, E. reflexivity.
  - rewrite (D 0) by lia. assert (M : map (fun i => diag_sum A i) (seq 1 (S n - 1)) = map (fun i => diag_sum B i) (seq 1 (S n - 1))) by (apply map_ext_in; intros i Hi; apply in_seq in Hi; apply D; lia).
    rewrite M. reflexivity.
Qed.

(** root-MUSIC gives exactly the same result *)
Theorem C96_root_music : forall eigh eigh' roots argsort m c delta (Rm Rm' : cmat) w E w' E' k lam d0 unit alpha,
  nr Rm = m -> hermitian Rm -> rescaled c delta Rm Rm' ->
  eigh Rm = Ok (w, E) -> eigh_ok Rm w E -> eigh' Rm' = Ok (w', E') -> eigh_ok Rm' w' E' -> 1 <= k < m -> gap k w -> alpha <> 0%R ->
  root_music eigh' roots argsort (alpha * lam) Rm' (Z.of_nat k) (in_unit alpha d0) unit = root_music eigh roots argsort lam Rm (Z.of_nat k) d0 unit.
Proof.
  intros eigh eigh' roots argsort m c delta Rm Rm' w E w' E' k lam d0 unit alpha R1 HH HR HE OE HE' OE' Hk Gap Na.
  assert (Lw : List.length w = m) by (rewrite <- R1; apply OE). unfold gap in Gap. rewrite Lw in Gap.
  assert (R2 : nc Rm = m) by (destruct HH; congruence). pose proof (rescaled_recorded c delta Rm Rm' m R1 R2 HR) as RC. destruct HR as (Hc & HR).
  assert (R1' : nr Rm' = m) by (rewrite (meq_nr _ _ HR); exact R1). assert (R2' : nc Rm' = m) by (rewrite (meq_nc _ _ HR); exact R2).
  destruct (rec_noise eigh eigh' m (mid m) c delta Rm Rm' w E w' E' k (unitary_mid m) R1 HH Hc RC HE OE HE' OE' Hk Gap) as (En & En' & G & N & N' & n1 & n2 & n1' & n2' & g1 & g2 & g3 & g4).
  assert (Q : En' *m mher En' ==m En *m mher En).
  { assert (X : mher (mid m) *m En' ==m En') by (rewrite (mmul_eq_l _ _ En' (mher_mid m)); apply mmul_id_l; now symmetry).
    assert (Y : En' ==m En *m G) by (etransitivity; [symmetry; exact X|exact g4]).
    rewrite (mmul_eq En' _ (mher En') _ eq_refl Y (P_signals.mher_eq _ _ Y)). apply gram_mix; [congruence|]. now rewrite n2. }
  unfold root_music. rewrite R1, R2, R1', R2'. cbv zeta. rewrite N, N'. cbn [bind]. rewrite !matmul_ok by reflexivity. cbn [bind].
  rewrite (root_coeffs_eq _ _ Q) by reflexivity. rewrite spacing_unit.
  destruct (negb (m =? m)); [reflexivity|]. destruct (ensure_n_resolvable_sources _ _); [|reflexivity]. cbn [bind]. destruct (roots _); [|reflexivity]. cbn [bind]. destruct (root_select _ _ _) as [[z|]|]; cbn [bind]; try reflexivity.
  now rewrite from_z_unit by exact Na.
Qed.
Print Assumptions C96_root_music.

(** ESPRIT: the same set of shifts; if they are distinct, exactly the same result *)
Theorem C96_esprit : forall eigh eigh' solve solve' eigvals eigvals' m c delta (Rm Rm' : cmat) w E w' E' k d formulation rw lam d0 unit alpha,
  solve_contract k solve -> solve_contract k solve' -> eigvals_contract k eigvals -> eigvals_contract k eigvals' ->
  (formulation = "tls"%string -> eigh_contract (2 * k) eigh /\ eigh_contract (2 * k) eigh') ->
  nr Rm = m -> hermitian Rm -> rescaled c delta Rm Rm' ->
  eigh Rm = Ok (w, E) -> eigh_ok Rm w E -> eigh' Rm' = Ok (w', E') -> eigh_ok Rm' w' E' -> 1 <= k -> 1 <= d -> k + d <= m -> gap k w ->
  esprit_determined formulation rw m k d E -> alpha <> 0%R ->
  exists z z', esprit_z eigh solve eigvals Rm (Z.of_nat k) (Z.of_nat d) formulation rw = Ok z /\ esprit_z eigh' solve' eigvals' Rm' (Z.of_nat k) (Z.of_nat d) formulation rw = Ok z' /\
    List.length z = k /\ List.length z' = k /\ (forall x, In x z <-> In x z') /\
    (NoDup z -> Permutation z z' /\
       esprit eigh' solve' eigvals' (alpha * lam) Rm' (Z.of_nat k) (in_unit alpha d0) (Z.of_nat d) formulation rw unit =
       esprit eigh solve eigvals lam Rm (Z.of_nat k) d0 (Z.of_nat d) formulation rw unit).
Proof.
  intros eigh eigh' solve solve' eigvals eigvals' m c delta Rm Rm' w E w' E' k d f rw lam d0 unit alpha HS HS' HV HV' HEc R1 HH HR HE OE HE' OE' Hk Hd Hkd Gap HD Na.
  assert (Lw : List.length w = m) by (rewrite <- R1; apply OE). unfold gap in Gap. rewrite Lw in Gap.
  destruct (esprit_z_inv eigh eigh' solve solve' eigvals eigvals' m c delta Rm Rm' w E w' E' k d f rw HS HS' HV HV' HEc R1 HH HR HE OE HE' OE' Hk Hd Hkd Gap HD) as (z & z' & Z & Z' & L & L' & I).
  exists z, z'. do 5 (split; [assumption|]). intros ND.
  assert (P : Permutation z z') by (apply NoDup_Permutation_bis; [exact ND|lia|intros x Hx; now apply I]).
  split; [exact P|]. unfold esprit. rewrite Z, Z'. cbn [bind]. rewrite spacing_unit, Rmult_assoc, from_z_unit by exact Na. now rewrite (from_z_perm _ _ _ _ _ P).
Qed.
Print Assumptions C96_esprit.

(** the covariance matrix of k sources on a uniform linear array meets the conditions, for both formulations and all displacements, whatever the eigenvectors *)
Theorem C96_esprit_exact : forall Rm P s zs m d formulation rw w E,
  exact_cov Rm (ula_matrix m zs) P s -> pd P -> NoDup zs -> 1 <= d -> 1 <= List.length zs -> List.length zs + d <= m ->
  formulation = "tls"%string \/ formulation = "ls"%string -> harmless_weights rw m d -> eigh_ok Rm w E ->
  hermitian Rm /\ gap (List.length zs) w /\ esprit_determined formulation rw m (List.length zs) d E.
Proof.
  intros Rm P s zs m d f rw w E HX HP ND Hd Hk Hkm HF HW OE.
  assert (HH : hermitian Rm) by (apply (P_pipeline.exact_herm _ _ _ _ HX (proj1 HP))). split; [exact HH|].
  destruct (ex_dims Rm _ P s HX) as (D1 & D2). cbn [ula_matrix nr nc] in D1, D2.
  assert (Lw : List.length w = m) by (rewrite <- D1; apply OE).
  assert (IA : inj (ula_matrix m zs)) by (apply ula_inj; [exact ND|lia]).
  split.
  { unfold gap. rewrite Lw.
    rewrite (ex_noise_level Rm _ P s w E HX HP OE (m - List.length zs - 1)) by (cbn [ula_matrix nr nc]; lia).
    apply (ex_signal_level Rm _ P s w E HX IA HP OE). cbn [ula_matrix nr nc]. lia. }
  destruct (harmless_ok rw m d ltac:(lia) HW) as (wt & CW & LW & FW).
  destruct (OE) as (_ & e1 & e2 & _). rewrite D1 in e1, e2.
  destruct (esprit_subarrays_value E m (List.length zs) d wt e1 e2 ltac:(lia) ltac:(lia) LW) as (E1 & E2 & SE & Q1 & Q2).
  exists wt, E1, E2. split; [exact CW|]. split; [exact SE|].
  destruct (es_shift Rm P s zs m d HX HP ND Hd Hk Hkm w E (row_factor wt m d) OE FW) as (Psi & p1 & p2 & I1 & PE & _).
  apply (determined_eq f _ (sub_rows E m (List.length zs) d 0 (row_factor wt m d)) (sub_rows E m (List.length zs) d d (row_factor wt m d))); [now symmetry|now symmetry|reflexivity|].
  destruct HF as [->| ->]; [right|left]; (split; [reflexivity|]); [|exact I1].
  intros w2 V OV. refine (tls_exact (List.length zs) (sub_rows E m (List.length zs) d 0 (row_factor wt m d)) (sub_rows E m (List.length zs) d d (row_factor wt m d)) Psi w2 V Hk eq_refl p1 p2 I1 PE OV).
Qed.
Print Assumptions C96_esprit_exact.

(** *** source counts *)
Lemma rec_eigenvalues m U c delta Rm Rm' w E w' E' : unitary m U -> nr Rm = m -> hermitian Rm -> (0 < c)%R -> recorded_cov m U c delta Rm Rm' -> eigh_ok Rm w E -> eigh_ok Rm' w' E' ->
  w' = map (fun v => c * v + delta)%R w.
Proof.
  intros HU R1 HH Hc HR OE OE'. assert (R2 : nc Rm = m) by (destruct HH; congruence). pose proof (rec_eigh m U c delta Rm Rm' w' E' HU R1 R2 Hc HR OE') as O2.
  rewrite (eig_unique Rm w E _ _ HH OE O2). rewrite map_map. rewrite <- (map_id w') at 1. apply map_ext. intros v. field. lra.
Qed.
Lemma pd_eigenvalues A w E : pd A -> eigh_ok A w E -> Forall (Rlt 0) w.
Proof.
  intros HP OE. assert (Lw : List.length w = nr A) by apply OE. apply Forall_forall. intros v Hv. apply (In_nth _ _ 0%R) in Hv. destruct Hv as (i & Hi & <-). rewrite Lw in Hi.
  destruct (psd_eig_nonneg A w E i (P_ml3.pd_psd A HP) OE Hi) as [L|L]; [exact L|]. exfalso.
  pose proof (pd_inj A HP (col E i)) as Q. pose proof (eigh_orth A w E i i OE Hi Hi) as O. rewrite Nat.eqb_refl in O.
  assert (Z : forall j, j < nr A -> col E i j = RtoC 0).
  { intros j Hj. apply Q; [|destruct (proj1 HP); lia]. intros r Hr. rewrite (eigh_vec A w E i OE Hi r Hr), <- L. ring. }
  unfold vdot in O. rewrite csum_0 in O; [|intros j Hj; rewrite (Z j Hj); ring]. apply (f_equal Re) in O. cbn in O. lra.
Qed.
Lemma rec_hermitian m U c delta Rm Rm' : unitary m U -> nr Rm = m -> hermitian Rm -> recorded_cov m U c delta Rm Rm' -> hermitian Rm'.
Proof.
  intros HU R1 HH HR. apply (hermitian_eq (mscal (RtoC c) (U *m Rm *m mher U) +m mscal (RtoC delta) (mid m))); [symmetry; exact HR|]. destruct (HU) as (u1 & u2 & _).
  apply hermitian_madd; [cbn; congruence| |apply hermitian_mscal, hermitian_mid]. apply hermitian_mscal.
  apply (hermitian_eq (mher (mher U) *m Rm *m mher U)); [|apply hermitian_congr; [cbn; congruence|exact HH]].
  apply mmul_eq_l, mmul_eq_l. apply mher_mher.
Qed.
(** [Rm] a covariance matrix of full rank *)
Theorem C96_aic_mdl : forall eigvalsh eigvalsh' m U c (Rm Rm' : cmat) N, eigvalsh_contract m eigvalsh -> eigvalsh_contract m eigvalsh' ->
  unitary m U -> nr Rm = m -> 0 < m -> pd Rm -> (0 < c)%R -> recorded_cov m U c 0 Rm Rm' ->
  aic eigvalsh' (EMat Rm') N = aic eigvalsh (EMat Rm) N /\ mdl eigvalsh' (EMat Rm') N = mdl eigvalsh (EMat Rm) N.
Proof.
  intros ev ev' m U c Rm Rm' N HC HC' HU R1 Hm HP Hc HR. pose proof (proj1 HP) as HH.
  destruct (rec_sizes _ _ _ _ _ _ HU HR) as (Z1 & Z2). pose proof (rec_hermitian m U c 0 Rm Rm' HU R1 HH HR) as HH'.
  destruct (HC Rm HH ltac:(lia)) as (w & E & EW & OE). destruct (HC' Rm' HH' ltac:(lia)) as (w' & E' & EW' & OE').
  pose proof (rec_eigenvalues m U c 0 Rm Rm' w E w' E' HU R1 HH Hc HR OE OE') as ->.
  rewrite (proj1 (C53_matrix_argument ev Rm w N EW)), (proj2 (C53_matrix_argument ev Rm w N EW)), (proj1 (C53_matrix_argument ev' Rm' _ N EW')), (proj2 (C53_matrix_argument ev' Rm' _ N EW')).
  rewrite (map_ext (fun v => c * v + 0)%R (Rmult c)) by (intros; lra).
  assert (Lw : List.length w = m) by (rewrite <- R1; apply OE).
  apply (C53_scale_invariant ev w N c); [exact (pd_eigenvalues Rm w E HP OE)|lia|exact Hc].
Qed.
Print Assumptions C96_aic_mdl.
(** any Hermitian [Rm]; scaling must not carry a gap variance across the epsilon of the code (C54) *)
Theorem C96_sorte : forall eigvalsh eigvalsh' m U c delta (Rm Rm' : cmat) w E, eigvalsh_contract m eigvalsh -> eigvalsh_contract m eigvalsh' ->
  unitary m U -> nr Rm = m -> hermitian Rm -> (0 < c)%R -> recorded_cov m U c delta Rm Rm' -> eigh_ok Rm w E ->
  (forall k, k + 3 < m -> (gap_var w k < float_eps <-> c * c * gap_var w k < float_eps)%R) ->
  sorte eigvalsh' (EMat Rm') = sorte eigvalsh (EMat Rm).
Proof.
  intros ev ev' m U c delta Rm Rm' w0 E0 HC HC' HU R1 HH Hc HR O0 HV.
  destruct (rec_sizes _ _ _ _ _ _ HU HR) as (Z1 & Z2). pose proof (rec_hermitian m U c delta Rm Rm' HU R1 HH HR) as HH'.
  destruct (HC Rm HH ltac:(lia)) as (w & E & EW & OE). destruct (HC' Rm' HH' ltac:(lia)) as (w' & E' & EW' & OE').
  pose proof (eig_unique Rm w0 E0 w E HH O0 OE) as ->.
  pose proof (rec_eigenvalues m U c delta Rm Rm' w E w' E' HU R1 HH Hc HR OE OE') as ->.
  rewrite (C54_matrix_argument ev Rm w EW), (C54_matrix_argument ev' Rm' _ EW').
  assert (Lw : List.length w = m) by (rewrite <- R1; apply OE).
  apply (C54_affine_invariant ev w c delta Hc). rewrite Lw. exact HV.
Qed.
Print Assumptions C96_sorte.

(** *** preprocessing commutes with the change of amplitude unit and noise floor, so that all of the above holds after it as well *)
Lemma smoothed_rescaled c delta (Rm Rm' : cmat) l a b : rescaled c delta Rm Rm' -> nc Rm = nr Rm -> (1 <= l <= nr Rm) -> a < nr Rm - l + 1 -> b < nr Rm - l + 1 ->
  smoothed Rm' l a b = (RtoC c * smoothed Rm l a b + RtoC delta * (if Nat.eqb a b then RtoC 1 else RtoC 0))%C.
Proof.
  intros (_ & (q1 & q2 & q3)) SQ Hl Ha Hb. cbn [madd mscal nr nc] in q1, q2. unfold smoothed.
  rewrite (csum_ext l (fun i => ent Rm' (i + a) (i + b)) (fun i => RtoC c * ent Rm (i + a) (i + b) + RtoC delta * (if Nat.eqb a b then RtoC 1 else RtoC 0))%C).
  - rewrite csum_plus, csum_scal, csum_const. assert (N : INR l <> 0%R) by (apply not_0_INR; lia).
    assert (X : (RtoC (/ INR l) * RtoC (INR l))%C = RtoC 1) by (rewrite <- RtoC_mult; f_equal; now apply Rinv_l).
    transitivity (RtoC c * (RtoC (/ INR l) * csum l (fun i => ent Rm (i + a) (i + b))) + (RtoC (/ INR l) * RtoC (INR l)) * (RtoC delta * (if Nat.eqb a b then RtoC 1 else RtoC 0)))%C; [ring|]. rewrite X. ring.
  - intros i Hi. rewrite q3 by lia. cbn [madd mscal mid ent]. destruct (Nat.eqb_spec (i + a) (i + b)), (Nat.eqb_spec a b); try lia; ring.
Qed.
Theorem C96_spatial_smoothing : forall ty c delta (Rm Rm' : cmat) l fb, ty <> MInt -> nc Rm = nr Rm -> rescaled c delta Rm Rm' -> 1 <= l <= nr Rm ->
  exists B B', spatial_smooth ty Rm (Z.of_nat l) fb = Ok B /\ spatial_smooth ty Rm' (Z.of_nat l) fb = Ok B' /\ rescaled c delta B B'.
Proof.
  intros ty c delta Rm Rm' l fb HT SQ HR Hl. assert (N' : nr Rm' = nr Rm) by (destruct HR as (_ & HR); exact (meq_nr _ _ HR)).
  destruct (smooth_value ty Rm l fb HT Hl) as (B & EB & b1 & b2 & HB). destruct (smooth_value ty Rm' l fb HT ltac:(lia)) as (B' & EB' & b1' & b2' & HB'). rewrite N' in b1', b2'.
  exists B, B'. split; [exact EB|]. split; [exact EB'|]. split; [apply HR|].
  split; [cbn; congruence|]. split; [cbn; congruence|]. intros a b Ha Hb. rewrite b1' in Ha. rewrite b2' in Hb. rewrite HB'. cbn [madd mscal mid ent]. rewrite HB.
  assert (Q : forall a b, a < nr Rm - l + 1 -> b < nr Rm - l + 1 -> smoothed Rm' l a b = (RtoC c * smoothed Rm l a b + RtoC delta * (if Nat.eqb a b then RtoC 1 else RtoC 0))%C) by (intros; now apply smoothed_rescaled).
  destruct fb; [|now apply Q]. unfold fwd_back, fwd. cbn [ent nr]. rewrite N'. set (p := nr Rm - l + 1) in *. rewrite (Q a b Ha Hb). rewrite (Q (p - 1 - a) (p - 1 - b)) by lia.
  assert (EQ : Nat.eqb (p - 1 - a) (p - 1 - b) = Nat.eqb a b) by (destruct (Nat.eqb_spec (p - 1 - a) (p - 1 - b)), (Nat.eqb_spec a b); try lia; reflexivity). rewrite EQ.
  assert (CE : Cconj (if Nat.eqb a b then RtoC 1 else RtoC 0) = if Nat.eqb a b then RtoC 1 else RtoC 0) by (destruct (Nat.eqb a b); apply Cconj_RtoC).
  assert (H2 : (RtoC (/ 2) * (RtoC 1 + RtoC 1))%C = RtoC 1) by (rewrite <- RtoC_plus, <- RtoC_mult; f_equal; lra).
  set (t := if Nat.eqb a b then RtoC 1 else RtoC 0) in *. destruct (match ty with MComplex => true | _ => false end).
  - rewrite Cplus_conj, !Cmult_conj, !Cconj_RtoC, CE. transitivity (RtoC c * (RtoC (/ 2) * (smoothed Rm l a b + Cconj (smoothed Rm l (p - 1 - a) (p - 1 - b)))) + RtoC delta * ((RtoC (/ 2) * (RtoC 1 + RtoC 1)) * t))%C; [ring|]. rewrite H2. ring.
  - transitivity (RtoC c * (RtoC (/ 2) * (smoothed Rm l a b + smoothed Rm l (p - 1 - a) (p - 1 - b))) + RtoC delta * ((RtoC (/ 2) * (RtoC 1 + RtoC 1)) * t))%C; [ring|]. rewrite H2. ring.
Qed.
Print Assumptions C96_spatial_smoothing.

(** the augmented covariance matrix of the virtual array: "da" keeps both changes, "ss" squares the amplitude scale *)
Lemma lag_sum_rescaled l c delta (Rm Rm' : cmat) d : rescaled c delta Rm Rm' -> nr Rm = List.length l -> nc Rm = List.length l ->
  lag_sum l Rm' d = (RtoC c * lag_sum l Rm d + RtoC delta * lag_sum l (mid (List.length l)) d)%C.
Proof.
  intros (_ & (q1 & q2 & q3)) R1 R2. cbn [madd mscal nr nc] in q1, q2. unfold lag_sum. rewrite <- !csum_scal, <- csum_plus. apply csum_ext. intros i Hi. rewrite <- !csum_scal, <- csum_plus. apply csum_ext. intros j Hj.
  rewrite q3 by lia. cbn [madd mscal mid ent]. destruct (Z.eqb _ d); ring.
Qed.

Lemma is_lag_inside l h d : first_hole l h -> (- h < d < h)%Z -> is_lag l d.
Proof.
  intros (H0 & _ & H) Hd. destruct (Z.le_ge_cases 0 d) as [L|L]; [apply H; lia|].
  replace d with (- - d)%Z by lia. apply is_lag_sym, H. lia.
Qed.
Theorem C96_virtual_array : forall g l w0 calls c delta (Rm Rm' : cmat) h, grid_1d g l -> mk_WeightFunction1D g = Ok w0 -> l <> [] -> NoDup l -> first_hole l h ->
  nr Rm = List.length l -> nc Rm = List.length l -> rescaled c delta Rm Rm' ->
  exists D D' Sm Sm', let b := Acm g (after w0 calls) in
    transform b Rm "da" = Ok D /\ transform b Rm' "da" = Ok D' /\ rescaled c delta D D' /\
    transform b Rm "ss" = Ok Sm /\ transform b Rm' "ss" = Ok Sm' /\ (delta = 0%R -> rescaled (c * c) 0 Sm Sm').
Proof.
  intros g l w calls c delta Rm Rm' h Hg Hw Hl ND Hh R1 R2 HR. pose proof (mv0_pos g l Hg Hl) as Hmv.
  assert (E : h = Z.of_nat (mv0 g)) by exact (C37_first_hole_unique l _ _ Hh (mv0_hole g l Hg)). subst h.
  assert (R1' : nr Rm' = List.length l) by (destruct HR as (_ & HR); rewrite (meq_nr _ _ HR); exact R1). assert (R2' : nc Rm' = List.length l) by (destruct HR as (_ & HR); rewrite (meq_nc _ _ HR); exact R2).
  destruct (transform_da g l w Hg Hw calls Rm Hmv R1 R2) as (D & ED & D1 & D2 & D3). destruct (transform_da g l w Hg Hw calls Rm' Hmv R1' R2') as (D' & ED' & D1' & D2' & D3').
  destruct (transform_ss g l w Hg Hw calls Rm Hmv R1 R2) as (D_ & Sm & ED_ & ES & SE). destruct (transform_ss g l w Hg Hw calls Rm' Hmv R1' R2') as (D'_ & Sm' & ED'_ & ES' & SE').
  rewrite ED in ED_. injection ED_ as <-. rewrite ED' in ED'_. injection ED'_ as <-.
  assert (RD : rescaled c delta D D').
  { split; [apply HR|]. split; [cbn; congruence|]. split; [cbn; congruence|]. intros r q Hr Hq. rewrite D3' by lia. cbn [madd mscal mid ent]. rewrite D3 by lia.
    set (d := (Z.of_nat r - Z.of_nat q)%Z).
    assert (IL : is_lag l d) by (apply (is_lag_inside l (Z.of_nat (mv0 g))); [exact Hh|unfold d; lia]).
    assert (LI : lag_mean l (mid (List.length l)) d = if Z.eqb d 0 then RtoC 1 else RtoC 0).
    { apply (lag_mean_const g l w Hg Hw _ (fun d => if Z.eqb d 0 then RtoC 1 else RtoC 0) d IL). intros i j Hi Hj. cbn [mid ent]. destruct (Nat.eqb_spec i j) as [->|N]; [now rewrite Z.sub_diag|].
      destruct (Z.eqb_spec (nth i l 0%Z - nth j l 0%Z) 0) as [Q|Q]; [|reflexivity]. exfalso. apply N. apply (proj1 (NoDup_nth l 0%Z) ND); auto. lia. }
    unfold lag_mean in *. rewrite (lag_sum_rescaled l c delta Rm Rm' d HR R1 R2). unfold Cdiv in *. rewrite Cmult_plus_distr_r, <- !Cmult_assoc, LI.
    replace (Z.eqb d 0) with (Nat.eqb r q); [reflexivity|]. unfold d. destruct (Nat.eqb_spec r q), (Z.eqb_spec (Z.of_nat r - Z.of_nat q) 0); try lia; reflexivity. }
  exists D, D', Sm, Sm'. cbv zeta. do 3 (split; [assumption|]). do 2 (split; [assumption|]). intros ->.
  split; [destruct HR; now apply Rmult_lt_0_compat|].
  assert (DS : D' ==m mscal (RtoC c) D). { destruct RD as (_ & (q1 & q2 & q3)). split; [exact q1|]. split; [exact q2|]. intros i j Hi Hj. rewrite q3 by assumption. cbn [madd mscal ent]. ring. }
  pose proof (meq_nr _ _ SE) as s1. pose proof (meq_nc _ _ SE) as s2. pose proof (meq_nr _ _ SE') as s1'. pose proof (meq_nc _ _ SE') as s2'. cbn [mscal mmul mher nr nc] in s1, s2, s1', s2'.
  destruct SE as (_ & _ & SE), SE' as (_ & _ & SE'), DS as (_ & _ & DS). split; [cbn; congruence|]. split; [cbn; congruence|]. intros i j Hi Hj. rewrite SE' by assumption. cbn [madd mscal ent]. rewrite SE by congruence.
  cbn [mscal mmul mher nr nc ent]. rewrite D2', D2. rewrite (csum_ext (mv0 g) _ (fun q => RtoC (c * c) * (ent D i q * Cconj (ent D j q)))%C).
  - rewrite csum_scal. ring.
  - intros q Hq. rewrite !DS by lia. cbn [mscal ent]. rewrite Cmult_conj, Cconj_RtoC, RtoC_mult. ring.
Qed.
Print Assumptions C96_virtual_array.

(** *** a covariance matrix, the same one in another amplitude unit and with a higher noise floor, other eigenvectors: [ex_R] and
    [ex_R2] = 3 [ex_R] + 5 I *)
Lemma ex_rescaled : rescaled 3 5 ex_R ex_R2.
Proof. split; [lra|]. reflexivity. Qed.
Lemma ex_gap : gap 1 ex_w.
Proof. unfold gap. cbn. lra. Qed.
Example C96_example_root_music : forall roots argsort lam unit,
  root_music ex_eigh2 roots argsort (100 * lam) ex_R2 1 None unit = root_music ex_eigh roots argsort lam ex_R 1 None unit.
Proof.
  intros roots argsort lam unit. refine (C96_root_music ex_eigh ex_eigh2 roots argsort 2 3 5 ex_R ex_R2 ex_w ex_E _ _ 1 lam None unit 100 eq_refl ex_R_herm ex_rescaled eq_refl ex_eig eq_refl ex_eig2 ltac:(lia) ex_gap ltac:(lra)).
Qed.
(** one source, two sensors, one sensor apart: the direction (broadside) is found in both cases *)
Example C96_example_esprit : exists z z', esprit_z ex_eigh P_gauss.solve0 P_fta2.eigvals_ref ex_R 1 1 "ls" (RWStr "none") = Ok z /\
  esprit_z ex_eigh2 P_gauss.solve0 P_fta2.eigvals_ref ex_R2 1 1 "ls" (RWStr "none") = Ok z' /\ z = z' /\ List.length z = 1.
Proof.
  destruct (C96_esprit ex_eigh ex_eigh2 P_gauss.solve0 P_gauss.solve0 P_fta2.eigvals_ref P_fta2.eigvals_ref 2 3 5 ex_R ex_R2 ex_w ex_E _ _ 1 1 "ls" (RWStr "none") 1 None "rad" 1
    (P_fta2.solve0_contract 1) (P_fta2.solve0_contract 1) (P_fta2.eigvals_ref_contract 1) (P_fta2.eigvals_ref_contract 1) ltac:(discriminate) eq_refl ex_R_herm ex_rescaled eq_refl ex_eig eq_refl ex_eig2)
    as (z & z' & Z & Z' & L & L' & I & P); try lia; [exact ex_gap| |lra|].
  - destruct (esprit_subarrays_value ex_E 2 1 1 None eq_refl eq_refl ltac:(lia) ltac:(lia) Logic.I) as (E1 & E2 & S & Q1 & _).
    exists None, E1, E2. split; [reflexivity|]. split; [exact S|]. left. split; [reflexivity|].
    intros x Hx j Hj. destruct Q1 as (a & b & Q). rewrite b in Hj. cbn in Hj. assert (j = 0) by lia. subst j. specialize (Hx 0 ltac:(rewrite a; cbn; lia)). unfold mvec in Hx. rewrite b in Hx. cbn [sub_rows nc csum] in Hx.
    rewrite Q in Hx by (rewrite ?a, ?b; cbn; lia). cbn -[sqrt] in Hx.
    destruct (P_spectral.C_eq_dec (x 0) (RtoC 0)) as [H|H]; [exact H|]. exfalso. revert Hx. rewrite Cplus_0_l. apply Cmult_neq_0; [|exact H].
    assert (N : RtoC (/ sqrt 2) <> RtoC 0) by (intros Q2; apply RtoC_inj in Q2; revert Q2; apply Rinv_neq_0_compat; pose proof (sqrt_lt_R0 2); lra).
    unfold row_factor. cbn. rewrite !Cmult_1_r. exact N.
  - exists z, z'. do 2 (split; [assumption|]). split; [|exact L]. destruct z as [|a [|]]; try discriminate. destruct z' as [|b [|]]; try discriminate. destruct (proj1 (I a) (or_introl eq_refl)) as [->|[]]. reflexivity.
Qed.

(** the sensors of the same array listed in the other order, amplitudes in another unit *)
Lemma ex_swap_unitary : unitary 2 ex_swap.
Proof.
  split; [reflexivity|]. split; [reflexivity|]. split; [reflexivity|]. split; [reflexivity|]. intros i j Hi Hj. cbn in Hi, Hj. destruct i as [|[|i]]; [| |lia]; (destruct j as [|[|j]]; [| |lia]); apply C_eq; cbn; ring.
Qed.
Example C96_example_counts : forall N, let Rm' := mscal (RtoC 3) (ex_swap *m ex_R *m mher ex_swap) +m mscal (RtoC 0) (mid 2) in
  aic eigvalsh_ref (EMat Rm') N = aic eigvalsh_ref (EMat ex_R) N /\ mdl eigvalsh_ref (EMat Rm') N = mdl eigvalsh_ref (EMat ex_R) N.
Proof.
  intros N Rm'. apply (C96_aic_mdl eigvalsh_ref eigvalsh_ref 2 ex_swap 3 ex_R Rm' N (eigvalsh_ref_contract 2) (eigvalsh_ref_contract 2) ex_swap_unitary eq_refl ltac:(lia)); [|lra|unfold recorded_cov, Rm'; reflexivity].
  split; [exact ex_R_herm|]. intros x (i & Hi & Nx). cbn in Hi. unfold qform. cbn.
  destruct (x 0) as (a, b) eqn:E0, (x 1) as (p, q) eqn:E1. cbn.
  assert (H : (0 < a * a + b * b + p * p + q * q)%R).
  { destruct i as [|[|i]]; [| |lia]; rewrite ?E0, ?E1 in Nx.
    - assert (a <> 0 \/ b <> 0)%R as [H|H]; [|assert (0 < a * a)%R by nra; nra|assert (0 < b * b)%R by nra; nra]. destruct (Req_EM_T a 0); [|tauto]. destruct (Req_EM_T b 0); [|tauto]. subst. exfalso. now apply Nx.
    - assert (p <> 0 \/ q <> 0)%R as [H|H]; [|assert (0 < p * p)%R by nra; nra|assert (0 < q * q)%R by nra; nra]. destruct (Req_EM_T p 0); [|tauto]. destruct (Req_EM_T q 0); [|tauto]. subst. exfalso. now apply Nx. }
  pose proof (Rle_0_sqr (a + p)) as A1. pose proof (Rle_0_sqr (b + q)) as A2. unfold Rsqr in *. nra.
Qed.
