(** Invariances of the noise subspace and of the spectra computed from it. *)
From Coq Require Import Sorting.Sorted.
From Verif Require Import Base_Np Base_Lin P_courant P_ml6 M_core M_subspace S_subspace P_subspace P_subspace3 P_equiv2 Prop_subspace S_invar.
Open Scope C_scope.

Lemma unitary_right m U : unitary m U -> U *m mher U ==m mid m.
Proof. intros (a & b & H). apply left_inv_right; cbn; auto. Qed.
Lemma hermitian_bform A x y : hermitian A -> vdot (nr A) x (mvec A y) = vdot (nr A) (mvec A x) y.
Proof.
  intros H. rewrite vdot_mvec_her. destruct H as (S1 & H). rewrite <- S1. unfold vdot. apply csum_ext. intros i Hi. f_equal. f_equal.
  apply mvec_eq; [apply hermitian_mher; now split|]. cbn. lia.
Qed.
Lemma vdot_scal n c x y : vdot n x (fun i => c * y i) = c * vdot n x y.
Proof. unfold vdot. rewrite <- csum_scal. apply csum_ext. intros; ring. Qed.
Lemma vdot_scal_l n c x y : vdot n (fun i => c * x i) y = Cconj c * vdot n x y.
Proof. unfold vdot. rewrite <- csum_scal. apply csum_ext. intros. rewrite Cmult_conj. ring. Qed.
Lemma vdot_ext2 n x x' y y' : (forall i, (i < n)%nat -> x i = x' i) -> (forall i, (i < n)%nat -> y i = y' i) -> vdot n x y = vdot n x' y'.
Proof. intros H1 H2. unfold vdot. apply csum_ext. intros i Hi. now rewrite H1, H2. Qed.
(** eigenvectors of different eigenvalues are orthogonal, also between two decompositions *)
Lemma eig_cross A w E w' E' i j : hermitian A -> eigh_ok A w E -> eigh_ok A w' E' -> (i < nr A)%nat -> (j < nr A)%nat ->
  nth i w 0%R <> nth j w' 0%R -> vdot (nr A) (col E i) (col E' j) = RtoC 0.
Proof.
  intros HA HE HE' Hi Hj N.
  pose proof (hermitian_bform A (col E i) (col E' j) HA) as B.
  rewrite (vdot_ext2 _ (col E i) (col E i) _ (fun r => RtoC (nth j w' 0%R) * col E' j r)) in B; [|reflexivity|intros r Hr; now apply eigh_vec].
  rewrite (vdot_ext2 _ (mvec A (col E i)) (fun r => RtoC (nth i w 0%R) * col E i r) (col E' j) (col E' j)) in B; [|intros r Hr; now apply eigh_vec|reflexivity].
  rewrite vdot_scal, vdot_scal_l, Cconj_RtoC in B.
  assert (Z : (RtoC (nth i w 0%R) - RtoC (nth j w' 0%R)) * vdot (nr A) (col E i) (col E' j) = RtoC 0).
  { replace ((RtoC (nth i w 0%R) - RtoC (nth j w' 0%R)) * vdot (nr A) (col E i) (col E' j)) with (RtoC (nth i w 0%R) * vdot (nr A) (col E i) (col E' j) - RtoC (nth j w' 0%R) * vdot (nr A) (col E i) (col E' j)) by ring.
    rewrite <- B. ring. }
  destruct (P_spectral.C_eq_dec (vdot (nr A) (col E i) (col E' j)) (RtoC 0)) as [e|n]; [exact e|exfalso].
  revert Z. apply Cmult_neq_0; [|exact n]. intros X. apply N. rewrite <- RtoC_minus in X. injection X as X. lra.
Qed.
(** the first p eigenvectors, when the p-th and the (p+1)-th eigenvalue differ, are determined up to a unitary mixture *)
Definition first_cols (m p : nat) (E : cmat) : cmat := Mat m p (fun i j => ent E i j).
Lemma noise_unitary A w E w' E' p : hermitian A -> eigh_ok A w E -> eigh_ok A w' E' -> (p < nr A)%nat ->
  ((0 < p)%nat -> (nth (p - 1) w 0 < nth p w 0)%R) ->
  exists G : cmat, nr G = p /\ nc G = p /\ G *m mher G ==m mid p /\ first_cols (nr A) p E' ==m first_cols (nr A) p E *m G.
Proof.
  intros HA HE HE' Hp Gap. pose proof (eig_unique A w E w' E' HA HE HE') as <-.
  set (G := (Mat p p (fun i j => vdot (nr A) (col E i) (col E' j)) : cmat)).
  assert (Srt : StronglySorted Rle w) by apply HE. assert (Lw : List.length w = nr A) by apply HE.
  assert (Cr : forall i j, (p <= i < nr A)%nat -> (j < p)%nat -> vdot (nr A) (col E i) (col E' j) = RtoC 0).
  { intros i j Hi Hj. apply (eig_cross A w E w E'); auto; [lia|lia|].
    pose proof (sorted_nth w p i Srt ltac:(lia) ltac:(lia)). pose proof (sorted_nth w j (p - 1) Srt ltac:(lia) ltac:(lia)).
    specialize (Gap ltac:(lia)). lra. }
  assert (EG : first_cols (nr A) p E' ==m first_cols (nr A) p E *m G).
  { split; [reflexivity|]. split; [reflexivity|]. intros i j Hi Hj. cbn [first_cols nr nc] in Hi, Hj. cbn [mmul first_cols nr nc ent G].
    change (ent E' i j) with (col E' j i). rewrite (eigh_expand A w E (col E' j) i HE Hi).
    replace (nr A) with (p + (nr A - p))%nat at 1 by lia. rewrite csum_app.
    rewrite (csum_0 (nr A - p)); [|intros r Hr; cbn beta; rewrite Cr by lia; ring].
    rewrite Cplus_0_r. apply csum_ext. intros r Hr. ring. }
  exists G. split; [reflexivity|]. split; [reflexivity|]. split; [|exact EG].
  apply left_inv_right; try reflexivity. split; [reflexivity|]. split; [reflexivity|]. intros i j Hi Hj. cbn [mmul mher G nr nc] in Hi, Hj.
  transitivity (vdot (nr A) (col E' i) (col E' j)).
  - cbn [mmul mher G nr nc ent].
    rewrite (vdot_ext2 (nr A) (col E' i) (col E' i) (col E' j) (fun r => csum p (fun q => vdot (nr A) (col E q) (col E' j) * ent E r q))); [|reflexivity|].
    2:{ intros r Hr. destruct EG as (_ & _ & X). specialize (X r j Hr Hj). cbn [mmul first_cols nr nc ent G] in X. unfold col at 1. rewrite X. apply csum_ext. intros; ring. }
    unfold vdot at 3. rewrite (csum_ext (nr A) _ (fun r => csum p (fun q => Cconj (col E' i r) * (vdot (nr A) (col E q) (col E' j) * ent E r q)))) by (intros r Hr; now rewrite csum_scal).
    rewrite csum_swap. apply csum_ext. intros q Hq. rewrite (vdot_conj (nr A)).
    unfold vdot at 1. rewrite Cmult_comm, <- csum_scal. apply csum_ext. intros r Hr. unfold col. ring.
  - cbn [mid ent]. apply (eigh_orth A w E' i j HE'); lia.
Qed.
Lemma mvec_scal A c x i : mvec A (fun j => c * x j) i = c * mvec A x i.
Proof. unfold mvec. rewrite <- csum_scal. apply csum_ext. intros; ring. Qed.
Lemma mvec_minus A x y i : mvec A (fun j => x j - y j) i = mvec A x i - mvec A y i.
Proof. unfold mvec. rewrite <- csum_minus. apply csum_ext. intros; ring. Qed.
Lemma rec_sizes m U c d Rm Rm' : unitary m U -> recorded_cov m U c d Rm Rm' -> nr Rm' = m /\ nc Rm' = m.
Proof. intros (u1 & u2 & _) (a & b & _). cbn in a, b. split; congruence. Qed.
Lemma rec_mvec m U c d Rm Rm' x i : unitary m U -> nr Rm = m -> nc Rm = m -> recorded_cov m U c d Rm Rm' -> (i < m)%nat ->
  mvec Rm' x i = RtoC c * mvec U (mvec Rm (mvec (mher U) x)) i + RtoC d * x i.
Proof.
  intros HU R1 R2 HR Hi. destruct (rec_sizes _ _ _ _ _ _ HU HR) as (S1 & S2). rewrite (mvec_eq _ _ x i HR) by lia.
  rewrite <- (mvec_mid m x i Hi) at 1. rewrite <- mvec_mmul, <- mvec_mmul.
  transitivity (mvec (mscal (RtoC c) (U *m Rm *m mher U)) x i + mvec (mscal (RtoC d) (mid m)) x i).
  - unfold mvec. cbn [madd mscal mmul mher mid nr nc ent]. destruct HU as (u1 & u2 & _). rewrite u1, <- csum_plus. apply csum_ext. intros; ring.
  - unfold mvec. cbn [mscal nc ent]. rewrite <- !csum_scal. f_equal; apply csum_ext; intros; ring.
Qed.
Lemma rec_eigh m U c d Rm Rm' w' E' : unitary m U -> nr Rm = m -> nc Rm = m -> (0 < c)%R -> recorded_cov m U c d Rm Rm' -> eigh_ok Rm' w' E' ->
  eigh_ok Rm (map (fun x => ((x - d) / c)%R) w') (mher U *m E').
Proof.
  intros HU R1 R2 Hc HR HE. destruct (rec_sizes _ _ _ _ _ _ HU HR) as (S1 & S2). pose proof HU as (u1 & u2 & u3). pose proof (unitary_right m U HU) as u4.
  pose proof HE as (_ & e1 & e2 & e3 & e4 & e5 & _). rewrite S1 in *.
  split; [congruence|]. split; [cbn; congruence|]. split; [cbn; congruence|]. split; [rewrite map_length; congruence|]. split.
  { clear - e4 Hc. induction e4 as [|a l S IH F]; cbn; constructor; [exact IH|]. rewrite Forall_forall in *. intros x Hx. apply in_map_iff in Hx as (y & <- & Hy). specialize (F y Hy).
    apply Rmult_le_compat_r; [left; now apply Rinv_0_lt_compat|lra]. }
  split.
  { rewrite R1. rewrite (mmul_eq_l _ (mher E' *m mher (mher U))) by (apply mher_mmul; cbn; congruence).
    rewrite (mmul_assoc (mher E') (mher (mher U)) (mher U *m E')).
    rewrite <- e5. apply mmul_eq_r; [cbn; congruence|].
    rewrite <- (mmul_assoc (mher (mher U)) (mher U) E').
    rewrite (mmul_eq_l (mher (mher U) *m mher U) (mid m) E'); [apply mmul_id_l; congruence|].
    rewrite (mmul_eq_l _ U (mher U)) by apply mher_mher. exact u4. }
  rewrite R1. rewrite (mmul_diag_r m _ (mher U *m E')) by (cbn; congruence).
  split; [cbn; congruence|]. split; [cbn; congruence|]. intros i j Hi Hj. cbn [mmul mher nr nc] in Hi, Hj. cbn [ent nr nc].
  rewrite mmul_ent_mvec.
  assert (Hj' : (j < m)%nat) by lia. assert (Hi' : (i < m)%nat) by lia.
  change (ent (mher U *m E') i j) with (mvec (mher U) (col E' j) i).
  rewrite (nth_indep _ _ ((0 - d) / c)%R) by (rewrite map_length; lia). rewrite (map_nth (fun x => ((x - d) / c)%R)).
  set (x := mvec (mher U) (col E' j)).
  change (mvec Rm (fun r => ent (mher U *m E') r j) i) with (mvec Rm x i).
  assert (V : forall r, (r < m)%nat -> mvec U (mvec Rm x) r = RtoC ((nth j w' 0%R - d) / c) * ent E' r j).
  { intros r Hr. pose proof (eigh_vec Rm' w' E' j HE ltac:(lia) r ltac:(lia)) as Q. rewrite (rec_mvec m U c d Rm Rm' _ r HU R1 R2 HR Hr) in Q. fold x in Q. unfold col in Q.
    rewrite RtoC_div, RtoC_minus by lra.
    assert (N : RtoC c <> RtoC 0) by (intros Z; injection Z as Z; lra).
    transitivity ((RtoC c * mvec U (mvec Rm x) r + RtoC d * ent E' r j - RtoC d * ent E' r j) / RtoC c); [field; exact N|]. rewrite Q. field. exact N. }
  transitivity (mvec (mher U) (mvec U (mvec Rm x)) i).
  - rewrite <- mvec_mmul. rewrite (mvec_eq (mher U *m U) (mid m) _ i u3) by (cbn; lia). rewrite mvec_mid by lia. reflexivity.
  - rewrite (mvec_ext (mher U) (mvec U (mvec Rm x)) (fun r => RtoC ((nth j w' 0%R - d) / c) * col E' j r)) by (cbn; intros r Hr; apply V; lia).
    rewrite mvec_scal. fold x. ring.
Qed.
Lemma proj_power_eq X Y a : X ==m Y -> proj_power X a = proj_power Y a.
Proof.
  intros (H1 & H2 & H3). unfold proj_power. rewrite H1, H2. apply rsum_ext. intros j Hj. f_equal. apply vdot_ext2; [|reflexivity]. intros i Hi. unfold col. rewrite H3 by lia. reflexivity.
Qed.
Lemma proj_power_mix En G a : nr G = nc En -> G *m mher G ==m mid (nc En) -> proj_power (En *m G) a = proj_power En a.
Proof.
  intros HU UU. assert (Q : RtoC (proj_power (En *m G) a) = RtoC (proj_power En a)); [|now injection Q]. rewrite !proj_power_qform. apply qform_eq.
  assert (X : mher (En *m G) ==m mher G *m mher En) by (apply mher_mmul; now symmetry).
  rewrite (mmul_eq (En *m G) (En *m G) (mher (En *m G)) _ eq_refl ltac:(reflexivity) X). rewrite mmul_assoc. apply mmul_eq_r; [cbn [mmul nr]; now symmetry|].
  rewrite <- mmul_assoc. rewrite (mmul_eq_l _ _ (mher En) UU). apply mmul_id_l. reflexivity.
Qed.
Lemma Cnorm2_mult a b : Cnorm2 (a * b) = (Cnorm2 a * Cnorm2 b)%R.
Proof. destruct a, b. unfold Cnorm2. cbn. ring. Qed.
Lemma Cmod1_norm2 c : Cmod c = 1%R -> Cnorm2 c = 1%R.
Proof. intros H. assert (Q : Cnorm2 c = (Cmod c * Cmod c)%R). { unfold Cmod. rewrite sqrt_sqrt; [destruct c; unfold Cnorm2; cbn; ring|]. destruct c. cbn. nra. } rewrite Q, H. ring. Qed.
Lemma rec_col m U A A' : recorded_atoms m U A A' -> exists t : nat -> C, (forall j, Cmod (t j) = 1%R) /\ forall i j, (i < m)%nat -> (j < nc A)%nat -> col A' j i = t j * mvec U (col A j) i.
Proof. intros (_ & _ & _ & t & T & H). exists t. split; [exact T|]. intros i j Hi Hj. unfold col. rewrite H by assumption. reflexivity. Qed.
Lemma rec_power m U A A' En j : unitary m U -> recorded_atoms m U A A' -> nr En = m -> (j < nc A)%nat -> proj_power En (col A' j) = proj_power (mher U *m En) (col A j).
Proof.
  intros HU HA HE Hj. destruct (rec_col m U A A' HA) as (t & T & Ct). destruct HA as (a1 & a2 & a3 & _). destruct HU as (u1 & u2 & _).
  unfold proj_power. cbn [mmul mher nr nc]. apply rsum_ext. intros q Hq. rewrite HE, u2.
  rewrite (vdot_ext2 m (col En q) (col En q) (col A' j) (fun i => t j * mvec U (col A j) i)); [|reflexivity|intros i Hi; now apply Ct].
  rewrite vdot_scal, Cnorm2_mult, (Cmod1_norm2 _ (T j)), Rmult_1_l. f_equal.
  rewrite <- u1 at 1. rewrite vdot_mvec_her, u2. reflexivity.
Qed.
Lemma noise_first eigh Rm k w E m : eigh Rm = Ok (w, E) -> nr E = m -> nc E = m -> (1 <= k <= m)%nat ->
  exists En, get_noise_subspace eigh Rm (Z.of_nat k) = Ok En /\ En ==m first_cols m (m - k) E.
Proof.
  intros H1 H2 H3 Hk. destruct (noise_value eigh Rm k w E m H1 H2 H3 Hk) as (En & N1 & N2 & N3 & N4). exists En. split; [exact N1|].
  split; [exact N2|]. split; [exact N3|]. intros. apply N4.
Qed.
(** the two noise bases, in common coordinates, are mixtures of one another *)
Lemma rec_noise eigh eigh' m U c d Rm Rm' w E w' E' k : unitary m U -> nr Rm = m -> hermitian Rm -> (0 < c)%R -> recorded_cov m U c d Rm Rm' ->
  eigh Rm = Ok (w, E) -> eigh_ok Rm w E -> eigh' Rm' = Ok (w', E') -> eigh_ok Rm' w' E' -> (1 <= k < m)%nat -> (nth (m - k - 1) w 0 < nth (m - k) w 0)%R ->
  exists En En' G, get_noise_subspace eigh Rm (Z.of_nat k) = Ok En /\ get_noise_subspace eigh' Rm' (Z.of_nat k) = Ok En' /\
    nr En = m /\ nc En = (m - k)%nat /\ nr En' = m /\ nc En' = (m - k)%nat /\
    nr G = (m - k)%nat /\ nc G = (m - k)%nat /\ G *m mher G ==m mid (m - k) /\ mher U *m En' ==m En *m G.
Proof.
  intros HU R1 HH Hc HR HE OE HE' OE' Hk Gap. destruct (rec_sizes _ _ _ _ _ _ HU HR) as (S1 & S2). assert (R2 : nc Rm = m) by (destruct HH; congruence).
  pose proof (rec_eigh m U c d Rm Rm' w' E' HU R1 R2 Hc HR OE') as O2.
  pose proof OE as (_ & e1 & e2 & _). pose proof OE' as (_ & e1' & e2' & _). rewrite R1 in *. rewrite S1 in *.
  destruct (noise_first eigh Rm k w E m HE e1 e2 ltac:(lia)) as (En & N1 & N2).
  destruct (noise_first eigh' Rm' k w' E' m HE' e1' e2' ltac:(lia)) as (En' & N1' & N2').
  destruct (noise_unitary Rm w E _ _ (m - k) HH OE O2 ltac:(lia) ltac:(intros; exact Gap)) as (G & G1 & G2 & G3 & G4). rewrite R1 in *.
  exists En, En', G. do 2 (split; [assumption|]). split; [apply N2|]. split; [apply N2|]. split; [apply N2'|]. split; [apply N2'|]. do 3 (split; [assumption|]).
  destruct HU as (u1 & u2 & _).
  rewrite (mmul_eq_r (mher U) En' _ ltac:(cbn; rewrite u1; symmetry; apply N2') N2').
  rewrite (mmul_eq_l En _ G N2). rewrite <- G4. split; [cbn; congruence|]. split; [reflexivity|]. intros. reflexivity.
Qed.
Lemma rec_music eigh eigh' m U c d Rm Rm' w E w' E' k A A' : unitary m U -> nr Rm = m -> hermitian Rm -> (0 < c)%R -> recorded_cov m U c d Rm Rm' ->
  eigh Rm = Ok (w, E) -> eigh_ok Rm w E -> eigh' Rm' = Ok (w', E') -> eigh_ok Rm' w' E' -> (1 <= k < m)%nat -> (nth (m - k - 1) w 0 < nth (m - k) w 0)%R ->
  recorded_atoms m U A A' ->
  exists En En', get_noise_subspace eigh Rm (Z.of_nat k) = Ok En /\ get_noise_subspace eigh' Rm' (Z.of_nat k) = Ok En' /\ f_music A' En' = f_music A En.
Proof.
  intros HU R1 HH Hc HR HE OE HE' OE' Hk Gap HA.
  destruct (rec_noise eigh eigh' m U c d Rm Rm' w E w' E' k HU R1 HH Hc HR HE OE HE' OE' Hk Gap) as (En & En' & G & N & N' & n1 & n2 & n1' & n2' & g1 & g2 & g3 & g4).
  exists En, En'. do 2 (split; [assumption|]). destruct (HA) as (a1 & a2 & a3 & _).
  rewrite !f_music_value by congruence. f_equal. rewrite a3. apply map_ext_in. intros j Hj. apply in_seq in Hj. f_equal.
  rewrite (rec_power m U A A' En' j HU HA n1' ltac:(lia)). rewrite (proj_power_eq _ _ _ g4). apply proj_power_mix; congruence.
Qed.
(** *** Min-Norm *)
Definition mn_n2 (En : cmat) : R := rsum (nc En) (fun j => Cnorm2 (ent En 0 j)).
Lemma Cmod_sq c : (Cmod c * Cmod c)%R = Cnorm2 c.
Proof. unfold Cmod. rewrite sqrt_sqrt; [destruct c; unfold Cnorm2; cbn; ring|]. destruct c. cbn. nra. Qed.
Lemma mn_value En : (0 < nr En)%nat -> min_norm_vector En =
  Ok (if Req_EM_T (mn_n2 En) 0 then None else Some (fun i => Cconj (mvec En (fun j => Cconj (ent En 0 j) / RtoC (mn_n2 En)) i))).
Proof.
  intros H. unfold min_norm_vector. destruct (Nat.eqb_spec (nr En) 0); [lia|]. 
  assert (Q : rsum (nc En) (fun j => (Cmod (ent En 0 j) * Cmod (ent En 0 j))%R) = mn_n2 En) by (unfold mn_n2; apply rsum_ext; intros; apply Cmod_sq).
  rewrite Q. destruct (Req_EM_T _ _); reflexivity.
Qed.
(** En c^H, before the division *)
Definition mn_vec (En : cmat) : nat -> C := mvec En (fun j => Cconj (ent En 0 j)).
Lemma mn_vec_div En r i : mvec En (fun j => Cconj (ent En 0 j) / r) i = mn_vec En i / r.
Proof. unfold mn_vec. unfold Cdiv. rewrite (Cmult_comm _ (/ r)). rewrite <- mvec_scal. apply mvec_ext. intros; ring. Qed.
Lemma mn_vec_eq X Y i : X ==m Y -> (0 < nr X)%nat -> (i < nr X)%nat -> mn_vec X i = mn_vec Y i.
Proof.
  intros H H0 Hi. unfold mn_vec. rewrite (mvec_eq X Y _ i H Hi). apply mvec_ext. intros j Hj. f_equal. destruct H as (h1 & h2 & h3). apply h3; lia.
Qed.
Lemma mn_n2_eq X Y : X ==m Y -> (0 < nr X)%nat -> mn_n2 X = mn_n2 Y.
Proof. intros (h1 & h2 & h3) H. unfold mn_n2. rewrite h2. apply rsum_ext. intros j Hj. f_equal. apply h3; lia. Qed.
(** P e_0 with the projector P = En En^H *)
Lemma mn_vec_proj En i : mn_vec En i = ent (En *m mher En) i 0.
Proof. unfold mn_vec, mvec. reflexivity. Qed.
Lemma mn_n2_proj En : RtoC (mn_n2 En) = ent (En *m mher En) 0 0.
Proof. unfold mn_n2. cbn [mmul mher ent]. rewrite <- csum_RtoC. apply csum_ext. intros j Hj. now rewrite Cmult_conj_norm2. Qed.
Lemma gram_mix En G : nr G = nc En -> G *m mher G ==m mid (nc En) -> (En *m G) *m mher (En *m G) ==m En *m mher En.
Proof.
  intros HU UU. assert (X : mher (En *m G) ==m mher G *m mher En) by (apply mher_mmul; now symmetry).
  rewrite (mmul_eq (En *m G) (En *m G) (mher (En *m G)) _ eq_refl ltac:(reflexivity) X). rewrite mmul_assoc. apply mmul_eq_r; [cbn [mmul nr]; now symmetry|].
  rewrite <- mmul_assoc. rewrite (mmul_eq_l _ _ (mher En) UU). apply mmul_id_l. reflexivity.
Qed.
Lemma mn_mix En G : nr G = nc En -> G *m mher G ==m mid (nc En) -> (0 < nr En)%nat -> mn_n2 (En *m G) = mn_n2 En /\ forall i, (i < nr En)%nat -> mn_vec (En *m G) i = mn_vec En i.
Proof.
  intros H1 H2 H0. pose proof (gram_mix En G H1 H2) as (_ & _ & M). split.
  - assert (Q : RtoC (mn_n2 (En *m G)) = RtoC (mn_n2 En)); [|now injection Q]. rewrite !mn_n2_proj. apply M; cbn; lia.
  - intros i Hi. rewrite !mn_vec_proj. apply M; cbn; lia.
Qed.
(** the first sensor stays the first sensor *)
Definition keeps_first (m : nat) (U : cmat) : Prop := forall j, (0 < j < m)%nat -> ent U 0 j = RtoC 0.
Lemma keeps_first_mod m U : unitary m U -> (0 < m)%nat -> keeps_first m U -> Cnorm2 (ent U 0 0) = 1%R.
Proof.
  intros HU Hm K. pose proof (unitary_right m U HU) as (_ & _ & H). destruct HU as (u1 & u2 & _). specialize (H 0%nat 0%nat ltac:(cbn; lia) ltac:(cbn; lia)).
  cbn [mmul mher mid ent Nat.eqb] in H. rewrite u2 in H. rewrite (csum_single m _ 0 Hm) in H by (intros q Hq Nq; rewrite K by lia; ring).
  rewrite Cmult_conj_norm2 in H. now injection H.
Qed.
Lemma rec_ent m U E i j : unitary m U -> nr E = m -> (i < m)%nat -> (j < nc E)%nat -> ent E i j = mvec U (col (mher U *m E) j) i.
Proof.
  intros HU HE Hi Hj. pose proof (unitary_right m U HU) as u4. destruct HU as (u1 & u2 & u3).
  change (col (mher U *m E) j) with (mvec (mher U) (col E j)). rewrite <- mvec_mmul. rewrite (mvec_eq _ _ _ i u4) by (cbn; lia). now rewrite mvec_mid by exact Hi.
Qed.
Lemma rec_mn m U E : unitary m U -> (0 < m)%nat -> keeps_first m U -> nr E = m ->
  mn_n2 E = mn_n2 (mher U *m E) /\ forall i, (i < m)%nat -> mn_vec E i = Cconj (ent U 0 0) * mvec U (mn_vec (mher U *m E)) i.
Proof.
  intros HU Hm K HE. pose proof (keeps_first_mod m U HU Hm K) as M1. set (E2 := mher U *m E).
  assert (F : forall j, (j < nc E)%nat -> ent E 0 j = ent U 0 0 * ent E2 0 j).
  { intros j Hj. rewrite (rec_ent m U E 0 j HU HE Hm Hj). unfold mvec. destruct HU as (u1 & u2 & _). rewrite u2. rewrite (csum_single m _ 0 Hm); [reflexivity|]. intros q Hq Nq. rewrite K by lia. ring. }
  split.
  - unfold mn_n2. cbn [E2 mmul nc]. apply rsum_ext. intros j Hj. rewrite (F j Hj), Cnorm2_mult, M1. unfold E2. ring.
  - intros i Hi. unfold mn_vec. unfold mvec at 1.
    rewrite (csum_ext _ _ (fun j => Cconj (ent U 0 0) * (mvec U (col E2 j) i * Cconj (ent E2 0 j)))).
    2:{ intros j Hj. rewrite (F j Hj), Cmult_conj. rewrite (rec_ent m U E i j HU HE Hi Hj). fold E2. ring. }
    rewrite csum_scal. f_equal. unfold mvec.
    rewrite (csum_ext (nc E) _ (fun j => csum (nc U) (fun r => ent U i r * col E2 j r * Cconj (ent E2 0 j)))) by (intros j Hj; rewrite Cmult_comm, <- csum_scal; apply csum_ext; intros; ring).
    rewrite csum_swap. apply csum_ext. intros r Hr. cbn [nc mmul E2]. rewrite <- csum_scal. apply csum_ext. intros j Hj. unfold col, E2. ring.
Qed.
Lemma unitary_vdot m U x y : unitary m U -> vdot m (mvec U x) (mvec U y) = vdot m x y.
Proof.
  intros (u1 & u2 & u3). rewrite <- u1 at 1. rewrite vdot_mvec_her, u2. apply vdot_ext2; [|reflexivity]. intros i Hi. rewrite <- mvec_mmul. rewrite (mvec_eq _ _ _ i u3) by (cbn; lia). now apply mvec_mid.
Qed.
Lemma rec_minnorm m U En En' G : unitary m U -> (0 < m)%nat -> keeps_first m U -> nr En = m -> nr En' = m -> nr G = nc En -> G *m mher G ==m mid (nc En) -> mher U *m En' ==m En *m G ->
  exists od od', min_norm_vector En = Ok od /\ min_norm_vector En' = Ok od' /\
    match od, od' with
    | None, None => True
    | Some d, Some d' => forall A A', recorded_atoms m U A A' -> f_min_norm m d' A' = f_min_norm m d A
    | _, _ => False
    end.
Proof.
  intros HU Hm K n1 n1' g1 g2 g3. pose proof HU as (u1 & u2 & _).
  destruct (rec_mn m U En' HU Hm K n1') as (q1 & q2).
  destruct (mn_mix En G g1 g2 ltac:(lia)) as (q3 & q4).
  assert (q5 : mn_n2 En' = mn_n2 En). { rewrite q1, (mn_n2_eq _ _ g3) by (cbn; lia). exact q3. }
  assert (q6 : forall i, (i < m)%nat -> mn_vec En' i = Cconj (ent U 0 0) * mvec U (mn_vec En) i).
  { intros i Hi. rewrite q2 by exact Hi. f_equal. apply mvec_ext. intros j Hj. rewrite (mn_vec_eq _ _ j g3) by (cbn; lia). apply q4. lia. }
  rewrite !mn_value by lia. rewrite q5. eexists _, _. split; [reflexivity|]. split; [reflexivity|].
  destruct (Req_EM_T (mn_n2 En) 0) as [Z|Z]; [exact I|]. intros A0 A0' HA. pose proof (rec_col m U A0 A0' HA) as (t & T & Ct). destruct HA as (a1 & a2 & a3 & _).
  rewrite !C59_spectrum by assumption. f_equal. rewrite a3. apply map_ext_in. intros j Hj. apply in_seq in Hj. f_equal.
  set (r := RtoC (mn_n2 En)). set (uu := ent U 0 0) in *.
  rewrite (vdot_ext2 m _ (fun i => (Cconj uu / r) * mvec U (mn_vec En) i) _ (fun i => t j * mvec U (col A0 j) i)).
  2:{ intros i Hi. rewrite Cconj_conj. rewrite mn_vec_div, q6 by exact Hi. unfold Cdiv. ring. }
  2:{ intros i Hi. apply Ct; [exact Hi | lia]. }
  rewrite vdot_scal, vdot_scal_l, (unitary_vdot m U _ _ HU), !Cnorm2_mult, (Cmod1_norm2 _ (T j)).
  symmetry. rewrite (vdot_ext2 m _ (fun i => / r * mn_vec En i) _ (col A0 j)); [|intros i Hi; rewrite Cconj_conj, mn_vec_div; unfold Cdiv; ring|reflexivity].
  rewrite vdot_scal_l, Cnorm2_mult. unfold Cdiv. rewrite Cmult_conj, Cconj_conj, Cnorm2_mult. unfold uu. rewrite (keeps_first_mod m U HU Hm K). ring.
Qed.
(** *** Beamformers *)
Lemma bartlett_value A Rm : nc Rm = nr A -> nr Rm = nr A -> f_bartlett A Rm = Ok (map (fun j => Re (vdot (nr A) (col A j) (mvec Rm (col A j)))) (seq 0 (nc A))).
Proof.
  intros H1 H2. unfold f_bartlett. rewrite matmul_ok by exact H1. cbn [bind mmul nr]. rewrite H2, Nat.eqb_refl. reflexivity.
Qed.
Lemma vdot_plus_r n x y z : vdot n x (fun i => y i + z i) = vdot n x y + vdot n x z.
Proof. unfold vdot. rewrite <- csum_plus. apply csum_ext. intros; ring. Qed.
Lemma unit_cancel t : Cmod t = 1%R -> t * Cconj t = RtoC 1.
Proof. intros H. rewrite Cmult_conj_norm2, (Cmod1_norm2 t H). reflexivity. Qed.
Lemma mvec_adj m U x i : unitary m U -> (i < m)%nat -> mvec (mher U) (mvec U x) i = x i.
Proof. intros (u1 & u2 & u3) Hi. rewrite <- mvec_mmul. rewrite (mvec_eq _ _ _ i u3) by (cbn; lia). now apply mvec_mid. Qed.
Lemma rec_bartlett m U c d Rm Rm' A A' : unitary m U -> nr Rm = m -> nc Rm = m -> recorded_cov m U c d Rm Rm' -> recorded_atoms m U A A' ->
  exists sp sp', f_bartlett A Rm = Ok sp /\ f_bartlett A' Rm' = Ok sp' /\ List.length sp = nc A /\ List.length sp' = nc A /\
    forall j, (j < nc A)%nat -> nth j sp' 0%R = (c * nth j sp 0 + d * vnorm2 m (col A j))%R.
Proof.
  intros HU R1 R2 HR HA. destruct (rec_sizes _ _ _ _ _ _ HU HR) as (S1 & S2). pose proof (rec_col m U A A' HA) as (t & T & Ct). destruct HA as (a1 & a2 & a3 & _).
  rewrite !bartlett_value by congruence. eexists _, _. split; [reflexivity|]. split; [reflexivity|]. rewrite !map_length, !seq_length. split; [reflexivity|]. split; [exact a3|].
  intros j Hj. rewrite (nth_map_seq (fun j => Re (vdot (nr A') (col A' j) (mvec Rm' (col A' j))))) by lia. rewrite (nth_map_seq (fun j => Re (vdot (nr A) (col A j) (mvec Rm (col A j))))) by lia.
  rewrite a1, a2. set (x := col A j).
  assert (Q : vdot m (col A' j) (mvec Rm' (col A' j)) = RtoC c * vdot m x (mvec Rm x) + RtoC d * vdot m x x).
  { rewrite (vdot_ext2 m _ (fun i => t j * mvec U x i) _ (fun i => t j * (RtoC c * mvec U (mvec Rm x) i + RtoC d * mvec U x i))).
    2:{ intros i Hi. now apply Ct. }
    2:{ intros i Hi. rewrite (rec_mvec m U c d Rm Rm' _ i HU R1 R2 HR Hi), (Ct i j Hi Hj).
        pose proof HU as (u1 & u2 & _).
        rewrite (mvec_ext U _ (fun r => t j * mvec Rm x r)).
        - rewrite mvec_scal. unfold x. ring.
        - intros r Hr. rewrite u2 in Hr. rewrite <- mvec_scal. apply mvec_ext. intros q Hq. rewrite R2 in Hq.
          rewrite (mvec_ext (mher U) _ (fun s => t j * mvec U x s)) by (cbn; intros s Hs; apply Ct; [lia|exact Hj]). rewrite mvec_scal. f_equal. now apply (mvec_adj m). }
    rewrite vdot_scal, vdot_scal_l, vdot_plus_r, !vdot_scal, !(unitary_vdot m U _ _ HU).
    rewrite Cmult_assoc, (unit_cancel _ (T j)). ring. }
  rewrite Q, vdot_self. unfold x. destruct (vdot m (col A j) (mvec Rm (col A j))). cbn. ring.
Qed.
Lemma mvdr_value lstsq A Rm : lstsq_contract lstsq -> nr Rm = nc Rm -> inj Rm -> nr A = nr Rm ->
  exists X : cmat, (forall i j, (i < nr A)%nat -> (j < nc A)%nat -> mvec Rm (col X j) i = ent A i j) /\
    f_mvdr lstsq A Rm = Ok (map (fun j => recip (Re (vdot (nr A) (col A j) (col X j)))) (seq 0 (nc A))).
Proof.
  intros HL S1 HI HA. destruct (HL Rm A S1 HI HA) as (X & EX & X1 & X2 & X3). exists X. split.
  - intros i j Hi Hj. destruct X3 as (_ & _ & X3). specialize (X3 i j ltac:(cbn; lia) ltac:(cbn; lia)). rewrite mmul_ent_mvec in X3. exact X3.
  - unfold f_mvdr. rewrite EX. cbn [bind]. rewrite X1, HA, Nat.eqb_refl. reflexivity.
Qed.
Lemma rec_mvdr lstsq lstsq' m U c Rm Rm' A A' : lstsq_contract lstsq -> lstsq_contract lstsq' -> unitary m U -> nr Rm = m -> nc Rm = m -> inj Rm -> (0 < c)%R ->
  recorded_cov m U c 0 Rm Rm' -> recorded_atoms m U A A' ->
  exists sp sp', f_mvdr lstsq A Rm = Ok sp /\ f_mvdr lstsq' A' Rm' = Ok sp' /\ List.length sp = nc A /\
    sp' = map (fun o => match o with Some v => Some (c * v)%R | None => None end) sp.
Proof.
  intros HL HL' HU R1 R2 HI Hc HR HA. destruct (rec_sizes _ _ _ _ _ _ HU HR) as (S1 & S2). pose proof (rec_col m U A A' HA) as (t & T & Ct). destruct HA as (a1 & a2 & a3 & _).
  pose proof HU as (u1 & u2 & u3). assert (N : RtoC c <> RtoC 0) by (intros Z; injection Z as Z; lra).
  assert (MV : forall x i, (i < m)%nat -> mvec Rm' x i = RtoC c * mvec U (mvec Rm (mvec (mher U) x)) i).
  { intros x i Hi. rewrite (rec_mvec m U c 0 Rm Rm' x i HU R1 R2 HR Hi). ring. }
  assert (Can : forall y i, (i < m)%nat -> mvec (mher U) (mvec Rm' y) i = RtoC c * mvec Rm (mvec (mher U) y) i).
  { intros y i Hi. rewrite (mvec_ext (mher U) (mvec Rm' y) (fun r => RtoC c * mvec U (mvec Rm (mvec (mher U) y)) r)) by (cbn; intros r Hr; apply MV; lia). rewrite mvec_scal, (mvec_adj m U _ i HU Hi). reflexivity. }
  assert (HI' : inj Rm').
  { intros x Hx. assert (Z : forall i, (i < m)%nat -> mvec (mher U) x i = RtoC 0).
    { intros i Hi. apply HI; [|lia]. intros q Hq. rewrite R1 in Hq.
      assert (Y : RtoC c * mvec Rm (mvec (mher U) x) q = RtoC 0) by (rewrite <- Can by exact Hq; apply mvec_0; cbn; intros; apply Hx; lia).
      destruct (P_spectral.C_eq_dec (mvec Rm (mvec (mher U) x) q) (RtoC 0)) as [e|n]; [exact e|]. exfalso. revert Y. now apply Cmult_neq_0. }
    intros j Hj. rewrite S2 in Hj. rewrite <- (mvec_mid m x j Hj). rewrite <- (mvec_eq _ _ x j (unitary_right m U HU)) by (cbn; lia). rewrite mvec_mmul. apply mvec_0. intros; apply Z. lia. }
  destruct (mvdr_value lstsq A Rm HL ltac:(congruence) HI ltac:(congruence)) as (X & HX & E).
  destruct (mvdr_value lstsq' A' Rm' HL' ltac:(congruence) HI' ltac:(congruence)) as (X' & HX' & E').
  rewrite E, E'. eexists _, _. split; [reflexivity|]. split; [reflexivity|]. rewrite map_length, seq_length. split; [reflexivity|].
  rewrite map_map, a3. apply map_ext_in. intros j Hj. apply in_seq in Hj. assert (Hj' : (j < nc A)%nat) by lia. rewrite a1, a2 in *. clear Hj.
  assert (Q : vdot m (col A' j) (col X' j) = vdot m (col A j) (col X j) / RtoC c).
  { assert (Y : forall i, (i < m)%nat -> mvec (mher U) (col X' j) i = (t j / RtoC c) * col X j i).
    { assert (I2 : forall i, (i < m)%nat -> mvec (mher U) (col X' j) i - (t j / RtoC c) * col X j i = RtoC 0).
      { intros i Hi. apply (HI (fun i => mvec (mher U) (col X' j) i - (t j / RtoC c) * col X j i)); [|lia]. intros q Hq. rewrite R1 in Hq.
        transitivity (mvec Rm (mvec (mher U) (col X' j)) q - (t j / RtoC c) * mvec Rm (col X j) q).
        { rewrite mvec_minus. now rewrite mvec_scal. }
        rewrite HX by lia.
        transitivity (mvec (mher U) (mvec Rm' (col X' j)) q / RtoC c - t j / RtoC c * ent A q j); [rewrite Can by exact Hq; field; exact N|].
        rewrite (mvec_ext (mher U) (mvec Rm' (col X' j)) (fun s => t j * mvec U (col A j) s)).
        2:{ cbn. intros s Hs. rewrite HX' by lia. apply (Ct s j); [lia|exact Hj']. }
        rewrite mvec_scal, (mvec_adj m U _ q HU Hq). unfold col. field. exact N. }
      intros i Hi. specialize (I2 i Hi). rewrite <- (Cplus_0_r (t j / RtoC c * col X j i)). rewrite <- I2. ring. }
    rewrite (vdot_ext2 m (col A' j) (fun i => t j * mvec U (col A j) i) _ (col X' j)); [|intros i Hi; now apply Ct|reflexivity].
    rewrite vdot_scal_l. rewrite <- (vdot_conj m (col X' j)). rewrite <- u1 at 1. rewrite vdot_mvec_her, u2, vdot_conj.
    rewrite (vdot_ext2 m (col A j) (col A j) _ (fun i => (t j / RtoC c) * col X j i)); [|reflexivity|exact Y].
    rewrite vdot_scal. transitivity (t j * Cconj (t j) * vdot m (col A j) (col X j) / RtoC c); [field; exact N|]. rewrite (unit_cancel _ (T j)). field. exact N. }
  rewrite Q. assert (W : Re (vdot m (col A j) (col X j) / RtoC c) = (Re (vdot m (col A j) (col X j)) / c)%R).
  { unfold Cdiv. rewrite <- RtoC_inv by lra. destruct (vdot m (col A j) (col X j)). cbn. unfold Rdiv. ring. }
  rewrite W. unfold recip. set (v := Re (vdot m (col A j) (col X j))). destruct (Req_EM_T (v / c) 0) as [z|z], (Req_EM_T v 0) as [z'|z']; try reflexivity.
  - exfalso. apply z'. apply (Rmult_eq_reg_r (/ c)); [unfold Rdiv in z; lra|]. apply Rinv_neq_0_compat. lra.
  - exfalso. apply z. rewrite z'. unfold Rdiv. ring.
  - f_equal. field. split; lra.
Qed.
