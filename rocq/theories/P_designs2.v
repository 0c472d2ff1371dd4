From Verif Require Import Base_Np Base_Trig M_utils P_utils M_sources M_array M_designs S_designs P_designs.
From Coq Require Import Lra.
Open Scope R_scope.

(** *** UCA *)
Lemma UCA_theta n i : (i < n)%nat -> nth i (linspace 0 (PI * (2 - 2 / INR n)) n) 0 = 2 * PI * INR i / INR n.
Proof.
  intros H. unfold linspace. rewrite nth_map_seq by exact H.
  destruct (Nat.eq_dec n 1) as [->|Hn].
  - assert (i = 0)%nat by lia; subst i. cbn [INR]. rewrite Rmult_0_l. field.
  - rewrite minus_INR by lia. change (INR 1) with 1.
    assert (INR n <> 0) by (apply not_0_INR; lia).
    assert (INR n - 1 <> 0). { change 1 with (INR 1). rewrite <- minus_INR by lia. apply not_0_INR; lia. }
    field. auto.
Qed.
Lemma UCA_loc n r i : (i < n)%nat ->
  ent (UCA_locations n r) i 0%nat = r * cos (2 * PI * INR i / INR n) /\
  ent (UCA_locations n r) i 1%nat = r * sin (2 * PI * INR i / INR n).
Proof. intros H. unfold UCA_locations. simpl. rewrite !UCA_theta by exact H. auto. Qed.
Lemma UCA_radius n r i : (i < n)%nat ->
  sqrt (ent (UCA_locations n r) i 0%nat * ent (UCA_locations n r) i 0%nat
        + ent (UCA_locations n r) i 1%nat * ent (UCA_locations n r) i 1%nat) = Rabs r.
Proof.
  intros H. destruct (UCA_loc n r i H) as [-> ->]. rewrite <- sqrt_Rsqr_abs. f_equal. unfold Rsqr.
  pose proof (sin2_cos2 (2 * PI * INR i / INR n)) as E. unfold Rsqr in E. nra.
Qed.
Lemma cos_lt_1 x : 0 < x < 2 * PI -> cos x < 1.
Proof.
  intros H. replace x with (2 * (x / 2)) by field. rewrite cos_2a_sin.
  assert (0 < sin (x / 2)) by (apply sin_gt_0; lra). nra.
Qed.
Lemma UCA_distinct n r i j : r <> 0 -> (i < j)%nat -> (j < n)%nat ->
  ~ (ent (UCA_locations n r) i 0%nat = ent (UCA_locations n r) j 0%nat /\
     ent (UCA_locations n r) i 1%nat = ent (UCA_locations n r) j 1%nat).
Proof.
  intros Hr Hij Hj. destruct (UCA_loc n r i) as [-> ->]; [lia|]. destruct (UCA_loc n r j) as [-> ->]; [lia|].
  set (a := 2 * PI * INR i / INR n). set (b := 2 * PI * INR j / INR n). intros [H1 H2].
  apply Rmult_eq_reg_l in H1; [|exact Hr]. apply Rmult_eq_reg_l in H2; [|exact Hr].
  assert (Hn : 0 < INR n) by (apply lt_0_INR; lia).
  assert (D : 0 < b - a < 2 * PI).
  { assert (E : b - a = 2 * PI * ((INR j - INR i) / INR n)) by (unfold a, b; field; lra).
    assert (0 < (INR j - INR i) / INR n) by (apply Rdiv_lt_0_compat; [apply lt_INR in Hij; lra | exact Hn]).
    assert ((INR j - INR i) / INR n < 1).
    { apply (Rmult_lt_reg_r (INR n)); [exact Hn|]. unfold Rdiv. rewrite Rmult_assoc, Rinv_l by lra.
      apply lt_INR in Hj. pose proof (pos_INR i). lra. }
    pose proof PI_RGT_0. rewrite E. split; nra. }
  apply cos_lt_1 in D. rewrite cos_minus, H1, H2 in D. pose proof (sin2_cos2 b) as E. unfold Rsqr in E. lra.
Qed.
Lemma cis_sum_0 n : (2 <= n)%nat -> csum n (fun i => cis (2 * PI * INR i / INR n)) = RtoC 0.
Proof.
  intros Hn. assert (HN : INR n <> 0) by (apply not_0_INR; lia).
  set (S := csum n (fun i => cis (2 * PI * INR i / INR n))). set (w := 2 * PI / INR n).
  assert (E : (cis w * S = S)%C).
  { assert (E1 : (cis w * S)%C = csum n (fun i => cis (2 * PI * INR (Datatypes.S i) / INR n))).
    { unfold S. rewrite <- csum_scal. apply csum_ext. intros i _. rewrite <- cis_plus. f_equal. rewrite S_INR. unfold w. field. exact HN. }
    assert (E2 : csum (Datatypes.S n) (fun i => cis (2 * PI * INR i / INR n)) = (cis 0 + (cis w * S))%C).
    { rewrite csum_S_l, E1. f_equal. f_equal. simpl. field. exact HN. }
    assert (E3 : csum (Datatypes.S n) (fun i => cis (2 * PI * INR i / INR n)) = (S + cis (2 * PI))%C).
    { simpl. unfold S. f_equal. f_equal. field. exact HN. }
    assert (E4 : cis (2 * PI) = cis 0) by (unfold cis; rewrite cos_2PI, sin_2PI, cos_0, sin_0; reflexivity).
    rewrite E2, E4 in E3.
    assert (E5 : (cis w * S)%C = (cis 0 + cis w * S - cis 0)%C) by ring.
    rewrite E5, E3. ring. }
  assert (F : ((cis w - RtoC 1) * S = RtoC 0)%C). { replace ((cis w - RtoC 1) * S)%C with (cis w * S - S)%C by ring. rewrite E. ring. }
  apply Cmult_0 in F as [F|F]; [|exact F]. exfalso.
  assert (cos w < 1).
  { apply cos_lt_1. pose proof PI_RGT_0. assert (2 <= INR n) by (change 2 with (INR 2); now apply le_INR).
    unfold w. split; [apply Rdiv_lt_0_compat; lra|].
    apply (Rmult_lt_reg_r (INR n)); [lra|]. unfold Rdiv. rewrite Rmult_assoc, Rinv_l by lra. nra. }
  apply (f_equal Re) in F. rewrite Re_minus in F. simpl in F. lra.
Qed.
Lemma UCA_centroid n r : (2 <= n)%nat ->
  rsum n (fun i => ent (UCA_locations n r) i 0%nat) = 0 /\ rsum n (fun i => ent (UCA_locations n r) i 1%nat) = 0.
Proof.
  intros Hn. pose proof (cis_sum_0 n Hn) as E.
  assert (E1 := f_equal Re E). assert (E2 := f_equal Im E). rewrite csum_Re in E1. rewrite csum_Im in E2. simpl in E1, E2.
  split.
  - rewrite (rsum_ext n _ (fun i => r * cos (2 * PI * INR i / INR n))) by (intros i Hi; apply (UCA_loc n r i Hi)).
    rewrite rsum_scal, E1. ring.
  - rewrite (rsum_ext n _ (fun i => r * sin (2 * PI * INR i / INR n))) by (intros i Hi; apply (UCA_loc n r i Hi)).
    rewrite rsum_scal, E2. ring.
Qed.
Lemma mk_UCA_ok n r name kw : (1 <= n)%Z ->
  exists a, mk_UCA n r name kw = Ok a /\ ar_loc a = LArr DFloat (UCA_locations (Z.to_nat n) r) /\ perturbations a = [] /\
    ar_elem a = ISOTROPIC_SCALAR_SENSOR.
Proof.
  intros H. unfold mk_UCA. destruct (Z.eqb_spec n 0); [lia|]. destruct (Z.ltb_spec n 0); [lia|].
  eexists. split; [apply init_no_kwargs; simpl; lia|]. simpl. auto.
Qed.

(** *** grid designs *)
Lemma mk_Grid_list_eq idx l name kw : List.length l = nc idx ->
  mk_Grid idx (D0List l) name None kw =
  (let B := Mat (List.length l) (List.length l) (fun i j => (if Nat.eqb i j then 1 else 0) * nth j l 0) in
   let! a := init_with_matrix (Mat (nr idx) (List.length l) (fun i j => rsum (nc idx) (fun k => IZR (ent idx i k) * ent B k j))) name kw in
   Ok (GDesign a idx B l false)).
Proof.
  intros H. unfold mk_Grid. simpl. rewrite H, Nat.ltb_irrefl, Nat.eqb_refl. reflexivity.
Qed.
Lemma mk_Grid_scalar_eq idx d name kw :
  mk_Grid idx (D0Scalar d) name None kw = mk_Grid idx (D0List (repeat d (nc idx))) name None kw.
Proof. reflexivity. Qed.
Lemma mk_Grid_list idx l name kw g : List.length l = nc idx -> mk_Grid idx (D0List l) name None kw = Ok g ->
  gd_indices g = idx /\ gd_d0 g = l /\ gd_nan g = false /\
  nr (la_m (ar_loc (gd_array g))) = nr idx /\ nc (la_m (ar_loc (gd_array g))) = nc idx /\
  forall i j, (i < nr idx)%nat -> (j < nc idx)%nat -> ent (la_m (ar_loc (gd_array g))) i j = IZR (ent idx i j) * nth j l 0.
Proof.
  intros Hl H. rewrite mk_Grid_list_eq in H by exact Hl. cbv zeta in H.
  apply bind_Ok_inv in H as (a & Ha & H). injection H as <-. apply init_with_matrix_inv in Ha as (_ & E & _ & _).
  simpl. rewrite E. simpl. repeat split; auto.
  intros i j Hi Hj. apply (grid_sum (nc idx) (fun k => IZR (ent idx i k)) j (nth j l 0) Hj).
Qed.
Lemma mk_Grid_list_ok idx l name : List.length l = nc idx -> (nc idx <= 3)%nat ->
  exists g, mk_Grid idx (D0List l) name None no_kwargs = Ok g.
Proof.
  intros Hl H. rewrite mk_Grid_list_eq by exact Hl. cbv zeta. rewrite init_no_kwargs by (simpl; lia). simpl. eauto.
Qed.
Lemma mk_Grid_list_bad idx l name kw : List.length l <> nc idx -> mk_Grid idx (D0List l) name None kw = Raise ValueError.
Proof.
  intros H. unfold mk_Grid. simpl. destruct (Nat.ltb_spec (nc idx) (List.length l)); [reflexivity|].
  destruct (Nat.eqb_spec (nc idx) (List.length l)); [lia|]. reflexivity.
Qed.
Lemma mk_Grid_nested idx name kw : mk_Grid idx D0Nested name None kw = Raise ValueError.
Proof. reflexivity. Qed.
Lemma mk_Grid_bases idx d0 B name kw g : mk_Grid idx d0 name (Some B) kw = Ok g ->
  nc idx = nr B /\ gd_indices g = idx /\ gd_bases g = B /\ gd_nan g = false /\
  List.length (gd_d0 g) = nr B /\
  (forall k, (k < nr B)%nat -> nth k (gd_d0 g) 0 = sqrt (rsum (nc B) (fun j => ent B k j * ent B k j))) /\
  nr (la_m (ar_loc (gd_array g))) = nr idx /\ nc (la_m (ar_loc (gd_array g))) = nc B /\
  forall i j, (i < nr idx)%nat -> (j < nc B)%nat ->
    ent (la_m (ar_loc (gd_array g))) i j = rsum (nr B) (fun k => IZR (ent idx i k) * ent B k j).
Proof.
  unfold mk_Grid. destruct (Nat.eqb_spec (nc idx) (nr B)) as [E|E]; simpl; [|discriminate]. intros H.
  apply bind_Ok_inv in H as (a & Ha & H). injection H as <-. apply init_with_matrix_inv in Ha as (_ & El & _ & _).
  simpl. rewrite El. simpl. rewrite map_length, seq_length. repeat split; auto.
  - intros k Hk. apply (nth_map_seq (fun i => sqrt (rsum (nc B) (fun j => ent B i j * ent B i j)))). exact Hk.
  - intros i j Hi Hj. now rewrite E.
Qed.
Lemma mk_Grid_bases_ok idx d0 B name : nc idx = nr B -> (nc B <= 3)%nat ->
  exists g, mk_Grid idx d0 name (Some B) no_kwargs = Ok g.
Proof.
  intros H H3. unfold mk_Grid. rewrite H, Nat.eqb_refl. simpl. rewrite init_no_kwargs by (simpl; lia). simpl. eauto.
Qed.
Lemma mk_Grid_bases_bad idx d0 B name kw : nc idx <> nr B -> mk_Grid idx d0 name (Some B) kw = Raise ValueError.
Proof. intros H. unfold mk_Grid. apply Nat.eqb_neq in H. rewrite H. reflexivity. Qed.
Lemma mk_Grid_none idx name : nc idx = 1%nat -> exists g, mk_Grid idx D0None name None no_kwargs = Ok g /\ gd_nan g = true.
Proof. intros H. unfold mk_Grid. simpl. rewrite H. simpl. eexists. split; reflexivity. Qed.
Lemma mk_Grid_none_bad idx name kw : nc idx <> 1%nat -> mk_Grid idx D0None name None kw = Raise ValueError.
Proof.
  intros H. unfold mk_Grid. simpl. destruct (Nat.ltb_spec (nc idx) 1); [reflexivity|].
  destruct (Nat.eqb_spec (nc idx) 1); [lia|]. reflexivity.
Qed.

(** *** URA *)
Lemma ura_rows m n : exists rows, cartesian 0%Z [arange 0 m; arange 0 n] = Ok rows /\
  List.length rows = (Z.to_nat m * Z.to_nat n)%nat /\
  forall i j, (i < Z.to_nat m)%nat -> (j < Z.to_nat n)%nat ->
    nth 0 (nth (i * Z.to_nat n + j) rows []) 0%Z = Z.of_nat i /\ nth 1 (nth (i * Z.to_nat n + j) rows []) 0%Z = Z.of_nat j.
Proof.
  destruct (proj2 (cartesian_total 0%Z [arange 0 m; arange 0 n])) as (rows & E); [discriminate|].
  exists rows. split; [exact E|]. destruct (cartesian_spec _ _ _ E) as (HL & HR).
  cbn [map] in HL, HR. unfold arange in HL, HR. rewrite !zrange_length in HL, HR. rewrite !Z.sub_0_r in HL, HR.
  split; [rewrite HL; simpl; lia|]. intros i j Hi Hj.
  assert (Hs : in_shape [Z.to_nat m; Z.to_nat n] [i; j]) by (simpl; auto).
  assert (U := unravel_ravel _ _ Hs). pose proof (ravel_lt _ _ Hs) as Lt.
  assert (ER : ravel [Z.to_nat m; Z.to_nat n] [i; j] = (i * Z.to_nat n + j)%nat) by (simpl; lia).
  rewrite ER in U, Lt.
  destruct (HR _ Lt) as (_ & HA). pose proof (HA 0%nat ltac:(simpl; lia)) as A0. pose proof (HA 1%nat ltac:(simpl; lia)) as A1.
  rewrite A0, A1, U. cbn [nth]. unfold arange.
  rewrite !zrange_nth by lia. split; lia.
Qed.
Lemma mk_URA_spec m n l name kw g : List.length l = 2%nat ->
  mk_URA m n (D0List l) name kw = Ok g ->
  ar_size (gd_array g) = (Z.to_nat m * Z.to_nat n)%nat /\ ar_ndim (gd_array g) = 2%nat /\ gd_nan g = false /\
  forall i j, (i < Z.to_nat m)%nat -> (j < Z.to_nat n)%nat ->
    let e := (i * Z.to_nat n + j)%nat in
    ent (gd_indices g) e 0%nat = Z.of_nat i /\ ent (gd_indices g) e 1%nat = Z.of_nat j /\
    ent (la_m (ar_loc (gd_array g))) e 0%nat = INR i * nth 0 l 0 /\
    ent (la_m (ar_loc (gd_array g))) e 1%nat = INR j * nth 1 l 0.
Proof.
  intros Hl H. unfold mk_URA in H. destruct (ura_rows m n) as (rows & E & HL & HR). rewrite E in H. cbn [bind] in H.
  apply mk_Grid_list in H; [|simpl; exact Hl]. destruct H as (Hi & Hd & Hnan & Hr & Hc & HE). simpl in *.
  unfold ar_size, ar_ndim. rewrite Hr, Hc, HL. repeat split; auto; rewrite ?Hi; simpl;
    try (apply HR; assumption).
  - rewrite HE by (try lia; nia). rewrite (proj1 (HR i j ltac:(assumption) ltac:(assumption))). now rewrite INR_IZR_INZ.
  - rewrite HE by (try lia; nia). rewrite (proj2 (HR i j ltac:(assumption) ltac:(assumption))). now rewrite INR_IZR_INZ.
Qed.
Lemma mk_URA_ok m n l name : List.length l = 2%nat -> exists g, mk_URA m n (D0List l) name no_kwargs = Ok g.
Proof.
  intros Hl. unfold mk_URA. destruct (ura_rows m n) as (rows & E & _). rewrite E. cbn [bind].
  apply mk_Grid_list_ok; simpl; lia.
Qed.
Lemma mk_URA_scalar m n d name kw : mk_URA m n (D0Scalar d) name kw = mk_URA m n (D0List [d; d]) name kw.
Proof. unfold mk_URA. destruct (cartesian _ _); [|reflexivity]. cbn [bind]. reflexivity. Qed.
