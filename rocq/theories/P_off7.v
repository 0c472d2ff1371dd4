(** Refinement converges geometrically on a spectrum with one dip. *)
From Coq Require Import Lra Lia Sorted Permutation.
From Verif Require Import Base_Np Base_Trig S_utils M_utils P_utils M_sources S_sources P_sources P_sources3 M_array M_designs M_coarray M_heap M_grid M_core S_grid P_grid P_core S_refine.
Open Scope R_scope.

(** *** one level *)
(** ax is an evenly spaced axis with spacing w inside b0..b1 that encloses a up to tol *)
Definition encloses (b0 b1 a tol w : R) (ax : list R) : Prop := exists s N, (1 <= N)%nat /\ List.length ax = S N /\
  (forall j, (j <= N)%nat -> nth j ax 0 = s + INR j * w) /\ b0 <= s /\ s + INR N * w <= b1 /\ s - tol <= a <= s + INR N * w + tol.
Lemma level_step V b0 b1 a tol w ax p : dip V b0 b1 a tol -> 0 <= tol -> 0 < w -> encloses b0 b1 a tol w ax -> (p < List.length ax)%nat ->
  (forall j, (j < List.length ax)%nat -> V (nth p ax 0) <= V (nth j ax 0)) ->
  let lb := (p - 1)%nat in let ub := Nat.min (List.length ax - 1) (p + 1) in
  b0 <= nth p ax 0 <= b1 /\ Rabs (nth p ax 0 - a) <= w + tol /\ nth lb ax 0 - tol <= a <= nth ub ax 0 + tol.
Proof.
  intros (D1 & D2 & D3) T W (s & N & N1 & L & X & B0 & B1 & Ba) Hp Hm lb ub. rewrite L in *.
  assert (IN : forall i j, (i <= j)%nat -> (j <= N)%nat -> s + INR i * w <= s + INR j * w) by (intros i j H1 H2; apply Rplus_le_compat_l, Rmult_le_compat_r; [lra|now apply le_INR]).
  assert (RG : forall j, (j <= N)%nat -> b0 <= nth j ax 0 <= b1).
  { intros j Hj. rewrite X by exact Hj. pose proof (IN 0%nat j ltac:(lia) Hj) as Q. cbn [INR] in Q. pose proof (IN j N Hj (le_n _)). lra. }
  assert (ST : forall j, (S j <= N)%nat -> nth (S j) ax 0 = nth j ax 0 + w) by (intros j Hj; rewrite !X by lia; rewrite S_INR; ring).
  assert (LO : nth lb ax 0 - tol <= a /\ nth p ax 0 - w - tol <= a).
  { unfold lb. destruct p as [|p].
    - change (0 - 1)%nat with 0%nat. rewrite X by lia. cbn [INR]. split; lra.
    - replace (S p - 1)%nat with p by lia. rewrite (ST p) by lia. replace (nth p ax 0 + w - w - tol) with (nth p ax 0 - tol) by ring.
      cut (nth p ax 0 - tol <= a); [tauto|]. destruct (Rle_lt_dec (nth p ax 0 - tol) a) as [Q|Q]; [exact Q|exfalso].
      assert (V1 : V a < V (nth p ax 0)) by (apply D3; [apply RG; lia|rewrite Rabs_right; lra]).
      pose proof (D2 a (nth p ax 0) (nth (S p) ax 0) (Rmin_r _ _) ltac:(lra) ltac:(rewrite ST by lia; lra) ltac:(eapply Rle_trans; [apply RG; lia|apply Rmax_l])) as V2.
      pose proof (Hm p ltac:(lia)) as V3. unfold Rmax in V2. destruct (Rle_dec _ _); lra. }
  assert (HI : a <= nth ub ax 0 + tol /\ a <= nth p ax 0 + w + tol).
  { unfold ub. destruct (Nat.eq_dec p N) as [->|NE].
    - rewrite L. replace (Nat.min (S N - 1) (N + 1)) with N by lia. rewrite X by lia. split; lra.
    - rewrite L. replace (Nat.min (S N - 1) (p + 1)) with (S p) by lia. rewrite (ST p) by lia.
      cut (a <= nth p ax 0 + w + tol); [tauto|]. destruct (Rle_lt_dec a (nth p ax 0 + w + tol)) as [Q|Q]; [exact Q|exfalso]. rewrite <- (ST p) in Q by lia.
      assert (V1 : V a < V (nth (S p) ax 0)) by (apply D3; [apply RG; lia|rewrite Rabs_left; lra]).
      pose proof (D2 (nth p ax 0) (nth (S p) ax 0) a ltac:(eapply Rle_trans; [apply Rmin_l|apply RG; lia]) ltac:(rewrite ST by lia; lra) ltac:(lra) (Rmax_r _ _)) as V2.
      pose proof (Hm (S p) ltac:(lia)) as V3. unfold Rmax in V2. destruct (Rle_dec _ _); lra. }
  split; [apply RG; lia|]. split; [apply Rabs_le; lra|tauto].
Qed.
Lemma level_next b0 b1 a tol w ax p D : 0 < w -> (1 <= D)%nat -> encloses b0 b1 a tol w ax -> (p < List.length ax)%nat ->
  let lb := (p - 1)%nat in let ub := Nat.min (List.length ax - 1) (p + 1) in
  nth lb ax 0 - tol <= a <= nth ub ax 0 + tol -> encloses b0 b1 a tol (w / INR D) (linspace (nth lb ax 0) (nth ub ax 0) ((ub - lb) * D + 1)).
Proof.
  intros W HD (s & N & N1 & L & X & B0 & B1 & Ba) Hp lb ub H. rewrite L in *. assert (U : (lb < ub)%nat) by (unfold lb, ub; rewrite L; lia). assert (UN : (ub <= N)%nat) by (unfold ub; rewrite L; lia).
  assert (D0 : 0 < INR D) by (apply lt_0_INR; lia). assert (K0 : (1 <= (ub - lb) * D)%nat) by nia.
  assert (E : INR ((ub - lb) * D) * (w / INR D) = nth ub ax 0 - nth lb ax 0). { rewrite !X by lia. rewrite mult_INR, minus_INR by lia. field. lra. }
  assert (K : 0 < INR ((ub - lb) * D)) by (apply lt_0_INR; lia).
  exists (nth lb ax 0), ((ub - lb) * D)%nat. split; [exact K0|]. split; [rewrite linspace_length; lia|]. split.
  { intros j Hj. rewrite linspace_nth by lia. rewrite Nat.add_sub, <- E. field. split; lra. }
  rewrite E. assert (IN : forall i j, (i <= j)%nat -> (j <= N)%nat -> s + INR i * w <= s + INR j * w) by (intros i j H1 H2; apply Rplus_le_compat_l, Rmult_le_compat_r; [lra|now apply le_INR]).
  replace (nth lb ax 0 + (nth ub ax 0 - nth lb ax 0)) with (nth ub ax 0) by ring. rewrite !X in * by lia. pose proof (IN 0%nat lb ltac:(lia) ltac:(lia)) as Q. cbn [INR] in Q. pose proof (IN ub N UN (le_n _)). split; [lra|]. split; lra.
Qed.
Lemma level_first b0 b1 a tol D : b0 < b1 -> (1 <= D)%nat -> b0 - tol <= a <= b1 + tol -> encloses b0 b1 a tol ((b1 - b0) / (2 * INR D)) (linspace b0 b1 (2 * D + 1)).
Proof.
  intros H HD Ha. assert (D0 : 0 < INR D) by (apply lt_0_INR; lia). exists b0, (2 * D)%nat. split; [lia|]. split; [rewrite linspace_length; lia|].
  assert (E : INR (2 * D) * ((b1 - b0) / (2 * INR D)) = b1 - b0) by (rewrite mult_INR; cbn [INR]; field; lra). split.
  - intros j Hj. rewrite linspace_nth by lia. rewrite Nat.add_sub. rewrite mult_INR. cbn [INR]. field. lra.
  - rewrite E. split; [lra|]. split; lra.
Qed.

(** *** one-dimensional grids *)
Definition g1 (u : string) (ax : list R) : sgrid := SGrid G1D [vec1 ax] u DFloat.
Lemma g1_plain u ax : plain_grid (g1 u ax).
Proof. split; [intros a [<-|[]]; reflexivity | reflexivity]. Qed.
Lemma g1_valid u ax : known_unit u -> Forall (valid_angle u) ax -> valid_grid (g1 u ax).
Proof.
  intros K V. split; [apply g1_plain|]. split; [exact K|]. intros idx Hi. cbn in Hi. destruct idx as [|i [|]]; try tauto. destruct Hi as (Hi & _).
  rewrite Forall_forall in V. unfold g1. cbn [valid_pt sg_class sg_unit grid_point sg_ndim sg_axes List.length seq map nth]. apply V, nth_In. exact Hi.
Qed.
Lemma g1_size u ax : sg_size (g1 u ax) = List.length ax.
Proof. unfold sg_size, sg_shape, g1, vec1. cbn. lia. Qed.
Lemma g1_point u ax p : (p < List.length ax)%nat -> grid_point (g1 u ax) (unravel (sg_shape (g1 u ax)) p) = [nth p ax 0].
Proof. intros H. unfold sg_shape, g1, vec1. cbn -[Nat.div Nat.modulo]. rewrite Nat.div_1_r. reflexivity. Qed.
Lemma g1_refine u ax p density : (1 <= density)%Z -> (p < List.length ax)%nat ->
  let lb := (p - 1)%nat in let ub := Nat.min (List.length ax - 1) (p + 1) in
  create_refined_grid_at (g1 u ax) (map Z.of_nat (unravel (sg_shape (g1 u ax)) p)) density 1 = Ok (g1 u (linspace (nth lb ax 0) (nth ub ax 0) ((ub - lb) * Z.to_nat density + 1))).
Proof.
  intros Hd Hp lb ub. assert (E : map Z.of_nat (unravel (sg_shape (g1 u ax)) p) = [Z.of_nat p]). { unfold sg_shape, g1, vec1. cbn -[Nat.div Nat.modulo]. now rewrite Nat.div_1_r. } rewrite E.
  destruct (refine_axis_eq ax (Z.of_nat p) density 1 Hd ltac:(lia) ltac:(lia)) as (_ & _ & _ & R1). cbv zeta in R1.
  unfold create_refined_grid_at, create_refined_axes_at, g1. cbn [sg_axes sg_class sg_unit sg_ndim List.length]. destruct (Z.ltb_spec density 1); [lia|]. destruct (Z.ltb_spec 1 1); [lia|]. cbn [Nat.eqb negb combine mapM fst snd vec1 nd_data]. rewrite R1. cbn [bind map].
  unfold lbi, ubi, lb, ub, vec1. replace (Z.to_nat (Z.max 0 (Z.of_nat p - 1))) with (p - 1)%nat by lia. replace (Z.to_nat (Z.min (Z.of_nat (List.length ax) - 1) (Z.of_nat p + 1))) with (Nat.min (List.length ax - 1) (p + 1)) by lia. reflexivity.
Qed.
Lemma valid_Rmin u a b x : valid_angle u a -> valid_angle u b -> Rmin a b <= x <= Rmax a b -> valid_angle u x.
Proof. apply between_valid1. Qed.
Lemma linspace_valid u a b n : valid_angle u a -> valid_angle u b -> Forall (valid_angle u) (linspace a b n).
Proof.
  intros A B. apply Forall_forall. intros x Hx. apply (In_nth _ _ 0) in Hx as (i & Hi & <-). rewrite linspace_length in Hi. apply (valid_Rmin u a b); try assumption. now apply linspace_between.
Qed.

(** *** the loop *)
Lemma ss_nth1 (l : list R) : StronglySorted Rlt l -> forall i j, (i < j < List.length l)%nat -> nth i l 0 < nth j l 0.
Proof.
  induction 1 as [|a l S0 IH FA]; intros i j H; cbn [List.length] in H; [lia|]. destruct j as [|j]; [lia|]. destruct i as [|i]; cbn [nth]; [|apply IH; lia].
  rewrite Forall_forall in FA. apply FA, nth_In. lia.
Qed.
Lemma ss_nodup1 (l : list R) : StronglySorted Rlt l -> NoDup l.
Proof. induction 1 as [|x l S0 IH FA]; constructor; [|exact IH]. intros I. rewrite Forall_forall in FA. specialize (FA x I). lra. Qed.
Section Conv.
  Context {T : Type} (e : estimator T) (f : T -> res (list R)) (V : R -> R) (density : Z) (n : nat) (u : string) (angles : list R).
  Hypothesis HG : e_grid e = g1 u angles.
  Hypothesis HK : known_unit u.
  Hypothesis HV : Forall (valid_angle u) angles.
  Hypothesis HF : ranks_by e f V.
  Hypothesis Hd : (1 <= density)%Z.
  Let D := Z.to_nat density.
  Lemma D_pos : (1 <= D)%nat. Proof. unfold D. lia. Qed.
  Lemma conv_step ax : Forall (valid_angle u) ax -> ax <> [] -> exists A sp p s,
    fst (get_atom_matrix e (Some (g1 u ax))) = Ok A /\ f A = Ok sp /\ argmax sp = Ok p /\ (p < List.length ax)%nat /\ (forall j, (j < List.length ax)%nat -> V (nth p ax 0) <= V (nth j ax 0)) /\
    create_source_placement (g1 u ax) = Ok s /\ nth_error (src_rows s) p = Some [nth p ax 0].
  Proof.
    intros Va NE. assert (U : sg_unit (e_grid e) = u) by (rewrite HG; reflexivity). unfold ranks_by in HF. rewrite U in HF. destruct (HF ax Va) as (A & sp & EA & Ef & L & OR).
    assert (NE' : sp <> []) by (intros ->; destruct ax; [congruence|discriminate L]). destruct (argmax_spec sp NE') as (p & Ep & Hp & Hm). rewrite L in Hp.
    destruct (placement_spec (g1 u ax) (g1_plain u ax)) as (P1 & P2). destruct (proj1 P1 (g1_valid u ax HK Va)) as (s & Es).
    exists A, sp, p, s. split; [exact EA|]. split; [exact Ef|]. split; [exact Ep|]. split; [exact Hp|]. split; [|split; [exact Es|]].
    - intros j Hj. destruct (Rle_lt_dec (V (nth p ax 0)) (V (nth j ax 0))) as [Q|Q]; [exact Q|exfalso]. apply (OR p j Hp Hj) in Q. pose proof (Hm (nth j sp 0) ltac:(apply nth_In; lia)). lra.
    - rewrite (P2 s Es). rewrite (nth_error_nth' _ []) by (rewrite length_points, g1_size; exact Hp). f_equal. rewrite nth_points by (rewrite g1_size; exact Hp). now apply g1_point.
  Qed.

  (** estimates at coarse positions ms; estimate i after r rounds *)
  Variable ms : list nat.
  Hypothesis Hms : forall i, (i < List.length ms)%nat -> (nth i ms 0%nat < List.length angles)%nat.
  Hypothesis HS : StronglySorted Rlt angles.
  Definition inner_pos (m : nat) : Prop := (0 < m)%nat /\ (S m < List.length angles)%nat.
  Definition lo_of (m : nat) := nth (m - 1) angles 0.
  Definition hi_of (m : nat) := nth (S m) angles 0.
  Definition gap_at (m r : nat) : R := (hi_of m - lo_of m) / (2 * INR D ^ r).
  Definition q_ok (r m : nat) (q : R) : Prop := forall a tol, inner_pos m -> 0 <= tol -> dip V (lo_of m) (hi_of m) a tol -> (1 <= r)%nat -> lo_of m <= q <= hi_of m /\ Rabs (q - a) <= gap_at m r + tol.
  Definition ax_ok (r m : nat) (ax : list R) : Prop := ax <> [] /\ Forall (valid_angle u) ax /\ forall a tol, inner_pos m -> 0 <= tol -> dip V (lo_of m) (hi_of m) a tol -> encloses (lo_of m) (hi_of m) a tol (gap_at m (S r)) ax.
  Definition St (est : placement) (r i : nat) (h : lheap) (gs : list sgrid) : Prop := exists q, nth_error (buf h est) i = Some [q] /\ q_ok r (nth i ms 0%nat) q /\
    ((r < n)%nat -> exists ax, nth_error gs i = Some (g1 u ax) /\ ax_ok r (nth i ms 0%nat) ax).
  Definition InvC (est : placement) (r c : nat) (h : lheap) (gs : list sgrid) : Prop :=
    List.length gs = List.length ms /\ List.length (buf h est) = List.length ms /\ forall i, (i < List.length ms)%nat -> St est (if Nat.ltb i c then S r else r) i h gs.

  Lemma gap_lt m : inner_pos m -> lo_of m < hi_of m.
  Proof.
    intros (H1 & H2). unfold lo_of, hi_of. apply (ss_nth1 angles HS). lia.
  Qed.
  Lemma D_R : 1 <= INR D. Proof. change 1 with (INR 1). apply le_INR, D_pos. Qed.
  Lemma gap_pos m r : inner_pos m -> 0 < gap_at m r.
  Proof. intros H. unfold gap_at. pose proof (gap_lt m H). pose proof D_R. apply Rdiv_lt_0_compat; [lra|]. apply Rmult_lt_0_compat; [lra|]. apply pow_lt. lra. Qed.
  Lemma gap_S m r : gap_at m (S r) = gap_at m r / INR D.
  Proof. unfold gap_at. pose proof D_R. assert (0 < INR D ^ r) by (apply pow_lt; lra). rewrite <- tech_pow_Rmult. field. split; lra. Qed.

  Lemma conv_one est r c h gs : InvC est r c h gs -> (c < List.length ms)%nat -> (r < n)%nat -> sg_dt (e_grid e) = DFloat ->
    exists h' gs', refine_one e f density (Nat.eqb r (n - 1)) est c (h, gs) = Ok (h', gs') /\ InvC est r (S c) h' gs'.
  Proof.
    intros (L1 & L2 & HI) Hc Hr Hdt. destruct (HI c Hc) as (q & Q1 & Q2 & Q3). rewrite Nat.ltb_irrefl in Q2, Q3. destruct (Q3 Hr) as (ax & G1 & NE & VA & EN).
    destruct (conv_step ax VA NE) as (A & sp & p & s & E1 & E2 & E3 & Hp & Hm & E4 & E5).
    unfold refine_one. rewrite G1, E1. cbn [bind]. rewrite E2. cbn [bind]. rewrite E3. cbn [bind]. rewrite E4. cbn [bind]. rewrite E5, Hdt. cbn [cast].
    pose proof (g1_refine u ax p density Hd Hp) as ER. cbv zeta in ER. fold D in ER. set (lb := (p - 1)%nat) in *. set (ub := Nat.min (List.length ax - 1) (p + 1)) in *.
    assert (NQ : q_ok (S r) (nth c ms 0%nat) (nth p ax 0)).
    { intros a tol IP TL DP _. destruct (level_step V _ _ a tol _ ax p DP TL (gap_pos _ _ IP) (EN a tol IP TL DP) Hp Hm) as (X1 & X2 & _). auto. }
    assert (NA : ax_ok (S r) (nth c ms 0%nat) (linspace (nth lb ax 0) (nth ub ax 0) ((ub - lb) * D + 1))).
    { rewrite Forall_forall in VA. split; [|split].
      - intros X. apply (f_equal (@List.length R)) in X. rewrite linspace_length in X. cbn [List.length] in X. rewrite Nat.add_1_r in X. discriminate X.
      - apply linspace_valid; apply VA, nth_In; unfold lb, ub; lia.
      - intros a tol IP TL DP. destruct (level_step V _ _ a tol _ ax p DP TL (gap_pos _ _ IP) (EN a tol IP TL DP) Hp Hm) as (_ & _ & X3). rewrite (gap_S _ (S r)). apply level_next; [now apply gap_pos|exact D_pos|now apply EN|exact Hp|exact X3]. }
    assert (Main : forall gs', List.length gs' = List.length ms -> (forall i, i <> c -> nth_error gs' i = nth_error gs i) ->
      ((S r < n)%nat -> nth_error gs' c = Some (g1 u (linspace (nth lb ax 0) (nth ub ax 0) ((ub - lb) * D + 1)))) -> InvC est r (S c) (set_location h est c [nth p ax 0]) gs').
    { intros gs' L' Hn Hn'. split; [exact L'|]. split; [now rewrite length_set_buf|]. intros i Hi. unfold St, buf, set_location. rewrite nth_set_row_row. destruct (Nat.eqb_spec i c) as [->|Ni].
      - destruct (Nat.ltb_spec c (S c)); [|lia]. exists (nth p ax 0). fold (buf h est). rewrite Q1. cbn [option_map]. split; [reflexivity|]. split; [exact NQ|]. intros Hr'. eexists. split; [now apply Hn'|exact NA].
      - rewrite Hn by exact Ni. replace (Nat.ltb i (S c)) with (Nat.ltb i c); [now apply HI|]. destruct (Nat.ltb_spec i c), (Nat.ltb_spec i (S c)); (reflexivity || lia). }
    destruct (Nat.eqb_spec r (n - 1)) as [Er|Er].
    - eexists _, _. split; [reflexivity|]. apply Main; [exact L1|reflexivity|intros; lia].
    - rewrite ER. cbn [bind]. eexists _, _. split; [reflexivity|]. apply Main; [now rewrite length_set_nth| |].
      + intros i Ni. rewrite nth_error_set_nth. apply Nat.eqb_neq in Ni. now rewrite Ni.
      + intros _. rewrite nth_error_set_nth, Nat.eqb_refl, G1. reflexivity.
  Qed.
  Lemma conv_inner est r h gs : InvC est r 0 h gs -> (r < n)%nat -> sg_dt (e_grid e) = DFloat ->
    exists h' gs', foldM (refine_one e f density (Nat.eqb r (n - 1)) est) (seq 0 (List.length gs)) (h, gs) = Ok (h', gs') /\ InvC est (S r) 0 h' gs'.
  Proof.
    intros H Hr Hdt. assert (G : forall k c h gs, InvC est r c h gs -> (c + k = List.length ms)%nat ->
      exists h' gs', foldM (refine_one e f density (Nat.eqb r (n - 1)) est) (seq c k) (h, gs) = Ok (h', gs') /\ InvC est r (c + k) h' gs').
    { clear h gs H. induction k as [|k IH]; intros c h gs H E; cbn [seq foldM]; [rewrite Nat.add_0_r; eauto|].
      destruct (conv_one est r c h gs H ltac:(lia) Hr Hdt) as (h1 & gs1 & E1 & H1). rewrite E1. cbn [bind]. replace (c + S k)%nat with (S c + k)%nat by lia. apply IH; [exact H1|lia]. }
    pose proof H as (L1 & _). rewrite L1. destruct (G (List.length ms) 0%nat h gs H eq_refl) as (h' & gs' & E & (K1 & K2 & K3)). exists h', gs'. split; [exact E|]. split; [exact K1|]. split; [exact K2|].
    intros i Hi. specialize (K3 i Hi). cbn [Nat.add] in K3. destruct (Nat.ltb_spec i (List.length ms)); [|lia]. cbn [Nat.ltb Nat.leb]. exact K3.
  Qed.
  Lemma conv_loop est h gs : InvC est 0 0 h gs -> sg_dt (e_grid e) = DFloat ->
    exists h' gs', refine_loop e f density n est (h, gs) = Ok (h', gs') /\ InvC est n 0 h' gs'.
  Proof.
    intros H Hdt. unfold refine_loop. assert (G : forall k r h gs, InvC est r 0 h gs -> (r + k = n)%nat -> exists h' gs',
      foldM (fun r st => foldM (refine_one e f density (Nat.eqb r (n - 1)) est) (seq 0 (List.length (snd st))) st) (seq r k) (h, gs) = Ok (h', gs') /\ InvC est n 0 h' gs').
    { clear h gs H. induction k as [|k IH]; intros r h gs H E; cbn [seq foldM]; [rewrite Nat.add_0_r in E; subst r; eauto|]. cbn [snd].
      destruct (conv_inner est r h gs H ltac:(lia) Hdt) as (h1 & gs1 & E1 & H1). rewrite E1. cbn [bind]. apply IH; [exact H1|lia]. }
    now apply G.
  Qed.
  Lemma conv_estimates est h : (forall i, (i < List.length ms)%nat -> nth_error (buf h est) i = Some [nth (nth i ms 0%nat) angles 0]) -> List.length (buf h est) = List.length ms ->
    exists h', refine_estimates e f h est ms density n = Ok h' /\ List.length (buf h' est) = List.length ms /\
      forall i, (i < List.length ms)%nat -> exists q, nth_error (buf h' est) i = Some [q] /\ q_ok n (nth i ms 0%nat) q.
  Proof.
    intros HB LB. unfold refine_estimates. rewrite HG.
    assert (Hgs : exists gs, create_refined_grids_at (g1 u angles) (map (fun p => map Z.of_nat (unravel (sg_shape (g1 u angles)) p)) ms) density = Ok gs /\ List.length gs = List.length ms /\
      forall i, (i < List.length ms)%nat -> exists ax, nth_error gs i = Some (g1 u ax) /\ ax_ok 0 (nth i ms 0%nat) ax).
    { unfold create_refined_grids_at. clear HB LB. induction ms as [|m l IH].
      - exists []. split; [reflexivity|]. split; [reflexivity|]. intros i Hi. cbn in Hi. lia.
      - destruct IH as (gs & E & L & H); [intros i Hi; exact (Hms (S i) ltac:(cbn; lia))|]. pose proof (Hms 0%nat ltac:(cbn; lia)) as Hm. cbn [nth] in Hm.
        pose proof (g1_refine u angles m density Hd Hm) as E1. cbv zeta in E1. fold D in E1. set (lb := (m - 1)%nat) in *. set (ub := Nat.min (List.length angles - 1) (m + 1)) in *.
        eexists. cbn [map mapM]. rewrite E1. cbn [bind]. rewrite E. cbn [bind]. split; [reflexivity|]. split; [cbn; lia|].
        intros [|i] Hi; cbn [nth_error nth]; [|apply H; cbn in Hi; lia]. eexists. split; [reflexivity|]. split; [|split].
        + intros X. apply (f_equal (@List.length R)) in X. rewrite linspace_length in X. cbn [List.length] in X. rewrite Nat.add_1_r in X. discriminate X.
        + pose proof HV as VA. rewrite Forall_forall in VA. apply linspace_valid; apply VA, nth_In; unfold lb, ub; lia.
        + intros a tol IP TL DP. pose proof IP as (P1 & P2). replace lb with (m - 1)%nat by reflexivity. replace ub with (S m) by (unfold ub; lia). replace (S m - (m - 1))%nat with 2%nat by lia.
          unfold gap_at. rewrite pow_1. apply level_first; [now apply gap_lt|exact D_pos|apply DP]. }
    destruct Hgs as (gs & E & L & H). rewrite E. cbn [bind].
    assert (Hdt : sg_dt (e_grid e) = DFloat) by (rewrite HG; reflexivity).
    destruct (conv_loop est h gs) as (h' & gs' & E1 & (K1 & K2 & K3)); [|exact Hdt|].
    - split; [exact L|]. split; [exact LB|]. intros i Hi. cbn [Nat.ltb Nat.leb]. eexists. split; [apply HB, Hi|]. split; [intros a tol _ _ _ X; lia|]. intros _. now apply H.
    - rewrite E1. cbn [bind fst]. exists h'. split; [reflexivity|]. split; [exact K2|]. intros i Hi. destruct (K3 i Hi) as (q & Q1 & Q2 & _). exists q. auto.
  Qed.
End Conv.

(** the refined estimates of estimate *)
Lemma refined_converges {T} (e : estimator T) h f (V : R -> R) k density n_iters ret_sp est0 sp e0 h0 u angles : est_ok e h -> e_grid e = SGrid G1D [vec1 angles] u DFloat -> StronglySorted Rlt angles ->
  ranks_by e f V -> (1 <= density)%Z -> (1 <= n_iters)%nat ->
  estimate e h f k (Opts ret_sp false density n_iters) = (Ok (Outcome true (Some est0) sp), e0, h0) ->
  exists est h', estimate e h f k (Opts ret_sp true density n_iters) = (Ok (Outcome true (Some est) sp), e0, h') /\ List.length (buf h' est) = List.length (buf h0 est0) /\
    forall i, (i < List.length (buf h0 est0))%nat -> exists q, nth_error (buf h' est) i = Some [q] /\
      forall m a tol, nth_error (buf h0 est0) i = Some [nth m angles 0] -> (0 < m)%nat -> (S m < List.length angles)%nat -> 0 <= tol -> dip V (nth (m - 1) angles 0) (nth (S m) angles 0) a tol ->
        nth (m - 1) angles 0 <= q <= nth (S m) angles 0 /\ Rabs (q - a) <= (nth (S m) angles 0 - nth (m - 1) angles 0) / (2 * IZR density ^ n_iters) + tol.
Proof.
  intros HE HG HS HF Hd Hn H0. fold (g1 u angles) in HG.
  assert (V1 : valid_grid (g1 u angles)) by (rewrite <- HG; apply HE). pose proof V1 as (_ & K & VP). cbn [unit_ok sg_class sg_unit g1] in K.
  assert (VA : Forall (valid_angle u) angles).
  { apply Forall_forall. intros x Ix. apply (In_nth _ _ 0) in Ix as (i & Hi & <-). specialize (VP [i] ltac:(split; [exact Hi|exact I])). exact VP. }
  pose proof HF as HF'. unfold ranks_by in HF'. rewrite HG in HF'. cbn [sg_unit g1] in HF'. destruct (HF' angles VA) as (A & sp0 & HA & HfA & L0 & _).
  assert (HA' : e_atom e (e_grid e) = Ok A) by (rewrite HG; exact HA).
  destruct (estimate_ok e h A f k (Opts ret_sp false density n_iters) HE HA') as (e1 & He1 & Eq1). rewrite H0 in Eq1.
  assert (Eq2 : estimate e h f k (Opts ret_sp true density n_iters) = match estimate_from e A h f k (Opts ret_sp true density n_iters) with Raise x => (Raise x, e0, h) | Ok (oc, h') => (Ok oc, e0, h') end).
  { clear -H0 HE HA'. rewrite estimate_eq in H0 |- *. destruct (get_atom_matrix e None) as (r & e1) eqn:G. destruct (get_atom_spec e h A HE HA') as [G'|G'].
    - rewrite G in G'. injection G' as -> ->. destruct (estimate_from e A h f k (Opts ret_sp false density n_iters)) as [(?, ?)|]; injection H0 as _ <-; reflexivity.
    - rewrite G in G'. injection G' as -> ->. rewrite estimate_from_cache in *. destruct (estimate_from e A h f k (Opts ret_sp false density n_iters)) as [(?, ?)|]; injection H0 as _ <-; reflexivity. }
  rewrite Eq2. clear Eq2.
  destruct (estimate_from e A h f k (Opts ret_sp false density n_iters)) as [(oc, h1)|x] eqn:EF; [|discriminate]. injection Eq1 as <- _ <-.
  revert EF. unfold estimate_from. rewrite HfA. cbn [bind]. destruct (negb (Nat.eqb _ _)); [discriminate|].
  set (shape := sg_shape (e_grid e)) in *. set (peaks := e_pf e shape sp0). cbn [o_refine o_spectrum o_density o_iters].
  destruct (Z.ltb _ _); [discriminate|]. destruct (negb (forallb (idx_ok shape) peaks)) eqn:B; [discriminate|].
  set (flat := sort_by _ _). intros EF. apply bind_Ok_inv in EF as ((it, h1) & E1 & EF).
  assert (Hb : List.length (buf h (e_pl e)) = sg_size (e_grid e)) by (rewrite (proj1 (proj2 (proj2 HE))); apply length_points).
  assert (Hflat : forall r, In r flat -> (r < sg_size (e_grid e))%nat).
  { intros r Hr. unfold getitem in E1. apply bind_Ok_inv in E1 as (sel & Es & _). rewrite Hb in Es.
    destruct (Nat.lt_ge_cases r (sg_size (e_grid e))); [assumption|]. exfalso.
    rewrite key_rows_list_err in Es; [discriminate|]. exists (Z.of_nat r). split; [now apply in_map | lia]. }
  destruct (flat_rows e h flat HE Hflat) as (est & h2 & G1 & _ & _ & G4 & G5 & G6 & G7). rewrite G1 in E1. injection E1 as <- <-. injection EF as <- <- <-.
  assert (SZ : sg_size (e_grid e) = List.length angles) by (rewrite HG; apply g1_size). rewrite SZ in Hflat.
  assert (NTH : forall i, (i < List.length flat)%nat -> nth_error (buf h2 est) i = Some [nth (nth i flat 0%nat) angles 0]).
  { intros i Hi. rewrite G6. rewrite (nth_error_nth' _ []) by (now rewrite map_length). f_equal. rewrite (nth_indep _ [] (grid_point (e_grid e) (unravel (sg_shape (e_grid e)) 0))) by (now rewrite map_length).
    rewrite (map_nth (fun r => grid_point (e_grid e) (unravel (sg_shape (e_grid e)) r)) flat 0%nat i). rewrite HG. apply g1_point, Hflat, nth_In, Hi. }
  assert (LB : List.length (buf h2 est) = List.length flat) by (rewrite G6; apply map_length).
  destruct (conv_estimates e f V density n_iters u angles HG K VA HF Hd flat (fun i Hi => Hflat _ (nth_In _ _ Hi)) HS est h2 NTH LB) as (h' & R1 & R2 & R3).
  rewrite G1. cbn [bind]. rewrite R1. cbn [bind]. exists est, h'. split; [reflexivity|]. split; [congruence|]. rewrite LB. intros i Hi. destruct (R3 i Hi) as (q & Q1 & Q2). exists q. split; [exact Q1|].
  intros m a tol Em M1 M2 TL DP. rewrite NTH in Em by exact Hi. injection Em as Em.
  assert (EQ : nth i flat 0%nat = m).
{ pose proof (ss_nodup1 angles HS) as ND.
    apply (proj1 (NoDup_nth angles 0) ND); [apply Hflat, nth_In, Hi|lia|exact Em]. }
  rewrite EQ in Q2. destruct (Q2 a tol (conj M1 M2) TL DP Hn) as (X1 & X2). split; [exact X1|]. unfold gap_at in X2. rewrite INR_IZR_INZ, Z2Nat.id in X2 by lia. exact X2.
Qed.
