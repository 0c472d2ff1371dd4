(** Properties C36-C39 (difference coarrays). *)
From Coq Require Import Sorting.Sorted Sorting.Permutation Lra.
From Verif Require Import Base_Np Base_Trig M_utils S_utils P_utils M_sources M_array M_designs S_designs P_designs P_designs2 M_coarray S_coarray P_coarray P_coarray2.
Open Scope nat_scope.

(** C36.  [after w calls] is the weight function object after an arbitrary sequence of size queries. *)
Theorem C36_constructor : forall g, (exists w, mk_WeightFunction1D g = Ok w) <-> ar_ndim (gd_array g) = 1.
Proof.
  intros g. unfold mk_WeightFunction1D. destruct (Nat.eqb_spec (ar_ndim (gd_array g)) 1) as [E|E]; simpl.
  - split; [auto | intros _; eexists; reflexivity].
  - split; [intros (w & H); discriminate | contradiction].
Qed.
Theorem C36_indices : forall g l w calls d, grid_1d g l -> mk_WeightFunction1D g = Ok w ->
  StronglySorted lt (indices_of (after w calls) d) /\
  (forall k, In k (indices_of (after w calls) d) <-> lag_position l d k) /\
  weight_of (after w calls) d = List.length (indices_of (after w calls) d) /\
  weight_of (after w calls) d = lag_count l d.
Proof.
  intros g l w calls d Hg Hw. destruct (after_queries g l Hg w Hw calls d) as (E1 & E2 & _). rewrite E1, E2.
  split; [exact (indices_of_sorted g l Hg w Hw d)|]. split; [exact (indices_of_In g l Hg w Hw d)|].
  split; [apply weight_of_len | exact (lag_count_eq g l Hg w Hw d)].
Qed.
Theorem C36_differences : forall g l w calls, grid_1d g l -> mk_WeightFunction1D g = Ok w ->
  strictly_increasing (differences (after w calls)) /\
  (forall d, In d (differences (after w calls)) <-> is_lag l d) /\
  wf_len (after w calls) = List.length (differences (after w calls)) /\
  weights (after w calls) = Ok (map (lag_count l) (differences (after w calls))) /\
  fold_right Nat.add 0 (map (lag_count l) (differences (after w calls))) = List.length l * List.length l.
Proof.
  intros g l w calls Hg Hw.
  assert (E : wf_map (after w calls) = wf_map w /\ wf_diffs (after w calls) = wf_diffs w).
  { destruct (after_cases g l Hg w Hw calls) as [->| ->]; [auto|]. rewrite (w_eq g l Hg w Hw). auto. }
  destruct E as (E1 & E2).
  assert (E3 : forall q, map (lag_count l) q = map (weight_of w) q).
  { intros q. apply map_ext. intros d. symmetry. exact (lag_count_eq g l Hg w Hw d). }
  unfold weights, wf_len, differences. rewrite E1, E2.
  split; [exact (differences_sorted g l Hg w Hw)|]. split; [exact (differences_In g l Hg w Hw)|].
  split; [exact (wf_len_differences g l Hg w Hw)|]. rewrite E3.
  split; [exact (weights_spec g l Hg w Hw) | exact (weights_sum g l Hg w Hw)].
Qed.
Theorem C36_symmetric : forall g l w calls d, grid_1d g l -> mk_WeightFunction1D g = Ok w ->
  weight_of (after w calls) (- d) = weight_of (after w calls) d /\
  (NoDup l -> weight_of (after w calls) 0 = List.length l).
Proof.
  intros g l w calls d Hg Hw. rewrite !(proj1 (proj2 (after_queries g l Hg w Hw calls _))).
  split; [exact (weight_sym g l Hg w Hw d) | exact (weight_zero g l Hg w Hw)].
Qed.
(** every 1-D grid design built with a scalar spacing satisfies [grid_1d] *)
Theorem C36_grid_1d_from_indices : forall l d name, exists g w,
  mk_Grid (column l) (D0Scalar d) name None no_kwargs = Ok g /\ grid_1d g l /\ mk_WeightFunction1D g = Ok w.
Proof.
  intros l d name. destruct (column_places l d name) as (g & E & P). pose proof (places_grid_1d g l d P) as Hg.
  destruct (proj2 (C36_constructor g) (g1_ndim g l Hg)) as (w & Hw). exists g, w. auto.
Qed.
(** A design with two-column indices and a 2 x 1 basis matrix is one-dimensional and is not rejected; the
    weight function then mixes both index columns. *)
Theorem C36_two_column_indices_defect : exists g w,
  mk_Grid (Mat 2 2 (fun i j => Z.of_nat (i * (j + 1)))) D0None "x" (Some (Mat 2 1 (fun _ _ => 1%R))) no_kwargs = Ok g /\
  nc (gd_indices g) = 2 /\ mk_WeightFunction1D g = Ok w /\ weight_of w 0 <> ar_size (gd_array g).
Proof. eexists _, _. split; [reflexivity|]. split; [reflexivity|]. split; [reflexivity|]. vm_compute. discriminate. Qed.
Example C36_example : exists g w, mk_Grid (column [0; 1; 4; 6]%Z) (D0Scalar 1) "x" None no_kwargs = Ok g /\
  mk_WeightFunction1D g = Ok w /\ indices_of w 2 = [11] /\ weight_of w 0 = 4.
Proof. eexists _, _. split; [reflexivity|]. split; [reflexivity|]. split; reflexivity. Qed.
Print Assumptions C36_differences.

(** C37 *)
Theorem C37_central_ula : forall g l w calls, grid_1d g l -> mk_WeightFunction1D g = Ok w ->
  exists h, first_hole l h /\
    fst (get_central_ula_size (after w calls) true) = h /\
    fst (get_central_ula_size (after w calls) false) = (2 * h - 1)%Z.
Proof.
  intros g l w calls Hg Hw. exists (Z.of_nat (mv0 g)). split; [exact (mv0_hole g l Hg)|].
  split; [exact (central_ula g l Hg w Hw calls true) | exact (central_ula g l Hg w Hw calls false)].
Qed.
Theorem C37_first_hole_unique : forall l h h', first_hole l h -> first_hole l h' -> h = h'.
Proof.
  intros l h h' (P & N & A) (P' & N' & A'). destruct (Z.lt_trichotomy h h') as [H|[H|H]]; [|exact H|]; exfalso.
  - apply N, A'. lia.
  - apply N', A. lia.
Qed.
Print Assumptions C37_central_ula.

(** C38: row r of the selection matrix belongs to the lag d = r - (h-1) (or d = r for the non-negative part) *)
Theorem C38_selection : forall g l w calls (nonneg : bool) h, grid_1d g l -> mk_WeightFunction1D g = Ok w ->
  l <> [] -> first_hole l h ->
  exists F w', get_coarray_selection_matrix (after w calls) nonneg = Ok (F, w') /\
    nr F = Z.to_nat (if nonneg then h else 2 * h - 1)%Z /\ nc F = List.length l * List.length l /\
    forall r, r < nr F ->
      let d := (if nonneg then Z.of_nat r else Z.of_nat r - h + 1)%Z in
      rsum (nc F) (fun k => ent F r k) = 1%R /\
      (forall k, ent F r k <> 0%R <-> lag_position l d k) /\
      (forall R : cmat, nr R = List.length l -> nc R = List.length l ->
         csum (nc F) (fun k => RtoC (ent F r k) * ent (vec (RtoC 0) R) k 0)%C = lag_mean l R d).
Proof.
  intros g l w calls nonneg h Hg Hw Hl Hh.
  assert (E : h = Z.of_nat (mv0 g)) by exact (C37_first_hole_unique l _ _ Hh (mv0_hole g l Hg)). subst h.
  pose proof (mv0_pos g l Hg Hl) as Hmv.
  destruct (selection_ok g l w Hg Hw calls nonneg Hmv) as (F & w' & E & E1 & E2 & E3).
  exists F, w'. split; [exact E|]. split; [rewrite E1; destruct nonneg; lia|]. split; [exact E2|].
  intros r Hr d. pose proof (fun k => E3 r k Hr) as HF. cbv zeta in HF. fold d in HF.
  assert (Hd : is_lag l d). { apply (mv0_lag g l Hg). unfold d. rewrite E1 in Hr. destruct nonneg; lia. }
  rewrite E2. split; [exact (selection_row_sum g l w Hg Hw d _ Hd HF)|]. split.
  - intros k. rewrite HF, <- (indices_of_In g l Hg w Hw d k), <- existsb_eqb_In. destruct (existsb _ _).
    + split; [auto|]. intros _. unfold Rdiv. rewrite Rmult_1_l. apply Rinv_neq_0_compat, not_0_INR.
      pose proof (lag_count_pos l d Hd). lia.
    + split; [contradiction | discriminate].
  - intros R H1 H2. exact (selection_average g l w Hg Hw d _ R H1 H2 HF).
Qed.
Theorem C38_nonneg_is_lower_part : forall g l w calls calls' F F' w1 w2, grid_1d g l -> mk_WeightFunction1D g = Ok w ->
  l <> [] -> get_coarray_selection_matrix (after w calls) true = Ok (F, w1) ->
  get_coarray_selection_matrix (after w calls') false = Ok (F', w2) ->
  nr F' = 2 * nr F - 1 /\ nc F' = nc F /\
  forall r k, r < nr F -> ent F r k = ent F' (nr F - 1 + r) k.
Proof.
  intros g l w calls calls' F F' w1 w2 Hg Hw Hl E E'. pose proof (mv0_pos g l Hg Hl) as Hmv.
  destruct (selection_ok g l w Hg Hw calls true Hmv) as (F0 & w0 & E0 & A1 & A2 & A3). rewrite E in E0. injection E0 as <- <-.
  destruct (selection_ok g l w Hg Hw calls' false Hmv) as (F0 & w0 & E0 & B1 & B2 & B3). rewrite E' in E0. injection E0 as <- <-.
  split; [lia|]. split; [congruence|]. intros r k Hr. rewrite A3 by exact Hr. rewrite B3 by lia. cbv zeta.
  replace (Z.of_nat (nr F - 1 + r) - Z.of_nat (mv0 g) + 1)%Z with (Z.of_nat r) by lia. reflexivity.
Qed.
Print Assumptions C38_selection.

(** the builder accepts one-dimensional arrays only *)
Theorem C39_constructor : forall g, (1 < ar_ndim (gd_array g) -> mk_acm g = Raise ValueError) /\
  (ar_ndim (gd_array g) <= 1 -> forall w, mk_WeightFunction1D g = Ok w -> mk_acm g = Ok (Acm g w)).
Proof.
  intros g. unfold mk_acm. destruct (Nat.ltb_spec 1 (ar_ndim (gd_array g))); (split; [intros H'; try lia; reflexivity|]); intros H' w HW; [lia|]. rewrite HW. reflexivity.
Qed.
(** C39 *)
Theorem C39_da : forall g l b w0 calls (R : cmat) h, grid_1d g l -> mk_WeightFunction1D g = Ok w0 ->
  b = Acm g (after w0 calls) -> l <> [] -> first_hole l h -> nr R = List.length l -> nc R = List.length l ->
  exists D, transform b R "da" = Ok D /\ nr D = Z.to_nat h /\ nc D = Z.to_nat h /\
    forall r c, r < nr D -> c < nr D -> ent D r c = lag_mean l R (Z.of_nat r - Z.of_nat c).
Proof.
  intros g l b w calls R h Hg Hw -> Hl Hh H1 H2. pose proof (mv0_pos g l Hg Hl) as Hmv.
  assert (E : h = Z.of_nat (mv0 g)) by exact (C37_first_hole_unique l _ _ Hh (mv0_hole g l Hg)). subst h.
  destruct (transform_da g l w Hg Hw calls R Hmv H1 H2) as (D & ED & D1 & D2 & D3). exists D.
  split; [exact ED|]. rewrite D1, D2, Nat2Z.id. auto.
Qed.
Theorem C39_hermitian : forall g l w0 calls (R D : cmat), grid_1d g l -> mk_WeightFunction1D g = Ok w0 ->
  l <> [] -> nr R = List.length l -> hermitian R -> transform (Acm g (after w0 calls)) R "da" = Ok D -> hermitian D.
Proof.
  intros g l w calls R D Hg Hw Hl H1 HR H. exact (transform_hermitian g l w Hg Hw R D calls (mv0_pos g l Hg Hl) H1 HR H).
Qed.
Theorem C39_ss : forall g l w0 calls (R : cmat) h, grid_1d g l -> mk_WeightFunction1D g = Ok w0 ->
  l <> [] -> first_hole l h -> nr R = List.length l -> nc R = List.length l ->
  exists D Sm, transform (Acm g (after w0 calls)) R "da" = Ok D /\ transform (Acm g (after w0 calls)) R "ss" = Ok Sm /\
    Sm ==m mscal (RtoC (/ IZR h)) (D *m mher D) /\ hermitian Sm /\ psd Sm.
Proof.
  intros g l w calls R h Hg Hw Hl Hh H1 H2. pose proof (mv0_pos g l Hg Hl) as Hmv.
  assert (E : h = Z.of_nat (mv0 g)) by exact (C37_first_hole_unique l _ _ Hh (mv0_hole g l Hg)). subst h.
  destruct (transform_ss g l w Hg Hw calls R Hmv H1 H2) as (D & Sm & ED & ES & E).
  exists D, Sm. split; [exact ED|]. split; [exact ES|]. rewrite <- INR_IZR_INZ. split; [exact E|].
  assert (P : psd (mscal (RtoC (/ INR (mv0 g))) (D *m mher D))).
  { apply psd_mscal; [left; apply Rinv_0_lt_compat, lt_0_INR; lia | apply psd_gram']. }
  split.
  - eapply hermitian_eq; [symmetry; exact E | exact (proj1 P)].
  - eapply psd_eq; [symmetry; exact E | exact P].
Qed.
Theorem C39_other_methods : forall b R method, method <> "da"%string -> method <> "ss"%string ->
  transform b R method = Raise ValueError.
Proof.
  intros b R method H1 H2. unfold transform, ensure_covariance_size. destruct (negb _); [reflexivity|]. destruct (_ || _); [reflexivity|].
  cbn [bind]. apply String.eqb_neq in H1, H2. now rewrite H1, H2.
Qed.
Example C39_example : exists g w, grid_1d g [0; 1; 3]%Z /\ mk_WeightFunction1D g = Ok w /\ first_hole [0; 1; 3]%Z 4.
Proof.
  destruct (C36_grid_1d_from_indices [0; 1; 3]%Z 1 "x") as (g & w & _ & Hg & Hw). exists g, w. split; [exact Hg|]. split; [exact Hw|].
  split; [lia|]. split.
  - intros (a & b & Ha & Hb & E). simpl in Ha, Hb. lia.
  - intros d Hd. assert (d = 0 \/ d = 1 \/ d = 2 \/ d = 3)%Z as [->|[->|[->| ->]]] by lia.
    + exists 0%Z, 0%Z. simpl. intuition.
    + exists 1%Z, 0%Z. simpl. intuition.
    + exists 3%Z, 1%Z. simpl. intuition.
    + exists 3%Z, 0%Z. simpl. intuition.
Qed.
Print Assumptions C39_ss.
