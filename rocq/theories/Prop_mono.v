(** ** C95: Cramer-Rao bounds respond correctly to a change of scenario *)
From Verif Require Import Base_Np Base_Trig Base_Lin S_utils M_utils M_sources S_sources M_array S_array P_utils P_sources P_array P_array2
  S_model S_subspace M_perf S_perf P_perf P_perf2 Prop_perf S_equiv P_equiv P_equiv2 Prop_equiv P_mono S_mono P_mono2 P_mono3 P_gauss P_ml3.
Open Scope C_scope.

Lemma psd_denoted k p P M : denotes k p P -> unify_p_to_matrix p k = Ok M -> psd (Mat k k P) -> psd (nd_mat (RtoC 0) M).
Proof. intros H E. apply psd_eq. symmetry. apply (denoted_matrix k p P M H E). Qed.
Lemma info_dims D Pi Q : nr (info_matrix D Pi Q) = nc D. Proof. reflexivity. Qed.

(** A bound of an array is at most the bound of any part of the array. *)
Theorem C95_more_sensors : forall solve rinv pinv a a' idx l u lam sigma N mode, solve_exact solve -> rinv_exact rinv -> wf_array a -> wf_array a' ->
  part_of a a' idx -> valid_sources (FF1 l u) -> interior u l -> (0 <= sigma)%R -> (0 < N)%R ->
  (forall P o o', psd (nd_mat (RtoC 0) P) ->
    crb_det_farfield_1d solve rinv pinv a (FF1 l u) lam P sigma N mode = Ok o ->
    crb_det_farfield_1d solve rinv pinv a' (FF1 l u) lam P sigma N mode = Ok o' -> no_worse o' o) /\
  (forall p P o o', denotes (List.length l) p P -> psd (Mat (List.length l) (List.length l) P) ->
    crb_sto_farfield_1d solve rinv a (FF1 l u) lam p sigma N mode = Ok o ->
    crb_sto_farfield_1d solve rinv a' (FF1 l u) lam p sigma N mode = Ok o' -> no_worse o' o).
Proof.
  intros solve rinv pinv a a' idx l u lam sigma N mode SO RO W W' PO V I Hs HN. split.
  - intros P o o' HP H H'.
    destruct (det_inv solve rinv pinv SO RO a l u lam P sigma N mode o W H) as (A & D & Pi & Vm & ES & HO & a1 & a2 & d1 & d2 & _ & Sh & HI & RE & _).
    destruct (det_inv solve rinv pinv SO RO a' l u lam P sigma N mode o' W' H') as (A' & D' & Pi' & Vm' & ES' & HO' & a1' & a2' & d1' & d2' & _ & _ & HI' & RE' & _).
    destruct (part_steering a a' idx l u lam A D A' D' PO W W' V I ES ES') as (Sm & U & s1 & s2 & EA & ED).
    set (Q := nd_mat (RtoC 0) P) in *. assert (nQ : nr Q = List.length l) by (unfold Q, nd_mat; rewrite Sh; reflexivity).
    assert (IP : rpsd (info_matrix D Pi Q)) by (apply (info_psd A); [exact HO|exact d1|congruence|exact HP]).
    assert (IP' : rpsd (info_matrix D' Pi' Q)) by (apply (info_psd A'); [exact HO'|exact d1'|congruence|exact HP]).
    refine (bound_compare (info_matrix D Pi Q) (info_matrix D' Pi' Q) Vm Vm' _ _ mode o o' _ IP IP' HI HI' _ _ RE RE'); [cbn; congruence| |apply half_div; lra].
    intros z. apply (info_le_dist A D Pi A' D' Pi' Q); try assumption; try congruence. intros y. apply (rows_dist Sm A A' D D' Pi Pi' y); congruence || assumption.
  - intros p P o o' HD HP H H'.
    destruct (sto_inv solve rinv SO RO a l u lam p sigma N mode o W H) as (A & D & Pi & Pa & Z & Vm & ES & HO & a1 & a2 & d1 & d2 & _ & HU & R & RE & _). cbv zeta in R. destruct R as (q1 & q2 & z1 & z2 & EZ & HI).
    destruct (sto_inv solve rinv SO RO a' l u lam p sigma N mode o' W' H') as (A' & D' & Pi' & Pa' & Z' & Vm' & ES' & HO' & a1' & a2' & d1' & d2' & _ & HU' & R & RE' & _). cbv zeta in R. destruct R as (q1' & q2' & z1' & z2' & EZ' & HI').
    rewrite HU in HU'. injection HU' as <-. pose proof (psd_denoted _ p P Pa HD HU HP) as HQ. set (Q := nd_mat (RtoC 0) Pa) in *. clearbody Q.
    destruct (part_steering a a' idx l u lam A D A' D' PO W W' V I ES ES') as (Sm & U & s1 & s2 & EA & ED).
    set (Wm := Q *m (mher A *m Z) *m Q) in *. set (Wm' := Q *m (mher A' *m Z') *m Q) in *.
    assert (PW : psd Wm) by (unfold Wm; apply (sto_W_psd A Q Z sigma (nr A)); auto).
    assert (PW' : psd Wm') by (unfold Wm'; apply (sto_W_psd A' Q Z' sigma (nr A')); auto).
    assert (nW : nr Wm = List.length l /\ nc Wm = List.length l) by (unfold Wm; cbn; split; congruence).
    assert (nW' : nr Wm' = List.length l /\ nc Wm' = List.length l) by (unfold Wm'; cbn; split; congruence).
    assert (LW : forall z, (Re (qform Wm z) <= Re (qform Wm' z))%R).
    { intros z. apply (W_rows Sm A A' Q Z Z' sigma z); auto. }
    clearbody Wm Wm'. destruct nW as (w1 & w2). destruct nW' as (w1' & w2').
    assert (IP : rpsd (info_matrix D Pi Wm)) by (apply (info_psd A); [exact HO|exact d1|congruence|exact PW]).
    assert (IP' : rpsd (info_matrix D' Pi' Wm')) by (apply (info_psd A'); [exact HO'|exact d1'|congruence|exact PW']).
    refine (bound_compare (info_matrix D Pi Wm) (info_matrix D' Pi' Wm') Vm Vm' _ _ mode o o' _ IP IP' HI HI' _ _ RE RE'); [cbn; congruence| |apply half_div; lra].
    intros z. apply Rle_trans with (rform (info_matrix D' Pi' Wm) z).
    + apply (info_le_dist A D Pi A' D' Pi' Wm); try assumption; try congruence. intros y. apply (rows_dist Sm A A' D D' Pi Pi' y); congruence || assumption.
    + apply (info_le A'); try assumption; congruence.
Qed.
(** It exists whenever the bound of the part exists. *)
Theorem C95_more_sensors_defined : forall solve rinv pinv a a' idx l u lam sigma N mode A D A' D', solve_exact solve -> rinv_exact rinv -> wf_array a -> wf_array a' ->
  part_of a a' idx -> valid_sources (FF1 l u) -> interior u l ->
  steering_matrix a (FF1 l u) lam true "all" false = Ok (Flat A, [D]) -> steering_matrix a' (FF1 l u) lam true "all" false = Ok (Flat A', [D']) -> inj A ->
  (forall P o, psd (nd_mat (RtoC 0) P) ->
    crb_det_farfield_1d solve rinv pinv a (FF1 l u) lam P sigma N mode = Ok o ->
    exists o', crb_det_farfield_1d solve rinv pinv a' (FF1 l u) lam P sigma N mode = Ok o') /\
  (forall p P o, denotes (List.length l) p P -> psd (Mat (List.length l) (List.length l) P) -> (0 < sigma)%R ->
    crb_sto_farfield_1d solve rinv a (FF1 l u) lam p sigma N mode = Ok o ->
    exists o', crb_sto_farfield_1d solve rinv a' (FF1 l u) lam p sigma N mode = Ok o').
Proof.
  intros solve rinv pinv a a' idx l u lam sigma N mode A D A' D' SO RO W W' PO V I ES ES' IA.
  destruct (part_steering a a' idx l u lam A D A' D' PO W W' V I ES ES') as (Sm & U & s1 & s2 & EA & ED).
  destruct (steering_shape a l u lam "all" A D W ES) as (a1 & a2 & d1 & d2). destruct (steering_shape a' l u lam "all" A' D' W' ES') as (a1' & a2' & d1' & d2').
  assert (IA' : inj A').
  { intros x Hx j Hj. rewrite a2' in Hj. apply (IA x); [|congruence]. intros i Hi. rewrite (mvec_eq _ _ x i EA Hi).
    rewrite mvec_mmul. unfold mvec at 1. apply csum_0. intros r Hr. rewrite s1 in Hr. rewrite (Hx r Hr). ring. }
  assert (MD : forall X o, reduce_output_matrix X mode = Ok o -> In mode ["full"; "diag"; "mean_diag"]%string).
  { intros X o. unfold reduce_output_matrix. destruct (String.eqb_spec mode "full") as [->|]; [now left|]. destruct (String.eqb_spec mode "diag") as [->|]; [now right; left|].
    destruct (String.eqb_spec mode "mean_diag") as [->|]; [now right; right; left|discriminate]. }
  split.
  - intros P o HP H.
    destruct (det_inv solve rinv pinv SO RO a l u lam P sigma N mode o W H) as (A0 & D0 & Pi & Vm & ES0 & HO & _ & _ & _ & _ & nN & Sh & HI & RE & _). rewrite ES in ES0. injection ES0 as <- <-.
    set (Q := nd_mat (RtoC 0) P) in *. assert (nQ : nr Q = List.length l) by (unfold Q, nd_mat; rewrite Sh; reflexivity).
    apply (det_defined solve rinv pinv SO RO a' l u lam P sigma N mode A' D' W' ES' IA' nN Sh); [|exact (MD _ _ RE)]. fold Q. intros Pi' HO'.
    apply (definite_rinj (info_matrix D Pi Q) _ Vm); [cbn; congruence|reflexivity| |exact HI|].
    + apply (info_psd A); [exact HO|congruence|congruence|exact HP].
    + intros z. apply (info_le_dist A D Pi A' D' Pi' Q); try assumption; try congruence. intros y. apply (rows_dist Sm A A' D D' Pi Pi' y); congruence || assumption.
  - intros p P o HD HP Hs H.
    destruct (sto_inv solve rinv SO RO a l u lam p sigma N mode o W H) as (A0 & D0 & Pi & Pa & Z & Vm & ES0 & HO & _ & _ & _ & _ & nN & HU & R & RE & _). cbv zeta in R. destruct R as (q1 & q2 & z1 & z2 & EZ & HI).
    rewrite ES in ES0. injection ES0 as <- <-. pose proof (psd_denoted _ p P Pa HD HU HP) as HQ.
    destruct (C68_agree p _ P HD) as (Pa' & v & HU' & _ & Sh & _). rewrite HU in HU'. injection HU' as <-.
    apply (sto_defined solve rinv SO RO a' l u lam p Pa sigma N mode A' D' W' ES' IA' nN HU Sh HQ Hs); [|exact (MD _ _ RE)].
    intros Pi' Z' HO' z1' z2' EZ'. set (Q := nd_mat (RtoC 0) Pa) in *. clearbody Q.
    set (Wm := Q *m (mher A *m Z) *m Q) in *. set (Wm' := Q *m (mher A' *m Z') *m Q) in *.
    assert (PW : psd Wm) by (unfold Wm; apply (sto_W_psd A Q Z sigma (nr A)); auto; lra).
    assert (nW : nr Wm = List.length l /\ nc Wm = List.length l) by (unfold Wm; cbn; split; congruence).
    assert (nW' : nr Wm' = List.length l /\ nc Wm' = List.length l) by (unfold Wm'; cbn; split; congruence).
    assert (LW : forall z, (Re (qform Wm z) <= Re (qform Wm' z))%R).
    { intros z. apply (W_rows Sm A A' Q Z Z' sigma z); auto; lra. }
    clearbody Wm Wm'. destruct nW as (w1 & w2). destruct nW' as (w1' & w2').
    apply (definite_rinj (info_matrix D Pi Wm) _ Vm); [cbn; congruence|reflexivity| |exact HI|].
    + apply (info_psd A); [exact HO|congruence|congruence|exact PW].
    + intros z. apply Rle_trans with (rform (info_matrix D' Pi' Wm) z).
      * apply (info_le_dist A D Pi A' D' Pi' Wm); try assumption; try congruence. intros y. apply (rows_dist Sm A A' D D' Pi Pi' y); congruence || assumption.
      * apply (info_le A'); try assumption; congruence.
Qed.
(** More snapshots, less noise, stronger sources: the deterministic bound never gets worse. *)
Theorem C95_better_conditions_det : forall solve rinv pinv a l u lam P P' sigma sigma' N N' mode o o', solve_exact solve -> rinv_exact rinv -> wf_array a ->
  psd (nd_mat (RtoC 0) P) -> psd (nd_mat (RtoC 0) P') -> (forall z, (Re (qform (nd_mat (RtoC 0) P) z) <= Re (qform (nd_mat (RtoC 0) P') z))%R) ->
  (0 <= sigma' <= sigma)%R -> (0 < N <= N')%R ->
  crb_det_farfield_1d solve rinv pinv a (FF1 l u) lam P sigma N mode = Ok o ->
  crb_det_farfield_1d solve rinv pinv a (FF1 l u) lam P' sigma' N' mode = Ok o' -> no_worse o' o.
Proof.
  intros solve rinv pinv a l u lam P P' sigma sigma' N N' mode o o' SO RO W HP HP' LP Hs HN H H'.
  destruct (det_inv solve rinv pinv SO RO a l u lam P sigma N mode o W H) as (A & D & Pi & Vm & ES & HO & a1 & a2 & d1 & d2 & _ & Sh & HI & RE & _).
  destruct (det_inv solve rinv pinv SO RO a l u lam P' sigma' N' mode o' W H') as (A' & D' & Pi' & Vm' & ES' & HO' & _ & _ & _ & _ & _ & Sh' & HI' & RE' & _).
  rewrite ES in ES'. injection ES' as <- <-.
  assert (nQ : nr (nd_mat (RtoC 0) P) = List.length l /\ nc (nd_mat (RtoC 0) P) = List.length l) by (unfold nd_mat; rewrite Sh; split; reflexivity).
  assert (nQ' : nr (nd_mat (RtoC 0) P') = List.length l /\ nc (nd_mat (RtoC 0) P') = List.length l) by (unfold nd_mat; rewrite Sh'; split; reflexivity).
  set (Q := nd_mat (RtoC 0) P) in *. set (Q' := nd_mat (RtoC 0) P') in *. clearbody Q Q'. destruct nQ as (q1 & q2), nQ' as (q1' & q2').
  refine (bound_compare (info_matrix D Pi Q) (info_matrix D Pi' Q') Vm Vm' _ _ mode o o' _ _ _ HI HI' _ _ RE RE'); [cbn; congruence| | | |apply half_div; lra].
  - apply (info_psd A); [exact HO|exact d1|congruence|exact HP].
  - apply (info_psd A); [exact HO'|exact d1|congruence|exact HP'].
  - intros z. apply Rle_trans with (rform (info_matrix D Pi' Q) z).
    + apply (info_le_dist A D Pi A D Pi' Q); try assumption; try congruence. intros y. apply (cols_dist A A Pi' Pi); auto.
    + apply (info_le A); try assumption; congruence.
Qed.
(** The stochastic bound: source powers scaled up by a common factor. *)
Lemma W_scaled A Q Z' sigma sigma' c : nr Q = nc A -> nc Q = nc A -> (0 < c)%R -> nr Z' = nr A -> nc Z' = nc A -> sigma' = (c * sigma)%R ->
  cov A (mscal (RtoC c) Q) sigma' *m Z' ==m A ->
  cov A Q sigma *m mscal (RtoC c) Z' ==m A /\
  mscal (RtoC c) Q *m (mher A *m Z') *m mscal (RtoC c) Q ==m mscal (RtoC c) (Q *m (mher A *m mscal (RtoC c) Z') *m Q).
Proof.
  intros q1 q2 Hc z1 z2 -> E. split.
  - transitivity (cov A (mscal (RtoC c) Q) (c * sigma) *m Z'); [|exact E].
    transitivity (mscal (RtoC c) (cov A Q sigma) *m Z').
    + rewrite mscal_mmul_r, mscal_mmul_l. reflexivity.
    + apply mmul_eq_l. unfold cov. split; [reflexivity|]. split; [reflexivity|]. intros i j Hi Hj. cbn [madd mscal mmap ent mmul nc mid mher].
      rewrite RtoC_mult, Cmult_plus_distr_l, <- csum_scal. f_equal; [|ring]. apply csum_ext. intros r Hr. rewrite Cmult_assoc, <- csum_scal. f_equal. apply csum_ext. intros s _. ring.
  - rewrite (mmul_eq_l (mscal (RtoC c) Q *m (mher A *m Z')) (Q *m (mher A *m mscal (RtoC c) Z'))).
    + rewrite mscal_mmul_r. reflexivity.
    + split; [reflexivity|]. split; [reflexivity|]. intros i j Hi Hj. cbn [mscal mmap ent mmul nc nr mher]. apply csum_ext. intros r Hr.
      rewrite <- Cmult_assoc, (Cmult_comm (RtoC c)), <- Cmult_assoc. f_equal. rewrite Cmult_comm, <- csum_scal. apply csum_ext. intros s _. ring.
Qed.
Lemma cov_meq A Q Q' sigma : nr A = nr A -> Q ==m Q' -> nr Q = nc A -> nc Q = nc A -> cov A Q sigma ==m cov A Q' sigma.
Proof. intros _ E q1 q2. unfold cov. assert (E2 : A *m Q *m mher A ==m A *m Q' *m mher A) by (apply mmul_eq_l; apply mmul_eq_r; [congruence|exact E]). split; [reflexivity|]. split; [reflexivity|]. intros i j Hi Hj. cbn [madd ent]. f_equal. apply (meq_ent _ _ i j E2); cbn; assumption. Qed.
Lemma scaled_denoted k p P M p' P' M' c : denotes k p P -> unify_p_to_matrix p k = Ok M -> denotes k p' P' -> unify_p_to_matrix p' k = Ok M' ->
  (forall i j, (i < k)%nat -> (j < k)%nat -> P' i j = RtoC c * P i j) -> nd_mat (RtoC 0) M' ==m mscal (RtoC c) (nd_mat (RtoC 0) M).
Proof.
  intros H E H' E' HP. pose proof (denoted_matrix k p P M H E) as X. pose proof (denoted_matrix k p' P' M' H' E') as X'.
  transitivity (mscal (RtoC c) (Mat k k P)); [|apply mscal_proper; symmetry; exact X]. rewrite X'. split; [reflexivity|]. split; [reflexivity|]. intros i j Hi Hj. cbn. apply HP; assumption.
Qed.
(** what the scaled scenario computes, in terms of the unscaled one *)
Lemma sto_scaled_inv solve rinv a l u lam p P p' P' M c sigma' N' mode o' : solve_exact solve -> rinv_exact rinv -> wf_array a -> (0 < c)%R ->
  denotes (List.length l) p P -> unify_p_to_matrix p (List.length l) = Ok M -> denotes (List.length l) p' P' ->
  (forall i j, (i < List.length l)%nat -> (j < List.length l)%nat -> P' i j = RtoC c * P i j) ->
  crb_sto_farfield_1d solve rinv a (FF1 l u) lam p' sigma' N' mode = Ok o' ->
  exists A D Pi Y V, let Q := nd_mat (RtoC 0) M in
    steering_matrix a (FF1 l u) lam true "all" false = Ok (Flat A, [D]) /\ orth_projector_onto A Pi /\ nr A = ar_size a /\ nc A = List.length l /\ nr D = nr A /\ nc D = List.length l /\
    nr Q = nc A /\ nc Q = nc A /\ nr Y = nr A /\ nc Y = nc A /\ cov A Q (sigma' / c) *m Y ==m A /\
    inv_of (info_matrix D Pi (mscal (RtoC c) (Q *m (mher A *m Y) *m Q))) V /\ reduce_output_matrix (symmetrised (rscal (sigma' / N' / 2) V)) mode = Ok o'.
Proof.
  intros SO RO W Hc HD HU HD' HP H.
  destruct (sto_inv solve rinv SO RO a l u lam p' sigma' N' mode o' W H) as (A & D & Pi & M' & Z & V & ES & HO & a1 & a2 & d1 & d2 & _ & HU' & R & RE & _). cbv zeta in R. destruct R as (q1' & q2' & z1 & z2 & EZ & HI).
  pose proof (scaled_denoted _ p P M p' P' M' c HD HU HD' HU' HP) as EQ. destruct (C68_agree p _ P HD) as (M0 & v & HU0 & _ & Sh & _). rewrite HU in HU0. injection HU0 as <-.
  assert (q1 : nr (nd_mat (RtoC 0) M) = nc A) by (unfold nd_mat; rewrite Sh; cbn; congruence). assert (q2 : nc (nd_mat (RtoC 0) M) = nc A) by (unfold nd_mat; rewrite Sh; cbn; congruence).
  set (Q := nd_mat (RtoC 0) M) in *. set (Q' := nd_mat (RtoC 0) M') in *. clearbody Q Q'.
  assert (EZ2 : cov A (mscal (RtoC c) Q) sigma' *m Z ==m A).
  { transitivity (cov A Q' sigma' *m Z); [|exact EZ]. apply mmul_eq_l. symmetry. apply cov_meq; auto. }
  destruct (W_scaled A Q Z (sigma' / c) sigma' c q1 q2 Hc z1 z2 ltac:(field; lra) EZ2) as (E1 & E2).
  exists A, D, Pi, (mscal (RtoC c) Z), V. cbv zeta. do 8 (split; [assumption|]). split; [exact z1|]. split; [exact z2|]. split; [exact E1|]. split; [|exact RE].
  refine (inv_of_meq _ _ V _ HI). split; [reflexivity|]. split; [reflexivity|]. intros i j Hi Hj. cbn [info_matrix ent nr nc] in *. f_equal. f_equal.
  assert (E3 : Q' *m (mher A *m Z) *m Q' ==m mscal (RtoC c) (Q *m (mher A *m mscal (RtoC c) Z) *m Q)).
  { rewrite <- E2. transitivity (Q' *m (mher A *m Z) *m mscal (RtoC c) Q); [apply mmul_eq_r; [cbn; congruence|exact EQ]|]. apply mmul_eq_l. apply mmul_eq_l. exact EQ. }
  apply (meq_ent _ _ j i E3); cbn; congruence.
Qed.
(** The stochastic bound never gets worse with more snapshots, less noise, or all source powers raised by a common factor. *)
Theorem C95_better_conditions_sto : forall solve rinv a l u lam p p' P P' c sigma sigma' N N' mode o o', solve_exact solve -> rinv_exact rinv -> wf_array a ->
  let k := List.length l in
  denotes k p P -> denotes k p' P' -> psd (Mat k k P) -> (forall i j, (i < k)%nat -> (j < k)%nat -> P' i j = RtoC c * P i j) -> (1 <= c)%R ->
  (0 <= sigma' <= sigma)%R -> (0 < N <= N')%R ->
  crb_sto_farfield_1d solve rinv a (FF1 l u) lam p sigma N mode = Ok o ->
  crb_sto_farfield_1d solve rinv a (FF1 l u) lam p' sigma' N' mode = Ok o' -> no_worse o' o.
Proof.
  intros solve rinv a l u lam p p' P P' c sigma sigma' N N' mode o o' SO RO W k HD HD' HP HC Hc Hs HN H H'. unfold k in *. clear k.
  destruct (sto_inv solve rinv SO RO a l u lam p sigma N mode o W H) as (A & D & Pi & M & Z & Vm & ES & HO & a1 & a2 & d1 & d2 & _ & HU & R & RE & _). cbv zeta in R. destruct R as (q1 & q2 & z1 & z2 & EZ & HI).
  destruct (sto_scaled_inv solve rinv a l u lam p P p' P' M c sigma' N' mode o' SO RO W ltac:(lra) HD HU HD' HC H') as (A' & D' & Pi' & Y & Vm' & R). cbv zeta in R.
  destruct R as (ES' & HO' & _ & _ & _ & _ & _ & _ & y1 & y2 & EY & HI' & RE'). rewrite ES in ES'. injection ES' as <- <-.
  pose proof (psd_denoted _ p P M HD HU HP) as HQ. set (Q := nd_mat (RtoC 0) M) in *. clearbody Q.
  assert (Hsc : (0 <= sigma' / c <= sigma)%R).
  { assert (Ic : (0 < / c <= 1)%R) by (split; [apply Rinv_0_lt_compat; lra|rewrite <- Rinv_1; apply Rinv_le_contravar; lra]). unfold Rdiv. split; [nra|nra]. }
  set (Wm := Q *m (mher A *m Z) *m Q) in *. set (Wy := Q *m (mher A *m Y) *m Q) in *.
  assert (PW : psd Wm) by (unfold Wm; apply (sto_W_psd A Q Z sigma (nr A)); auto; lra).
  assert (PY : psd Wy) by (unfold Wy; apply (sto_W_psd A Q Y (sigma' / c) (nr A)); auto; lra).
  assert (nW : nr Wm = List.length l /\ nc Wm = List.length l) by (unfold Wm; cbn; split; congruence).
  assert (nY : nr Wy = List.length l /\ nc Wy = List.length l) by (unfold Wy; cbn; split; congruence).
  assert (LW : forall z, (Re (qform Wm z) <= Re (qform (mscal (RtoC c) Wy) z))%R).
  { intros z. rewrite qform_mscal, Re_mult, Re_RtoC, Im_RtoC, Rmult_0_l, Rminus_0_r. apply Rle_trans with (Re (qform Wy z)).
    - apply (W_cov A A Q Q Y Z (sigma' / c) sigma z z); auto; try lra. intros y. apply cov_noise; auto; lra.
    - pose proof (proj2 PY z). nra. }
  clearbody Wm Wy. destruct nW as (w1 & w2). destruct nY as (w1' & w2').
  refine (bound_compare (info_matrix D Pi Wm) (info_matrix D Pi' (mscal (RtoC c) Wy)) Vm Vm' _ _ mode o o' _ _ _ HI HI' _ _ RE RE'); [cbn; congruence| | | |apply half_div; lra].
  - apply (info_psd A); [exact HO|exact d1|congruence|exact PW].
  - apply (info_psd A); [exact HO'|exact d1|cbn; congruence|apply psd_mscal; [lra|exact PY]].
  - intros z. apply Rle_trans with (rform (info_matrix D Pi' Wm) z).
    + apply (info_le_dist A D Pi A D Pi' Wm); try assumption; try congruence. intros y. apply (cols_dist A A Pi' Pi); auto.
    + apply (info_le A); try assumption; cbn; congruence.
Qed.
(** Only the signal-to-noise ratio matters: scaling all powers and the noise by the same factor changes nothing. *)
Lemma info_scaled A D Pi Pi' Q Q' c : orth_projector_onto A Pi -> orth_projector_onto A Pi' -> nr D = nr A -> nr Q = nc D -> nc Q = nc D -> Q' ==m mscal (RtoC c) Q ->
  meq (info_matrix D Pi' Q') (rscal c (info_matrix D Pi Q)).
Proof.
  intros HO HO' d1 q1 q2 E. pose proof (projector_unique A Pi Pi' HO HO') as EP. split; [reflexivity|]. split; [reflexivity|]. intros i j Hi Hj. cbn [info_matrix rscal ent nr nc] in *.
  pose proof E as (n1 & n2 & _). cbn in n1, n2. rewrite (meq_ent _ _ j i E) by congruence. cbn [mscal ent].
  assert (EB : bform (mid (nr D) -m Pi') (col D i) (col D j) = bform (mid (nr D) -m Pi) (col D i) (col D j)).
  { unfold bform. cbn [msub mid nr nc]. apply csum_ext. intros r Hr. apply csum_ext. intros s Hs. cbn [msub ent]. destruct (op_shape _ _ HO) as (p1 & p2). rewrite (meq_ent _ _ r s EP) by congruence. reflexivity. }
  rewrite EB. replace (bform (mid (nr D) -m Pi) (col D i) (col D j) * (RtoC c * ent Q j i)) with (RtoC c * (bform (mid (nr D) -m Pi) (col D i) (col D j) * ent Q j i)) by ring.
  rewrite Re_mult, Re_RtoC, Im_RtoC. ring.
Qed.
Lemma inv_scaled Sg Vm c : c <> 0%R -> inv_of Sg Vm -> inv_of (rscal c Sg) (rscal (/ c) Vm).
Proof.
  intros Hc (n0 & n1 & n2 & E). split; [exact n0|]. split; [exact n1|]. split; [exact n2|]. cbn [rscal nr ent]. intros i j Hi Hj. rewrite <- (E i j Hi Hj). apply rsum_ext. intros r _. field. exact Hc.
Qed.
Lemma bound_scaled Sg Sg' Vm Vm' c sigma N mode o o' : rsym Sg -> meq Sg' (rscal c Sg) -> (0 < c)%R -> inv_of Sg Vm -> inv_of Sg' Vm' -> N <> 0%R ->
  reduce_output_matrix (symmetrised (rscal (sigma / N / 2) Vm)) mode = Ok o -> reduce_output_matrix (symmetrised (rscal (c * sigma / N / 2) Vm')) mode = Ok o' -> same_bound o' o.
Proof.
  intros Sy E Hc HI HI' HN RE RE'. pose proof (inv_of_meq _ _ _ E HI') as HI2. pose proof (inv_scaled Sg Vm c ltac:(lra) HI) as HI3.
  assert (Sc : rsym (rscal c Sg)) by (destruct Sy as (y1 & y2); split; [exact y1|]; cbn [rscal ent nr]; intros i j Hi Hj; f_equal; apply y2; assumption).
  pose proof HI as (m0 & m1 & m2 & _). pose proof HI2 as (_ & m1' & m2' & _). cbn [rscal nr] in m1', m2'.
  refine (reduce_same _ _ mode o o' _ _ RE RE'); [cbn; congruence|]. split; [cbn; congruence|]. split; [cbn; congruence|]. cbn [symmetrised rscal ent nr nc]. intros i j Hi Hj.
  assert (Hi' : (i < nr (rscal c Sg))%nat) by (cbn; congruence). assert (Hj' : (j < nr (rscal c Sg))%nat) by (cbn; congruence).
  rewrite (inv_unique _ _ _ i j Sc HI2 HI3 Hi' Hj'), (inv_unique _ _ _ j i Sc HI2 HI3 Hj' Hi'). cbn [rscal ent]. field. split; lra.
Qed.
Theorem C95_ratio_det : forall solve rinv pinv a l u lam P P' c sigma N mode o o', solve_exact solve -> rinv_exact rinv -> wf_array a ->
  hermitian (nd_mat (RtoC 0) P) -> nd_mat (RtoC 0) P' ==m mscal (RtoC c) (nd_mat (RtoC 0) P) -> (0 < c)%R ->
  crb_det_farfield_1d solve rinv pinv a (FF1 l u) lam P sigma N mode = Ok o ->
  crb_det_farfield_1d solve rinv pinv a (FF1 l u) lam P' (c * sigma) N mode = Ok o' -> same_bound o' o.
Proof.
  intros solve rinv pinv a l u lam P P' c sigma N mode o o' SO RO W HP EP Hc H H'.
  destruct (det_inv solve rinv pinv SO RO a l u lam P sigma N mode o W H) as (A & D & Pi & Vm & ES & HO & a1 & a2 & d1 & d2 & nN & Sh & HI & RE & _).
  destruct (det_inv solve rinv pinv SO RO a l u lam P' (c * sigma) N mode o' W H') as (A' & D' & Pi' & Vm' & ES' & HO' & _ & _ & _ & _ & _ & _ & HI' & RE' & _).
  rewrite ES in ES'. injection ES' as <- <-.
  assert (nQ : nr (nd_mat (RtoC 0) P) = List.length l /\ nc (nd_mat (RtoC 0) P) = List.length l) by (unfold nd_mat; rewrite Sh; split; reflexivity). destruct nQ as (q1 & q2).
  refine (bound_scaled _ _ Vm Vm' c sigma N mode o o' _ _ Hc HI HI' nN RE RE').
  - apply (info_sym A); [exact HO|exact d1|congruence|exact HP].
  - apply (info_scaled A); try assumption; congruence.
Qed.
Theorem C95_ratio_sto : forall solve rinv a l u lam p p' P P' c sigma N mode o o', solve_exact solve -> rinv_exact rinv -> wf_array a ->
  let k := List.length l in
  denotes k p P -> denotes k p' P' -> psd (Mat k k P) -> (forall i j, (i < k)%nat -> (j < k)%nat -> P' i j = RtoC c * P i j) -> (0 < c)%R -> (0 < sigma)%R ->
  crb_sto_farfield_1d solve rinv a (FF1 l u) lam p sigma N mode = Ok o ->
  crb_sto_farfield_1d solve rinv a (FF1 l u) lam p' (c * sigma) N mode = Ok o' -> same_bound o' o.
Proof.
  intros solve rinv a l u lam p p' P P' c sigma N mode o o' SO RO W k HD HD' HP HC Hc Hs H H'. unfold k in *. clear k.
  destruct (sto_inv solve rinv SO RO a l u lam p sigma N mode o W H) as (A & D & Pi & M & Z & Vm & ES & HO & a1 & a2 & d1 & d2 & nN & HU & R & RE & _). cbv zeta in R. destruct R as (q1 & q2 & z1 & z2 & EZ & HI).
  destruct (sto_scaled_inv solve rinv a l u lam p P p' P' M c (c * sigma) N mode o' SO RO W Hc HD HU HD' HC H') as (A' & D' & Pi' & Y & Vm' & R). cbv zeta in R.
  destruct R as (ES' & HO' & _ & _ & _ & _ & _ & _ & y1 & y2 & EY & HI' & RE'). rewrite ES in ES'. injection ES' as <- <-.
  pose proof (psd_denoted _ p P M HD HU HP) as HQ. set (Q := nd_mat (RtoC 0) M) in *. clearbody Q. replace (c * sigma / c)%R with sigma in EY by (field; lra).
  assert (YZ : Y ==m Z).
  { pose proof (cov_inj A Q sigma q1 HQ Hs) as IC. fold (cov A Q sigma) in IC. split; [congruence|]. split; [congruence|]. intros i j Hi Hj.
    assert (CE : forall (X : cmat) r, nr X = nr A -> nc X = nc A -> cov A Q sigma *m X ==m A -> (r < nr A)%nat -> mvec (cov A Q sigma) (fun s => ent X s j) r = ent A r j).
    { intros X r x1 x2 EX Hr. rewrite <- (meq_ent _ _ r j EX) by (cbn; congruence). reflexivity. }
    assert (Z0 : ent Y i j - ent Z i j = RtoC 0); [|transitivity (ent Y i j - ent Z i j + ent Z i j); [ring|rewrite Z0; ring]].
    refine (IC (fun s => ent Y s j - ent Z s j) _ i _); [|cbn; congruence]. intros r Hr. change (nr (cov A Q sigma)) with (nr A) in Hr.
    transitivity (mvec (cov A Q sigma) (fun s => ent Y s j) r - mvec (cov A Q sigma) (fun s => ent Z s j) r).
    - unfold mvec. rewrite <- csum_minus. apply csum_ext. intros s _. ring.
    - rewrite (CE Y r y1 y2 EY Hr), (CE Z r z1 z2 EZ Hr). ring. }
  assert (PW : psd (Q *m (mher A *m Z) *m Q)) by (apply (sto_W_psd A Q Z sigma (nr A)); auto; lra).
  refine (bound_scaled _ _ Vm Vm' c sigma N mode o o' _ _ Hc HI HI' nN RE RE').
  - apply (info_sym A); [exact HO|exact d1|cbn; congruence|exact (proj1 PW)].
  - apply (info_scaled A); try assumption; [cbn; congruence|cbn; congruence|]. apply mscal_proper. apply mmul_eq_l. apply mmul_eq_r; [cbn; congruence|]. apply mmul_eq_r; [cbn; congruence|exact YZ].
Qed.
(** Additional sources never make the bound of the others better. *)
Theorem C95_more_sources : forall solve rinv pinv a l l2 u lam sigma N mode, solve_exact solve -> rinv_exact rinv -> wf_array a ->
  valid_sources (FF1 (l ++ l2) u) -> interior u (l ++ l2) -> (0 <= sigma)%R -> (0 < N)%R -> In mode ["full"; "diag"]%string ->
  let k := List.length l in let n := (k + List.length l2)%nat in
  (forall P P' o o', psd (nd_mat (RtoC 0) P') -> extends k (ent (nd_mat (RtoC 0) P)) (ent (nd_mat (RtoC 0) P')) ->
    crb_det_farfield_1d solve rinv pinv a (FF1 l u) lam P sigma N mode = Ok o ->
    crb_det_farfield_1d solve rinv pinv a (FF1 (l ++ l2) u) lam P' sigma N mode = Ok o' -> no_worse_first k o o') /\
  (forall p p' P P' o o', denotes k p P -> denotes n p' P' -> psd (Mat n n P') -> extends k P P' -> uncorrelated_beyond k n P' ->
    crb_sto_farfield_1d solve rinv a (FF1 l u) lam p sigma N mode = Ok o ->
    crb_sto_farfield_1d solve rinv a (FF1 (l ++ l2) u) lam p' sigma N mode = Ok o' -> no_worse_first k o o').
Proof.
  intros solve rinv pinv a l l2 u lam sigma N mode SO RO W V I Hs HN Hm k n.
  assert (Hkn : (k <= n)%nat) by (unfold n; lia). assert (Ek : List.length l = k) by reflexivity. assert (En : List.length (l ++ l2) = n) by (unfold n; now rewrite app_length).
  assert (En2 : (k + List.length l2)%nat = n) by reflexivity. clearbody n. clearbody k.
  assert (Hc : (0 <= sigma / N / 2)%R) by (apply (half_div sigma sigma N N); lra).
  split.
  - intros P P' o o' HP EX H H'.
    destruct (det_inv solve rinv pinv SO RO a l u lam P sigma N mode o W H) as (A & D & Pi & Vm & ES & HO & a1 & a2 & d1 & d2 & _ & Sh & HI & RE & _).
    destruct (det_inv solve rinv pinv SO RO a (l ++ l2) u lam P' sigma N mode o' W H') as (A' & D' & Pi' & Vm' & ES' & HO' & a1' & a2' & d1' & d2' & _ & Sh' & HI' & RE' & _).
    destruct (more_steering a l l2 u lam A D A' D' W V I ES ES') as (_ & _ & _ & _ & _ & e1 & e2 & EE). rewrite ?En, ?Ek, ?En2 in *.
    assert (nQ : nr (nd_mat (RtoC 0) P) = k /\ nc (nd_mat (RtoC 0) P) = k) by (unfold nd_mat; rewrite Sh; split; reflexivity).
    assert (nQ' : nr (nd_mat (RtoC 0) P') = n /\ nc (nd_mat (RtoC 0) P') = n) by (unfold nd_mat; rewrite Sh'; split; reflexivity).
    set (Q := nd_mat (RtoC 0) P) in *. set (Q' := nd_mat (RtoC 0) P') in *. clearbody Q Q'. destruct nQ as (q1 & q2), nQ' as (q1' & q2').
    assert (EQ : Mat k k (ent Q') ==m Q) by (split; [cbn; congruence|]; split; [cbn; congruence|]; cbn; intros i j Hi Hj; apply EX; assumption).
    assert (PB : psd Q) by (apply (psd_eq _ _ EQ), psd_block; [exact HP|lia]).
    assert (IP : rpsd (info_matrix D Pi Q)) by (apply (info_psd A); [exact HO|exact d1|congruence|exact PB]).
    assert (IP' : rpsd (info_matrix D' Pi' Q')) by (apply (info_psd A'); [exact HO'|exact d1'|congruence|exact HP]).
    assert (nS : nr (info_matrix D Pi Q) = k) by (cbn; congruence).
    rewrite <- nS. refine (bound_first (info_matrix D Pi Q) (info_matrix D' Pi' Q') Vm Vm' _ mode o o' _ IP IP' HI HI' _ Hc Hm RE RE'); [cbn; lia|].
    cbn [info_matrix nr]. intros z. destruct (op_shape _ _ HO') as (p1 & p2).
    rewrite (info_pad D D' Pi' Q' z); [|congruence|congruence|congruence|lia|intros i j Hi Hj; apply EE; [congruence|congruence]].
    replace (nc D) with k by congruence. apply Rle_trans with (rform (info_matrix D Pi' Q) z).
    + apply Req_le. apply rform_meq; [|reflexivity]. split; [reflexivity|]. split; [reflexivity|]. intros i j Hi Hj. cbn [info_matrix ent nr nc] in *. rewrite EX by congruence. reflexivity.
    + (* distances to the larger signal subspace are smaller *)
      apply (info_le_dist A' D Pi' A D Pi Q); try assumption; try congruence. intros y. replace (nr A') with (nr A) by congruence.
      apply (cols_dist A A' Pi Pi'); try assumption; [congruence|lia|]. intros i j Hi Hj. apply EE; [exact Hi|congruence].
  - intros p p' P P' o o' HD HD' HP EX UC H H'.
    destruct (sto_inv solve rinv SO RO a l u lam p sigma N mode o W H) as (A & D & Pi & Pa & Z & Vm & ES & HO & a1 & a2 & d1 & d2 & _ & HU & R & RE & _). cbv zeta in R. destruct R as (q1 & q2 & z1 & z2 & EZ & HI).
    destruct (sto_inv solve rinv SO RO a (l ++ l2) u lam p' sigma N mode o' W H') as (A' & D' & Pi' & Pa' & Z' & Vm' & ES' & HO' & a1' & a2' & d1' & d2' & _ & HU' & R & RE' & _). cbv zeta in R. destruct R as (q1' & q2' & z1' & z2' & EZ' & HI').
    destruct (more_steering a l l2 u lam A D A' D' W V I ES ES') as (b1 & b2 & _ & _ & _ & e1 & e2 & EE). rewrite ?En, ?Ek, ?En2 in *.
    pose proof (psd_denoted _ p' P' Pa' HD' HU' HP) as HQ'. pose proof (denoted_matrix k p P Pa HD HU) as EP. pose proof (denoted_matrix n p' P' Pa' HD' HU') as EP'.
    set (Q := nd_mat (RtoC 0) Pa) in *. set (Q' := nd_mat (RtoC 0) Pa') in *. clearbody Q Q'.
    assert (GQ : forall i j, (i < k)%nat -> (j < k)%nat -> ent Q' i j = ent Q i j).
    { intros i j Hi Hj. rewrite (meq_ent _ _ i j EP), (meq_ent _ _ i j EP') by lia. apply EX; assumption. }
    assert (GU : forall i j, (i < k)%nat -> (k <= j < nr Q')%nat -> ent Q' i j = RtoC 0 /\ ent Q' j i = RtoC 0).
    { intros i j Hi Hj. rewrite (meq_ent _ _ i j EP'), (meq_ent _ _ j i EP') by lia. apply UC; lia. }
    assert (EQ : Mat k k (ent Q') ==m Q) by (split; [cbn; congruence|]; split; [cbn; congruence|]; cbn; intros i j Hi Hj; apply GQ; assumption).
    assert (HQ : psd Q) by (apply (psd_eq _ _ EQ), psd_block; [exact HQ'|lia]).
    assert (CV : forall y, (Re (qform (cov A Q sigma) y) <= Re (qform (cov A' Q' sigma) y))%R).
    { intros y. rewrite !cov_form by congruence. rewrite !Re_plus, b1. apply Rplus_le_compat_r.
      rewrite <- (qform_eq _ _ (mvec (mher A) y) EQ). apply Rle_trans with (Re (qform (Mat k k (ent Q')) (mvec (mher A') y))).
      - apply Req_le. f_equal. unfold qform. cbn [nr nc ent]. apply csum_ext. intros i Hi.
        assert (Ei : forall i0, (i0 < k)%nat -> mvec (mher A) y i0 = mvec (mher A') y i0).
        { intros i0 Hi0. unfold mvec. cbn [mher nc ent]. rewrite b1. apply csum_ext. intros r Hr. now rewrite (proj1 (EE r i0 Hr Hi0)). }
        apply csum_ext. intros j Hj. rewrite (Ei i Hi), (Ei j Hj). reflexivity.
      - apply qform_split; [exact HQ'|lia|exact GU]. }
    assert (AP : forall z i, (i < nr A)%nat -> mvec A (mvec Q z) i = mvec A' (mvec Q' (cpad k z)) i).
    { intros z i Hi. symmetry. unfold mvec at 1 3. rewrite (csum_pad (nc A') k); [|lia|].
      - replace (nc A) with k by congruence. apply csum_ext. intros j Hj. rewrite (proj1 (EE i j Hi Hj)). f_equal. unfold mvec. rewrite (csum_pad (nc Q') k); [|lia|].
        + replace (nc Q) with k by congruence. apply csum_ext. intros r Hr. rewrite GQ by assumption. unfold cpad. destruct (Nat.ltb_spec r k); [reflexivity|lia].
        + intros r Hr. unfold cpad. destruct (Nat.ltb_spec r k); [lia|ring].
      - intros j Hj. replace (mvec Q' (cpad k z) j) with (RtoC 0); [ring|]. symmetry. unfold mvec. apply csum_0. intros r Hr. unfold cpad. destruct (Nat.ltb_spec r k) as [Hrk|]; [|ring].
        rewrite (proj2 (GU r j Hrk ltac:(lia))). ring. }
    set (Wm := Q *m (mher A *m Z) *m Q) in *. set (Wm' := Q' *m (mher A' *m Z') *m Q') in *.
    assert (PW : psd Wm) by (unfold Wm; apply (sto_W_psd A Q Z sigma (nr A)); auto).
    assert (PW' : psd Wm') by (unfold Wm'; apply (sto_W_psd A' Q' Z' sigma (nr A')); auto).
    assert (nW : nr Wm = k /\ nc Wm = k) by (unfold Wm; cbn; split; congruence).
    assert (nW' : nr Wm' = n /\ nc Wm' = n) by (unfold Wm'; cbn; split; congruence).
    assert (LW : forall z, (Re (qform Wm' (cpad k z)) <= Re (qform Wm z))%R).
    { intros z. apply (W_cov A A' Q Q' Z Z' sigma sigma z (cpad k z)); auto. }
    clearbody Wm Wm'. destruct nW as (w1 & w2). destruct nW' as (w1' & w2').
    assert (IP : rpsd (info_matrix D Pi Wm)) by (apply (info_psd A); [exact HO|exact d1|congruence|exact PW]).
    assert (IP' : rpsd (info_matrix D' Pi' Wm')) by (apply (info_psd A'); [exact HO'|exact d1'|congruence|exact PW']).
    assert (nS : nr (info_matrix D Pi Wm) = k) by (cbn; congruence).
    rewrite <- nS. refine (bound_first (info_matrix D Pi Wm) (info_matrix D' Pi' Wm') Vm Vm' _ mode o o' _ IP IP' HI HI' _ Hc Hm RE RE'); [cbn; lia|].
    cbn [info_matrix nr]. intros z. destruct (op_shape _ _ HO') as (p1 & p2).
    rewrite (info_pad D D' Pi' Wm' z); [|congruence|congruence|congruence|lia|intros i j Hi Hj; apply EE; [congruence|congruence]].
    replace (nc D) with k by congruence. apply Rle_trans with (rform (info_matrix D Pi' Wm) z).
    + apply (info_le A'); try assumption; try (cbn; congruence). intros y. rewrite qform_block by lia. apply LW.
    + apply (info_le_dist A' D Pi' A D Pi Wm); try assumption; try congruence. intros y. replace (nr A') with (nr A) by congruence.
      apply (cols_dist A A' Pi Pi'); try assumption; [lia|]. intros i j Hi Hj. apply EE; [exact Hi|congruence].
Qed.

(** the two-sensor array is a part of a three-sensor one *)
Definition ex_array3 : array := Array (LArr DFloat (Mat 3 1 (fun i _ => INR i / 2)%R)) "x" ISOTROPIC_SCALAR_SENSOR [].
Lemma ex_part : part_of ex_array ex_array3 [0%nat; 1%nat].
Proof.
  split.
  - split; [reflexivity|]. split; [repeat constructor; cbn; intuition congruence|]. cbn. intros i [<-|[<-|[]]]; lia.
  - exists (ar_loc ex_array), (ar_loc ex_array3). split; [reflexivity|]. split; [reflexivity|]. cbn. intros i Hi. destruct i as [|[|i]]; [split; reflexivity..|lia].
  - exists (fun _ => RtoC 1). split; (split; [reflexivity|]); (split; [reflexivity|]); intros i j Hi Hj; reflexivity.
Qed.
Lemma ex_valid l : (forall x, In x l -> (- (PI / 2) <= x <= PI / 2)%R) -> valid_sources (FF1 l "rad") /\ interior "rad" l.
Proof.
  intros H. split; [|intros E; discriminate]. split; [unfold known_unit; auto|]. apply Forall_forall. intros x Hx. left. split; [reflexivity|]. apply H, Hx.
Qed.
Lemma ex_steering3 : exists A D, steering_matrix ex_array3 (FF1 [0%R; (PI / 6)%R] "rad") 1 true "all" false = Ok (Flat A, [D]) /\ nr A = 3%nat /\ nc A = 2%nat /\ nr D = 3%nat /\ nc D = 2%nat /\
  ent A 0 0 = RtoC 1 /\ ent A 1 0 = RtoC 1 /\ ent A 2 0 = RtoC 1 /\ ent A 0 1 = RtoC 1 /\ ent A 1 1 = Ci /\ ent A 2 1 = - RtoC 1 /\
  ent D 0 0 = RtoC 0 /\ ent D 1 0 = Ci * RtoC PI /\ ent D 2 0 = Ci * RtoC (2 * PI) /\
  ent D 0 1 = RtoC 0 /\ ent D 1 1 = - RtoC (PI * cos (PI / 6)) /\ ent D 2 1 = - (Ci * RtoC (2 * (PI * cos (PI / 6)))).
Proof.
  eexists _, _. split; [unfold steering_matrix, phase_delay_matrix; rewrite (P_sources.Reqb_neq 1 0 R1_neq_R0); reflexivity|]. do 4 (split; [reflexivity|]). cbn.
  rewrite sin_0, cos_0, sin_PI6, !Rmult_0_r, cis_0. 
  replace (2 * PI / 1 * (0 / 2 * (1 / 2)))%R with 0%R by field. replace (2 * PI / 1 * (1 / 2 * (1 / 2)))%R with (PI / 2)%R by field. replace (2 * PI / 1 * ((1 + 1) / 2 * (1 / 2)))%R with PI by field.
  rewrite cis_0. assert (C2 : cis (PI / 2) = Ci) by (unfold cis; rewrite cos_PI2, sin_PI2; reflexivity). assert (C1 : cis PI = - RtoC 1) by (unfold cis; rewrite cos_PI, sin_PI; apply injective_projections; cbn; ring).
  rewrite C2, C1. repeat split; apply injective_projections; cbn; field.
Qed.
Lemma ex_inj3 A : nr A = 3%nat -> nc A = 2%nat -> ent A 0 0 = RtoC 1 -> ent A 1 0 = RtoC 1 -> ent A 2 0 = RtoC 1 -> ent A 0 1 = RtoC 1 -> ent A 1 1 = Ci -> ent A 2 1 = - RtoC 1 -> inj A.
Proof.
  intros A1 A2 E0 E1 E2 F0 F1 F2 x H j Hj. rewrite A1 in H. pose proof (H 0%nat ltac:(lia)) as H0. pose proof (H 2%nat ltac:(lia)) as H2. unfold mvec in H0, H2. rewrite A2 in H0, H2, Hj. cbn [csum] in H0, H2. rewrite E0, F0 in H0. rewrite E2, F2 in H2.
  destruct (x 0%nat) as [a b] eqn:X0, (x 1%nat) as [c e] eqn:X1. apply (f_equal fst) in H0 as H0r. apply (f_equal snd) in H0 as H0i. apply (f_equal fst) in H2 as H2r. apply (f_equal snd) in H2 as H2i. cbn in H0r, H0i, H2r, H2i.
  destruct j as [|[|j]]; [rewrite X0|rewrite X1|lia]; apply injective_projections; cbn; lra.
Qed.
Definition ex_P2 : ndarr C := Nd [2%nat; 2%nat] [RtoC 1; RtoC 0; RtoC 0; RtoC 1].
Lemma ex_psd2 : psd (nd_mat (RtoC 0) ex_P2).
Proof. apply (psd_eq (mdiag 2 (fun _ => RtoC 1))); [|apply psd_mdiag; intros; lra]. split; [reflexivity|]. split; [reflexivity|]. cbn [mdiag nr nc ent]. intros i j Hi Hj. destruct i as [|[|i]], j as [|[|j]]; try lia; reflexivity. Qed.
Lemma qform_perp A Pi y : orth_projector_onto A Pi -> qform (perp Pi) y = RtoC (vnorm2 (nr A) (mvec (perp Pi) y)).
Proof.
  intros HO. destruct (op_shape _ _ HO) as (S1 & S2). rewrite (qform_eq (perp Pi) (mher (perp Pi) *m perp Pi)).
  - rewrite qform_gram. unfold perp at 1. cbn [msub mid nr]. now rewrite S1.
  - symmetry. rewrite (mmul_eq_l _ _ (perp Pi) (perp_her A Pi HO)). apply (perp_idem A Pi HO).
Qed.
Lemma ex_rinj2 A D Pi : nr A = 3%nat -> nc A = 2%nat -> nr D = 3%nat -> nc D = 2%nat ->
  ent A 0 0 = RtoC 1 -> ent A 1 0 = RtoC 1 -> ent A 2 0 = RtoC 1 -> ent A 0 1 = RtoC 1 -> ent A 1 1 = Ci -> ent A 2 1 = - RtoC 1 ->
  ent D 0 0 = RtoC 0 -> ent D 1 0 = Ci * RtoC PI -> ent D 2 0 = Ci * RtoC (2 * PI) -> ent D 0 1 = RtoC 0 -> ent D 1 1 = - RtoC (PI * cos (PI / 6)) -> ent D 2 1 = - (Ci * RtoC (2 * (PI * cos (PI / 6)))) ->
  orth_projector_onto A Pi -> rinj (info_matrix D Pi (nd_mat (RtoC 0) ex_P2)).
Proof.
  intros A1 A2 D1 D2 E0 E1 E2 F0 F1 F2 G0 G1 G2 K0 K1 K2 HO. destruct (op_shape _ _ HO) as (p1 & p2). pose proof PI_RGT_0 as PP.
  assert (CP : (0 < PI * cos (PI / 6))%R) by (apply Rmult_lt_0_compat; [lra|apply cos_gt_0; lra]).
  assert (NZ : forall j, (j < 2)%nat -> Re (bform (mid (nr D) -m Pi) (col D j) (col D j)) <> 0%R).
  { intros j Hj Z. assert (PF : orth_projector_onto A Pi) by exact HO.
    assert (V0 : vnorm2 (nr A) (mvec (perp Pi) (col D j)) = 0%R).
    { rewrite bform_qform in Z. replace (mid (nr D) -m Pi) with (perp Pi) in Z by (unfold perp; rewrite p1, D1, A1; reflexivity). rewrite (qform_perp A Pi _ HO), Re_RtoC in Z. exact Z. }
    destruct (perp_range A Pi (col D j) HO) as (cf & HC).
    assert (Q : forall i, (i < 3)%nat -> ent D i j = mvec A cf i).
    { intros i Hi. rewrite <- A1 in Hi. pose proof (vnorm2_0 _ _ V0 i Hi) as V1. rewrite (HC i Hi) in V1. unfold col in V1. transitivity (ent D i j - mvec A cf i + mvec A cf i); [ring|rewrite V1; ring]. }
    pose proof (Q 0%nat ltac:(lia)) as Q0. pose proof (Q 1%nat ltac:(lia)) as Q1. pose proof (Q 2%nat ltac:(lia)) as Q2. unfold mvec in Q0, Q1, Q2. rewrite A2 in Q0, Q1, Q2. cbn [csum] in Q0, Q1, Q2.
    rewrite E0, F0 in Q0. rewrite E1, F1 in Q1. rewrite E2, F2 in Q2. destruct (cf 0%nat) as [x0 y0], (cf 1%nat) as [x1 y1].
    destruct j as [|[|j]]; [rewrite G0 in Q0; rewrite G1 in Q1; rewrite G2 in Q2|rewrite K0 in Q0; rewrite K1 in Q1; rewrite K2 in Q2|lia];
      apply (f_equal fst) in Q0 as R0; apply (f_equal snd) in Q0 as I0; apply (f_equal fst) in Q1 as R1; apply (f_equal snd) in Q1 as I1; apply (f_equal fst) in Q2 as R2; apply (f_equal snd) in Q2 as I2;
      cbn in R0, I0, R1, I1, R2, I2; lra. }
  intros x H j Hj. cbn [info_matrix nc nr] in Hj, H. rewrite D2 in H, Hj. specialize (H j Hj). cbn [rsum info_matrix ent] in H. specialize (NZ j Hj).
  destruct j as [|[|j]]; [| |lia]; cbn [nd_mat ex_P2 nd_shape nd_data nth ent Nat.mul Nat.add] in H; rewrite Cmult_1_r, Cmult_0_r, Re_RtoC, ?Rmult_0_l, ?Rplus_0_l, ?Rplus_0_r in H; apply Rmult_integral in H as [H|H]; try exact H; contradiction.
Qed.
Example C95_example : exists o2 s2 o3 s3 o4,
  let pv := fun _ : cmat => Raise LinAlgError in
  crb_det_farfield_1d solve0 rinv0 pv ex_array (FF1 [0%R] "rad") 1 ex_P 1 10 "full" = Ok o2 /\
  crb_sto_farfield_1d solve0 rinv0 ex_array (FF1 [0%R] "rad") 1 (PArr ex_P) 1 10 "full" = Ok s2 /\
  crb_det_farfield_1d solve0 rinv0 pv ex_array3 (FF1 [0%R] "rad") 1 ex_P 1 10 "full" = Ok o3 /\
  crb_sto_farfield_1d solve0 rinv0 ex_array3 (FF1 [0%R] "rad") 1 (PArr ex_P) 1 10 "full" = Ok s3 /\
  crb_det_farfield_1d solve0 rinv0 pv ex_array3 (FF1 [0%R; (PI / 6)%R] "rad") 1 ex_P2 1 10 "full" = Ok o4 /\
  no_worse o3 o2 /\ no_worse s3 s2 /\ no_worse_first 1 o3 o4.
Proof.
  pose proof PI_RGT_0 as PP. destruct C70_example as (Vd & Vs & H2 & S2 & HP & _).
  destruct ex_steering as (A & D & ES & A1 & A2 & D1 & D2 & E0 & E1 & F0 & F1).
  assert (ES3 : exists A' D', steering_matrix ex_array3 (FF1 [0%R] "rad") 1 true "all" false = Ok (Flat A', [D'])).
  { eexists _, _. unfold steering_matrix, phase_delay_matrix. rewrite (P_sources.Reqb_neq 1 0 R1_neq_R0). reflexivity. }
  destruct ES3 as (A' & D' & ES3).
  destruct (ex_valid [0%R]) as (V & I); [intros x [<-|[]]; lra|].
  destruct (ex_valid ([0%R] ++ [(PI / 6)%R])) as (V2 & I2); [intros x [<-|[<-|[]]]; lra|].
  assert (DN : denotes (List.length [0%R]) (PArr ex_P) (fun i j => nth (i * 1 + j) [RtoC 1] (RtoC 0))) by (apply (den_matrix 1 [RtoC 1]); reflexivity).
  assert (PD : psd (Mat (List.length [0%R]) (List.length [0%R]) (fun i j => nth (i * 1 + j) [RtoC 1] (RtoC 0)))) by exact HP.
  destruct (C95_more_sensors_defined solve0 rinv0 (fun _ => Raise LinAlgError) ex_array ex_array3 [0%nat; 1%nat] [0%R] "rad" 1 1 10 "full" A D A' D' solve0_exact rinv0_exact (wf_empty _ _ _) (wf_empty _ _ _) ex_part V I ES ES3 (ex_inj A A1 A2 E0)) as (XD & XS).
  destruct (XD ex_P _ HP H2) as (o3 & H3). destruct (XS (PArr ex_P) _ _ DN PD ltac:(lra) S2) as (s3 & S3).
  destruct ex_steering3 as (A4 & D4 & ES4 & a1 & a2 & d1 & d2 & e0 & e1 & e2 & f0 & f1 & f2 & g0 & g1 & g2 & k0 & k1 & k2).
  destruct (det_defined solve0 rinv0 (fun _ => Raise LinAlgError) solve0_exact rinv0_exact ex_array3 _ "rad" 1 ex_P2 1 10 "full" A4 D4 (wf_empty _ _ _) ES4) as (o4 & H4); [apply ex_inj3; assumption|lra|reflexivity| |now left|].
  { intros Pi HO. apply (ex_rinj2 A4); assumption. }
  exists (OFull Vd), (OFull Vs), o3, s3, o4. cbv zeta. do 5 (split; [assumption|]).
  destruct (C95_more_sensors solve0 rinv0 (fun _ => Raise LinAlgError) ex_array ex_array3 [0%nat; 1%nat] [0%R] "rad" 1 1 10 "full" solve0_exact rinv0_exact (wf_empty _ _ _) (wf_empty _ _ _) ex_part V I ltac:(lra) ltac:(lra)) as (YD & YS).
  split; [exact (YD _ _ _ HP H2 H3)|]. split; [exact (YS _ _ _ _ DN PD S2 S3)|].
  destruct (C95_more_sources solve0 rinv0 (fun _ => Raise LinAlgError) ex_array3 [0%R] [(PI / 6)%R] "rad" 1 1 10 "full" solve0_exact rinv0_exact (wf_empty _ _ _) V2 I2 ltac:(lra) ltac:(lra) ltac:(now left)) as (ZD & _).
  apply (ZD ex_P ex_P2 _ _ ex_psd2); [|exact H3|exact H4]. intros i j Hi Hj. cbn in Hi, Hj. assert (i = 0 /\ j = 0)%nat as (-> & ->) by lia. reflexivity.
Qed.
Print Assumptions C95_more_sensors. Print Assumptions C95_more_sensors_defined. Print Assumptions C95_better_conditions_det. Print Assumptions C95_better_conditions_sto.
Print Assumptions C95_ratio_det. Print Assumptions C95_ratio_sto. Print Assumptions C95_more_sources. Print Assumptions C95_example.
