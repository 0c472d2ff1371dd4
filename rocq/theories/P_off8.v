(** Any spectrum-based estimator on a uniform linear array whose spectrum ranks the directions by a function with one dip at each source. *)
From Coq Require Import Lra Lia Sorted Permutation.
From Coquelicot Require Import Complex.
From Verif Require Import Base_Np Base_Trig Base_Lin S_model M_utils S_utils P_utils M_sources S_sources P_sources M_array S_array P_array P_array2 P_array3 M_designs S_designs P_designs M_coarray S_coarray P_coarray P_coarray2 P_model
  M_grid S_grid P_grid M_core P_core P_core2 M_sparse M_subspace S_subspace P_subspace P_subspace2 P_subspace5 M_pipeline S_pipeline Prop_subspace P_pipeline P_pipeline4 P_beam S_stable P_stable P_stable2 P_stable3 P_stable4 S_cont P_cont P_cont2 P_cont4 P_cont5 P_rootc3
  S_offgrid S_refine P_off1 P_off2 P_off3 P_off4 P_off5 P_off7.
From Verif Require P_oracles P_signals Prop_esprit.
Open Scope nat_scope.


(** *** the peaks of the spectrum are the valleys of the function *)
Lemma order_valleys N (v : nat -> R) (x : list R) : List.length x = N -> (forall i j, i < N -> j < N -> (nth i x 0 < nth j x 0)%R <-> (v j < v i)%R) -> forall i, local_max x i <-> valley N v i.
Proof.
  intros LX OR.
  assert (EQ : forall i j, i < N -> j < N -> (nth i x 0 = nth j x 0)%R <-> (v i = v j)%R).
  { intros i j Hi Hj. pose proof (OR i j Hi Hj) as O1. pose proof (OR j i Hj Hi) as O2. split; intros E.
    - destruct (Rtotal_order (v i) (v j)) as [L|[L|L]]; [apply O2 in L; lra|exact L|apply O1 in L; lra].
    - destruct (Rtotal_order (nth i x 0) (nth j x 0))%R as [L|[L|L]]; [apply O1 in L; lra|exact L|apply O2 in L; lra]. }
  intros i. unfold local_max, valley. rewrite LX. split; intros (l & r & a1 & a2 & a3 & a4 & a5 & a6); exists l, r; (split; [exact a1|]); (split; [exact a2|]); (split; [exact a3|]); (split; [|split]).
  - intros j Hj. apply EQ; [lia|lia|]. now apply a4.
  - apply OR in a5; [exact a5|lia|lia].
  - apply OR in a6; [exact a6|lia|lia].
  - intros j Hj. apply EQ; [lia|lia|]. now apply a4.
  - apply OR; [lia|lia|exact a5].
  - apply OR; [lia|lia|exact a6].
Qed.
(** reciprocals of nonnegative numbers *)
Lemma recip_order N (v : nat -> R) : let x := embed_inf (map (fun j => recip (v j)) (seq 0 N)) in (forall j, (0 <= v j)%R) ->
  List.length x = N /\ (forall i j, i < N -> j < N -> (nth i x 0 < nth j x 0)%R <-> (v j < v i)%R).
Proof.
  intros x V. set (sp := map (fun j => recip (v j)) (seq 0 N)) in *. assert (LS : List.length sp = N) by (unfold sp; now rewrite map_length, seq_length).
  assert (LX : List.length x = N) by (unfold x; now rewrite embed_length).
  assert (NS : forall j, j < N -> nth j sp None = recip (v j)).
  { intros j Hj. unfold sp. rewrite (nth_indep _ None (recip (v 0))) by (now rewrite map_length, seq_length). rewrite (map_nth (fun j => recip (v j))), seq_nth by exact Hj. reflexivity. }
  assert (OR : forall i j, i < N -> j < N -> (nth i x 0 < nth j x 0)%R <-> (v j < v i)%R).
  { intros i j Hi Hj. unfold x. rewrite embed_order by lia. rewrite !NS by assumption. unfold recip, olt_inf. pose proof (V i). pose proof (V j).
    destruct (Req_EM_T (v i) 0) as [Zi|Zi], (Req_EM_T (v j) 0) as [Zj|Zj]; split; intros X; try tauto; try lra.
    - destruct (Rlt_le_dec (v j) (v i)) as [L|L]; [exact L|exfalso]. assert (/ v j <= / v i)%R by (apply Rinv_le_contravar; lra). lra.
    - apply Rinv_lt_contravar; [apply Rmult_lt_0_compat; lra|exact X]. }
  split; [exact LX|exact OR].
Qed.
(** *** the chosen peaks *)
Lemma peak_recovery (e : estimator cmat) h f B sp truth o :
  let g := e_grid e in let shape := sg_shape g in let k := List.length truth in let peaks := e_pf e shape sp in
  est_ok e h -> e_atom e g = Ok B -> f B = Ok sp -> List.length sp = sg_size g -> 1 <= k -> NoDup truth -> incl truth peaks ->
  (forall p q, In p truth -> In q peaks -> ~ In q truth -> (at_idx shape sp q < at_idx shape sp p)%R) ->
  (forall p, In p peaks -> in_shape shape p) -> NoDup peaks -> (forall v, is_argsort v (e_argsort e v)) -> o_refine o = false ->
  exists est chosen e' h', estimate e h f (Z.of_nat k) o = (Ok (Outcome true (Some est) (if o_spectrum o then Some sp else None)), e', h') /\
    Permutation chosen truth /\ StronglySorted le (map (ravel shape) chosen) /\ buf h' est = map (grid_point g) chosen.
Proof.
  intros g shape k peaks HO HB FB SL Hk ND TP ORD PS PN HS Hr.
  destruct (Prop_grid.C46_k_largest_peaks cmat e h f B sp k o HO HB FB SL PS (HS _) ltac:(lia) Hr) as (e' & _ & H).
  assert (KL : (k <= List.length peaks)%nat) by (apply NoDup_incl_length; [exact ND | exact TP]).
  destruct (H KL) as (est & h' & chosen & rest & E1 & PM & LC & BF & SO & _ & _ & MX). exists est, chosen, e', h'. split; [exact E1|]. split; [|split; [exact SO | exact BF]].
  assert (NP : NoDup (chosen ++ rest)) by (apply (Permutation_NoDup (Permutation_sym PM)), PN).
  assert (NC : NoDup chosen) by (exact (NoDup_app_l' _ _ NP)).
  assert (TC : incl truth chosen).
  { intros p Ip. destruct (in_dec (list_eq_dec Nat.eq_dec) p chosen) as [I|N]; [exact I|]. exfalso.
    assert (Ir : In p rest) by (pose proof (TP p Ip) as X; apply (Permutation_in _ (Permutation_sym PM)) in X; apply in_app_or in X as [X|X]; [contradiction | exact X]).
    assert (CT : incl chosen truth).
    { intros q Iq. destruct (in_dec (list_eq_dec Nat.eq_dec) q truth) as [I|N']; [exact I|]. exfalso. specialize (MX q p Iq Ir).
      assert (Sq : In q peaks) by (apply (Permutation_in _ PM), in_or_app; now left). pose proof (ORD p q Ip Sq N') as L. apply (Rlt_irrefl (at_idx shape sp q)). eapply Rlt_le_trans; [exact L | exact MX]. }
    assert (CT2 : incl (p :: chosen) truth) by (intros q [<-|Iq]; [exact Ip | now apply CT]). pose proof (NoDup_incl_length (NoDup_cons p N NC) CT2) as X. cbn [List.length] in X. unfold k in *. lia. }
  apply Permutation_sym, NoDup_Permutation_bis; [exact ND | unfold k in *; lia | exact TC].
Qed.


(** *** one estimator *)
(** applied to the steering vectors of any directions, F ranks them by decreasing f (phase) *)
Definition ranked (n : nat) (d lam : R) (u : string) (F : cmat -> res (list R)) (f : R -> R) : Prop :=
  forall angles (B : cmat), Forall (valid_angle u) angles -> B ==m ula_matrix n (map (zof d lam u) angles) -> exists sp, F B = Ok sp /\ List.length sp = List.length angles /\
    forall i j, i < List.length angles -> j < List.length angles -> (nth i sp 0 < nth j sp 0 <-> f (phase d lam u (nth j angles 0)) < f (phase d lam u (nth i angles 0)))%R.
Definition scans (run : estimator cmat -> lheap -> cmat -> Z -> options -> est_result) (n : nat) (d lam : R) (u : string) (k : nat) (Rm : cmat) (f : R -> R) : Prop :=
  exists F, (forall e h o, run e h Rm (Z.of_nat k) o = estimate e h F (Z.of_nat k) o) /\ ranked n d lam u F f.
(** whatever the grid (fine enough), the history and the routines, the estimator applied to Rm finds all directions, up to the tolerance *)
Definition finds_run run (n : nat) (d lam : R) (u : string) (doas : list R) (lo hi step tol : R) (Rm : cmat) : Prop :=
  forall v fp asort angles dt c h0 e0 h1 e h o,
  places_1d v (ULA_indices (Z.of_nat n)) d -> ar_perts (gd_array v) = [] -> scalar_isotropic (gd_array v) -> la_dt (ar_loc (gd_array v)) = DFloat ->
  new_estimator (gd_array v) lam (SGrid G1D [vec1 angles] u dt) (find_peaks_simple fp) asort c h0 = Ok (e0, h1) ->
  scipy_local_maxima fp -> (forall x, is_argsort x (asort x)) -> fine_grid lo hi step angles -> reach run e0 h1 e h -> o_refine o = false ->
  exists sp est e' h' idx, run e h Rm (Z.of_nat (List.length doas)) o = (Ok (Outcome true (Some est) (if o_spectrum o then Some sp else None)), e', h') /\
    buf h' est = map (fun a => [a]) (at_positions angles idx) /\ brackets tol angles doas idx.
(** the same with refinement: density^n_iters times as accurate as the grid, for grids of floats *)
Definition refines_run run (n : nat) (d lam : R) (u : string) (doas : list R) (lo hi step tol : R) (Rm : cmat) : Prop :=
  forall v fp asort angles c h0 e0 h1 e h ret_sp density n_iters,
  places_1d v (ULA_indices (Z.of_nat n)) d -> ar_perts (gd_array v) = [] -> scalar_isotropic (gd_array v) -> la_dt (ar_loc (gd_array v)) = DFloat ->
  new_estimator (gd_array v) lam (SGrid G1D [vec1 angles] u DFloat) (find_peaks_simple fp) asort c h0 = Ok (e0, h1) ->
  scipy_local_maxima fp -> (forall x, is_argsort x (asort x)) -> fine_grid lo hi step angles -> reach run e0 h1 e h -> (1 <= density)%Z -> 1 <= n_iters ->
  exists sp est e' h' r, run e h Rm (Z.of_nat (List.length doas)) (Opts ret_sp true density n_iters) = (Ok (Outcome true (Some est) (if ret_sp then Some sp else None)), e', h') /\
    buf h' est = map (fun a => [a]) r /\ forall t, (step / IZR density ^ n_iters + tol < t)%R -> accurate t doas r.
Definition both_run run n d lam u doas lo hi step tol Rm : Prop := finds_run run n d lam u doas lo hi step tol Rm /\ (0 <= tol -> refines_run run n d lam u doas lo hi step tol Rm)%R.

(** one call, before the options are looked at *)
Lemma scan_core run n d lam u doas lo hi step tol (Rm : cmat) f : (0 < lam)%R -> known_unit u -> valid_angle u lo -> valid_angle u hi -> 0 < n -> 1 <= List.length doas -> forwards run ->
  scans run n d lam u (List.length doas) Rm f -> one_valley_each d lam u doas lo hi step tol f ->
  forall v fp asort angles dt c h0 e0 h1 e h,
  places_1d v (ULA_indices (Z.of_nat n)) d -> ar_perts (gd_array v) = [] -> scalar_isotropic (gd_array v) -> la_dt (ar_loc (gd_array v)) = DFloat ->
  new_estimator (gd_array v) lam (SGrid G1D [vec1 angles] u dt) (find_peaks_simple fp) asort c h0 = Ok (e0, h1) ->
  scipy_local_maxima fp -> (forall x, is_argsort x (asort x)) -> fine_grid lo hi step angles -> reach run e0 h1 e h ->
  exists x idx V F, (forall o, run e h Rm (Z.of_nat (List.length doas)) o = estimate e h F (Z.of_nat (List.length doas)) o) /\
    dips V tol angles doas idx /\ est_ok e h /\ e_grid e = SGrid G1D [vec1 angles] u dt /\ ranks_by e F V /\
    forall o, o_refine o = false -> exists est e' h', estimate e h F (Z.of_nat (List.length doas)) o = (Ok (Outcome true (Some est) (if o_spectrum o then Some x else None)), e', h') /\
      buf h' est = map (fun a => [a]) (at_positions angles idx).
Proof.
  intros Hl K VL VH Hn Hk FW (F & HF & RF) OV v fp asort angles dt c h0 e0 h1 e h PL Pe Iso DT NE FP AS FG HR.
  assert (V : Forall (valid_angle u) angles). { apply Forall_forall. intros a Ia. destruct FG as (_ & _ & B & _). apply (valid_between u lo hi); auto. }
  assert (PG : plain_grid (SGrid G1D [vec1 angles] u dt)) by (split; [intros a [<-|[]]; reflexivity | reflexivity]).
  destruct (new_estimator_ok _ _ _ _ _ _ _ _ _ PG NE) as (O0 & G0 & T0 & F0 & S0). destruct (reach_ok _ _ _ _ _ FW O0 HR) as (HO & G1 & T1 & F1 & S1).
  rewrite G0 in G1. rewrite T0 in T1. rewrite F0 in F1. rewrite S0 in S1.
  destruct (ula_grid_atoms v n d lam u angles dt (Rgt_not_eq _ _ Hl) PL Pe Iso DT Hn K V) as (B & EB & HB). destruct (RF angles B V HB) as (x & FB & LX & OR).
  destruct (OV angles FG) as (idx & BR & LI & VI & ORD). cbv zeta in VI, ORD.
  set (N := List.length angles) in *. set (vv := fun m => f (phase d lam u (nth m angles 0%R))) in *.
  pose proof (order_valleys N vv x LX OR) as LM.
  exists x, idx, (fun y => f (phase d lam u y)), F.
  split; [intros o; apply HF|]. split; [exact BR|]. split; [exact HO|]. split; [exact G1|]. split.
  { intros ax VA. rewrite G1 in *. cbn [sg_unit] in *. rewrite T1. destruct (ula_grid_atoms v n d lam u ax DFloat (Rgt_not_eq _ _ Hl) PL Pe Iso DT Hn K VA) as (B' & EB' & HB'). destruct (RF ax B' VA HB') as (x' & FB' & LX' & OR').
    exists B', x'. split; [exact EB'|]. split; [exact FB'|]. split; [exact LX'|exact OR']. }
  intros o Hr.
  assert (HSh : sg_shape (e_grid e) = [N]) by (rewrite G1; reflexivity). assert (SL : StronglySorted lt idx) by apply (dips_brackets _ _ _ _ _ BR).
  assert (IB : forall i, In i idx -> i < N). { intros i Ii. destruct (VI i Ii) as (l & r & a1 & a2 & -> & _). assert (Nat.div (l + r) 2 <= r) by (apply Nat.div_le_upper_bound; lia). lia. }
  assert (ND : NoDup idx). { clear - SL. induction SL as [|i l S IH F]; constructor; [|exact IH]. intros I. rewrite Forall_forall in F. specialize (F i I). lia. }
  assert (PK : forall p, In p (e_pf e (sg_shape (e_grid e)) x) <-> exists i, p = [i] /\ valley N vv i).
  { intros p. rewrite F1, HSh. unfold find_peaks_simple. cbn [List.length Nat.eqb]. rewrite in_map_iff. split; intros (i & a & b).
    - exists i. split; [now symmetry|]. apply LM. now apply FP.
    - exists i. split; [now symmetry|]. apply FP. now apply LM. }
  assert (AT : forall i, at_idx [N] x [i] = nth i x 0%R) by (intros i; unfold at_idx; cbn [ravel prod_list fold_right]; now rewrite !Nat.mul_1_r, !Nat.add_0_r).
  assert (VN : forall i, valley N vv i -> i < N). { intros i (l & r & a1 & a2 & -> & _). assert (Nat.div (l + r) 2 <= r) by (apply Nat.div_le_upper_bound; lia). lia. }
  destruct (peak_recovery e h F B x (map (fun i => [i]) idx) o) as (est & chosen & e' & h' & R1 & R2 & R3 & R4).
  - exact HO.
  - rewrite T1, G1. exact EB.
  - exact FB.
  - rewrite LX. unfold sg_size. rewrite HSh. cbn. lia.
  - rewrite map_length. lia.
  - apply NoDup_map_in; [exact ND|]. intros a b _ _ X. congruence.
  - intros p Ip. apply in_map_iff in Ip as (i & <- & Ii). apply PK. exists i. split; [reflexivity|now apply VI].
  - intros p q Ip Iq Nq. apply in_map_iff in Ip as (i & <- & Ii). apply PK in Iq as (j & -> & Vj). rewrite HSh, !AT. apply OR; [now apply VN|now apply IB|]. apply ORD; [exact Ii|exact Vj|]. intros Ij. apply Nq, in_map_iff. eauto.
  - intros p Ip. apply PK in Ip as (i & -> & Vi). rewrite HSh. cbn. split; [now apply VN|exact I].
  - rewrite F1, HSh. unfold find_peaks_simple. cbn [List.length Nat.eqb]. apply NoDup_map_in; [apply FP|]. intros a b _ _ X. congruence.
  - intros y. rewrite S1. apply AS.
  - exact Hr.
  - rewrite map_length, LI in R1. exists est, e', h'. split; [exact R1|]. rewrite R4.
    assert (CE : chosen = map (fun i => [i]) idx).
    { assert (X : map (ravel [N]) chosen = idx).
      { apply sorted_perm_eq; [|rewrite <- HSh; exact R3 | ]. { rewrite (Permutation_map _ R2). rewrite map_map. rewrite (map_ext _ (fun i => i)); [now rewrite map_id|]. intros i. cbn. lia. }
        clear - SL. induction SL as [|i l S IH F]; constructor; [exact IH|]. rewrite Forall_forall in *. intros j Ij. specialize (F j Ij). lia. }
      rewrite <- X, map_map. rewrite <- (map_id chosen) at 1. apply map_ext_in. intros p Ip. apply (Permutation_in _ R2) in Ip. apply in_map_iff in Ip as (i & <- & _). cbn. f_equal. lia. }
    rewrite CE. unfold at_positions. rewrite !map_map. apply map_ext. intros i. rewrite G1. reflexivity.
Qed.
Lemma forall2_nth {A B} (P : A -> B -> Prop) l l' da db : List.length l = List.length l' -> (forall i, i < List.length l -> P (nth i l da) (nth i l' db)) -> Forall2 P l l'.
Proof.
  revert l'; induction l as [|a l IH]; intros [|b l'] L H; cbn [List.length] in L; try discriminate; constructor; [exact (H 0 ltac:(cbn; lia))|]. apply IH; [lia|]. intros i Hi. exact (H (S i) ltac:(cbn; lia)).
Qed.
Lemma forall2_at {A B} (P : A -> B -> Prop) l l' da db : Forall2 P l l' -> forall i, i < List.length l' -> P (nth i l da) (nth i l' db).
Proof. induction 1 as [|a b l l' Q F IH]; intros [|i] Hi; cbn [List.length nth] in *; try lia; [exact Q|apply IH; lia]. Qed.
Lemma ss_between (angles : list R) (idx : list nat) (q : list R) : StronglySorted Rlt angles -> StronglySorted (fun i j => S i < j) idx ->
  Forall2 (fun i x => 0 < i /\ S i < List.length angles /\ (nth (i - 1)%nat angles 0 <= x <= nth (S i) angles 0)%R) idx q -> ascending q.
Proof.
  intros SS SI F. unfold ascending. revert SI. induction F as [|i x idx q (p1 & p2 & p3) F IH]; intros SI; constructor; inversion SI as [|? ? S1 S2]; subst; [now apply IH|].
  apply Forall_forall. intros y Iy. assert (X : exists j, In j idx /\ 0 < j /\ S j < List.length angles /\ (nth (j - 1) angles 0%R <= y)%R).
  { clear - F Iy. induction F as [|j x' l q Q F IH]; [destruct Iy|]. destruct Iy as [<-|Iy]; [exists j; split; [now left|tauto]|destruct (IH Iy) as (j' & J & Q'); exists j'; split; [now right|exact Q']]. }
  destruct X as (j & Ij & j1 & j2 & j3). rewrite Forall_forall in S2. specialize (S2 j Ij). apply Rle_trans with (nth (S i) angles 0%R); [apply p3|]. eapply Rle_trans; [|exact j3].
  destruct (Nat.eq_dec (j - 1) (S i)) as [->|NE]; [lra|]. left. apply (ss_nth angles SS). lia.
Qed.
Lemma scan_both run n d lam u doas lo hi step tol (Rm : cmat) f : (0 < lam)%R -> known_unit u -> valid_angle u lo -> valid_angle u hi -> 0 < n -> 1 <= List.length doas -> forwards run ->
  scans run n d lam u (List.length doas) Rm f -> one_valley_each d lam u doas lo hi step tol f -> both_run run n d lam u doas lo hi step tol Rm.
Proof.
  intros Hl K VL VH Hn Hk FW SC OV. split.
  - intros v fp asort angles dt c h0 e0 h1 e h o PL Pe Iso DT NE FP AS FG HR Hr.
    destruct (scan_core run n d lam u doas lo hi step tol Rm f Hl K VL VH Hn Hk FW SC OV v fp asort angles dt c h0 e0 h1 e h PL Pe Iso DT NE FP AS FG HR) as (x & idx & V & F & HM & HD & _ & _ & _ & HE).
    destruct (HE o Hr) as (est & e' & h' & E1 & E2). exists x, est, e', h', idx. split; [rewrite HM; exact E1|]. split; [exact E2|]. exact (dips_brackets _ _ _ _ _ HD).
  - intros HT v fp asort angles c h0 e0 h1 e h rs density ni PL Pe Iso DT NE FP AS FG HR Hd Hi.
    destruct (scan_core run n d lam u doas lo hi step tol Rm f Hl K VL VH Hn Hk FW SC OV v fp asort angles DFloat c h0 e0 h1 e h PL Pe Iso DT NE FP AS FG HR) as (x & idx & V & F & HM & HD & HO & G1 & RK & HE).
    destruct (HE (Opts rs false density ni) eq_refl) as (est0 & e' & hh & E1 & E2). cbn [o_spectrum] in E1.
    destruct FG as (_ & SS & _ & _ & _ & GP).
    destruct (refined_converges e h F V _ density ni rs est0 _ e' hh u angles HO G1 SS RK Hd Hi E1) as (est & h' & R1 & R2 & R3). rewrite E2, map_length in R2, R3. unfold at_positions in R2, R3. rewrite map_length in R2, R3.
    assert (LB : List.length (buf h' est) = List.length idx) by exact R2.
    destruct HD as (SI & s & PS & Ass & FD). set (r := map (fun p => nth 0 p 0%R) (buf h' est)).
    assert (LS : List.length s = List.length idx) by exact (F2_len _ _ _ FD). assert (LR : List.length r = List.length idx) by (unfold r; now rewrite map_length).
    assert (Q : forall i, i < List.length idx -> nth_error (buf h' est) i = Some [nth i r 0%R] /\ 0 < nth i idx 0 /\ S (nth i idx 0) < List.length angles /\
      (nth (nth i idx 0%nat - 1)%nat angles 0 <= nth i r 0 <= nth (S (nth i idx 0%nat)) angles 0)%R /\ (Rabs (nth i r 0 - nth i s 0) <= step / IZR density ^ ni + tol)%R).
    { intros i Hi'. destruct (R3 i Hi') as (q & Q1 & Q2). assert (EQ : nth i r 0%R = q). { unfold r. etransitivity; [exact (map_nth (fun p => nth 0 p 0%R) (buf h' est) [] i)|]. rewrite (nth_error_nth _ _ _ Q1). reflexivity. }
      rewrite EQ. split; [exact Q1|]. destruct (forall2_at _ _ _ 0%R 0 FD i Hi') as (d1 & d2 & d3). split; [exact d1|]. split; [exact d2|].
      destruct (Q2 (nth i idx 0) (nth i s 0%R) tol) as (X1 & X2); try assumption.
      - unfold at_positions. rewrite (nth_error_nth' _ []) by (now rewrite !map_length). f_equal. rewrite map_map. rewrite (nth_indep _ [] ((fun j => [nth j angles 0%R]) 0)) by (now rewrite map_length). apply (map_nth (fun j => [nth j angles 0%R])).
      - split; [exact X1|]. eapply Rle_trans; [exact X2|]. apply Rplus_le_compat_r. set (i0 := nth i idx 0) in *. pose proof (GP (i0 - 1) ltac:(lia)) as g1. replace (S (i0 - 1)) with i0 in g1 by lia. pose proof (GP i0 d2) as g2.
        assert (P0 : (0 < IZR density ^ ni)%R) by (apply pow_lt, IZR_lt; lia). apply (Rmult_le_reg_r (2 * IZR density ^ ni)%R); [lra|]. unfold Rdiv. rewrite Rmult_assoc, Rinv_l by lra. replace (step * / IZR density ^ ni * (2 * IZR density ^ ni))%R with (2 * step)%R by (field; lra). lra. }
    assert (LE : List.length (buf h' est) = List.length r) by congruence.
    exists x, est, e', h', r. split; [rewrite HM; exact R1|]. split.
    + apply (nth_ext _ _ [] []); [now rewrite map_length|]. intros i Hi'. rewrite LE in Hi'. rewrite (nth_indep (map (fun a => [a]) r) [] [0%R]) by (now rewrite map_length). rewrite (map_nth (fun a => [a])).
      destruct (Q i ltac:(lia)) as (Q1 & _). exact (nth_error_nth _ _ _ Q1).
    + intros t Ht. split.
      * apply (ss_between angles idx r SS SI). apply (forall2_nth _ _ _ 0 0%R); [now symmetry|]. intros i Hi'. destruct (Q i Hi') as (_ & q1 & q2 & q3 & _). split; [exact q1|]. split; [exact q2|exact q3].
      * exists s. split; [exact PS|]. split; [exact Ass|]. apply (forall2_nth _ _ _ 0%R 0%R); [congruence|]. intros i Hi'. destruct (Q i ltac:(lia)) as (_ & _ & _ & _ & q4). rewrite Rabs_minus_sym. lra.
Qed.

