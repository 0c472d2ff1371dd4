(** SparseCovarianceMatching.estimate and GroupSparseEstimator.estimate *)
From Verif Require Import Base_Np Base_Mem M_utils P_utils M_sources M_array S_array P_array P_array2 M_grid S_grid P_grid M_coarray M_core P_core P_core2 M_sparse S_sparse P_sparse P_sparse2.
Open Scope nat_scope.

Lemma mk_l1_known cv m k f nn p : mk_l1 cv m k f nn = Ok p -> cv = true /\ known_formulation f /\ l1_m p = m /\ l1_k p = k /\ l1_x p = None.
Proof.
  unfold mk_l1. destruct cv; cbn [negb bind]; [|discriminate]. intros H. unfold known_formulation.
  destruct (String.eqb_spec f "penalizedl1") as [->|]; [injection H as <-; auto 6|]. destruct (String.eqb_spec f "constrainedl1") as [->|]; [injection H as <-; auto 7|]. destruct (String.eqb_spec f "constrainedl2") as [->|]; [injection H as <-; auto 7 | discriminate].
Qed.
Lemma mk_l1_ok m k f nn : known_formulation f -> exists p, mk_l1 true m k f nn = Ok p.
Proof. intros [->|[->| ->]]; eexists; reflexivity. Qed.
Lemma l1_after sv m k f nn p0 p A b l : mk_l1 true m k f nn = Ok p0 -> same_prob p p0 -> nr A = m -> nc A = k -> nr b = m -> nc b = 1 -> (0 <= l)%R ->
  (forall x, minimises k 1 (l1_instance p A b l) x <-> doc_solution f nn A b l x) /\
  forall o, fst (l1_solve sv p A b l o) = l1_answer k (sv (l1_instance p A b l) (l1_x p) o).
Proof.
  intros H0 SP A1 A2 B1 B2 Hl. destruct (mk_l1_known _ _ _ _ _ _ H0) as (_ & HF & M1 & M2 & _). split.
  - intros x. rewrite (doc_ext p p0 _ _ _ SP). rewrite <- A2 in *. apply (l1_equiv f nn A b l p0 m x HF H0).
  - intros o. destruct SP as (S1 & S2 & _). rewrite l1_solve_ok by congruence. rewrite S2, M2. reflexivity.
Qed.

Lemma estimate_from_ext {T} (e1 e2 : estimator T) A1 A2 h sp k o : e_grid e1 = e_grid e2 -> e_pl e1 = e_pl e2 -> e_pf e1 = e_pf e2 -> e_argsort e1 = e_argsort e2 -> o_refine o = false ->
  estimate_from e1 A1 h (fun _ => sp) k o = estimate_from e2 A2 h (fun _ => sp) k o.
Proof. intros E1 E2 E3 E4 O. unfold estimate_from. rewrite E1, E2, E3, E4, O. reflexivity. Qed.

Lemma firstn_map_seq {T} (f : nat -> T) n m : m <= n -> firstn m (map f (seq 0 n)) = map f (seq 0 m).
Proof. intros H. rewrite firstn_map. f_equal. replace n with (m + (n - m)) by lia. rewrite seq_app, firstn_app, seq_length, Nat.sub_diag. cbn [firstn]. rewrite app_nil_r, firstn_all2; [reflexivity | rewrite seq_length; lia]. Qed.

(** the part of estimate before the atom matrix is needed: X is the matrix used in place of R *)
Definition pre_ok (arr : array) (nk : bool) (m : mem) (Rv : view) (sigma : option R) (X : cmat) : Prop :=
  exists m1 Rv1, (if nk then match sigma with None => Raise ValueError | Some s => let! D := np_sub (v_read m Rv) (mscal (RtoC s) (mid (ar_size arr))) in Ok (m_alloc m D) end else Ok (m, Rv)) = Ok (m1, Rv1) /\
    (forall v, v_buf v < m_next m -> v_read m1 v = v_read m v) /\ v_read m1 Rv1 ==m X.
Lemma pre_square arr nk m Rv sigma s : v_nr Rv = ar_size arr -> v_nc Rv = ar_size arr -> (nk = true -> sigma = Some s) -> pre_ok arr nk m Rv sigma (denoised nk s (v_read m Rv)).
Proof.
  intros V1 V2 HS. destruct nk.
  - unfold pre_ok. rewrite (HS eq_refl). destruct (np_sub_square (v_read m Rv) s (ar_size arr) V1 V2) as (D & E & DE). rewrite E. cbn [bind]. exists (fst (m_alloc m D)), (snd (m_alloc m D)). split; [reflexivity|]. split; [intros; now apply read_alloc_old|]. transitivity D; [apply read_alloc | exact DE].
  - exists m, Rv. split; [reflexivity|]. split; [reflexivity|]. split; [reflexivity|]. split; [reflexivity|]. intros i j _ _. cbn [denoised ent]. ring.
Qed.
Lemma pre_column arr m Rv s : v_nr Rv = ar_size arr -> v_nc Rv = 1 -> pre_ok arr true m Rv (Some s) (denoised true s (repeat_column (ar_size arr) (v_read m Rv))).
Proof.
  intros V1 V2. unfold pre_ok, np_sub, bdim. cbn [mscal mid v_read nr nc]. rewrite V1, V2, Nat.eqb_refl.
  destruct (Nat.eqb 1 (ar_size arr)) eqn:E1; [apply Nat.eqb_eq in E1; rewrite <- E1 | cbn [Nat.eqb]]; cbn [bind].
  all: (eexists; eexists; split; [reflexivity|]; split; [intros; now apply read_alloc_old|]; etransitivity; [apply read_alloc|]).
  - split; [cbn; lia|]. split; [reflexivity|]. cbn [nr nc]. intros i j Hi Hj. assert (i = 0) as -> by lia. assert (j = 0) as -> by lia. cbn [denoised repeat_column ent v_read bidx Nat.eqb mscal mid]. rewrite Cmult_1_r. reflexivity.
  - split; [cbn; lia|]. split; [reflexivity|]. cbn [nr nc]. intros i j Hi Hj. unfold bidx. rewrite Nat.eqb_sym in E1. rewrite E1. cbn [denoised repeat_column ent v_read Nat.eqb mscal mid]. destruct (Nat.eqb i j); ring.
Qed.
Lemma scm_estimate_gen sv arr lam g pl pf argsort caching nk f c0 c A h m Rv k l sigma (X : cmat) o rs :
  grid_steering arr lam g A -> mk_scm true arr lam g pl pf argsort caching nk f = Ok c0 -> scm_reach sv c0 c ->
  v_nr Rv = ar_size arr -> nr X = ar_size arr -> nc X = ar_size arr -> (0 <= l)%R -> pre_ok arr nk m Rv sigma X ->
  exists Phi r pr w, is_dictionary A nk Phi /\ nr Phi = 2 * (ar_size arr * ar_size arr) /\ nc Phi = (if nk then sg_size g else sg_size g + 1) /\
    stacks r X /\ (forall x, minimises (nc Phi) 1 pr x <-> doc_solution f true Phi r l x) /\
    let '(rr, c', h', m') := scm_estimate sv c h m Rv k l sigma o (Skw None rs) in
    (forall v, v_buf v < m_next m -> v_read m' v = v_read m v) /\
    match sv pr w o with
    | Raise e => rr = Raise e /\ h' = h
    | Ok (st, x) => (st = "optimal"%string -> nr x = nc Phi /\ nc x = 1) ->
        exists sp, List.length sp = sg_size g /\
          (st = "optimal"%string -> sp = map (fun i => ent x i 0) (seq 0 (sg_size g))) /\
          (st <> "optimal"%string -> sp = repeat 0%R (sg_size g)) /\
          (rr, h') = from_spectrum g pl pf argsort h sp k rs
    end.
Proof.
  intros HG H0 HR V1 V2 V3 Hl PRE. destruct (dictionary_ok arr lam g A nk HG) as (A1 & A2 & Phi & EP & ID).
  unfold mk_scm in H0. apply bind_Ok_inv in H0 as (p0 & HP & H0). injection H0 as <-. set (est0 := Est g pl (scm_atom arr lam nk) pf argsort caching None) in *.
  destruct (scm_reach_inv sv (Scm arr nk est0 p0) c eq_refl HR) as (C1 & C2 & C3 & C4). cbn [sc_array sc_known sc_est sc_prob] in *.
  destruct (get_atom_ok est0 (sc_est c) eq_refl C3) as (G1 & G2). cbn [est0 e_atom e_grid] in G1. rewrite EP in G1. pose proof (cache_ok_fields _ _ G2) as (F1 & F2 & F3 & F4). cbn [est0 e_grid e_pl e_pf e_argsort] in F1, F2, F3, F4.
  pose proof ID as (D1 & D2 & _). rewrite A1 in D1. rewrite A2 in D2.
  assert (EC : ensure_covariance_size [v_nr Rv; v_nc Rv] (ar_size arr) = Ok tt) by (unfold ensure_covariance_size; cbn [List.length nth Nat.eqb negb bind]; rewrite V1, Nat.eqb_refl; reflexivity).
  destruct PRE as (m1 & Rv1 & PE & FR & RD).
  destruct (scm_vector_ok (v_read m1 Rv1)) as (r & ER & SR). pose proof (stacks_ext _ _ _ RD SR) as SD.
  assert (R1 : nr r = 2 * (ar_size arr * ar_size arr)) by (destruct SD as (-> & _); rewrite V2, V3; reflexivity). assert (R2 : nc r = 1) by apply SD.
  destruct (l1_after sv _ _ f true p0 (sc_prob c) Phi r l HP C4 D1 D2 R1 R2 Hl) as (MIN & SOL).
  exists Phi, r, (l1_instance (sc_prob c) Phi r l), (l1_x (sc_prob c)). split; [exact ID|]. split; [exact D1|]. split; [exact D2|]. split; [exact SD|]. split; [rewrite D2; exact MIN|].
  unfold scm_estimate. cbn [kw_refine kw_spectrum]. rewrite C1, C2, EC. cbn [bind]. rewrite PE. destruct (get_atom_matrix (sc_est c) None) as (ga, est). cbn [fst snd] in *. rewrite G1.
  unfold scm_spectrum. rewrite ER. specialize (SOL o). destruct (l1_solve sv (sc_prob c) Phi r l o) as (v, p). cbn [fst] in SOL. subst v.
  destruct (sv _ _ _) as [(st, x)|x]; cbn [l1_answer bind].
  2:{ rewrite do_estimate_from_pure, from_raise. split; [exact FR|]. split; reflexivity. }
  set (sp := (if nk then _ else _) : list R).
  assert (SP : (st = "optimal"%string -> nr x = nc Phi /\ nc x = 1) -> List.length sp = sg_size g /\ (st = "optimal"%string -> sp = map (fun i => ent x i 0) (seq 0 (sg_size g))) /\ (st <> "optimal"%string -> sp = repeat 0%R (sg_size g))).
  { intros HX. unfold sp. destruct (String.eqb_spec st "optimal") as [Eo|No].
    - destruct (HX Eo) as (X1 & X2). assert (Q : (if nk then flatC x else firstn (List.length (flatC x) - 1) (flatC x)) = map (fun i => ent x i 0) (seq 0 (sg_size g))).
      { rewrite (flatC_column x X2), X1, D2, map_length, seq_length. destruct nk; [reflexivity|]. replace (sg_size g + 1 - 1) with (sg_size g) by lia. apply firstn_map_seq. lia. }
      rewrite Q. split; [now rewrite map_length, seq_length|]. split; [reflexivity | congruence].
    - assert (Q : (if nk then repeat 0%R (if nk then sg_size g else sg_size g + 1) else firstn (List.length (repeat 0%R (if nk then sg_size g else sg_size g + 1)) - 1) (repeat 0%R (if nk then sg_size g else sg_size g + 1))) = repeat 0%R (sg_size g)).
      { destruct nk; [reflexivity|]. rewrite repeat_length. replace (sg_size g + 1 - 1) with (sg_size g) by lia. apply firstn_repeat. lia. }
      rewrite Q. split; [apply repeat_length|]. split; [congruence | reflexivity]. }
  pose proof (from_spectrum_eq est Phi h sp k rs) as FS. rewrite F1, F2, F3, F4 in FS.
  rewrite do_estimate_from_pure. destruct (estimate_from est Phi h (fun _ => Ok sp) k (Opts rs false 10 3)) as [(oc, h')|x']; (split; [exact FR|]); intros HX; exists sp; destruct (SP HX) as (P1 & P2 & P3); auto.
Qed.
Lemma scm_estimate_ok sv arr lam g pl pf argsort caching nk f c0 c A h m Rv k l sigma s o rs :
  grid_steering arr lam g A -> mk_scm true arr lam g pl pf argsort caching nk f = Ok c0 -> scm_reach sv c0 c ->
  v_nr Rv = ar_size arr -> v_nc Rv = ar_size arr -> (0 <= l)%R -> (nk = true -> sigma = Some s) ->
  exists Phi r pr w, is_dictionary A nk Phi /\ nr Phi = 2 * (ar_size arr * ar_size arr) /\ nc Phi = (if nk then sg_size g else sg_size g + 1) /\
    stacks r (denoised nk s (v_read m Rv)) /\ (forall x, minimises (nc Phi) 1 pr x <-> doc_solution f true Phi r l x) /\
    let '(rr, c', h', m') := scm_estimate sv c h m Rv k l sigma o (Skw None rs) in
    (forall v, v_buf v < m_next m -> v_read m' v = v_read m v) /\
    match sv pr w o with
    | Raise e => rr = Raise e /\ h' = h
    | Ok (st, x) => (st = "optimal"%string -> nr x = nc Phi /\ nc x = 1) ->
        exists sp, List.length sp = sg_size g /\
          (st = "optimal"%string -> sp = map (fun i => ent x i 0) (seq 0 (sg_size g))) /\
          (st <> "optimal"%string -> sp = repeat 0%R (sg_size g)) /\
          (rr, h') = from_spectrum g pl pf argsort h sp k rs
    end.
Proof.
  intros HG H0 HR V1 V2 Hl HS. apply (scm_estimate_gen sv arr lam g pl pf argsort caching nk f c0 c A h m Rv k l sigma (denoised nk s (v_read m Rv)) o rs HG H0 HR V1 V1 V2 Hl). apply pre_square; assumption.
Qed.

Definition same_prob21 (p q : l21prob) : Prop := l2_m p = l2_m q /\ l2_k p = l2_k q /\ l2_n p = l2_n q /\ l2_complex p = l2_complex q.
Lemma l21_solve_same sv p A B l o : same_prob21 (snd (l21_solve sv p A B l o)) p.
Proof. unfold l21_solve. match goal with |- context [match ?e with Ok _ => _ | Raise _ => _ end] => destruct e as [(st, X)|] end; now repeat split. Qed.
Lemma after_same21 sv calls : forall p, same_prob21 (after_solves21 sv p calls) p.
Proof.
  induction calls as [|[[[A b] l] o] calls IH]; intros p; cbn [after_solves21]; [now repeat split|]. destruct (IH (snd (l21_solve sv p A b l o))) as (I1 & I2 & I3 & I4). destruct (l21_solve_same sv p A b l o) as (J1 & J2 & J3 & J4). repeat split; congruence.
Qed.
Lemma l21_solve_ok sv p A B l o : nr A = l2_m p -> nc A = l2_k p -> nr B = l2_m p -> nc B = l2_n p -> (0 <= l)%R ->
  (l2_complex p = false -> all_real A = true /\ all_real B = true) ->
  fst (l21_solve sv p A B l o) = l21_answer (l2_k p) (l2_n p) (sv (l21_instance (l2_complex p) A B l) (l2_x p) o).
Proof.
  intros A1 A2 B1 B2 Hl HC. unfold l21_solve, check_param, check_shape. rewrite A1, A2, B1, B2, !Nat.eqb_refl. cbn [andb bind]. unfold check_nonneg. destruct (Rle_dec 0 l); [|contradiction].
  destruct (l2_complex p) eqn:E; [|destruct (HC eq_refl) as (-> & ->)]; cbn [orb bind]; destruct (sv _ _ _) as [[st x]|]; reflexivity.
Qed.
Lemma gs_reach_inv sv c0 c : e_cache (gs_est c0) = None -> gs_reach sv c0 c -> gs_array c = gs_array c0 /\ gs_n c = gs_n c0 /\ cache_ok (gs_est c0) (gs_est c) /\ same_prob21 (gs_prob c) (gs_prob c0).
Proof.
  intros N H. induction H as [|c h Y k l o kw H (I1 & I2 & I3 & I4)]; [repeat split; left; auto|].
  unfold gs_estimate. destruct (kw_refine kw); [cbn [fst snd]; auto|]. destruct (negb _); [cbn [fst snd]; auto|]. destruct (negb _); [cbn [fst snd]; auto|].
  destruct (get_atom_ok _ _ N I3) as (G1 & G2). destruct (get_atom_matrix (gs_est c) None) as [[Phi|] est]; cbn [fst snd] in *; [|cbn [gs_array gs_n gs_est gs_prob]; auto].
  unfold gs_spectrum. pose proof (l21_solve_same sv (gs_prob c) Phi Y l o) as SS. destruct (l21_solve sv (gs_prob c) Phi Y l o) as (v, p). cbn [snd] in SS.
  assert (SP : same_prob21 p (gs_prob c0)) by (destruct SS as (S1 & S2 & S3 & S4), I4 as (T1 & T2 & T3 & T4); repeat split; congruence).
  rewrite do_estimate_from_pure. destruct (estimate_from _ _ _ _ _ _) as [(oc, h')|]; cbn [fst snd gs_array gs_n gs_est gs_prob]; auto.
Qed.
Lemma sqrt_zeros n : sqrt (rsum n (fun _ => Cnorm2 (RtoC 0))) = 0%R.
Proof. replace (rsum n (fun _ => Cnorm2 (RtoC 0))) with 0%R; [apply sqrt_0|]. symmetry. induction n as [|n IH]; cbn [rsum]; [reflexivity|]. rewrite IH. unfold Cnorm2, RtoC, Re, Im. cbn [fst snd]. ring. Qed.
Lemma map_const_seq {T} (a : T) n : forall s, map (fun _ => a) (seq s n) = repeat a n.
Proof. induction n as [|n IH]; intros s; cbn; [reflexivity|]. now rewrite IH. Qed.
Lemma gs_estimate_ok sv arr lam g pl pf argsort caching n c0 c A h Y k l o rs :
  grid_steering arr lam g A -> mk_gsparse true arr lam g pl pf argsort caching n = Ok c0 -> gs_reach sv c0 c ->
  nr Y = ar_size arr -> nc Y = n -> (0 <= l)%R ->
  exists pr w, (forall X, minimises (sg_size g) n pr X <-> doc_solution21 true A Y l X) /\
    let '(rr, c', h') := gs_estimate sv c h Y k l o (Skw None rs) in
    match sv pr w o with
    | Raise e => rr = Raise e /\ h' = h
    | Ok (st, X) => (st = "optimal"%string -> nr X = sg_size g) ->
        exists sp, List.length sp = sg_size g /\
          (st = "optimal"%string -> sp = map (fun i => sqrt (rsum (nc X) (fun j => Cnorm2 (ent X i j)))) (seq 0 (sg_size g))) /\
          (st <> "optimal"%string -> sp = repeat 0%R (sg_size g)) /\
          (rr, h') = from_spectrum g pl pf argsort h sp k rs
    end.
Proof.
  intros HG H0 HR Y1 Y2 Hl. destruct (dictionary_ok arr lam g A false HG) as (A1 & A2 & _). destruct HG as (_ & _ & _ & s & DA & HS & HA).
  unfold mk_gsparse, mk_l21 in H0. cbn [negb bind] in H0. injection H0 as <-. set (est0 := Est g pl (default_atom arr lam) pf argsort caching None) in *.
  destruct (gs_reach_inv sv (GSparse arr n est0 (L21Prob (ar_size arr) (sg_size g) n true None)) c eq_refl HR) as (C1 & C2 & C3 & C4). cbn [gs_array gs_n gs_est gs_prob] in *.
  destruct (get_atom_ok est0 (gs_est c) eq_refl C3) as (G1 & G2). cbn [est0 e_atom e_grid] in G1. unfold default_atom in G1. rewrite HS in G1. cbn [bind] in G1. rewrite HA in G1. cbn [bind] in G1. pose proof (cache_ok_fields _ _ G2) as (F1 & F2 & F3 & F4). cbn [est0 e_grid e_pl e_pf e_argsort] in F1, F2, F3, F4.
  destruct C4 as (P1 & P2 & P3 & P4). cbn [l2_m l2_k l2_n l2_complex] in *.
  exists (l21_instance true A Y l), (l2_x (gs_prob c)). split; [intros X; rewrite <- A2, <- Y2; apply l21_equiv; congruence|].
  unfold gs_estimate. cbn [kw_refine kw_spectrum]. rewrite C1, C2, Y1, Y2, !Nat.eqb_refl. cbn [negb]. destruct (get_atom_matrix (gs_est c) None) as (ga, est). cbn [fst snd] in *. rewrite G1.
  unfold gs_spectrum. pose proof (l21_solve_ok sv (gs_prob c) A Y l o) as SOL. rewrite P1, P2, P3, P4 in SOL. specialize (SOL A1 A2 Y1 Y2 Hl ltac:(discriminate)). destruct (l21_solve sv (gs_prob c) A Y l o) as (v, p). cbn [fst] in SOL. subst v.
  destruct (sv _ _ _) as [(st, X)|x]; cbn [l21_answer bind].
  2:{ rewrite do_estimate_from_pure, from_raise. split; reflexivity. }
  set (sp := map _ _ : list R).
  assert (SP : (st = "optimal"%string -> nr X = sg_size g) -> List.length sp = sg_size g /\ (st = "optimal"%string -> sp = map (fun i => sqrt (rsum (nc X) (fun j => Cnorm2 (ent X i j)))) (seq 0 (sg_size g))) /\ (st <> "optimal"%string -> sp = repeat 0%R (sg_size g))).
  { intros HX. unfold sp. rewrite map_length, seq_length. destruct (String.eqb_spec st "optimal") as [Eo|No].
    - rewrite (HX Eo). split; [reflexivity|]. split; [reflexivity | congruence].
    - cbn [nr nc ent]. split; [reflexivity|]. split; [congruence|]. intros _. rewrite (map_ext _ (fun _ => 0%R)) by (intros; apply sqrt_zeros). apply map_const_seq. }
  pose proof (from_spectrum_eq est A h sp k rs) as FS. rewrite F1, F2, F3, F4 in FS.
  rewrite do_estimate_from_pure. destruct (estimate_from est A h (fun _ => Ok sp) k (Opts rs false 10 3)) as [(oc, h')|x']; intros HX; exists sp; destruct (SP HX) as (Q1 & Q2 & Q3); auto.
Qed.
