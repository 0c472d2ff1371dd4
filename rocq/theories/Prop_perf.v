(** Properties of the performance bounds (C68, C69, C70). *)
From Verif Require Import Base_Np Base_Lin Base_Trig M_utils P_utils S_utils M_sources M_array S_array S_model S_subspace P_array P_array2 P_subspace2 P_subspace3 P_subspace4 P_subspace5 M_core M_perf S_perf P_gauss P_perf P_perf2.
Open Scope C_scope.

(** ** C68: the source powers
    What a power argument denotes for k sources: a matrix.  A flat list or 1-D array of length k is a diagonal, a k x k array is itself. *)
Inductive denotes (k : nat) : parg -> (nat -> nat -> C) -> Prop :=
  | den_scalar x : denotes k (PScalar x) (fun i j => if Nat.eqb i j then RtoC x else RtoC 0)
  | den_list l : List.length l = k -> denotes k (PList (Nd [k] l)) (fun i j => if Nat.eqb i j then nth i l (RtoC 0) else RtoC 0)
  | den_vector l : List.length l = k -> denotes k (PArr (Nd [k] l)) (fun i j => if Nat.eqb i j then nth i l (RtoC 0) else RtoC 0)
  | den_matrix l : List.length l = (k * k)%nat -> denotes k (PArr (Nd [k; k] l)) (fun i j => nth (i * k + j) l (RtoC 0)).
(** arrays and lists that exist: the data fill the shape, a list is at least one-dimensional and not nested *)
Definition flat_parg (p : parg) : Prop := match p with PScalar _ => True | PList a => nd_wf a /\ List.length (nd_shape a) = 1%nat | PArr a => nd_wf a end.

Lemma flat_map_len {A B} (f : A -> list B) n l : (forall x, List.length (f x) = n) -> List.length (flat_map f l) = (List.length l * n)%nat.
Proof. intros H. induction l as [|a l IH]; [reflexivity|]. cbn [flat_map List.length]. rewrite app_length, H, IH. lia. Qed.
Lemma flatC_nth {T} (x : mat T) i j d : (i < nr x)%nat -> (j < nc x)%nat -> nth (i * nc x + j) (flatC x) d = ent x i j.
Proof.
  intros Hi Hj. unfold flatC. assert (G : forall a n, (i < n)%nat -> nth (i * nc x + j) (flat_map (fun i => map (fun j => ent x i j) (seq 0 (nc x))) (seq a n)) d = ent x (a + i) j).
  { clear Hi. induction i as [|i IH]; intros a n Hn; (destruct n as [|n]; [lia|]); cbn [seq flat_map].
    - rewrite app_nth1 by (rewrite map_length, seq_length; lia). rewrite nth_map_seq by lia. cbn [Nat.mul Nat.add]. now rewrite Nat.add_0_r.
    - rewrite app_nth2 by (rewrite map_length, seq_length; cbn [Nat.mul]; lia). rewrite map_length, seq_length. replace (S i * nc x + j - nc x)%nat with (i * nc x + j)%nat by (cbn [Nat.mul]; lia). rewrite IH by lia. f_equal. lia. }
  rewrite (G 0%nat (nr x) Hi). reflexivity.
Qed.
Lemma flatC_mdiag k f i j : (i < k)%nat -> (j < k)%nat -> nth (i * k + j) (flatC (mdiag k f)) (RtoC 0) = if Nat.eqb i j then f i else RtoC 0.
Proof. intros Hi Hj. exact (flatC_nth (mdiag k f) i j (RtoC 0) Hi Hj). Qed.
Lemma flatC_len {T} (x : mat T) : List.length (flatC x) = (nr x * nc x)%nat.
Proof. unfold flatC. rewrite (flat_map_len _ (nc x)) by (intros; rewrite map_length, seq_length; reflexivity). now rewrite seq_length. Qed.

(** both conversions of an admissible argument succeed with a k x k matrix and a length-k vector; the matrix is the one denoted, the vector is its diagonal *)
Theorem C68_agree : forall p k P, denotes k p P -> exists M v, unify_p_to_matrix p k = Ok M /\ unify_p_to_vector p k = Ok v /\
  nd_shape M = [k; k] /\ nd_wf M /\ nd_shape v = [k] /\ nd_wf v /\
  (forall i j, (i < k)%nat -> (j < k)%nat -> nth (i * k + j) (nd_data M) (RtoC 0) = P i j) /\
  (forall i, (i < k)%nat -> nth i (nd_data v) (RtoC 0) = P i i).
Proof.
  intros p k P H. destruct H as [x | l L | l L | l L]; cbn [unify_p_to_matrix unify_p_to_vector nd_shape nth np_diag nd_data]; rewrite ?Nat.eqb_refl; cbn [negb orb np_diag nd_shape nd_data]; rewrite ?Nat.min_id;
    eexists _, _; (split; [reflexivity|]); (split; [reflexivity|]); cbn [nd_shape nd_data]; unfold nd_wf; cbn [nd_shape nd_data prod_list fold_right]; rewrite ?flatC_len, ?repeat_length, ?map_length, ?seq_length; cbn [mdiag nr nc];
    (split; [reflexivity|]); (split; [cbn; nia|]); (split; [reflexivity|]); (split; [cbn; nia|]); split; intros.
  - now rewrite flatC_mdiag. - rewrite Nat.eqb_refl. now apply nth_repeat'.
  - now rewrite flatC_mdiag. - now rewrite Nat.eqb_refl.
  - now rewrite flatC_mdiag. - now rewrite Nat.eqb_refl.
  - reflexivity. - now rewrite nth_map_seq.
Qed.
(** everything else is a ValueError in both *)
Theorem C68_rejects : forall p k, flat_parg p -> (forall P, ~ denotes k p P) -> unify_p_to_matrix p k = Raise ValueError /\ unify_p_to_vector p k = Raise ValueError.
Proof.
  intros p k HF H. destruct p as [x | [sh d] | [sh d]]; cbn [flat_parg nd_wf nd_shape nd_data] in HF.
  - exfalso. apply (H _ (den_scalar k x)).
  - destruct HF as (W & L1). destruct sh as [|n [|? ?]]; try discriminate L1. cbn [unify_p_to_matrix unify_p_to_vector nd_shape nth].
    destruct (Nat.eqb_spec n k) as [->|Nn]; [|split; reflexivity]. exfalso. unfold nd_wf in W. cbn in W. rewrite Nat.mul_1_r in W. apply (H _ (den_list k d W)).
  - unfold nd_wf in HF. destruct sh as [|n [|c [|? ?]]]; cbn [unify_p_to_matrix unify_p_to_vector nd_shape]; try (split; reflexivity).
    + destruct (Nat.eqb_spec n k) as [->|Nn]; [|split; reflexivity]. exfalso. cbn in HF. rewrite Nat.mul_1_r in HF. apply (H _ (den_vector k d HF)).
    + destruct (Nat.eqb_spec n k) as [->|Nn]; [|split; reflexivity]. destruct (Nat.eqb_spec c k) as [->|Nc]; [|split; reflexivity]. exfalso. cbn in HF. rewrite Nat.mul_1_r in HF. apply (H _ (den_matrix k d HF)).
Qed.
(** nested Python lists are not: a k x k list gives a vector where a matrix is expected and vice versa *)
Theorem C68_nested_list_defect : forall k l, List.length l = (k * k)%nat ->
  (exists M, unify_p_to_matrix (PList (Nd [k; k] l)) k = Ok M /\ nd_shape M = [k] /\ forall i, (i < k)%nat -> nth i (nd_data M) (RtoC 0) = nth (i * k + i) l (RtoC 0)) /\
  (exists v, unify_p_to_vector (PList (Nd [k; k] l)) k = Ok v /\ nd_shape v = [k; k]).
Proof.
  intros k l L. cbn [unify_p_to_matrix unify_p_to_vector nd_shape nth]. rewrite Nat.eqb_refl. cbn [negb np_diag nd_shape nd_data]. rewrite Nat.min_id.
  split; eexists; (split; [reflexivity|]); [split; [reflexivity|] | reflexivity]. intros i Hi. cbn [nd_data]. now rewrite nth_map_seq.
Qed.
Example C68_example : denotes 2 (PScalar 3) (fun i j => if Nat.eqb i j then RtoC 3 else RtoC 0) /\
  (forall P, ~ denotes 2 (PArr (Nd [3%nat] [RtoC 1; RtoC 2; RtoC 3])) P) /\ flat_parg (PArr (Nd [3%nat] [RtoC 1; RtoC 2; RtoC 3])).
Proof. split; [constructor|]. split; [intros P H; inversion H | reflexivity]. Qed.
Print Assumptions C68_agree. Print Assumptions C68_rejects. Print Assumptions C68_nested_list_defect.

(** ** C69: return modes *)
(** 'diag' of a matrix V, 'mean_diag', anything else *)
Theorem C69_reduce : forall V : rmat,
  reduce_output_matrix V "full" = Ok (OFull V) /\
  (exists d, reduce_output_matrix V "diag" = Ok (ODiag d) /\ List.length d = Nat.min (nr V) (nc V) /\ (forall i, (i < Nat.min (nr V) (nc V))%nat -> nth i d 0%R = ent V i i) /\
     (d <> [] -> reduce_output_matrix V "mean_diag" = Ok (OMean (Some (rsum (List.length d) (fun i => nth i d 0%R) / INR (List.length d)))%R))) /\
  (forall mode, ~ In mode ["full"; "diag"; "mean_diag"]%string -> reduce_output_matrix V mode = Raise ValueError).
Proof.
  intros V. split; [reflexivity|]. split.
  - exists (rdiag V). split; [reflexivity|]. unfold rdiag. rewrite map_length, seq_length. split; [reflexivity|]. split; [intros i Hi; now rewrite nth_map_seq|].
    intros Ne. unfold reduce_output_matrix, rdiag. cbn [String.eqb Ascii.eqb Bool.eqb]. set (d := map _ _) in *. destruct d as [|x d'] eqn:E; [contradiction|].
    assert (L : List.length d = Nat.min (nr V) (nc V)) by (unfold d; now rewrite map_length, seq_length). rewrite <- E. do 3 f_equal. rewrite <- L. f_equal. clear.
    induction d as [|a d IH] using rev_ind; [reflexivity|]. rewrite fold_right_app. cbn [fold_right]. rewrite app_length. cbn [List.length]. rewrite Nat.add_1_r. cbn [rsum].
    assert (G : forall l (b : R), fold_right Rplus b l = (fold_right Rplus 0 l + b)%R) by (induction l as [|? l IHl]; intros; cbn [fold_right]; [ring | rewrite IHl; ring]). rewrite G, IH.
    rewrite app_nth2, Nat.sub_diag by lia. cbn [nth]. rewrite (rsum_ext _ (fun i => nth i (d ++ [a]) 0%R) (fun i => nth i d 0%R)) by (intros; now rewrite app_nth1). ring.
  - intros mode N. unfold reduce_output_matrix. destruct (String.eqb_spec mode "full"); [subst; exfalso; apply N; now left|]. destruct (String.eqb_spec mode "diag"); [subst; exfalso; apply N; right; now left|].
    destruct (String.eqb_spec mode "mean_diag"); [subst; exfalso; apply N; right; right; now left | reflexivity].
Qed.
(** reducing the full result of a bound *)
Definition reduced (full : res output) (mode : string) : res output := let! o := full in match o with OFull V => reduce_output_matrix V mode | _ => Raise ValueError end.
Definition reduced' (full : res (option output)) (mode : string) : res (option output) :=
  let! o := full in match o with Some (OFull V) => let! r := reduce_output_matrix V mode in Ok (Some r)
                    | _ => if existsb (String.eqb mode) ["full"; "diag"; "mean_diag"]%string then Ok None else Raise ValueError end.
Theorem C69_crb : forall solve cinv rinv pinv a s lam p P sigma N mode,
  crb_sto_farfield_1d solve rinv a s lam p sigma N mode = reduced (crb_sto_farfield_1d solve rinv a s lam p sigma N "full") mode /\
  crb_det_farfield_1d solve rinv pinv a s lam P sigma N mode = reduced (crb_det_farfield_1d solve rinv pinv a s lam P sigma N "full") mode /\
  crb_stouc_farfield_1d cinv rinv a s lam p sigma N mode = reduced (crb_stouc_farfield_1d cinv rinv a s lam p sigma N "full") mode.
Proof.
  intros. split; [|split].
  - unfold crb_sto_farfield_1d, reduced. destruct s; [|reflexivity..]. cbv zeta. repeat (match goal with |- bind ?e _ = _ => destruct e; cbn [bind]; [|reflexivity] | |- (let (_, _) := ?e in _) = _ => destruct e; cbn [bind] end). reflexivity.
  - unfold crb_det_farfield_1d, reduced. destruct s; [|reflexivity..]. cbv zeta. match goal with |- (if ?b then _ else _) = _ => destruct b; [reflexivity|] end.
    repeat (match goal with |- bind ?e _ = _ => destruct e; cbn [bind]; [|reflexivity] | |- (let (_, _) := ?e in _) = _ => destruct e; cbn [bind] end). reflexivity.
  - unfold crb_stouc_farfield_1d, reduced. destruct s; [|reflexivity..]. cbv zeta. repeat (match goal with |- bind ?e _ = _ => destruct e; cbn [bind]; [|reflexivity] | |- (let (_, _) := ?e in _) = _ => destruct e; cbn [bind] end). reflexivity.
Qed.
Theorem C69_ecov : forall solve cinv pinv eigh a g s lam p sigma N sel mode,
  ecov_music_1d solve cinv a s lam p sigma N sel mode = reduced' (ecov_music_1d solve cinv a s lam p sigma N sel "full") mode /\
  ecov_coarray_music_1d pinv eigh g s lam p sigma N mode = reduced' (ecov_coarray_music_1d pinv eigh g s lam p sigma N "full") mode.
Proof.
  intros. split.
  - unfold ecov_music_1d, reduced'. destruct s; [|reflexivity..]. cbv zeta. match goal with |- (if ?b then _ else _) = _ => destruct b; [reflexivity|] end.
    repeat (match goal with |- bind ?e _ = _ => destruct e; cbn [bind]; [|reflexivity] | |- (let (_, _) := ?e in _) = _ => destruct e; cbn [bind] end).
    match goal with |- (if ?b then _ else _) = _ => destruct b; reflexivity end.
  - unfold ecov_coarray_music_1d, reduced'. destruct s; [|reflexivity..]. cbv zeta. match goal with |- (if ?b then _ else _) = _ => destruct b; [reflexivity|] end.
    repeat (match goal with |- bind ?e _ = _ => destruct e; cbn [bind]; [|reflexivity] | |- (let (_, _) := ?e in _) = _ => destruct e; cbn [bind]
            | |- (if ?b then Raise _ else _) = _ => destruct b; [reflexivity|] | |- match ?x with Flat _ => _ | Stack _ => _ end = _ => destruct x; [|reflexivity] end).
    match goal with |- match ?o with Some _ => _ | None => _ end = _ => destruct o; reflexivity end.
Qed.
Example C69_example : reduce_output_matrix (Mat 2 2 (fun i j => INR (3 * i + j + 1))) "mean_diag" = Ok (OMean (Some 3%R)).
Proof. unfold reduce_output_matrix, rdiag. cbn. do 3 f_equal. field. Qed.
Print Assumptions C69_reduce. Print Assumptions C69_crb. Print Assumptions C69_ecov.

(** ** C70: deterministic and stochastic CRB
    The full result V of the deterministic bound: with the steering matrix A of the sources, its derivative D (C24) and the projector Pi onto the span of A,
    V is (sigma / 2N) times the inverse of Re ((D^H (I - Pi) D) .* P^T); it is symmetric whatever P is, and positive semidefinite when P is. *)
Lemma full_inv X V : reduce_output_matrix X "full" = Ok (OFull V) -> V = X. Proof. cbn. congruence. Qed.
Lemma sym_scaled c V : rsym V -> meq (symmetrised (rscal c V)) (rscal c V).
Proof. intros (S1 & S2). split; [reflexivity|]. split; [reflexivity|]. cbn [symmetrised rscal nr nc ent]. intros i j Hi Hj. rewrite (S2 j i) by lia. field. Qed.
Lemma sym_scaled_psd c S V : rpsd S -> inv_of S V -> (0 <= c)%R -> rpsd (symmetrised (rscal c V)).
Proof.
  intros HS HV Hc. pose proof (inv_psd _ _ HS HV) as HP. apply (rpsd_meq (rscal c V)); [apply meq_rsym, sym_scaled, HP|].
  split; [|intros x; rewrite rform_rscal; apply Rmult_le_pos; [exact Hc | apply HP]]. destruct HP as ((S1 & S2) & _). split; [exact S1|]. cbn [rscal nr nc ent]. intros i j Hi Hj. now rewrite S2.
Qed.
Lemma factor_nonneg sigma N : (0 <= sigma)%R -> (0 < N)%R -> (0 <= sigma / N / 2)%R.
Proof. intros. unfold Rdiv. apply Rmult_le_pos; [apply Rmult_le_pos; [assumption | left; now apply Rinv_0_lt_compat] | lra]. Qed.

(** C06, definedness: matrices with independent columns have a projector *)
Theorem C06_defined : forall solve pinv iscomplex A, solve_exact solve -> inj A -> (iscomplex = false -> real_mat A) ->
  exists P, projm solve pinv false iscomplex A = Ok P /\ orth_projector_onto A P.
Proof.
  intros solve pinv ic A SO HI HR. assert (OK : exists P, projm solve pinv false ic A = Ok P).
  { unfold projm. set (AH := if ic then _ else _). assert (S1 : nr AH = nc A) by (unfold AH; destruct ic; reflexivity). assert (S2 : nc AH = nr A) by (unfold AH; destruct ic; reflexivity).
    assert (E : mher A ==m AH). { unfold AH. destruct ic; [repeat split|]. split; [reflexivity|]. split; [reflexivity|]. cbn [mher mtr nr nc ent]. intros i j Hi Hj. specialize (HR eq_refl). destruct (ent A j i) as (x, y) eqn:Q. pose proof (HR j i Hj Hi) as Z. rewrite Q in Z. cbn in Z |- *. apply injective_projections; cbn; lra. }
    rewrite matmul_ok by congruence. cbn [bind]. destruct (proj2 SO (AH *m A) AH) as (X & EX); [exact S1 | reflexivity | |].
    { apply (Base_Lin.inj_eq (mher A *m A)); [now apply mmul_eq_l | apply pd_inj, gram_pd, HI]. }
    rewrite EX. cbn [bind]. apply (proj1 SO) in EX as (_ & _ & N & _). eexists. apply matmul_ok. rewrite N. cbn. congruence. }
  destruct OK as (P & E). exists P. split; [exact E|]. apply (projm_correct solve (fun _ => Raise ValueError) false ic A P); [now apply solve_exact_ok | intros ? ?; discriminate | exact HR | exact E].
Qed.
Theorem C70_det : forall solve rinv pinv a l u lam P sigma N V, solve_exact solve -> rinv_exact rinv -> wf_array a ->
  crb_det_farfield_1d solve rinv pinv a (FF1 l u) lam P sigma N "full" = Ok (OFull V) ->
  exists A D Pi, steering_matrix a (FF1 l u) lam true "all" false = Ok (Flat A, [D]) /\ orth_projector_onto A Pi /\
    nd_shape P = [List.length l; List.length l] /\ nr V = List.length l /\ N <> 0%R /\
    rsym V /\
    (hermitian (nd_mat (RtoC 0) P) -> scaled_inverse (info_matrix D Pi (nd_mat (RtoC 0) P)) (sigma / (2 * N)) V) /\
    (psd (nd_mat (RtoC 0) P) -> (0 <= sigma)%R -> (0 < N)%R -> rpsd V).
Proof.
  intros solve rinv pinv a l u lam P sigma N V SO RO W H. destruct (det_inv solve rinv pinv SO RO a l u lam P sigma N _ _ W H) as (A & D & Pi & Vi & HS & HP & A1 & A2 & D1 & D2 & HN & SH & HI & HR & _).
  apply full_inv in HR. subst V. exists A, D, Pi. do 3 (split; [assumption|]). pose proof HI as (I1 & I2 & I3 & _). cbn [info_matrix nr nc] in I2, I3. rewrite D2 in I2, I3.
  assert (PN : nr (nd_mat (RtoC 0) P) = nc D) by (unfold nd_mat; rewrite SH; cbn; lia).
  split; [exact I2|]. split; [exact HN|]. split; [apply symmetrised_sym; cbn; congruence|]. split.
  - intros HH. replace (sigma / (2 * N))%R with (sigma / N / 2)%R by (field; exact HN). apply symmetrised_inverse; [exact HI|]. apply (info_sym A); assumption.
  - intros HH Hs HNp. apply (sym_scaled_psd _ (info_matrix D Pi (nd_mat (RtoC 0) P))); [apply (info_psd A); assumption | exact HI | now apply factor_nonneg].
Qed.
(** The stochastic bound: the same with W = P A^H R^-1 A P in the place of P, R = A P A^H + sigma I being the covariance matrix (Z is R^-1 A). *)
Theorem C70_sto : forall solve rinv a l u lam p sigma N V, solve_exact solve -> rinv_exact rinv -> wf_array a ->
  crb_sto_farfield_1d solve rinv a (FF1 l u) lam p sigma N "full" = Ok (OFull V) ->
  exists A D Pi Pa Z, steering_matrix a (FF1 l u) lam true "all" false = Ok (Flat A, [D]) /\ orth_projector_onto A Pi /\
    unify_p_to_matrix p (List.length l) = Ok Pa /\ nr V = List.length l /\ N <> 0%R /\
    let P := nd_mat (RtoC 0) Pa in
    nr P = List.length l /\ nc P = List.length l /\ nr Z = nr A /\ nc Z = nc A /\ (A *m P *m mher A +m mscal (RtoC sigma) (mid (nr A))) *m Z ==m A /\
    rsym V /\
    (hermitian P -> scaled_inverse (info_matrix D Pi (P *m (mher A *m Z) *m P)) (sigma / (2 * N)) V) /\
    (psd P -> (0 <= sigma)%R -> (0 < N)%R -> rpsd V).
Proof.
  intros solve rinv a l u lam p sigma N V SO RO W H. destruct (sto_inv solve rinv SO RO a l u lam p sigma N _ _ W H) as (A & D & Pi & Pa & Z & Vi & HS & HP & A1 & A2 & D1 & D2 & HN & HU & HW & HR & _).
  cbv zeta in HW. destruct HW as (P1 & P2 & Z1 & Z2 & HZ & HI). apply full_inv in HR. subst V. exists A, D, Pi, Pa, Z. do 3 (split; [assumption|]). pose proof HI as (I1 & I2 & I3 & _). cbn [info_matrix nr nc] in I2, I3. rewrite D2 in I2, I3.
  split; [exact I2|]. split; [exact HN|]. cbv zeta. split; [congruence|]. split; [congruence|]. do 3 (split; [assumption|]).
  assert (WN : nr (nd_mat (RtoC 0) Pa *m (mher A *m Z) *m nd_mat (RtoC 0) Pa) = nc D) by (cbn [mmul nr]; congruence).
  split; [apply symmetrised_sym; cbn; congruence|]. split.
  - intros HH. replace (sigma / (2 * N))%R with (sigma / N / 2)%R by (field; exact HN). apply symmetrised_inverse; [exact HI|]. apply (info_sym A); [assumption..|]. apply (sto_W_herm A (nd_mat (RtoC 0) Pa) Z sigma (nr A)); auto.
  - intros HH Hs HNp. eapply sym_scaled_psd; [|exact HI|now apply factor_nonneg]. apply (info_psd A); [assumption..|]. apply (sto_W_psd A (nd_mat (RtoC 0) Pa) Z sigma (nr A)); auto.
Qed.
(** inversely proportional to the number of snapshots *)
Theorem C70_snapshots : forall solve rinv pinv a l u lam p P sigma N N' V, solve_exact solve -> rinv_exact rinv -> wf_array a -> N' <> 0%R ->
  (crb_det_farfield_1d solve rinv pinv a (FF1 l u) lam P sigma N "full" = Ok (OFull V) ->
     exists V', crb_det_farfield_1d solve rinv pinv a (FF1 l u) lam P sigma N' "full" = Ok (OFull V') /\ nr V' = nr V /\ forall i j, ent V' i j = (N / N' * ent V i j)%R) /\
  (crb_sto_farfield_1d solve rinv a (FF1 l u) lam p sigma N "full" = Ok (OFull V) ->
     exists V', crb_sto_farfield_1d solve rinv a (FF1 l u) lam p sigma N' "full" = Ok (OFull V') /\ nr V' = nr V /\ forall i j, ent V' i j = (N / N' * ent V i j)%R).
Proof.
  intros solve rinv pinv a l u lam p P sigma N N' V SO RO W HN'. split; intros H.
  - destruct (det_inv solve rinv pinv SO RO a l u lam P sigma N _ _ W H) as (A & D & Pi & Vi & _ & _ & _ & _ & _ & _ & HN & _ & _ & HR & HA). apply full_inv in HR. subst V.
    eexists. split; [rewrite (HA sigma N' "full"%string HN'); reflexivity|]. split; [reflexivity|]. intros i j. cbn [symmetrised rscal ent]. field. tauto.
  - destruct (sto_inv solve rinv SO RO a l u lam p sigma N _ _ W H) as (A & D & Pi & Pa & Z & Vi & _ & _ & _ & _ & _ & _ & HN & _ & _ & HR & HA). apply full_inv in HR. subst V.
    eexists. split; [rewrite (HA N' "full"%string HN'); reflexivity|]. split; [reflexivity|]. intros i j. cbn [symmetrised rscal ent]. field. tauto.
Qed.
(** the stochastic bound is never below the deterministic one (of the same sources and source covariance) *)
Theorem C70_order : forall solve rinv pinv a l u lam P sigma N Vd Vs, solve_exact solve -> rinv_exact rinv -> wf_array a ->
  crb_det_farfield_1d solve rinv pinv a (FF1 l u) lam P sigma N "full" = Ok (OFull Vd) ->
  crb_sto_farfield_1d solve rinv a (FF1 l u) lam (PArr P) sigma N "full" = Ok (OFull Vs) ->
  psd (nd_mat (RtoC 0) P) -> (0 <= sigma)%R -> (0 < N)%R -> rloewner Vd Vs.
Proof.
  intros solve rinv pinv a l u lam P sigma N Vd Vs SO RO W HD HS HP Hs HN.
  destruct (det_inv solve rinv pinv SO RO a l u lam P sigma N _ _ W HD) as (A & D & Pi & Xd & ES & PR & A1 & A2 & D1 & D2 & HN0 & SH & HI & HR & _). apply full_inv in HR. subst Vd.
  destruct (sto_inv solve rinv SO RO a l u lam (PArr P) sigma N _ _ W HS) as (A' & D' & Pi' & Pa & Z & Xs & ES' & PR' & _ & _ & _ & _ & _ & HU & HW & HR & _). apply full_inv in HR. subst Vs.
  rewrite ES in ES'. injection ES' as <- <-. cbn [unify_p_to_matrix] in HU. rewrite SH, Nat.eqb_refl in HU. cbn [negb orb] in HU. injection HU as <-. cbv zeta in HW. destruct HW as (P1 & P2 & Z1 & Z2 & HZ & HI').
  set (Q := nd_mat (RtoC 0) P) in *. set (W0 := Q *m (mher A *m Z) *m Q) in *.
  assert (EP : meq (info_matrix D Pi' W0) (info_matrix D Pi W0)).
  { pose proof (projector_unique _ _ _ PR PR') as EP. split; [reflexivity|]. split; [reflexivity|]. cbn [info_matrix nr nc ent]. intros i j Hi Hj. do 2 f_equal.
    unfold bform. cbn [msub mid nr nc ent]. apply csum_ext. intros r Hr. apply csum_ext. intros c Hc. destruct PR as [X1 X2 _ _ _]. rewrite (meq_ent _ _ _ _ EP) by lia. reflexivity. }
  pose proof (inv_of_meq _ _ _ EP HI') as HI2.
  assert (WN : nr W0 = nc D /\ nc W0 = nc D) by (unfold W0; cbn [mmul nr nc]; split; congruence).
  assert (QN : nr Q = nc D /\ nc Q = nc D) by (split; congruence).
  assert (PSD1 : rpsd (info_matrix D Pi Q)) by (apply (info_psd A); try assumption; apply QN).
  assert (PSD2 : rpsd (info_matrix D Pi W0)) by (apply (info_psd A); [assumption..|apply WN|]; apply (sto_W_psd A Q Z sigma (nr A)); auto).
  pose proof HI as (I1 & I2 & I3 & _). pose proof HI2 as (J1 & J2 & J3 & _). cbn [info_matrix nr] in I2, I3, J2, J3.
  split; [cbn [symmetrised rscal nr]; congruence|]. intros x.
  rewrite (rform_meq _ _ x (sym_scaled (sigma / N / 2) Xd (proj1 (inv_psd _ _ PSD1 HI)))) by (cbn [symmetrised rscal nr nc]; congruence). rewrite (rform_meq _ _ x (sym_scaled (sigma / N / 2) Xs (proj1 (inv_psd _ _ PSD2 HI2)))) by (cbn [symmetrised rscal nr nc]; congruence).
  rewrite !rform_rscal. apply Rmult_le_compat_l; [now apply factor_nonneg|]. refine (inv_antitone (info_matrix D Pi W0) (info_matrix D Pi Q) _ _ x eq_refl PSD2 PSD1 HI2 HI _).
  apply (info_le A); try assumption; try (apply WN); try (apply QN). apply sto_W_le with (sigma := sigma); try assumption.
Qed.
(** defined for independent steering vectors and a non-singular information matrix *)
Theorem C70_defined : forall solve rinv pinv a l u lam P sigma N mode A D, solve_exact solve -> rinv_exact rinv -> wf_array a ->
  steering_matrix a (FF1 l u) lam true "all" false = Ok (Flat A, [D]) -> inj A -> N <> 0%R -> nd_shape P = [List.length l; List.length l] -> In mode ["full"; "diag"; "mean_diag"]%string ->
  ((forall Pi, orth_projector_onto A Pi -> rinj (info_matrix D Pi (nd_mat (RtoC 0) P))) -> exists o, crb_det_farfield_1d solve rinv pinv a (FF1 l u) lam P sigma N mode = Ok o) /\
  (psd (nd_mat (RtoC 0) P) -> (0 < sigma)%R ->
   (forall Pi Z, orth_projector_onto A Pi -> nr Z = nr A -> nc Z = nc A -> (A *m nd_mat (RtoC 0) P *m mher A +m mscal (RtoC sigma) (mid (nr A))) *m Z ==m A ->
      rinj (info_matrix D Pi (nd_mat (RtoC 0) P *m (mher A *m Z) *m nd_mat (RtoC 0) P))) ->
   exists o, crb_sto_farfield_1d solve rinv a (FF1 l u) lam (PArr P) sigma N mode = Ok o).
Proof.
  intros solve rinv pinv a l u lam P sigma N mode A D SO RO W HS HI HN SH HM. split.
  - intros HJ. now apply (det_defined solve rinv pinv SO RO a l u lam P sigma N mode A D).
  - intros HP Hs HJ. apply (sto_defined solve rinv SO RO a l u lam (PArr P) P sigma N mode A D); try assumption. cbn [unify_p_to_matrix]. rewrite SH, Nat.eqb_refl. reflexivity.
Qed.
(** wrong source placements and wrong shapes *)
Theorem C70_rejects : forall solve cinv rinv pinv a s lam p P sigma N mode,
  ((forall l u, s <> FF1 l u) ->
    crb_det_farfield_1d solve rinv pinv a s lam P sigma N mode = Raise ValueError /\ crb_sto_farfield_1d solve rinv a s lam p sigma N mode = Raise ValueError /\
    crb_stouc_farfield_1d cinv rinv a s lam p sigma N mode = Raise ValueError) /\
  (nd_shape P <> [src_size s; src_size s] -> crb_det_farfield_1d solve rinv pinv a s lam P sigma N mode = Raise ValueError) /\
  (flat_parg p -> (forall M, ~ denotes (src_size s) p M) -> crb_sto_farfield_1d solve rinv a s lam p sigma N mode = Raise ValueError /\ crb_stouc_farfield_1d cinv rinv a s lam p sigma N mode = Raise ValueError).
Proof.
  intros. split; [|split].
  - intros H. destruct s; [exfalso; eapply H; reflexivity | |]; repeat split.
  - intros H. destruct s as [l u| |]; [|reflexivity..]. unfold crb_det_farfield_1d. cbv zeta. unfold nd_ndim. destruct (nd_shape P) as [|r [|c [|? ?]]]; try reflexivity. cbn [List.length Nat.eqb negb orb nth].
    destruct (Nat.eqb_spec r (src_size (FF1 l u))) as [->|]; [|reflexivity]. destruct (Nat.eqb_spec c (src_size (FF1 l u))) as [->|]; [contradiction | reflexivity].
  - intros HF H. destruct s as [l u| |]; [|split; reflexivity..]. destruct (C68_rejects p _ HF H) as (E1 & E2). unfold crb_sto_farfield_1d, crb_stouc_farfield_1d. cbv zeta. rewrite E1, E2. split; reflexivity.
Qed.

(** a two-sensor half-wavelength array, one source of unit power at broadside *)
Definition ex_array : array := Array (LArr DFloat (Mat 2 1 (fun i _ => INR i / 2)%R)) "x" ISOTROPIC_SCALAR_SENSOR [].
Lemma ex_steering : exists A D, steering_matrix ex_array (FF1 [0%R] "rad") 1 true "all" false = Ok (Flat A, [D]) /\ nr A = 2%nat /\ nc A = 1%nat /\ nr D = 2%nat /\ nc D = 1%nat /\
  ent A 0 0 = RtoC 1 /\ ent A 1 0 = RtoC 1 /\ ent D 0 0 = RtoC 0 /\ ent D 1 0 = Ci * RtoC PI.
Proof.
  eexists _, _. split; [unfold steering_matrix, phase_delay_matrix; rewrite (P_sources.Reqb_neq 1 0 R1_neq_R0); reflexivity|]. do 4 (split; [reflexivity|]). cbn. rewrite sin_0, cos_0, !Rmult_0_r, cis_0. do 2 (split; [reflexivity|]).
  replace (2 * PI / 1 * (0 / 2 * 1))%R with 0%R by field. replace (2 * PI / 1 * (1 / 2 * 1))%R with PI by field. split; ring.
Qed.
Lemma ex_proj A Pi : nr A = 2%nat -> nc A = 1%nat -> ent A 0 0 = RtoC 1 -> ent A 1 0 = RtoC 1 -> orth_projector_onto A Pi ->
  forall i j, (i < 2)%nat -> (j < 2)%nat -> ent Pi i j = RtoC (/ 2).
Proof.
  intros A1 A2 E0 E1 HP i j Hi Hj. assert (HQ : orth_projector_onto A (Mat 2 2 (fun _ _ => RtoC (/ 2)))).
  { split; cbn [nr nc]; rewrite ?A1, ?A2; auto.
    - split; [reflexivity|]. split; [reflexivity|]. intros r c Hr Hc. cbn. rewrite <- RtoC_mult. rewrite !RtoC_0_plus || idtac. unfold RtoC. apply injective_projections; cbn; field.
    - split; [reflexivity|]. split; [reflexivity|]. intros r c Hr Hc. cbn. apply Cconj_RtoC.
    - split; [symmetry; exact A1|]. split; [reflexivity|]. cbn [mmul nr nc ent]. intros r c Hr Hc. assert (c = 0)%nat by lia. subst c. cbn [csum]. rewrite E0, E1. destruct r as [|[|r]]; try lia; rewrite ?E0, ?E1; apply injective_projections; cbn; field.
    - exists (Mat 1 2 (fun _ _ => RtoC (/ 2))). split; [reflexivity|]. split; [reflexivity|]. split; [symmetry; exact A1|]. split; [reflexivity|]. cbn [mmul nr nc ent]. rewrite A2. intros r c Hr Hc. cbn [csum]. destruct r as [|[|r]]; try lia; rewrite ?E0, ?E1; ring. }
  pose proof (projector_unique _ _ _ HP HQ) as E. rewrite (meq_ent _ _ _ _ E) by (destruct (op_shape _ _ HP); lia). reflexivity.
Qed.
Lemma ex_h A D Pi : nr A = 2%nat -> nc A = 1%nat -> nr D = 2%nat -> ent A 0 0 = RtoC 1 -> ent A 1 0 = RtoC 1 -> ent D 0 0 = RtoC 0 -> ent D 1 0 = Ci * RtoC PI -> orth_projector_onto A Pi ->
  bform (mid (nr D) -m Pi) (col D 0) (col D 0) = RtoC (PI * PI / 2).
Proof.
  intros A1 A2 D1 E0 E1 F0 F1 HP. pose proof (ex_proj A Pi A1 A2 E0 E1 HP) as EP. destruct (op_shape _ _ HP) as (P1 & P2). unfold bform, col. cbn [msub mid nr nc ent]. rewrite D1. cbn [csum].
  rewrite !EP by lia. cbn [Nat.eqb]. rewrite F0, F1. apply injective_projections; cbn; field.
Qed.
Lemma ex_inj A : nr A = 2%nat -> nc A = 1%nat -> ent A 0 0 = RtoC 1 -> inj A.
Proof. intros A1 A2 E0 x H j Hj. rewrite A2 in Hj. assert (j = 0)%nat by lia. subst j. specialize (H 0%nat ltac:(lia)). unfold mvec in H. rewrite A2 in H. cbn [csum] in H. rewrite E0, Cplus_0_l, Cmult_1_l in H. exact H. Qed.
Lemma ex_rinj S : nr S = 1%nat -> nc S = 1%nat -> ent S 0 0 <> 0%R -> rinj S.
Proof. intros S1 S2 E x H j Hj. rewrite S2 in Hj. assert (j = 0)%nat by lia. subst j. specialize (H 0%nat ltac:(lia)). rewrite S2 in H. cbn [rsum] in H. rewrite Rplus_0_l in H. apply Rmult_integral in H as [H|H]; [contradiction | exact H]. Qed.
Definition ex_P : ndarr C := Nd [1%nat; 1%nat] [RtoC 1].
Lemma ex_psd : psd (nd_mat (RtoC 0) ex_P).
Proof. apply (psd_eq (mdiag 1 (fun _ => RtoC 1))); [|apply psd_mdiag; intros; lra]. split; [reflexivity|]. split; [reflexivity|]. cbn [mdiag nr nc ent]. intros i j Hi Hj. assert (i = 0 /\ j = 0)%nat as (-> & ->) by lia. reflexivity. Qed.
Example C70_example : exists Vd Vs,
  crb_det_farfield_1d solve0 rinv0 (fun _ => Raise LinAlgError) ex_array (FF1 [0%R] "rad") 1 ex_P 1 10 "full" = Ok (OFull Vd) /\
  crb_sto_farfield_1d solve0 rinv0 ex_array (FF1 [0%R] "rad") 1 (PArr ex_P) 1 10 "full" = Ok (OFull Vs) /\ psd (nd_mat (RtoC 0) ex_P) /\ (ent Vd 0 0 < ent Vs 0 0)%R.
Proof.
  destruct ex_steering as (A & D & ES & A1 & A2 & D1 & D2 & E0 & E1 & F0 & F1). pose proof PI_RGT_0 as PP.
  pose proof (ex_inj A A1 A2 E0) as HI. assert (W : wf_array ex_array) by apply wf_empty.
  assert (HW : forall Z, nr Z = nr A -> nc Z = nc A -> (A *m nd_mat (RtoC 0) ex_P *m mher A +m mscal (RtoC 1) (mid (nr A))) *m Z ==m A -> ent (nd_mat (RtoC 0) ex_P *m (mher A *m Z) *m nd_mat (RtoC 0) ex_P) 0 0 = RtoC (2 / 3)).
  { intros Z Z1 Z2 HZ. cbn [nd_mat ex_P nd_shape nth mmul mher nr nc ent]. rewrite A1, Z2, A2. cbn [csum]. cbn [Nat.mul Nat.add nth nd_data]. rewrite E0, E1.
    pose proof (meq_ent _ _ 0%nat 0%nat HZ) as Q0. pose proof (meq_ent _ _ 1%nat 0%nat HZ) as Q1. cbn [mmul madd mscal mid mher nd_mat ex_P nd_shape nd_data nth nr nc ent] in Q0, Q1. rewrite A1, ?A2, ?Z2 in Q0, Q1. specialize (Q0 ltac:(lia) ltac:(lia)). specialize (Q1 ltac:(lia) ltac:(lia)). cbn [csum Nat.mul Nat.add nth Nat.eqb] in Q0, Q1. rewrite E0, E1 in Q0, Q1.
    destruct (ent Z 0 0) as [x0 y0], (ent Z 1 0) as [x1 y1]. apply (f_equal fst) in Q0 as Q0r. apply (f_equal snd) in Q0 as Q0i. apply (f_equal fst) in Q1 as Q1r. apply (f_equal snd) in Q1 as Q1i. cbn in Q0r, Q0i, Q1r, Q1i. apply injective_projections; cbn; lra. }
  destruct (C70_defined solve0 rinv0 (fun _ => Raise LinAlgError) ex_array [0%R] "rad" 1 ex_P 1 10 "full" A D solve0_exact rinv0_exact W ES HI ltac:(lra) eq_refl ltac:(now left)) as (HD & HS).
  destruct HD as (od & HD).
  { intros Pi HP. apply ex_rinj; [exact D2 | exact D2 |]. cbn [info_matrix ent]. rewrite (ex_h A D Pi) by assumption. cbn [nd_mat ex_P nd_shape nd_data nth ent Nat.mul Nat.add]. rewrite Cmult_1_r, Re_RtoC. nra. }
  destruct HS as (os & HS); [exact ex_psd | lra | |].
  { intros Pi Z HP Z1 Z2 HZ. apply ex_rinj; [exact D2 | exact D2 |]. cbn [info_matrix ent]. rewrite (ex_h A D Pi), (HW Z Z1 Z2 HZ) by assumption. rewrite <- RtoC_mult, Re_RtoC. nra. }
  pose proof (C69_crb solve0 cinv0 rinv0 (fun _ => Raise LinAlgError) ex_array (FF1 [0%R] "rad") 1 (PArr ex_P) ex_P 1 10 "full") as (_ & _ & _).
  assert (OD : exists Vd, od = OFull Vd). { destruct (det_inv solve0 rinv0 (fun _ => Raise LinAlgError) solve0_exact rinv0_exact _ _ _ _ _ _ _ _ _ W HD) as (? & ? & ? & V & _ & _ & _ & _ & _ & _ & _ & _ & _ & HR & _). cbn in HR. injection HR as <-. eauto. }
  assert (OS : exists Vs, os = OFull Vs). { destruct (sto_inv solve0 rinv0 solve0_exact rinv0_exact _ _ _ _ _ _ _ _ _ W HS) as (? & ? & ? & ? & ? & V & _ & _ & _ & _ & _ & _ & _ & _ & _ & HR & _). cbn in HR. injection HR as <-. eauto. }
  destruct OD as (Vd & ->), OS as (Vs & ->). exists Vd, Vs. split; [exact HD|]. split; [exact HS|]. split; [exact ex_psd|].
  destruct (C70_det _ _ _ _ _ _ _ _ _ _ _ solve0_exact rinv0_exact W HD) as (A' & D' & Pi & ES' & HP & _ & _ & _ & _ & HSI & _). rewrite ES in ES'. injection ES' as <- <-.
  destruct (C70_sto _ _ _ _ _ _ _ _ _ _ solve0_exact rinv0_exact W HS) as (A' & D' & Pi' & Pa & Z & ES' & HP' & HU & _ & _ & R). rewrite ES in ES'. injection ES' as <- <-. cbn in HU. injection HU as <-. cbv zeta in R. destruct R as (_ & _ & Z1 & Z2 & HZ & _ & HSI' & _).
  destruct (HSI (proj1 ex_psd)) as (_ & _ & G). destruct (HSI' (proj1 ex_psd)) as (_ & _ & G').
  specialize (G 0%nat 0%nat ltac:(cbn [info_matrix nr]; lia) ltac:(cbn [info_matrix nr]; lia)). specialize (G' 0%nat 0%nat ltac:(cbn [info_matrix nr]; lia) ltac:(cbn [info_matrix nr]; lia)).
  cbn [info_matrix nr ent] in G, G'. rewrite D2 in G, G'. cbn [rsum] in G, G'. rewrite (ex_h A D Pi) in G by assumption. rewrite (ex_h A D Pi'), (HW Z Z1 Z2 HZ) in G' by assumption. cbn [nd_mat ex_P nd_shape nd_data nth ent Nat.mul Nat.add] in G. rewrite Cmult_1_r, Re_RtoC in G. rewrite <- RtoC_mult, Re_RtoC in G'. unfold rident in G, G'. cbn [Nat.eqb] in G, G'.
  set (q := (PI * PI / 2)%R) in *. assert (0 < q)%R by (unfold q; nra). assert (ent Vd 0 0 = / 20 / q)%R by (apply (Rmult_eq_reg_l q); [|lra];
 replace (q * (/ 20 / q))%R with (/ 20)%R by (field; lra); lra). assert (ent Vs 0 0 = 3 / 2 * (/ 20 / q))%R by (apply (Rmult_eq_reg_l q); [|lra];
 replace (q * (3 / 2 * (/ 20 / q)))%R with (3 / 40)%R by (field; lra); lra).
  assert (0 < / q)%R by (apply Rinv_0_lt_compat; lra). unfold Rdiv in *. nra.
Qed.
Print Assumptions C70_det. Print Assumptions C70_sto. Print Assumptions C70_snapshots. Print Assumptions C70_order. Print Assumptions C70_defined. Print Assumptions C70_rejects.
