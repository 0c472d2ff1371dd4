(** Lemmas about the sparse estimators and the optimisation problems *)
From Verif Require Import Base_Np Base_Mem M_utils P_utils M_sources M_array S_array P_array P_array2 M_grid S_grid P_grid M_coarray M_core M_sparse S_sparse.
Open Scope nat_scope.

Lemma vstack_ok {T} (a b : mat T) : nc a = nc b -> exists c, np_vstack a b = Ok c /\ nr c = nr a + nr b /\ nc c = nc a /\
  (forall i j, i < nr a -> ent c i j = ent a i j) /\ (forall i j, ent c (nr a + i) j = ent b i j).
Proof.
  intros H. unfold np_vstack. rewrite H, Nat.eqb_refl. eexists. split; [reflexivity|]. split; [reflexivity|]. split; [reflexivity|]. split; intros i j; cbn [ent].
  - intros Hi. apply Nat.ltb_lt in Hi. rewrite Hi. reflexivity.
  - destruct (Nat.ltb_spec (nr a + i) (nr a)); [lia|]. f_equal. lia.
Qed.
Lemma scm_vector_ok Rm : exists r, scm_vector Rm = Ok r /\ stacks r Rm.
Proof.
  unfold scm_vector. destruct (vec_shape (RtoC 0) Rm) as (V1 & V2). destruct (vstack_ok (mmap Re (vec (RtoC 0) Rm)) (mmap Im (vec (RtoC 0) Rm)) eq_refl) as (r & E & R1 & R2 & RE & IM).
  exists r. split; [exact E|]. cbn [mmap nr nc] in *. rewrite V1 in *. rewrite V2 in R2. split; [lia|]. split; [exact R2|]. intros i j Hi Hj.
  assert (B : i + j * nr Rm < nr Rm * nc Rm) by nia. rewrite RE, IM by exact B. cbn [mmap ent]. rewrite vec_entry by assumption. split; reflexivity.
Qed.
Lemma stacks_shape_eq r r' Rm : stacks r Rm -> stacks r' Rm -> r ==m r'.
Proof.
  intros (A1 & A2 & A3) (B1 & B2 & B3). split; [congruence|]. split; [congruence|]. intros i j Hi Hj. rewrite A1 in Hi. rewrite A2 in Hj. assert (j = 0) as -> by lia.
  destruct (Nat.ltb_spec i (nr Rm * nc Rm)) as [L|L].
  - destruct (vec_index_surj _ _ _ L) as (a & b & Ha & Hb & ->). rewrite (proj1 (A3 a b Ha Hb)), (proj1 (B3 a b Ha Hb)). reflexivity.
  - destruct (vec_index_surj (nr Rm) (nc Rm) (i - nr Rm * nc Rm)) as (a & b & Ha & Hb & E); [lia|]. replace i with (nr Rm * nc Rm + (a + b * nr Rm)) by lia. rewrite (proj2 (A3 a b Ha Hb)), (proj2 (B3 a b Ha Hb)). reflexivity.
Qed.
(** the dictionary *)
Lemma scm_atom_ok arr lam nk g s A DA : create_source_placement g = Ok s -> steering_matrix arr s lam false "known" true = Ok (Flat A, DA) -> nr A = ar_size arr ->
  let M := nr A in exists Phi, scm_atom arr lam nk g = Ok Phi /\ nr Phi = 2 * (M * M) /\ nc Phi = (if nk then nc A else nc A + 1) /\
    (forall i j k, i < M -> j < M -> k < nc A -> ent Phi (i + j * M) k = Re (ent A i k * Cconj (ent A j k))%C /\ ent Phi (M * M + (i + j * M)) k = Im (ent A i k * Cconj (ent A j k))%C) /\
    (nk = false -> forall i j, i < M -> j < M -> ent Phi (i + j * M) (nc A) = (if Nat.eqb i j then 1%R else 0%R) /\ ent Phi (M * M + (i + j * M)) (nc A) = 0%R).
Proof.
  intros HS HA HM M. unfold scm_atom. rewrite HS. cbn [bind]. rewrite HA. cbn [bind]. destruct (khatri_rao_ok (mconj A) A eq_refl) as (K & EK & K1 & K2 & KE). rewrite EK. cbn [bind]. cbn [mconj mmap nr nc] in K1, K2, KE. fold M in K1, KE.
  assert (HP : exists P, (if nk then Ok K else np_hstack K (vec (RtoC 0) (mid (ar_size arr)))) = Ok P /\ nr P = M * M /\ nc P = (if nk then nc A else nc A + 1) /\
    (forall i j k, i < M -> j < M -> k < nc A -> ent P (i + j * M) k = (ent A i k * Cconj (ent A j k))%C) /\
    (nk = false -> forall i j, i < M -> j < M -> ent P (i + j * M) (nc A) = if Nat.eqb i j then RtoC 1 else RtoC 0)).
  { assert (KE' : forall i j k, i < M -> j < M -> k < nc A -> ent K (i + j * M) k = (ent A i k * Cconj (ent A j k))%C) by (intros i j k Hi Hj Hk; rewrite (Nat.add_comm i), (KE j i k Hj Hi Hk); cbn [mconj mmap ent]; apply Cmult_comm).
    destruct nk; [exists K; split; [reflexivity|]; repeat (split; [assumption|]); discriminate|]. unfold np_hstack. rewrite <- HM. fold M. destruct (vec_shape (RtoC 0) (mid M)) as (V1 & V2). cbn [nr nc mid] in V1. rewrite K1, V1. rewrite Nat.eqb_refl.
    eexists. split; [reflexivity|]. cbn [nr nc ent]. split; [reflexivity|]. split; [congruence|]. split.
    - intros i j k Hi Hj Hk. rewrite K2. destruct (Nat.ltb_spec k (nc A)); [|lia]. apply KE'; assumption.
    - intros _ i j Hi Hj. rewrite K2, Nat.ltb_irrefl, Nat.sub_diag. exact (vec_entry (RtoC 0) (mid M) i j Hi Hj). }
  destruct HP as (P & -> & P1 & P2 & PE & PI). cbn [bind]. destruct (vstack_ok (mmap Re P) (mmap Im P) eq_refl) as (Phi & -> & H1 & H2 & HR & HI). exists Phi. split; [reflexivity|]. cbn [mmap nr nc ent] in *. rewrite P1 in *.
  assert (B : forall i j, i < M -> j < M -> i + j * M < M * M) by (intros; nia).
  split; [lia|]. split; [congruence|]. split.
  - intros i j k Hi Hj Hk. rewrite HR, HI by (apply B; assumption). rewrite PE by assumption. split; reflexivity.
  - intros Hn i j Hi Hj. rewrite HR, HI by (apply B; assumption). rewrite (PI Hn) by assumption. destruct (Nat.eqb i j); split; reflexivity.
Qed.
Lemma Re_csum n f : Re (csum n f) = rsum n (fun i => Re (f i)).
Proof. induction n as [|n IH]; cbn [csum rsum]; [reflexivity|]. rewrite <- IH. reflexivity. Qed.
Lemma Im_csum n f : Im (csum n f) = rsum n (fun i => Im (f i)).
Proof. induction n as [|n IH]; cbn [csum rsum]; [reflexivity|]. rewrite <- IH. reflexivity. Qed.
Lemma Re_scal x z : Re (RtoC x * z)%C = (Re z * x)%R.
Proof. unfold Cmult, RtoC, Re, Im. cbn [fst snd]. ring. Qed.
Lemma Im_scal x z : Im (RtoC x * z)%C = (Im z * x)%R.
Proof. unfold Cmult, RtoC, Re, Im. cbn [fst snd]. ring. Qed.
Lemma Re_plus' a b : Re (a + b)%C = (Re a + Re b)%R. Proof. reflexivity. Qed.
Lemma Im_plus' a b : Im (a + b)%C = (Im a + Im b)%R. Proof. reflexivity. Qed.
Lemma grid_cov_re A p s i j : Re (ent (grid_cov A p s) i j) = (rsum (nc A) (fun c => Re (ent A i c * Cconj (ent A j c))%C * p c) + (if Nat.eqb i j then s else 0))%R.
Proof. cbn [grid_cov ent]. rewrite Re_plus', Re_csum. apply f_equal2; [apply rsum_ext; intros; apply Re_scal | destruct (Nat.eqb i j); reflexivity]. Qed.
Lemma grid_cov_im A p s i j : Im (ent (grid_cov A p s) i j) = rsum (nc A) (fun c => Im (ent A i c * Cconj (ent A j c))%C * p c)%R.
Proof. cbn [grid_cov ent]. rewrite Im_plus', Im_csum. etransitivity; [|apply Rplus_0_r]. apply f_equal2; [apply rsum_ext; intros; apply Im_scal | destruct (Nat.eqb i j); reflexivity]. Qed.

(** the problem handed to cvxpy is the documented one *)
Lemma ssq_cvx A b x : nc x = 1 -> cvx_sum_squares (cvx_sub (cvx_matmul A x) b) = ssq (nr A) (residual A b (fun j => ent x j 0)).
Proof. intros H. unfold cvx_sum_squares, ssq, residual. cbn [cvx_sub cvx_matmul nr nc ent]. rewrite H. apply rsum_ext. intros i Hi. cbn [rsum]. ring. Qed.
Lemma norm1_cvx x : nc x = 1 -> cvx_norm1 x = l1norm (nr x) (fun j => ent x j 0).
Proof. intros H. unfold cvx_norm1, l1norm. rewrite H. apply rsum_ext. intros i Hi. cbn [rsum]. ring. Qed.
Definition col_of (k : nat) (x : nat -> R) : rmat := Mat k 1 (fun i _ => x i).
Lemma Forall_one {A} (P : A -> Prop) a : Forall P [a] <-> P a. Proof. split; [now inversion 1 | constructor; [assumption | constructor]]. Qed.
Lemma doc_cons f nn A b l x p m k : known_formulation f -> mk_l1 true m k f nn = Ok p -> nr x = nc A -> nc x = 1 ->
  (c_obj (l1_instance p A b l) x = doc_objective f A b l (fun j => ent x j 0)) /\
  (Forall (fun c => c x) (c_cons (l1_instance p A b l)) <-> doc_feasible f nn A b l (fun j => ent x j 0)).
Proof.
  intros HF HP X1 X2. assert (NN : nonneg_constraint A b l x <-> forall j, j < nc A -> (0 <= ent x j 0)%R).
  { unfold nonneg_constraint. rewrite X1, X2. split; [intros H j Hj; apply H; lia | intros H i j Hi Hj; assert (j = 0) as -> by lia; apply H; exact Hi]. }
  assert (SS := ssq_cvx A b x X2). assert (N1 := norm1_cvx x X2). rewrite X1 in N1.
  destruct HF as [->|[->| ->]]; unfold mk_l1 in HP; cbn [negb String.eqb Ascii.eqb Bool.eqb bind] in HP; injection HP as <-; unfold l1_instance; cbn [c_obj c_cons l1_obj l1_cons]; unfold doc_objective, doc_feasible; cbn [String.eqb Ascii.eqb Bool.eqb]; (split; [rewrite ?SS, ?N1; reflexivity|]);
    destruct nn; cbn [app map]; rewrite ?Forall_cons_iff, ?Forall_nil_iff; unfold cvx_norm; rewrite ?NN, ?SS, ?N1; intuition discriminate.
Qed.
Lemma l1_equiv f nn A b l p m x : known_formulation f -> mk_l1 true m (nc A) f nn = Ok p -> minimises (nc A) 1 (l1_instance p A b l) x <-> doc_solution f nn A b l x.
Proof.
  intros HF HP. unfold minimises, doc_solution. split.
  - intros ((X1 & X2 & XF) & XM). destruct (doc_cons f nn A b l x p m _ HF HP X1 X2) as (EO & EC). split; [exact X1|]. split; [exact X2|]. split; [apply EC; exact XF|]. intros y Hy.
    set (Y := col_of (nc A) y). destruct (doc_cons f nn A b l Y p m _ HF HP eq_refl eq_refl) as (YO & YC). rewrite <- EO. change y with (fun j => ent Y j 0). rewrite <- YO. apply XM. split; [reflexivity|]. split; [reflexivity|]. apply YC. exact Hy.
  - intros (X1 & X2 & XF & XM). destruct (doc_cons f nn A b l x p m _ HF HP X1 X2) as (EO & EC). split; [split; [exact X1|]; split; [exact X2|]; apply EC; exact XF|]. intros Y (Y1 & Y2 & YF). destruct (doc_cons f nn A b l Y p m _ HF HP Y1 Y2) as (YO & YC). rewrite EO, YO. apply XM. apply YC. exact YF.
Qed.
(** what solve keeps *)
Definition same_prob (p q : l1prob) : Prop := l1_m p = l1_m q /\ l1_k p = l1_k q /\ l1_obj p = l1_obj q /\ l1_cons p = l1_cons q.
Lemma l1_solve_same sv p A b l o : same_prob (snd (l1_solve sv p A b l o)) p.
Proof.
  unfold l1_solve, check_nonneg. destruct (check_shape _ _ A) as [A'|]; [|now repeat split]. destruct (check_shape _ _ b) as [b'|]; [|now repeat split]. destruct (Rle_dec 0 l); [|now repeat split]. destruct (sv _ _ _) as [[st x]|]; now repeat split.
Qed.
Lemma after_same sv calls : forall p, same_prob (after_solves sv p calls) p.
Proof.
  induction calls as [|[[[A b] l] o] calls IH]; intros p; cbn [after_solves]; [now repeat split|]. destruct (IH (snd (l1_solve sv p A b l o))) as (I1 & I2 & I3 & I4). destruct (l1_solve_same sv p A b l o) as (J1 & J2 & J3 & J4). repeat split; congruence.
Qed.
Lemma l1_solve_ok sv p A b l o : nr A = l1_m p -> nc A = l1_k p -> nr b = l1_m p -> nc b = 1 -> (0 <= l)%R ->
  fst (l1_solve sv p A b l o) = l1_answer (l1_k p) (sv (l1_instance p A b l) (l1_x p) o).
Proof.
  intros A1 A2 B1 B2 Hl. unfold l1_solve, check_shape. rewrite A1, A2, !Nat.eqb_refl. cbn [andb l1_m]. rewrite B1, B2, !Nat.eqb_refl. cbn [andb]. unfold check_nonneg. destruct (Rle_dec 0 l); [|contradiction]. unfold l1_instance. cbn [l1_obj l1_cons l1_x l1_k]. destruct (sv _ _ _) as [[st x]|]; reflexivity.
Qed.
Lemma ext_dom_iff {T} (m n : nat) (pr : cproblem (mat T)) (Q : mat T -> Prop) (g : mat T -> R) x :
  (forall y, nr y = m -> nc y = n -> c_obj pr y = g y /\ (Forall (fun c => c y) (c_cons pr) <-> Q y)) ->
  minimises m n pr x <-> (nr x = m /\ nc x = n /\ Q x) /\ forall y, nr y = m /\ nc y = n /\ Q y -> (g x <= g y)%R.
Proof.
  intros H. unfold minimises. split; intros ((X1 & X2 & X3) & X4); destruct (H x X1 X2) as (E & I); (split; [split; [exact X1|]; split; [exact X2|]; apply I; exact X3|]); intros y (Y1 & Y2 & Y3); destruct (H y Y1 Y2) as (E' & I'); [rewrite <- E, <- E' | rewrite E, E']; apply X4; (split; [exact Y1|]; split; [exact Y2|]; apply I'; exact Y3).
Qed.
Lemma sum_map_seq n f : cvx_sum (map f (seq 0 n)) = rsum n f.
Proof.
  enough (G : forall s, cvx_sum (map f (seq s n)) = rsum n (fun i => f (s + i))) by apply G. induction n as [|n IH]; intros s; [reflexivity|]. rewrite rsum_S_l. cbn [seq map]. unfold cvx_sum in *. cbn [fold_right]. rewrite IH, Nat.add_0_r. f_equal. apply rsum_ext. intros i Hi. f_equal. lia.
Qed.
Lemma l21_equiv cplx A B l X : nr A = nr B -> minimises (nc A) (nc B) (l21_instance cplx A B l) X <-> doc_solution21 cplx A B l X.
Proof.
  intros HN. unfold doc_solution21. apply (ext_dom_iff (nc A) (nc B) (l21_instance cplx A B l) (fun Y => cplx = false -> forall i j, i < nr Y -> j < nc Y -> Im (ent Y i j) = 0%R) (doc_objective21 A B l) X). intros Y Y1 Y2. split.
  - unfold l21_instance, doc_objective21. cbn [c_obj]. unfold cvx_norm_fro, cvx_norm_axis0. cbn [mtr msub mmul nr nc ent]. rewrite sum_map_seq. rewrite HN, Y2. f_equal. f_equal. rewrite <- Rsqr_pow2. apply Rsqr_sqrt. apply rsum_nonneg. intros i _. apply rsum_nonneg. intros j _. apply Cnorm2_nonneg.
  - unfold l21_instance. cbn [c_cons]. destruct cplx; [split; [discriminate | constructor]|]. rewrite Forall_one. tauto.
Qed.
Lemma all_real_iff v : all_real v = true <-> forall i j, i < nr v -> j < nc v -> Im (ent v i j) = 0%R.
Proof.
  unfold all_real. rewrite forallb_forall. split.
  - intros H i j Hi Hj. specialize (H i ltac:(apply in_seq; lia)). rewrite forallb_forall in H. specialize (H j ltac:(apply in_seq; lia)). unfold Reqb in H. destruct (Req_EM_T _ _); [assumption | discriminate].
  - intros H i Hi. apply in_seq in Hi. apply forallb_forall. intros j Hj. apply in_seq in Hj. unfold Reqb. destruct (Req_EM_T _ _) as [|N]; [reflexivity|]. exfalso. apply N. apply H; lia.
Qed.

(** dimensions of a steering matrix of scalar isotropic sensors, for every kind of sources *)
Lemma phase_cols s L lam der T DT : phase_delay_matrix s L lam der = Ok (T, DT) -> nc T = src_size s.
Proof.
  intros HT. unfold phase_delay_matrix in HT. destruct (_ || _)%bool; [discriminate|]. destruct s as [l u|l u|l].
  - destruct (Reqb lam 0); [discriminate|]. unfold phase_delay_sin, phase_delay_rad in HT. destruct (String.eqb u "sin"), (Nat.eqb (nc L) 1); injection HT as <- _; cbn; rewrite ?map_length; try reflexivity; destruct (String.eqb u "deg"); rewrite ?map_length; reflexivity.
  - destruct der; [discriminate|]. destruct (Reqb lam 0); [discriminate|]. injection HT as <- _. unfold phase_delay_2d. destruct (Nat.eqb (nc L) 1), (Nat.eqb (nc L) 2); cbn; rewrite ?map_length; try reflexivity; destruct (String.eqb u "deg"); rewrite ?map_length; reflexivity.
  - destruct der; [discriminate|]. destruct (Reqb lam 0); [discriminate|]. apply bind_Ok_inv in HT as (D & HD & HT). injection HT as <- _. unfold phase_delay_nf, align_location_dims in HD.
    destruct (Nat.ltb (nc L) 2), (Nat.ltb 2 (nc L)); (destruct (Nat.eqb _ 0) in HD; [discriminate|]); injection HD as <-; cbn; rewrite ?map_length; reflexivity.
Qed.
Lemma steering_dims a s lam sel St DA : wf_array a -> scalar_isotropic a -> steering_matrix a s lam false sel true = Ok (St, DA) ->
  exists A, St = Flat A /\ nr A = ar_size a /\ nc A = src_size s.
Proof.
  intros W I H. destruct (steering_scalar_inv _ _ _ _ _ _ _ _ W I H) as (ps & L & T & DT & A & H1 & H2 & H3 & H4 & H5 & H6 & -> & H8 & _). exists A. split; [reflexivity|].
  pose proof (phase_cols _ _ _ _ _ _ H4) as C. assert (NT : nr T = ar_size a) by (rewrite H5; exact (mv_rows _ _ _ H3)).
  destruct (perturbed_linear ps (mmap cis T)) as ((P1 & P2 & _) & P3 & P4). { intros p Hp. cbn [mmap nr]. rewrite NT. destruct (H6 p Hp). split; assumption. }
  destruct H8 as (E1 & E2 & _). cbn [mmap mmul nr nc] in *. split; congruence.
Qed.
Lemma src_rows_size s : List.length (src_rows s) = src_size s.
Proof. destruct s; cbn; apply map_length. Qed.
Lemma placement_size g s : plain_grid g -> create_source_placement g = Ok s -> src_size s = sg_size g.
Proof. intros P E. destruct (placement_spec g P) as (_ & H2). rewrite <- src_rows_size, (H2 s E). apply length_points. Qed.
