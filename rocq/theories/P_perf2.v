(** The Cramer-Rao bounds of crb.py: inversion of the computations. *)
From Verif Require Import Base_Np Base_Lin Base_Trig M_utils M_sources M_array S_utils S_array P_utils P_array2 M_perf S_perf P_perf P_subspace3.
Open Scope C_scope.

Lemma matmul_inv A B X : matmul A B = Ok X -> nc A = nr B /\ X = A *m B.
Proof. unfold matmul. destruct (Nat.eqb_spec (nc A) (nr B)); [|discriminate]. intros [= <-]. auto. Qed.
Lemma solve_exact_ok solve : solve_exact solve -> solve_ok solve.
Proof. intros (H & _) M B X E. destruct (H _ _ _ E) as (H1 & H2 & H3 & H4 & H5). split; [congruence|]. split; [exact H4 | exact H5]. Qed.
Lemma pydiv_inv x n c : pydiv x n = Ok c -> n <> 0%R /\ c = (x / n)%R.
Proof. unfold pydiv. destruct (Req_EM_T n 0); [discriminate|]. intros [= <-]. auto. Qed.
Lemma rinv_inv_of rinv G X : rinv_exact rinv -> rinv G = Ok X -> inv_of G X.
Proof. intros (H & _) E. exact (H _ _ E). Qed.

Lemma inv_of_meq S S' V : meq S S' -> inv_of S V -> inv_of S' V.
Proof.
  intros (E1 & E2 & E) (H1 & H2 & H3 & H). split; [congruence|]. split; [congruence|]. split; [congruence|]. rewrite <- E1. intros i j Hi Hj. rewrite <- H by assumption.
  apply rsum_ext. intros r Hr. rewrite E by lia. reflexivity.
Qed.
Lemma rinj_meq S S' : meq S S' -> rinj S -> rinj S'.
Proof.
  intros (E1 & E2 & E) H x Hx j Hj. rewrite <- E2 in Hj. apply (H x); [|exact Hj]. intros i Hi. rewrite <- (Hx i) by lia. rewrite E2. apply rsum_ext. intros r Hr. rewrite E by lia. reflexivity.
Qed.
Lemma projm_solve solve pinv A Pi : solve_exact solve -> projm solve pinv false true A = Ok Pi -> orth_projector_onto A Pi.
Proof.
  intros SO H. apply (projm_correct solve (fun _ => Raise ValueError) false true A Pi); [now apply solve_exact_ok | intros ? ?; discriminate | discriminate | exact H].
Qed.
Lemma projm_solve_def solve pinv A : solve_exact solve -> inj A -> exists Pi, projm solve pinv false true A = Ok Pi.
Proof.
  intros SO HI. unfold projm. set (AH := mtr (mconj A)). rewrite matmul_ok by reflexivity. cbn [bind].
  destruct (proj2 SO (AH *m A) AH) as (X & EX); [reflexivity | reflexivity | |].
  { apply (Base_Lin.inj_eq (mher A *m A)); [|apply pd_inj, gram_pd, HI]. apply mmul_eq_l. repeat split. }
  rewrite EX. cbn [bind]. apply (proj1 SO) in EX as (_ & _ & N & _). eexists. apply matmul_ok. rewrite N. reflexivity.
Qed.

Section Bounds.
  Variable solve : cmat -> cmat -> res cmat.
  Variable rinv : rmat -> res rmat.
  Variable pinv : cmat -> res cmat.
  Hypothesis SO : solve_exact solve.
  Hypothesis RO : rinv_exact rinv.

  Lemma info_code D Pi Q m : m = nr D -> nr Pi = nr D -> nc Pi = nr D -> meq (mre (mhad (mher D *m (mid m -m Pi) *m D) (mtr Q))) (info_matrix D Pi Q).
  Proof.
    intros -> E1 E2. apply meq_rsym. replace (mid (nr D) -m Pi) with (perp Pi) by (unfold perp; now rewrite E1). now apply info_gram.
  Qed.
  Lemma det_inv a l u lam Pa sigma N mode o : wf_array a -> crb_det_farfield_1d solve rinv pinv a (FF1 l u) lam Pa sigma N mode = Ok o ->
    exists A D Pi V, steering_matrix a (FF1 l u) lam true "all" false = Ok (Flat A, [D]) /\ orth_projector_onto A Pi /\ nr A = ar_size a /\ nc A = List.length l /\ nr D = nr A /\ nc D = List.length l /\
      N <> 0%R /\ nd_shape Pa = [List.length l; List.length l] /\
      inv_of (info_matrix D Pi (nd_mat (RtoC 0) Pa)) V /\ reduce_output_matrix (symmetrised (rscal (sigma / N / 2) V)) mode = Ok o /\
      (forall sigma' N' mode', N' <> 0%R -> crb_det_farfield_1d solve rinv pinv a (FF1 l u) lam Pa sigma' N' mode' = reduce_output_matrix (symmetrised (rscal (sigma' / N' / 2) V)) mode').
  Proof.
    intros W H. unfold crb_det_farfield_1d in *. cbn [src_size] in *.
    destruct (Nat.eqb_spec (nd_ndim Pa) 2) as [D2|]; [|discriminate]. destruct (Nat.eqb_spec (nth 0 (nd_shape Pa) 0%nat) (List.length l)) as [K0|]; [|discriminate]. destruct (Nat.eqb_spec (nth 1 (nd_shape Pa) 0%nat) (List.length l)) as [K1|]; [|discriminate].
    cbn [negb orb bind] in *. apply bind_Ok_inv in H as ((A & D) & HS & H). rewrite HS. cbn [bind]. apply steering_AD_inv in HS. destruct (steering_shape a l u lam _ A D W HS) as (N1 & N2 & N3 & N4).
    apply bind_Ok_inv in H as (Pi & HP & H). rewrite HP. cbn [bind]. apply projm_solve in HP; [|exact SO].
    pose proof (op_shape _ _ HP) as (S1 & S2).
    apply bind_Ok_inv in H as (DP & HDP & H). rewrite HDP. cbn [bind]. apply matmul_inv in HDP as (_ & ->). apply bind_Ok_inv in H as (H0 & HH & H). rewrite HH. cbn [bind]. apply matmul_inv in HH as (_ & ->).
    apply bind_Ok_inv in H as (V & HV & H). rewrite HV. cbn [bind]. apply bind_Ok_inv in H as (c & Hc & H). apply pydiv_inv in Hc as (NN & ->).
    exists A, D, Pi, V. do 6 (split; [congruence || assumption|]). split; [exact NN|]. split; [|split; [|split; [exact H|]]].
    - destruct (nd_shape Pa) as [|? [|? [|]]] eqn:ES; unfold nd_ndim in D2; rewrite ES in D2; try discriminate. cbn in K0, K1. now subst.
    - apply (rinv_inv_of rinv _ _ RO) in HV. eapply inv_of_meq; [|exact HV]. apply info_code; congruence.
    - intros s' N' md' HN. unfold pydiv. destruct (Req_EM_T N' 0); [contradiction | reflexivity].
  Qed.
  Lemma det_defined a l u lam Pa sigma N mode A D : wf_array a -> steering_matrix a (FF1 l u) lam true "all" false = Ok (Flat A, [D]) -> inj A -> N <> 0%R ->
    nd_shape Pa = [List.length l; List.length l] -> (forall Pi, orth_projector_onto A Pi -> rinj (info_matrix D Pi (nd_mat (RtoC 0) Pa))) ->
    In mode ["full"; "diag"; "mean_diag"]%string -> exists o, crb_det_farfield_1d solve rinv pinv a (FF1 l u) lam Pa sigma N mode = Ok o.
  Proof.
    intros W HS HI HN ES HR HM. destruct (steering_shape a l u lam _ A D W HS) as (N1 & N2 & N3 & N4). unfold crb_det_farfield_1d, nd_ndim. rewrite ES. cbn [src_size List.length nth]. rewrite !Nat.eqb_refl. cbn [negb orb bind].
    rewrite (steering_AD_eq _ _ _ _ _ _ HS). cbn [bind]. destruct (projm_solve_def solve pinv A SO HI) as (P & EP). rewrite EP. cbn [bind]. apply projm_solve in EP; [|exact SO]. pose proof (op_shape _ _ EP) as (S1 & S2).
    rewrite matmul_ok by (cbn [mher nc msub mid nr]; congruence). cbn [bind]. rewrite matmul_ok by (cbn [mmul msub mid nc]; congruence). cbn [bind].
    destruct (proj2 RO (mre (mhad (mher D *m (mid (ar_size a) -m P) *m D) (mtr (nd_mat (RtoC 0) Pa))))) as (V & EV); [reflexivity | |].
    { eapply rinj_meq; [apply meq_rsym, info_code; congruence | apply HR, EP]. }
    rewrite EV. cbn [bind]. unfold pydiv. destruct (Req_EM_T N 0); [contradiction|]. cbn [bind].
    destruct HM as [<-|[<-|[<-|[]]]]; eexists; reflexivity.
  Qed.

  (** the matrix W = P A^H R^{-1} A P of the stochastic bound *)
  Lemma sto_W_gram A P Z sigma m : m = nr A -> nr P = nc A -> nc P = nc A -> hermitian P -> nr Z = nr A -> nc Z = nc A ->
    (A *m P *m mher A +m mscal (RtoC sigma) (mid m)) *m Z ==m A ->
    P *m (mher A *m Z) *m P ==m mher (Z *m P) *m (A *m P *m mher A +m mscal (RtoC sigma) (mid m)) *m (Z *m P).
  Proof.
    intros -> P1 P2 HP Z1 Z2 E. set (Rm := A *m P *m mher A +m mscal (RtoC sigma) (mid (nr A))) in *.
    assert (HR : hermitian Rm).
    { apply hermitian_madd; [reflexivity| |apply hermitian_mscal, hermitian_mid]. eapply hermitian_eq; [|apply (hermitian_congr P (mher A)); [cbn; congruence | exact HP]]. apply mmul_eq_l, mmul_eq_l, mher_mher. }
    assert (E' : mher A ==m mher Z *m Rm).
    { assert (E'' : mher (Rm *m Z) ==m mher Z *m Rm). { etransitivity; [apply mher_mmul; cbn; congruence|]. apply mmul_eq_r; [cbn; congruence|]. now apply hermitian_mher. }
      etransitivity; [|exact E'']. assert (X : mher A ==m mher (Rm *m Z)) by (destruct E as (e1 & e2 & e3); repeat split; cbn [mher nr nc] in *; try congruence; intros i j Hi Hj; cbn [mher ent]; rewrite e3 by (cbn [Rm madd mmul nr nc] in *; congruence || lia); reflexivity). exact X. }
    assert (HZP : mher (Z *m P) ==m P *m mher Z).
    { etransitivity; [apply mher_mmul; congruence|]. apply mmul_eq_l. now apply hermitian_mher. }
    symmetry. etransitivity; [apply mmul_assoc|]. etransitivity; [apply mmul_eq_l, HZP|].
    etransitivity; [apply mmul_assoc|]. symmetry. etransitivity; [apply mmul_assoc|]. apply mmul_eq_r; [cbn; congruence|].
    etransitivity; [apply mmul_assoc|]. etransitivity; [apply mmul_eq_l, E'|]. apply mmul_assoc.
  Qed.
  Lemma cov_psd A P sigma : nr P = nc A -> psd P -> (0 <= sigma)%R -> psd (A *m P *m mher A +m mscal (RtoC sigma) (mid (nr A))).
  Proof. intros E HP Hs. apply psd_madd; [reflexivity | apply psd_congr'; [congruence | exact HP] | apply psd_mscal; [exact Hs | apply psd_mid]]. Qed.
  Lemma sto_W_psd A P Z sigma m : m = nr A -> nr P = nc A -> psd P -> (0 <= sigma)%R -> nr Z = nr A -> nc Z = nc A ->
    (A *m P *m mher A +m mscal (RtoC sigma) (mid m)) *m Z ==m A -> psd (P *m (mher A *m Z) *m P).
  Proof.
    intros Em P1 HP Hs Z1 Z2 E. eapply psd_eq; [symmetry; apply (sto_W_gram A P Z sigma m Em P1); try assumption; [rewrite <- (proj1 (proj1 HP)); exact P1 | exact (proj1 HP)]|].
    subst m. apply psd_congr; [cbn; exact Z1 | now apply cov_psd].
  Qed.
  Lemma sto_W_herm A P Z sigma m : m = nr A -> nr P = nc A -> hermitian P -> nr Z = nr A -> nc Z = nc A ->
    (A *m P *m mher A +m mscal (RtoC sigma) (mid m)) *m Z ==m A -> hermitian (P *m (mher A *m Z) *m P).
  Proof.
    intros Em P1 HP Z1 Z2 E. eapply hermitian_eq; [symmetry; apply (sto_W_gram A P Z sigma m Em P1); try assumption; rewrite <- (proj1 HP); exact P1|].
    subst m. apply hermitian_congr; [cbn; exact Z1|]. apply hermitian_madd; [reflexivity| |apply hermitian_mscal, hermitian_mid]. eapply hermitian_eq; [|apply (hermitian_congr P (mher A)); [cbn; congruence | exact HP]]. apply mmul_eq_l, mmul_eq_l, mher_mher.
  Qed.
  Lemma sto_inv a l u lam p sigma N mode o : wf_array a -> crb_sto_farfield_1d solve rinv a (FF1 l u) lam p sigma N mode = Ok o ->
    exists A D Pi Pa Z V, steering_matrix a (FF1 l u) lam true "all" false = Ok (Flat A, [D]) /\ orth_projector_onto A Pi /\ nr A = ar_size a /\ nc A = List.length l /\ nr D = nr A /\ nc D = List.length l /\
      N <> 0%R /\ unify_p_to_matrix p (List.length l) = Ok Pa /\ (let P := nd_mat (RtoC 0) Pa in nr P = nc A /\ nc P = nc A /\ nr Z = nr A /\ nc Z = nc A /\
      (A *m P *m mher A +m mscal (RtoC sigma) (mid (nr A))) *m Z ==m A /\
      inv_of (info_matrix D Pi (P *m (mher A *m Z) *m P)) V) /\ reduce_output_matrix (symmetrised (rscal (sigma / N / 2) V)) mode = Ok o /\
      (forall N' mode', N' <> 0%R -> crb_sto_farfield_1d solve rinv a (FF1 l u) lam p sigma N' mode' = reduce_output_matrix (symmetrised (rscal (sigma / N' / 2) V)) mode').
  Proof.
    intros W H. unfold crb_sto_farfield_1d in *. cbn [src_size] in *. apply bind_Ok_inv in H as (Pa & HPa & H). rewrite HPa. cbn [bind]. apply bind_Ok_inv in H as ((A & D) & HS & H). rewrite HS. cbn [bind].
    apply steering_AD_inv in HS. destruct (steering_shape a l u lam _ A D W HS) as (N1 & N2 & N3 & N4).
    apply bind_Ok_inv in H as (P & HP & H). rewrite HP. cbn [bind]. unfold as_matrix in HP. destruct (nd_shape Pa) as [|r0 [|c0 [|]]] eqn:ES; try discriminate. injection HP as <-. set (P := nd_mat (RtoC 0) Pa) in *.
    apply bind_Ok_inv in H as (AP & HAP & H). rewrite HAP. cbn [bind]. apply matmul_inv in HAP as (B1 & ->).
    apply bind_Ok_inv in H as (APA & HAPA & H). rewrite HAPA. cbn [bind]. apply matmul_inv in HAPA as (B2 & ->).
    apply bind_Ok_inv in H as (AHA & HAHA & H). rewrite HAHA. cbn [bind]. apply matmul_inv in HAHA as (B3 & ->).
    apply bind_Ok_inv in H as (X & HX & H). rewrite HX. cbn [bind]. apply (proj1 SO) in HX as (X1 & X2 & X3 & X4 & X5).
    apply bind_Ok_inv in H as (Pi & HPi & H). rewrite HPi. cbn [bind]. apply matmul_inv in HPi as (B4 & ->).
    assert (HO : orth_projector_onto A (A *m X)) by (apply normal_eq_projector; [cbn in X3; exact X3 | cbn in X4; exact X4 | exact X5]).
    apply bind_Ok_inv in H as (DP & HDP & H). rewrite HDP. cbn [bind]. apply matmul_inv in HDP as (_ & ->). apply bind_Ok_inv in H as (H0 & HH & H). rewrite HH. cbn [bind]. apply matmul_inv in HH as (_ & ->).
    apply bind_Ok_inv in H as (Z & HZ & H). rewrite HZ. cbn [bind]. apply (proj1 SO) in HZ as (Z1 & Z2 & Z3 & Z4 & Z5).
    apply bind_Ok_inv in H as (ARA & HARA & H). rewrite HARA. cbn [bind]. apply matmul_inv in HARA as (B5 & ->).
    apply bind_Ok_inv in H as (PARA & HPARA & H). rewrite HPARA. cbn [bind]. apply matmul_inv in HPARA as (B6 & ->).
    apply bind_Ok_inv in H as (Q & HQ & H). rewrite HQ. cbn [bind]. apply matmul_inv in HQ as (B7 & ->).
    apply bind_Ok_inv in H as (V & HV & H). rewrite HV. cbn [bind]. apply bind_Ok_inv in H as (c & Hc & H). apply pydiv_inv in Hc as (NN & ->).
    cbn [mmul madd mher nr nc] in B1, B2, B6, B7, Z3, Z4, X4.
    exists A, D, (A *m X), Pa, Z, V. do 6 (split; [congruence || assumption|]). split; [exact NN|]. split; [reflexivity|]. split; [|split; [exact H|]].
    - cbv zeta. fold P. do 4 (split; [congruence|]). rewrite N1. split; [exact Z5|]. apply (rinv_inv_of rinv _ _ RO) in HV. eapply inv_of_meq; [|exact HV]. apply info_code; [congruence | cbn; congruence | cbn; congruence].
    - intros N' md' HN. unfold pydiv. destruct (Req_EM_T N' 0); [contradiction | reflexivity].
  Qed.
  Lemma cov_inj A P sigma : nr P = nc A -> psd P -> (0 < sigma)%R -> inj (A *m P *m mher A +m mscal (RtoC sigma) (mid (nr A))).
  Proof.
    intros E HP Hs. set (B := A *m P *m mher A). assert (HB : psd B) by (apply psd_congr'; [congruence | exact HP]). intros x Hx. cbn [madd nr nc B mmul mher] in Hx.
    assert (Q : (RtoC sigma * RtoC (vnorm2 (nr A) x) + qform B x = RtoC 0)).
    { rewrite Cplus_comm. transitivity (qform (B +m mscal (RtoC sigma) (mid (nr A))) x).
      - rewrite qform_madd by reflexivity. rewrite qform_mscal, qform_mid. reflexivity.
      - unfold qform. cbn [madd nr nc B mmul mher]. apply csum_0. intros i Hi. specialize (Hx i Hi). unfold mvec in Hx. cbn [madd nc mmul mher B] in Hx.
        rewrite (csum_ext _ _ (fun j => Cconj (x i) * (ent (B +m mscal (RtoC sigma) (mid (nr A))) i j * x j))) by (intros; ring). rewrite csum_scal. cbn [madd ent] in *. rewrite Hx. ring. }
    apply (f_equal Re) in Q. rewrite Re_plus, Re_mult, !Re_RtoC, !Im_RtoC in Q. pose proof (proj2 HB x) as PB. pose proof (vnorm2_nonneg (nr A) x) as V0.
    assert (V1 : vnorm2 (nr A) x = 0%R) by nra. intros j Hj. cbn [madd nc B mmul mher] in Hj. exact (vnorm2_0 _ _ V1 j Hj).
  Qed.
  Lemma sto_defined a l u lam p Pa sigma N mode A D : wf_array a -> steering_matrix a (FF1 l u) lam true "all" false = Ok (Flat A, [D]) -> inj A -> N <> 0%R ->
    unify_p_to_matrix p (List.length l) = Ok Pa -> nd_shape Pa = [List.length l; List.length l] -> psd (nd_mat (RtoC 0) Pa) -> (0 < sigma)%R ->
    (forall Pi Z, orth_projector_onto A Pi -> nr Z = nr A -> nc Z = nc A -> (A *m nd_mat (RtoC 0) Pa *m mher A +m mscal (RtoC sigma) (mid (nr A))) *m Z ==m A ->
      rinj (info_matrix D Pi (nd_mat (RtoC 0) Pa *m (mher A *m Z) *m nd_mat (RtoC 0) Pa))) ->
    In mode ["full"; "diag"; "mean_diag"]%string -> exists o, crb_sto_farfield_1d solve rinv a (FF1 l u) lam p sigma N mode = Ok o.
  Proof.
    intros W HS HI HN EP ES HP Hs HR HM. destruct (steering_shape a l u lam _ A D W HS) as (N1 & N2 & N3 & N4). unfold crb_sto_farfield_1d. cbn [src_size]. rewrite EP. cbn [bind].
    rewrite (steering_AD_eq _ _ _ _ _ _ HS). cbn [bind]. unfold as_matrix. rewrite ES. cbn [bind]. set (P := nd_mat (RtoC 0) Pa) in *.
    assert (NP : nr P = List.length l /\ nc P = List.length l) by (unfold P, nd_mat; rewrite ES; cbn; auto). destruct NP as (NP1 & NP2).
    rewrite matmul_ok by congruence. cbn [bind]. rewrite matmul_ok by (cbn [mmul mher madd msub mid mscal nr nc]; congruence). cbn [bind]. rewrite matmul_ok by reflexivity. cbn [bind].
    destruct (proj2 SO (mher A *m A) (mher A)) as (X & EX); [reflexivity | reflexivity | apply pd_inj, gram_pd, HI|]. rewrite EX. cbn [bind]. apply (proj1 SO) in EX as (_ & _ & X3 & X4 & X5). cbn [mmul mher nr nc] in X3, X4.
    rewrite matmul_ok by congruence. cbn [bind]. assert (HO : orth_projector_onto A (A *m X)) by (apply normal_eq_projector; assumption).
    rewrite matmul_ok by (cbn [mmul mher madd msub mid mscal nr nc]; congruence). cbn [bind]. rewrite matmul_ok by (cbn [mmul mher madd msub mid mscal nr nc]; congruence). cbn [bind]. rewrite <- N1.
    destruct (proj2 SO (A *m P *m mher A +m mscal (RtoC sigma) (mid (nr A))) A) as (Z & EZ); [reflexivity | reflexivity | apply cov_inj; congruence || assumption|]. rewrite EZ. cbn [bind]. apply (proj1 SO) in EZ as (_ & _ & Z3 & Z4 & Z5). cbn [mmul madd nr] in Z3.
    rewrite matmul_ok by (cbn [mmul mher madd msub mid mscal nr nc]; congruence). cbn [bind]. rewrite matmul_ok by (cbn [mmul mher madd msub mid mscal nr nc]; congruence). cbn [bind]. rewrite matmul_ok by (cbn [mmul mher madd msub mid mscal nr nc]; congruence). cbn [bind].
    destruct (proj2 RO (mre (mhad (mher D *m (mid (nr A) -m A *m X) *m D) (mtr (P *m (mher A *m Z) *m P))))) as (V & EV).
    { reflexivity. }
    { eapply rinj_meq; [apply meq_rsym, info_code; [congruence | cbn; congruence | cbn; congruence] | apply HR; assumption]. }
    match goal with |- exists o, bind ?t _ = _ => replace t with (Ok V) by (symmetry; exact EV) end. cbn [bind]. unfold pydiv. destruct (Req_EM_T N 0); [contradiction|]. cbn [bind].
    destruct HM as [<-|[<-|[<-|[]]]]; eexists; reflexivity.
  Qed.
End Bounds.
Lemma projector_unique A P Q : orth_projector_onto A P -> orth_projector_onto A Q -> P ==m Q.
Proof.
  assert (G : forall P Q, orth_projector_onto A P -> orth_projector_onto A Q -> Q *m P ==m P).
  { intros P1 Q1 HP HQ. destruct (op_range _ _ HP) as (X & X1 & X2 & EX). pose proof (op_shape _ _ HQ) as (S1 & S2).
    etransitivity; [apply mmul_eq_r; [rewrite S2, (meq_nr _ _ EX); reflexivity | exact EX]|]. etransitivity; [symmetry; apply mmul_assoc|]. etransitivity; [apply mmul_eq_l, (op_fix _ _ HQ)|]. symmetry. exact EX. }
  intros HP HQ. pose proof (G P Q HP HQ) as E1. pose proof (G Q P HQ HP) as E2. pose proof (op_shape _ _ HQ) as (S1 & S2). pose proof (op_shape _ _ HP) as (S3 & S4).
  assert (E3 : mher (Q *m P) ==m P *m Q).
  { etransitivity; [apply mher_mmul; congruence|]. etransitivity; [apply mmul_eq_l, (op_herm _ _ HP)|]. apply mmul_eq_r; [cbn; congruence | apply (op_herm _ _ HQ)]. }
  assert (E4 : mher P ==m Q).
  { etransitivity; [|exact E2]. etransitivity; [|exact E3]. destruct E1 as (e1 & e2 & e3). repeat split; cbn [mher nr nc] in *; try congruence. intros i j Hi Hj. cbn [mher ent]. rewrite e3; [reflexivity | cbn [mmul nr] in *; congruence || lia | cbn [mmul nc] in *; congruence || lia]. }
  etransitivity; [symmetry; apply (op_herm _ _ HP) | exact E4].
Qed.
Lemma bform_mvec P x y : nr P = nc P -> bform P x y = vdot (nr P) x (mvec P y).
Proof. intros _. unfold bform, vdot, mvec. apply csum_ext. intros i Hi. rewrite <- csum_scal. apply csum_ext. intros; ring. Qed.
Lemma sto_W_le A P Z sigma : nr P = nc A -> psd P -> (0 <= sigma)%R -> nr Z = nr A -> nc Z = nc A ->
  (A *m P *m mher A +m mscal (RtoC sigma) (mid (nr A))) *m Z ==m A ->
  forall z, (Re (qform (P *m (mher A *m Z) *m P) z) <= Re (qform P z))%R.
Proof.
  intros P1 HP Hs Z1 Z2 E z. assert (P2 : nc P = nc A) by (rewrite <- (proj1 (proj1 HP)); exact P1).
  set (W := P *m (mher A *m Z) *m P). set (y := mvec (Z *m P) z). set (Rm := A *m P *m mher A +m mscal (RtoC sigma) (mid (nr A))) in *.
  assert (Q1 : qform W z = qform Rm y).
  { unfold W. rewrite (qform_eq _ _ z (sto_W_gram A P Z sigma (nr A) eq_refl P1 P2 (proj1 HP) Z1 Z2 E)). apply (qform_congr Rm (Z *m P)); [exact Z1 | reflexivity]. }
  set (v := mvec (mher A) y).
  assert (Q2 : qform Rm y = qform P v + RtoC sigma * RtoC (vnorm2 (nr A) y)).
  { unfold Rm. rewrite qform_madd by reflexivity. rewrite qform_mscal, qform_mid. f_equal.
    rewrite (qform_eq _ (mher (mher A) *m P *m mher A) y) by (apply mmul_eq_l, mmul_eq_l; symmetry; apply mher_mher). apply (qform_congr P (mher A)); [cbn; congruence | exact (proj1 (proj1 HP))]. }
  assert (Q3 : bform P z v = qform W z).
  { rewrite <- bform_qform, !bform_mvec by (try reflexivity; exact (proj1 (proj1 HP))). unfold vdot. cbn [W mmul nr]. apply csum_ext. intros i Hi. f_equal. unfold W, v, y. rewrite !mvec_mmul. apply mvec_ext. intros j Hj.
    rewrite mvec_mmul. apply mvec_ext. intros r Hr. apply mvec_mmul. }
  pose proof (proj2 HP (fun j => RtoC 1 * z j + (- RtoC 1) * v j)) as PP. rewrite <- bform_qform, bform_lin, !bform_alin, !bform_qform, (bform_conj P z v (proj1 HP)), Q3 in PP.
  pose proof (vnorm2_nonneg (nr A) y) as VN. assert (Q4 : Re (qform W z) = (Re (qform P v) + sigma * vnorm2 (nr A) y)%R) by (rewrite Q1, Q2, Re_plus, Re_mult, !Re_RtoC, !Im_RtoC; ring).
  rewrite !Cconj_1, !Copp_conj, !Cconj_1 in PP. assert (E5 : forall a b c d : C, Re (RtoC 1 * (RtoC 1 * a + - RtoC 1 * b) + - RtoC 1 * (RtoC 1 * c + - RtoC 1 * d)) = (Re a - Re b - Re c + Re d)%R).
  { intros [? ?] [? ?] [? ?] [? ?]. cbn. ring. }
  rewrite E5 in PP. rewrite Re_conj in PP. nra.
Qed.
