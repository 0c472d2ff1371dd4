(** The error covariances of mse.py. *)
From Verif Require Import Base_Np Base_Lin Base_Trig M_utils M_sources M_array M_designs M_coarray M_core S_utils S_sources S_array S_model P_utils P_array2 P_array3 M_perf S_perf P_perf P_perf2 P_perf3 P_subspace3.
Open Scope C_scope.

Lemma existsb_nonzero k (f : nat -> R) : existsb (fun i => if Req_EM_T (f i) 0 then true else false) (seq 0 k) = false -> forall i, (i < k)%nat -> f i <> 0%R.
Proof.
  intros H i Hi E. assert (X : existsb (fun i => if Req_EM_T (f i) 0 then true else false) (seq 0 k) = true) by (apply existsb_exists; exists i; split; [apply in_seq; lia | destruct (Req_EM_T (f i) 0); [reflexivity | contradiction]]). congruence.
Qed.
Section Music.
  Variables (solve : cmat -> cmat -> res cmat) (cinv : cmat -> res cmat).
  Hypotheses (SO : solve_exact solve) (CO : cinv_exact cinv).

  Lemma music_inv a l u lam p sigma N sel mode o : wf_array a -> ecov_music_1d solve cinv a (FF1 l u) lam p sigma N sel mode = Ok (Some o) ->
    exists A D Pi Pa Pv Gv B, (List.length l < ar_size a)%nat /\ steering_matrix a (FF1 l u) lam true sel false = Ok (Flat A, [D]) /\ nr A = ar_size a /\ nc A = List.length l /\ nr D = nr A /\ nc D = List.length l /\
      orth_projector_onto A Pi /\ N <> 0%R /\ unify_p_to_matrix p (List.length l) = Ok Pa /\
      (let P := nd_mat (RtoC 0) Pa in nr P = List.length l /\ nc P = List.length l /\ nr Pv = List.length l /\ nc Pv = List.length l /\ nr Gv = List.length l /\ nc Gv = List.length l /\
        P *m Pv ==m mid (List.length l) /\ mher A *m A *m Gv ==m mid (List.length l) /\ B ==m Pv +m mscal (RtoC sigma) (Pv *m Gv *m Pv)) /\
      let h := fun i j => bform (mid (nr D) -m Pi) (col D i) (col D j) in
      (forall i, (i < List.length l)%nat -> Re (h i i) <> 0%R) /\
      exists V, nr V = List.length l /\ nc V = List.length l /\
        (forall i j, (i < List.length l)%nat -> (j < List.length l)%nat -> ent V i j = (sigma / (2 * N) * Re (h i j * ent B j i)%C / (Re (h i i) * Re (h j j)))%R) /\
        reduce_output_matrix V mode = Ok o.
  Proof.
    intros W H. unfold ecov_music_1d in H. cbn [src_size] in H. destruct (Nat.leb_spec (ar_size a) (List.length l)) as [|Lk]; [discriminate|]. cbn [bind] in H.
    apply bind_Ok_inv in H as (Pa & HPa & H). apply bind_Ok_inv in H as ((A & D) & HS & H). apply steering_AD_inv in HS. destruct (steering_shape a l u lam _ A D W HS) as (N1 & N2 & N3 & N4).
    apply bind_Ok_inv in H as (AHA & HA & H). apply matmul_inv in HA as (_ & ->). apply bind_Ok_inv in H as (X & HX & H). apply (proj1 SO) in HX as (_ & _ & X3 & X4 & X5). cbn [mmul mher nr nc] in X3, X4.
    apply bind_Ok_inv in H as (AX & HAX & H). apply matmul_inv in HAX as (_ & ->). assert (HO : orth_projector_onto A (A *m X)) by (apply normal_eq_projector; assumption).
    apply bind_Ok_inv in H as (DP & HDP & H). apply matmul_inv in HDP as (_ & ->). apply bind_Ok_inv in H as (Hm & HH & H). apply matmul_inv in HH as (_ & ->).
    apply bind_Ok_inv in H as (P & HP & H). unfold as_matrix in HP. destruct (nd_shape Pa) as [|r0 [|c0 [|]]] eqn:ES; try discriminate. injection HP as <-. set (P := nd_mat (RtoC 0) Pa) in *.
    apply bind_Ok_inv in H as (Pv & HPv & H). apply (proj1 CO) in HPv as (P1 & P2 & P3 & P4).
    apply bind_Ok_inv in H as (Y & HY & H). pose proof HY as HY0. apply (proj1 SO) in HY as (Y1 & Y2 & Y3 & Y4 & Y5). cbn [mmul mher nr nc] in Y2, Y3.
    apply bind_Ok_inv in H as (B & HB & H). apply matmul_inv in HB as (_ & ->). apply bind_Ok_inv in H as (c & Hc & H). apply pydiv_inv in Hc as (NN & ->).
    cbv zeta in H. match type of H with (if ?b then _ else _) = _ => destruct b eqn:EX end; [destruct (existsb _ _) in H; discriminate|]. apply bind_Ok_inv in H as (o' & Ho & H). injection H as <-.
    set (k := List.length l) in *. assert (K1 : nr P = k) by congruence. assert (K2 : nc P = k) by congruence.
    assert (LI : Pv *m P ==m mid k) by (apply left_inv_right; try congruence; rewrite <- K1; exact P4).
    assert (HH : forall i j, (i < k)%nat -> (j < k)%nat -> ent (mher D *m (mid (ar_size a) -m A *m X) *m D) i j = bform (mid (nr D) -m A *m X) (col D i) (col D j)).
    { intros i j Hi Hj. rewrite bform_bil by (cbn; congruence). rewrite N3. reflexivity. }
    exists A, D, (A *m X), Pa, Pv, (Y *m P), (Pv *m (mid k +m mscal (RtoC sigma) Y)). fold P. do 5 (split; [congruence || assumption|]). split; [exact N4|]. split; [exact HO|]. split; [exact NN|]. split; [exact HPa|]. cbv zeta. split.
    - do 6 (split; [cbn [mmul nr nc]; congruence|]). split; [rewrite <- K1; exact P4|]. split.
      + etransitivity; [symmetry; apply mmul_assoc|]. etransitivity; [apply mmul_eq_l, Y5|]. exact LI.
      + etransitivity; [apply mmul_add_r|]. apply madd_eq; [reflexivity | cbn [mmul mscal mid nc]; congruence | apply mmul_id_r; congruence|].
        etransitivity; [apply mscal_mmul_r|]. assert (E : Pv *m Y ==m Pv *m (Y *m P) *m Pv).
        { symmetry. etransitivity; [apply mmul_assoc|]. apply mmul_eq_r; [cbn [mmul nr]; congruence|]. etransitivity; [apply mmul_assoc|]. etransitivity; [apply mmul_eq_r; [cbn [mmul nr]; congruence | exact P4]|]. apply mmul_id_r. congruence. }
        destruct E as (e1 & e2 & e3). repeat split; cbn [mscal nr nc] in *; try assumption. intros i j Hi Hj. cbn [mscal ent]. now rewrite e3.
    - split.
      + intros i Hi. rewrite <- HH by assumption. apply (existsb_nonzero k (fun i => Re (ent _ i i)) EX i Hi).
      + eexists. split; [|split; [|split; [|exact Ho]]]; [reflexivity | reflexivity|]. intros i j Hi Hj. cbn [ent]. rewrite !HH by assumption.
        assert (NZ : forall q, (q < k)%nat -> Re (bform (mid (nr D) -m A *m X) (col D q) (col D q)) <> 0%R) by (intros q Hq; rewrite <- HH by assumption; apply (existsb_nonzero k (fun i => Re (ent _ i i)) EX q Hq)).
        set (zz := Re (_ * _)%C). pose proof (NZ i Hi). pose proof (NZ j Hj). field. repeat split; assumption.
  Qed.
End Music.
Lemma inverse_congr n M Q : nr M = n -> hermitian M -> nr Q = n -> nc Q = n -> M *m Q ==m mid n -> Q ==m mher Q *m M *m Q.
Proof.
  intros E1 HM Q1 Q2 E. pose proof (inverse_her n M Q E1 HM Q1 Q2 E) as HQ. assert (E2 : nc M = n) by (rewrite <- (proj1 HM); exact E1).
  symmetry. etransitivity; [apply mmul_assoc|]. etransitivity; [apply mmul_eq_r; [cbn [mmul mher nr nc]; congruence | exact E]|]. etransitivity; [apply mmul_id_r; cbn; congruence | exact HQ].
Qed.
Lemma inverse_psd n M Q : nr M = n -> psd M -> nr Q = n -> nc Q = n -> M *m Q ==m mid n -> psd Q.
Proof.
  intros E1 HM Q1 Q2 E. eapply psd_eq; [symmetry; apply (inverse_congr n M Q E1 (proj1 HM) Q1 Q2 E)|]. apply psd_congr; [congruence | exact HM].
Qed.
Lemma music_B_herm k A P Pv Gv B sigma : nr P = k -> hermitian P -> nr Pv = k -> nc Pv = k -> nr Gv = k -> nc Gv = k -> nc A = k -> P *m Pv ==m mid k -> mher A *m A *m Gv ==m mid k ->
  B ==m Pv +m mscal (RtoC sigma) (Pv *m Gv *m Pv) -> hermitian B.
Proof.
  intros K1 HP V1 V2 G1 G2 A2 E1 E2 EB. pose proof (inverse_her k P Pv K1 HP V1 V2 E1) as HV. pose proof (inverse_her k (mher A *m A) Gv ltac:(cbn; congruence) (hermitian_gram A) G1 G2 E2) as HG.
  eapply hermitian_eq; [symmetry; exact EB|]. apply hermitian_madd; [cbn; congruence | apply hermitian_mher, HV|]. apply hermitian_mscal. eapply hermitian_eq; [apply mmul_eq_l, mmul_eq_l, HV|]. apply hermitian_congr; [congruence | apply hermitian_mher, HG].
Qed.
Lemma music_B_psd k A P Pv Gv B sigma : nr P = k -> psd P -> (0 <= sigma)%R -> nr Pv = k -> nc Pv = k -> nr Gv = k -> nc Gv = k -> nc A = k -> P *m Pv ==m mid k -> mher A *m A *m Gv ==m mid k ->
  B ==m Pv +m mscal (RtoC sigma) (Pv *m Gv *m Pv) -> psd B.
Proof.
  intros K1 HP Hs V1 V2 G1 G2 A2 E1 E2 EB. pose proof (inverse_her k P Pv K1 (proj1 HP) V1 V2 E1) as HV.
  pose proof (inverse_psd k P Pv K1 HP V1 V2 E1) as PV. pose proof (inverse_psd k (mher A *m A) Gv ltac:(cbn; congruence) (psd_gram A) G1 G2 E2) as PG.
  eapply psd_eq; [symmetry; exact EB|]. apply psd_madd; [cbn; congruence | exact PV|]. apply psd_mscal; [exact Hs|]. eapply psd_eq; [apply mmul_eq_l, mmul_eq_l, HV|]. apply psd_congr; [congruence | exact PG].
Qed.
Lemma diag_scaled_form S V g c x : nr S = nc S -> nr V = nr S -> (forall i j, (i < nr S)%nat -> (j < nr S)%nat -> ent V i j = (c * (ent S i j * (g i * g j)))%R) ->
  rform V x = (c * rform S (fun i => g i * x i))%R.
Proof.
  intros E1 E2 H. unfold rform. rewrite E2, <- rsum_scal. apply rsum_ext. intros i Hi.
  rewrite (rsum_ext _ (fun j => ent V i j * x j)%R (fun j => (c * g i) * (ent S i j * (g j * x j)))%R) by (intros j Hj; rewrite H by assumption; ring). rewrite rsum_scal. ring.
Qed.
