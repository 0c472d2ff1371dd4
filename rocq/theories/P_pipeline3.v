(** Facts about complete programs, continued: spatial smoothing of model covariances of uniform linear arrays. *)
From Coq Require Import Lra Sorted Permutation.
From Verif Require Import Base_Np Base_Trig Base_Lin S_model M_srcnum S_srcnum P_srcnum S_subspace P_subspace P_subspace2.
Open Scope C_scope.

Lemma apa_ent (A P : cmat) a b : nr P = nc A -> nc P = nc A -> ent (A *m P *m mher A) a b = csum (nc A) (fun j => csum (nc A) (fun i => ent A a i * ent P i j * Cconj (ent A b j))).
Proof.
  intros P1 P2. cbn [mmul ent nc mher]. rewrite P2. apply csum_ext. intros j Hj. rewrite csum_scal_r. reflexivity.
Qed.
(** the covariance of the sources seen through q shifts of the array, averaged *)
Definition smooth_P (l : nat) (zs : list C) (P : cmat) : cmat :=
  Mat (nr P) (nc P) (fun i j => RtoC (/ INR l) * csum l (fun q => cpow (nth i zs (RtoC 0)) q * ent P i j * Cconj (cpow (nth j zs (RtoC 0)) q))).
Lemma smooth_exact Rm m zs P s l a b : exact_cov Rm (ula_matrix m zs) P s -> (1 <= l <= m)%nat -> (a < m - l + 1)%nat -> (b < m - l + 1)%nat ->
  smoothed Rm l a b = ent (ula_matrix (m - l + 1) zs *m smooth_P l zs P *m mher (ula_matrix (m - l + 1) zs) +m mscal (RtoC s) (mid (m - l + 1))) a b.
Proof.
  intros (P1 & P2 & E) Hl Ha Hb. cbn [ula_matrix nc] in P1, P2. unfold smoothed. cbn [madd ent mscal mid]. rewrite apa_ent by (cbn [smooth_P ula_matrix nr nc]; assumption). cbn [ula_matrix nc ent smooth_P].
  assert (L0 : RtoC (INR l) <> RtoC 0) by (apply RtoC_neq_0, not_0_INR; lia).
  rewrite (csum_ext l _ (fun q => csum (List.length zs) (fun j => csum (List.length zs) (fun i => cpow (nth i zs (RtoC 0)) (q + a) * ent P i j * Cconj (cpow (nth j zs (RtoC 0)) (q + b)))) + RtoC s * (if Nat.eqb a b then RtoC 1 else RtoC 0))).
  2: { intros q Hq. destruct E as (E1 & E2 & E3). cbn [madd nr nc mmul mher mscal ula_matrix] in E1, E2. rewrite E3 by lia. cbn [madd ent mscal mid]. f_equal.
       - rewrite apa_ent by (cbn [ula_matrix nc]; assumption). reflexivity.
       - destruct (Nat.eqb_spec (q + a) (q + b)), (Nat.eqb_spec a b); try lia; reflexivity. }
  rewrite csum_plus, csum_const. rewrite Cmult_plus_distr_l. f_equal.
  - rewrite (csum_swap l). rewrite <- csum_scal. apply csum_ext. intros j Hj. rewrite (csum_swap l). rewrite <- csum_scal. apply csum_ext. intros i Hi. rewrite <- csum_scal, <- csum_scal.
    rewrite (csum_ext l _ (fun q => (RtoC (/ INR l) * (cpow (nth i zs (RtoC 0)) q * ent P i j * Cconj (cpow (nth j zs (RtoC 0)) q))) * (cpow (nth i zs (RtoC 0)) a * Cconj (cpow (nth j zs (RtoC 0)) b)))).
    2: { intros q Hq. rewrite !cpow_add, Cmult_conj. ring. }
    rewrite csum_scal_r. ring.
  - rewrite RtoC_inv by (apply not_0_INR; lia). rewrite Cmult_assoc, Cinv_l by exact L0. ring.
Qed.
Lemma psd_kernel P y : psd P -> Re (qform P y) = 0%R -> forall r, (r < nr P)%nat -> mvec P y r = RtoC 0.
Proof.
  intros HP H0 r Hr. pose proof (cauchy_schwarz P (unit_vec r) y HP) as X. rewrite H0, Rmult_0_r in X. pose proof (Cnorm2_nonneg (bform P (unit_vec r) y)) as Y.
  assert (Z : bform P (unit_vec r) y = RtoC 0) by (apply Cnorm2_0; lra). rewrite <- Z. unfold bform, mvec, unit_vec. symmetry. rewrite (csum_single _ _ r Hr).
  - rewrite Nat.eqb_refl, Cconj_RtoC. apply csum_ext. intros; ring.
  - intros i Hi Ni. apply csum_0. intros j Hj. destruct (Nat.eqb_spec i r); [contradiction|]. rewrite Cconj_RtoC. ring.
Qed.
Lemma smooth_qform l zs P x : (1 <= l)%nat -> nr P = List.length zs -> nc P = List.length zs ->
  qform (smooth_P l zs P) x = RtoC (/ INR l) * csum l (fun q => qform P (fun j => Cconj (cpow (nth j zs (RtoC 0)) q) * x j)).
Proof.
  intros Hl P1 P2. unfold qform. cbn [smooth_P nr nc ent]. rewrite (csum_swap l). rewrite <- csum_scal. apply csum_ext. intros i Hi. rewrite (csum_swap l). rewrite <- csum_scal. apply csum_ext. intros j Hj.
  rewrite (csum_ext l (fun q => Cconj (Cconj (cpow (nth i zs (RtoC 0)) q) * x i) * ent P i j * (Cconj (cpow (nth j zs (RtoC 0)) q) * x j)) (fun q => (cpow (nth i zs (RtoC 0)) q * ent P i j * Cconj (cpow (nth j zs (RtoC 0)) q)) * (Cconj (x i) * x j))).
  - rewrite csum_scal_r. ring.
  - intros q Hq. rewrite Cmult_conj, Cconj_conj. ring.
Qed.
Lemma smooth_pd l zs P : NoDup zs -> (1 <= List.length zs <= l)%nat -> nr P = List.length zs -> nc P = List.length zs -> psd P -> (forall j, (j < nr P)%nat -> ent P j j <> RtoC 0) -> pd (smooth_P l zs P).
Proof.
  intros ND Hl P1 P2 HP HD. split.
  - split; [cbn; congruence|]. intros i j Hi Hj. cbn [smooth_P nr ent] in *. rewrite Cmult_conj, Cconj_RtoC, csum_conj. f_equal. apply csum_ext. intros q Hq. rewrite !Cmult_conj, Cconj_conj. rewrite (proj2 (proj1 HP) i j Hi Hj). ring.
  - intros x (i & Hi & Nx). cbn [smooth_P nr] in Hi. rewrite smooth_qform by (assumption || lia).
    set (y := fun q j => Cconj (cpow (nth j zs (RtoC 0)) q) * x j).
    rewrite (csum_ext l _ (fun q => RtoC (Re (qform P (y q))))) by (intros q _; apply qform_real, HP). rewrite csum_RtoC, <- RtoC_mult. cbn [Re fst RtoC].
    assert (Li : (0 < / INR l)%R) by (apply Rinv_0_lt_compat, lt_0_INR; lia). apply Rmult_lt_0_compat; [exact Li|].
    assert (NN : forall q, (q < l)%nat -> (0 <= Re (qform P (y q)))%R) by (intros; apply HP).
    destruct (Rle_lt_or_eq_dec _ _ (rsum_nonneg l _ NN)) as [L|Z]; [exact L|]. exfalso. symmetry in Z. apply Nx.
    assert (Z0 : forall q, (q < l)%nat -> Re (qform P (y q)) = 0%R) by (apply (rsum_nonneg_0 l); assumption).
    assert (VK : forall r, (r < nr P)%nat -> ent P r i * x i = RtoC 0).
    { intros r Hr. apply (vandermonde (List.length zs) (fun c => Cconj (nth c zs (RtoC 0))) (fun c => ent P r c * x c) 0); [| |  |lia].
      - intros a b Ha Hb E. apply (f_equal Cconj) in E. rewrite !Cconj_conj in E. apply (proj1 (NoDup_nth zs (RtoC 0)) ND); assumption.
      - intros; now left.
      - intros q Hq. pose proof (psd_kernel P (y q) HP (Z0 q ltac:(lia)) r Hr) as M. unfold mvec in M. rewrite P2 in M. etransitivity; [|exact M]. apply csum_ext. intros c Hc. unfold y. rewrite Nat.add_0_l. rewrite cpow_conj. ring. }
    destruct (Cmult_0 _ _ (VK i Hi)) as [X|X]; [exfalso; exact (HD i Hi X) | exact X].
Qed.

(** forward-backward: the second half of the average sees the sources with the phases of the reversed array *)
Definition back_P (p : nat) (zs : list C) (P : cmat) : cmat :=
  Mat (nr P) (nc P) (fun i j => Cconj (cpow (nth i zs (RtoC 0)) (p - 1)) * Cconj (ent P i j) * cpow (nth j zs (RtoC 0)) (p - 1)).
Lemma back_exact p zs P s a b : Forall (fun z => Cmod z = 1%R) zs -> nr P = List.length zs -> nc P = List.length zs -> (a < p)%nat -> (b < p)%nat ->
  Cconj (ent (ula_matrix p zs *m P *m mher (ula_matrix p zs) +m mscal (RtoC s) (mid p)) (p - 1 - a) (p - 1 - b)) =
  ent (ula_matrix p zs *m back_P p zs P *m mher (ula_matrix p zs) +m mscal (RtoC s) (mid p)) a b.
Proof.
  intros U P1 P2 Ha Hb. cbn [madd ent mscal mid]. rewrite !apa_ent by (cbn [back_P ula_matrix nr nc]; assumption). cbn [ula_matrix nc ent back_P]. rewrite Cplus_conj. f_equal.
  - rewrite csum_conj. apply csum_ext. intros j Hj. rewrite csum_conj. apply csum_ext. intros i Hi.
    assert (X : forall c q, (c < List.length zs)%nat -> (q < p)%nat -> Cconj (cpow (nth c zs (RtoC 0)) (p - 1 - q)) = cpow (nth c zs (RtoC 0)) q * Cconj (cpow (nth c zs (RtoC 0)) (p - 1))).
    { intros c q Hc Hq. rewrite Forall_forall in U. pose proof (cpow_1_conj (nth c zs (RtoC 0)) q (U _ (nth_In _ _ Hc))) as Y. replace (p - 1)%nat with (q + (p - 1 - q))%nat at 2 by lia. rewrite cpow_add, Cmult_conj, Cmult_assoc, Y. ring. }
    rewrite !Cmult_conj. rewrite (X i a Hi Ha). rewrite (X j b Hj Hb). rewrite Cmult_conj, Cconj_conj. ring.
  - rewrite Cmult_conj, Cconj_RtoC. f_equal. destruct (Nat.eqb_spec (p - 1 - a) (p - 1 - b)), (Nat.eqb_spec a b); try lia; apply Cconj_RtoC.
Qed.
Lemma back_pd p zs P : Forall (fun z => Cmod z = 1%R) zs -> nr P = List.length zs -> nc P = List.length zs -> pd P -> pd (back_P p zs P).
Proof.
  intros U P1 P2 (HH & HP). split.
  - split; [cbn; congruence|]. intros i j Hi Hj. cbn [back_P nr ent] in *. rewrite !Cmult_conj, !Cconj_conj. rewrite (proj2 HH j i Hj Hi). ring.
  - intros x (i & Hi & Nx). cbn [back_P nr] in Hi.
    set (y := fun j => Cconj (x j) * Cconj (cpow (nth j zs (RtoC 0)) (p - 1))).
    assert (E : qform (back_P p zs P) x = Cconj (qform P (fun j => Cconj (cpow (nth j zs (RtoC 0)) (p - 1) * x j)))).
    { unfold qform. cbn [back_P nr nc ent]. rewrite csum_conj. apply csum_ext. intros a Ha. rewrite csum_conj. apply csum_ext. intros b Hb. rewrite !Cmult_conj, !Cconj_conj. ring. }
    rewrite E. rewrite qform_conj by exact HH. apply HP. exists i. split; [exact Hi|]. intros Z. apply (f_equal Cconj) in Z. rewrite Cconj_conj, Cconj_RtoC in Z.
    apply Cmult_0 in Z as [Z|Z]; [|exact (Nx Z)]. revert Z. apply cpow_neq_0. intros Z. rewrite Forall_forall in U. assert (I : In (nth i zs (RtoC 0)) zs) by (apply nth_In; lia). apply U in I. rewrite Z, Cmod_R, Rabs_R0 in I. lra.
Qed.
(** smoothing a model covariance gives the model covariance of the subarray, with a nonsingular source covariance *)
Lemma smooth_restores ty Rm m zs P s l fb : NoDup zs -> Forall (fun z => Cmod z = 1%R) zs -> exact_cov Rm (ula_matrix m zs) P s -> psd P -> (forall j, (j < nr P)%nat -> ent P j j <> RtoC 0) ->
  (1 <= List.length zs <= l)%nat -> (l <= m)%nat -> ty = MComplex \/ (ty = MReal /\ fb = false) ->
  exists B P', spatial_smooth ty Rm (Z.of_nat l) fb = Ok B /\ exact_cov B (ula_matrix (m - l + 1) zs) P' s /\ pd P'.
Proof.
  intros ND U HX HP HD Hl Hm HT. pose proof HX as (P1 & P2 & HE). cbn [ula_matrix nc] in P1, P2. pose proof (meq_nr _ _ HE) as R1. cbn [madd nr mmul ula_matrix] in R1.
  destruct (smooth_value ty Rm l fb ltac:(destruct HT as [->|(-> & _)]; discriminate) ltac:(lia)) as (B & EB & B1 & B2 & B3). rewrite R1 in B1, B2.
  set (p := (m - l + 1)%nat) in *. set (F := smooth_P l zs P). assert (PF : pd F) by (apply smooth_pd; assumption). assert (F1 : nr F = List.length zs) by exact P1. assert (F2 : nc F = List.length zs) by exact P2.
  destruct fb.
  - destruct HT as [->|(_ & X)]; [|discriminate X]. exists B, (mscal (RtoC (/ 2)) (F +m back_P p zs F)). split; [exact EB|]. split.
    + split; [exact F1|]. split; [exact F2|]. split; [exact B1|]. split; [exact B2|]. intros a b Ha Hb. rewrite B1 in Ha. rewrite B2 in Hb. rewrite B3. cbn [fwd_back ent fwd nr]. rewrite R1. fold p.
      rewrite (smooth_exact Rm m zs P s l a b HX) by (assumption || lia). rewrite (smooth_exact Rm m zs P s l (p - 1 - a) (p - 1 - b) HX) by (unfold p in *; lia). fold p F.
      rewrite (back_exact p zs F s a b U F1 F2 Ha Hb). cbn [madd ent mscal mid]. rewrite !apa_ent by (cbn [mscal madd ula_matrix nr nc back_P]; assumption). cbn [ula_matrix nc ent mscal madd].
      rewrite (csum_ext _ (fun j => csum _ (fun i => cpow (nth i zs 0) a * (RtoC (/ 2) * (ent F i j + ent (back_P p zs F) i j)) * Cconj (cpow (nth j zs 0) b)))
        (fun j => RtoC (/ 2) * (csum (List.length zs) (fun i => cpow (nth i zs 0) a * ent F i j * Cconj (cpow (nth j zs 0) b)) + csum (List.length zs) (fun i => cpow (nth i zs 0) a * ent (back_P p zs F) i j * Cconj (cpow (nth j zs 0) b))))).
      * rewrite csum_scal, csum_plus. cbn [nr]. assert (Q : RtoC (/ 2) * (RtoC s + RtoC s) = RtoC s) by (rewrite <- RtoC_plus, <- RtoC_mult; f_equal; field). rewrite <- Q at 3. destruct (Nat.eqb a b); ring.
      * intros j Hj. rewrite <- csum_plus, <- csum_scal. apply csum_ext. intros i Hi. ring.
    + pose proof (back_pd p zs F U F1 F2 PF) as PB. split.
      * apply hermitian_mscal, hermitian_madd; [reflexivity | apply PF | apply PB].
      * intros x Hx. rewrite qform_mscal, qform_madd by reflexivity. rewrite (qform_real F) by apply PF. rewrite (qform_real (back_P p zs F)) by apply PB. rewrite <- RtoC_plus, <- RtoC_mult. cbn [Re fst RtoC].
        pose proof (proj2 PF x Hx). pose proof (proj2 PB x Hx). lra.
  - exists B, F. split; [exact EB|]. split; [|exact PF]. split; [exact F1|]. split; [exact F2|]. split; [exact B1|]. split; [exact B2|]. intros a b Ha Hb. rewrite B1 in Ha. rewrite B2 in Hb. rewrite B3.
    apply (smooth_exact Rm m zs P s l a b HX); lia.
Qed.
