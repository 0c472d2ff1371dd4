(** ** C93, continued: the bound for uncorrelated sources *)
From Coq Require Import Sorting.Permutation.
From Verif Require Import Base_Np Base_Trig Base_Lin S_utils M_utils M_sources S_sources M_array S_array P_utils P_sources P_sources2 P_array P_array2
  S_model M_perf S_perf P_perf P_perf2 P_perf3 Prop_perf Prop_perf2 S_equiv P_equiv P_equiv2 P_gauss P_model P_perf5 Prop_sources Prop_array Prop_equiv.
Open Scope C_scope.

Lemma sb_ext Q Q' X X' Y Y' m : nr Q = m -> nc Q = m -> nr X = m -> nc X = m -> nr Y = m -> nc Y = m -> Q ==m Q' -> X ==m X' -> Y ==m Y' -> slepian_bangs Q X Y = slepian_bangs Q' X' Y'.
Proof.
  intros q1 q2 x1 x2 y1 y2 EQ EX EY. pose proof (meq_nc _ _ EQ) as q2'. unfold slepian_bangs. apply mtrace_eq; [cbn; congruence|].
  apply (meq_tr _ (Q' *m X *m (Q *m Y))).
  - apply mmul_eq_l, mmul_eq_l. exact EQ.
  - apply (meq_tr _ (Q' *m X' *m (Q *m Y))); [apply mmul_eq_l, mmul_eq_r; [congruence|exact EX]|].
    apply mmul_eq_r; [cbn; rewrite <- (meq_nc _ _ EX); congruence|]. apply (meq_tr _ (Q' *m Y)); [apply mmul_eq_l; exact EQ|apply mmul_eq_r; [congruence|exact EY]].
Qed.
Lemma csum_reindex k pi rho f : bij k pi rho -> csum k (fun j => f (pi j)) = csum k f.
Proof.
  intros B. apply injective_projections; [change (Re (csum k (fun j => f (pi j))) = Re (csum k f))|change (Im (csum k (fun j => f (pi j))) = Im (csum k f))];
    rewrite ?csum_Re, ?csum_Im; [apply (rsum_reindex k pi rho (fun i => Re (f i)) B)|apply (rsum_reindex k pi rho (fun i => Im (f i)) B)].
Qed.
Lemma dcov_dims A D p r : nr (dcov A D p r) = nr A /\ nc (dcov A D p r) = nr A.
Proof. unfold dcov. destruct (Nat.ltb r (nc A)), (Nat.ltb r (2 * nc A)); split; reflexivity. Qed.
Lemma sb_scal_r Q X Y c : slepian_bangs Q X (mscal c Y) = c * slepian_bangs Q X Y.
Proof.
  unfold slepian_bangs. rewrite <- mtrace_mscal. unfold mtrace. cbn [nr mscal mmap mmul]. apply csum_ext. intros i Hi. cbn [ent mmul mscal mmap nc].
  rewrite <- csum_scal. apply csum_ext. intros r Hr. set (w := csum (nc Q) (fun q => ent Q i q * ent X q r)).
  replace (csum (nc Q) (fun q => ent Q r q * (c * ent Y q i))) with (c * csum (nc Q) (fun q => ent Q r q * ent Y q i)); [ring|].
  rewrite <- csum_scal. apply csum_ext. intros; ring.
Qed.
Lemma Cnorm_unit2 x y : Cconj x * x = RtoC 1 -> x = y -> Cconj x * y = RtoC 1.
Proof. intros H <-. exact H. Qed.

Section Fim.
Variables (k : nat) (pi rho : nat -> nat) (c t : nat -> C) (s : nat -> R).
Hypothesis B : bij k pi rho.
Hypothesis U : forall j, (j < k)%nat -> Cconj (c j) * c j = RtoC 1.
Hypothesis Sn : forall j, (j < k)%nat -> s j <> 0%R.
Hypothesis Ti : forall j, (j < k)%nat -> t j + Cconj (t j) = RtoC 0.
Variables A D A' D' : cmat.
Hypothesis nA : nc A = k. Hypothesis nA' : nc A' = k. Hypothesis nD : nc D = k. Hypothesis nD' : nc D' = k.
Hypothesis mD : nr D = nr A. Hypothesis mA' : nr A' = nr A. Hypothesis mD' : nr D' = nr A.
Hypothesis EA : forall i j, (i < nr A)%nat -> (j < k)%nat -> ent A' i j = c j * ent A i (pi j).
Hypothesis ED : forall i j, (i < nr A)%nat -> (j < k)%nat -> ent D' i j = c j * (RtoC (s j) * ent D i (pi j) + t j * ent A i (pi j)).
Variables (pr pr' : nat -> R) (sigma : R).
Hypothesis EP : forall j, (j < k)%nat -> pr' j = pr (pi j).

(** the parameters in the new order *)
Definition par (r : nat) : nat := if Nat.ltb r k then pi r else if Nat.ltb r (2 * k) then (k + pi (r - k))%nat else r.
Definition parinv (r : nat) : nat := if Nat.ltb r k then rho r else if Nat.ltb r (2 * k) then (k + rho (r - k))%nat else r.
Definition pscale (r : nat) : R := if Nat.ltb r k then s r else 1.
Lemma par_lo r : (r < k)%nat -> par r = pi r. Proof. intros H. unfold par. destruct (Nat.ltb_spec r k); [reflexivity|lia]. Qed.
Lemma par_mid j : (j < k)%nat -> par (k + j) = (k + pi j)%nat.
Proof. intros H. unfold par. destruct (Nat.ltb_spec (k + j) k); [lia|]. destruct (Nat.ltb_spec (k + j) (2 * k)); [|lia]. replace (k + j - k)%nat with j by lia. reflexivity. Qed.
Lemma par_hi : par (2 * k) = (2 * k)%nat.
Proof. unfold par. destruct (Nat.ltb_spec (2 * k) k); [lia|]. destruct (Nat.ltb_spec (2 * k) (2 * k)); [lia|reflexivity]. Qed.
Lemma pscale_lo r : (r < k)%nat -> pscale r = s r. Proof. intros H. unfold pscale. destruct (Nat.ltb_spec r k); [reflexivity|lia]. Qed.
Lemma pscale_hi r : (k <= r)%nat -> pscale r = 1%R. Proof. intros H. unfold pscale. destruct (Nat.ltb_spec r k); [lia|reflexivity]. Qed.
Lemma pcase r : (r < 2 * k + 1)%nat -> (r < k)%nat \/ (exists j, (j < k)%nat /\ r = (k + j)%nat) \/ r = (2 * k)%nat.
Proof. intros H. destruct (Nat.lt_ge_cases r k); [now left|]. right. destruct (Nat.eq_dec r (2 * k)); [now right|]. left. exists (r - k)%nat. lia. Qed.
Lemma par_bij : bij (2 * k + 1) par parinv.
Proof.
  assert (RL : forall r, (r < k)%nat -> parinv r = rho r) by (intros r H; unfold parinv; destruct (Nat.ltb_spec r k); [reflexivity|lia]).
  assert (RM : forall j, (j < k)%nat -> parinv (k + j) = (k + rho j)%nat).
  { intros j H. unfold parinv. destruct (Nat.ltb_spec (k + j) k); [lia|]. destruct (Nat.ltb_spec (k + j) (2 * k)); [|lia]. replace (k + j - k)%nat with j by lia. reflexivity. }
  assert (RH : parinv (2 * k) = (2 * k)%nat) by (unfold parinv; destruct (Nat.ltb_spec (2 * k) k); [lia|]; destruct (Nat.ltb_spec (2 * k) (2 * k)); [lia|reflexivity]).
  destruct B as [b1 b2 b3 b4]. split; intros r Hr; destruct (pcase r Hr) as [H|[(j & H & ->)| ->]].
  - rewrite par_lo by exact H. specialize (b1 r H). lia.
  - rewrite par_mid by exact H. specialize (b1 j H). lia.
  - rewrite par_hi. lia.
  - rewrite RL by exact H. specialize (b2 r H). lia.
  - rewrite RM by exact H. specialize (b2 j H). lia.
  - rewrite RH. lia.
  - rewrite par_lo, RL; auto.
  - rewrite par_mid, RM, b3 by auto. reflexivity.
  - rewrite par_hi. exact RH.
  - rewrite RL, par_lo; auto.
  - rewrite RM, par_mid, b4 by auto. reflexivity.
  - rewrite RH. exact par_hi.
Qed.
Lemma sim_dcov r : (r < 2 * k + 1)%nat -> dcov A' D' pr' r ==m mscal (RtoC (pscale r)) (dcov A D pr (par r)).
Proof.
  intros Hr. destruct B as [b1 _ _ _]. unfold dcov. rewrite nA, nA', mA'. destruct (pcase r Hr) as [H|[(j & H & ->)| ->]].
  - rewrite pscale_lo, par_lo by exact H. pose proof (b1 r H) as Hp. destruct (Nat.ltb_spec r k); [|lia]. destruct (Nat.ltb_spec (pi r) k); [|lia].
    split; [reflexivity|]. split; [reflexivity|]. cbn. intros x y Hx Hy. unfold col. rewrite (EP r H), !EA, !ED by assumption. rewrite !Cmult_conj, !Cplus_conj, !Cmult_conj, Cconj_RtoC.
    pose proof (U r H) as U1. assert (U2 : c r * Cconj (c r) = RtoC 1) by (rewrite Cmult_comm; exact U1). pose proof (Ti r H) as T1.
    set (d1 := ent D x (pi r)). set (d2 := ent D y (pi r)). set (a1 := ent A x (pi r)). set (a2 := ent A y (pi r)).
    transitivity (RtoC (pr (pi r)) * ((c r * Cconj (c r)) * (RtoC (s r) * (d1 * Cconj a2 + a1 * Cconj d2) + (t r + Cconj (t r)) * (a1 * Cconj a2)))); [ring|].
    rewrite U2, T1. ring.
  - rewrite pscale_hi, par_mid by (assumption || lia). pose proof (b1 j H) as Hp. destruct (Nat.ltb_spec (k + j) k); [lia|]. destruct (Nat.ltb_spec (k + j) (2 * k)); [|lia].
    destruct (Nat.ltb_spec (k + pi j) k); [lia|]. destruct (Nat.ltb_spec (k + pi j) (2 * k)); [|lia].
    replace (k + j - k)%nat with j by lia. replace (k + pi j - k)%nat with (pi j) by lia.
    split; [reflexivity|]. split; [reflexivity|]. cbn. intros x y Hx Hy. unfold col. rewrite !EA by assumption. rewrite Cmult_conj.
    assert (U2 : c j * Cconj (c j) = RtoC 1) by (rewrite Cmult_comm; apply U; exact H).
    transitivity ((c j * Cconj (c j)) * (ent A x (pi j) * Cconj (ent A y (pi j)))); [ring|]. rewrite U2. ring.
  - rewrite pscale_hi, par_hi by lia. destruct (Nat.ltb_spec (2 * k) k); [lia|]. destruct (Nat.ltb_spec (2 * k) (2 * k)); [lia|].
    split; [reflexivity|]. split; [reflexivity|]. cbn. intros x y Hx Hy. ring.
Qed.
Lemma sim_model_cov : model_cov A' pr' sigma ==m model_cov A pr sigma.
Proof.
  split; [exact mA'|]. split; [exact mA'|]. intros i j Hi Hj. cbn in Hi, Hj. rewrite mA' in Hi, Hj. rewrite !model_cov_ent by (rewrite ?mA'; assumption). f_equal. rewrite nA, nA'.
  rewrite <- (csum_reindex k pi rho (fun r => RtoC (pr r) * ent A i r * Cconj (ent A j r)) B). apply csum_ext. intros r Hr. rewrite !EA, EP, Cmult_conj by assumption.
  assert (U2 : c r * Cconj (c r) = RtoC 1) by (rewrite Cmult_comm; apply U; exact Hr).
  transitivity ((c r * Cconj (c r)) * (RtoC (pr (pi r)) * ent A i (pi r) * Cconj (ent A j (pi r)))); [ring|]. rewrite U2. ring.
Qed.

(** the Fisher matrix the code inverts *)
Definition fim_spec (A D Q : cmat) (pr : nat -> R) (F : rmat) : Prop :=
  nr Q = nr A /\ nc Q = nr A /\ model_cov A pr sigma *m Q ==m mid (nr A) /\ nr F = (2 * k + 1)%nat /\ nc F = (2 * k + 1)%nat /\
  (forall r q, (r < 2 * k + 1)%nat -> (q < 2 * k + 1)%nat -> ~ ((k <= r < 2 * k)%nat /\ (k <= q < 2 * k)%nat) -> RtoC (ent F r q) = slepian_bangs Q (dcov A D pr r) (dcov A D pr q)) /\
  (forall i j, (i < k)%nat -> (j < k)%nat -> ent F (k + i) (k + j) = Re (bform Q (col A i) (col A j) * bform Q (col A i) (col A j))).
Lemma sim_fim Q Q' F F' : fim_spec A D Q pr F -> fim_spec A' D' Q' pr' F' ->
  (forall i j, (i < k)%nat -> (j < k)%nat -> c i = c j) ->
  forall r q, (r < 2 * k + 1)%nat -> (q < 2 * k + 1)%nat -> ent F' r q = (pscale r * pscale q * ent F (par r) (par q))%R.
Proof.
  intros (q1 & q2 & QE & f1 & f2 & FA & FP) (q1' & q2' & QE' & f1' & f2' & FA' & FP') CC r q Hr Hq. rewrite mA' in *.
  assert (EQ : Q' ==m Q).
  { apply (mul_inv_unique (model_cov A pr sigma) Q' Q (nr A)); try assumption; try reflexivity.
    apply (meq_tr _ (model_cov A' pr' sigma *m Q')); [apply mmul_eq_l; symmetry; apply sim_model_cov|exact QE']. }
  pose proof (bj_pi _ _ _ par_bij r Hr) as Hpr. pose proof (bj_pi _ _ _ par_bij q Hq) as Hpq.
  assert (HH : (exists i j, (i < k)%nat /\ (j < k)%nat /\ r = (k + i)%nat /\ q = (k + j)%nat) \/ ~ ((k <= r < 2 * k)%nat /\ (k <= q < 2 * k)%nat)).
  { destruct (pcase r Hr) as [H|[(i & H & ->)| ->]]; [right; lia| |right; lia]. destruct (pcase q Hq) as [H'|[(j & H' & ->)| ->]]; [right; lia| |right; lia]. left. exists i, j. auto. }
  destruct HH as [(i & j & Hi & Hj & -> & ->)|HH].
  - rewrite !pscale_hi, !par_mid by (assumption || lia). rewrite (FP' i j Hi Hj), (FP _ _ (bj_pi _ _ _ B i Hi) (bj_pi _ _ _ B j Hj)).
    assert (E : bform Q' (col A' i) (col A' j) = bform Q (col A (pi i)) (col A (pi j))).
    { unfold bform. rewrite (meq_nr _ _ EQ), (meq_nc _ _ EQ), q1, q2. apply csum_ext. intros x Hx. apply csum_ext. intros y Hy. unfold col.
      rewrite (meq_ent _ _ x y EQ) by (rewrite ?(meq_nr _ _ EQ), ?(meq_nc _ _ EQ); congruence). rewrite !EA, Cmult_conj by assumption.
      pose proof (Cnorm_unit2 _ _ (U i Hi) (CC i j Hi Hj)) as U2.
      transitivity ((Cconj (c i) * c j) * (Cconj (ent A x (pi i)) * ent Q x y * ent A y (pi j))); [ring|]. rewrite U2. ring. }
    rewrite E. ring.
  - apply RtoC_inj. rewrite (FA' r q Hr Hq HH).
    destruct (dcov_dims A' D' pr' r) as (d1 & d2). destruct (dcov_dims A' D' pr' q) as (d3 & d4). rewrite mA' in *.
    rewrite (sb_ext Q' Q _ _ _ _ (nr A) q1' q2' d1 d2 d3 d4 EQ (sim_dcov r Hr) (sim_dcov q Hq)).
    rewrite sb_scal_l, sb_scal_r, !RtoC_mult. rewrite FA; [ring|exact Hpr|exact Hpq|].
    intros (G1 & G2). apply HH. destruct B as [b1 _ _ _].
    split; [destruct (pcase r Hr) as [H|[(i & H & ->)| ->]]|destruct (pcase q Hq) as [H|[(i & H & ->)| ->]]]; try lia;
      try (rewrite par_lo in G1, G2 by exact H; specialize (b1 _ H); lia); try (rewrite ?par_lo, ?par_hi in * by exact H; try specialize (b1 _ H); lia).
    all: try (rewrite par_hi in G1; lia); try (rewrite par_hi in G2; lia); try (rewrite par_lo in G1 by exact H; specialize (b1 _ H); lia); try (rewrite par_lo in G2 by exact H; specialize (b1 _ H); lia).
Qed.
End Fim.

Lemma stouc_spec cinv rinv a l u lam p P pr sigma N V : cinv_exact cinv -> rinv_exact rinv -> wf_array a ->
  denotes (List.length l) p P -> (forall i, (i < List.length l)%nat -> P i i = RtoC (pr i)) ->
  crb_stouc_farfield_1d cinv rinv a (FF1 l u) lam p sigma N "full" = Ok (OFull V) ->
  exists A D Q F X, steering_matrix a (FF1 l u) lam true "all" false = Ok (Flat A, [D]) /\ nc A = List.length l /\
    fim_spec (List.length l) sigma A D Q pr F /\ rsym F /\ inv_of F X /\ V = symmetrised (rscal (/ N) (Mat (List.length l) (List.length l) (ent X))).
Proof.
  intros CO RO W HD Hp H.
  destruct (stouc_inv cinv rinv RO a l u lam p sigma N _ _ W H) as (A & D & pa & F & X & ES & A1 & A2 & D1 & D2 & HU & _ & HF & HI & HR & _).
  cbn in HR. injection HR as <-.
  destruct (C68_agree p _ P HD) as (M & v & _ & HU' & _ & _ & SV & WV & _ & HV). rewrite HU in HU'. injection HU' as <-.
  assert (LP : List.length (nd_data pa) = List.length l) by (unfold nd_wf in WV; rewrite WV, SV; cbn; lia).
  assert (HPR : forall i, (i < List.length (nd_data pa))%nat -> nth i (nd_data pa) (RtoC 0) = RtoC (pr i)) by (intros i Hi; rewrite LP in Hi; rewrite HV by exact Hi; now apply Hp).
  destruct (fim_inv cinv (ar_size a) A D (nd_data pa) pr sigma F CO A1 ltac:(congruence) D1 ltac:(congruence) HPR HF) as (Q & Q1 & Q2 & QH & HQ & F1 & F2 & FA & FP).
  pose proof (fim_sym cinv (ar_size a) A D (nd_data pa) pr sigma F CO A1 ltac:(congruence) D1 ltac:(congruence) HPR HF) as SF. rewrite LP in F1, F2. rewrite A2, F1 in FA. rewrite A2 in FP.
  exists A, D, Q, F, X. split; [exact ES|]. split; [exact A2|]. split; [|split; [exact SF|split; [exact HI|reflexivity]]].
  rewrite <- A1 in *. do 6 (split; [assumption|]). intros i j Hi Hj. apply (FP i j Hi Hj).
Qed.

(** The bound for uncorrelated sources (whose power block is the deviation of C71): the two descriptions must give the same phase
    shift to every source, e.g. they have the same origin, or there is one source. *)
Theorem C93_uncorrelated : forall cinv rinv a l u lam a' l' u' lam' idx vx vy p p' P P' pr sigma N V A D r',
  cinv_exact cinv -> rinv_exact rinv -> wf_array a -> wf_array a' ->
  same_scene a l u lam a' l' u' lam' idx vx vy ->
  (forall i j, (i < List.length l)%nat -> (j < List.length l)%nat -> shift_phase l' u' lam' vx vy i = shift_phase l' u' lam' vx vy j) ->
  denotes (List.length l) p P -> denotes (List.length l) p' P' ->
  (forall i, (i < List.length l)%nat -> P i i = RtoC (pr i) /\ (0 <= pr i)%R /\ P' i i = P (nth i idx 0%nat) (nth i idx 0%nat)) -> (0 < sigma)%R ->
  steering_matrix a (FF1 l u) lam true "all" false = Ok (Flat A, [D]) -> steering_matrix a' (FF1 l' u') lam' true "all" false = Ok r' ->
  crb_stouc_farfield_1d cinv rinv a (FF1 l u) lam p sigma N "full" = Ok (OFull V) ->
  exists V', crb_stouc_farfield_1d cinv rinv a' (FF1 l' u') lam' p' sigma N "full" = Ok (OFull V') /\ same_in_radians l u V l' u' V' idx.
Proof.
  intros cinv rinv a l u lam a' l' u' lam' idx vx vy p p' P P' pr sigma N V A D r' CO RO W W' SC CC Dp Dp' Hd Hs HA HA' H.
  assert (exists A' D', r' = (Flat A', [D'])) as (A' & D' & ->).
  { destruct r' as (St, DA). destruct (steering_scalar_inv a' _ lam' true "all" false _ _ W' (steering_der_iso _ _ _ _ _ _ HA') HA') as (ps & L & T & DT & A0 & _ & _ & _ & Ph & _ & _ & -> & _ & F).
    pose proof SC as [(_ & V') (_ & I') _ _ _ _]. destruct (FF1_phases l' u' (la_m L) lam' T DT V' I' Ph) as (DD & -> & _). inversion F as [|? D' ? ? _ F2]; subst. inversion F2; subst. eexists _, _. reflexivity. }
  destruct (scene_data_ok _ _ _ _ _ _ _ _ _ _ _ A D A' D' SC W W' HA HA') as (rho & SD).
  pose proof (scene_len a a' l l' u u' lam lam' idx vx vy SC) as Ln.
  pose proof SD as [_ (mA' & qA & qA' & qD & qD' & mD & mD') B U Nz EA ED].
  set (k := List.length l) in *. set (pi := fun j => nth j idx 0%nat) in *. set (c := scene_c l' u' lam' vx vy) in *. set (s := scene_s l u l' u' idx) in *. set (t := scene_t l' u' lam' vx vy) in *.
  assert (TI : forall j, (j < k)%nat -> t j + Cconj (t j) = RtoC 0).
  { intros j _. unfold t, scene_t. rewrite Cmult_conj, Cconj_RtoC. assert (E : Cconj Ci = - Ci) by (apply injective_projections; cbn; ring). rewrite E. ring. }
  assert (CE : forall i j, (i < k)%nat -> (j < k)%nat -> c i = c j) by (intros i j Hi Hj; unfold c, scene_c; rewrite (CC i j Hi Hj); reflexivity).
  destruct (stouc_spec cinv rinv a l u lam p P pr sigma N V CO RO W Dp ltac:(intros i Hi; apply Hd, Hi) H) as (A1 & D1 & Q & F & X & HA1 & _ & FS & SyF & IX & EV).
  rewrite HA in HA1. injection HA1 as <- <-. fold k in FS, EV.
  assert (Hp : forall i, (i < k)%nat -> (pi i < k)%nat) by (intros i Hi; exact (bj_pi _ _ _ B i Hi)).
  assert (Hd' : forall i, (i < k)%nat -> P' i i = RtoC (pr (pi i)) /\ (0 <= pr (pi i))%R).
  { intros i Hi. destruct (Hd i Hi) as (_ & _ & E). destruct (Hd _ (Hp i Hi)) as (E2 & E3 & _). split; [rewrite E; exact E2|exact E3]. }
  assert (Rel : forall Q' F', fim_spec k sigma A' D' Q' (fun i => pr (pi i)) F' ->
    forall r q, (r < 2 * k + 1)%nat -> (q < 2 * k + 1)%nat -> ent F' r q = (pscale k s r * pscale k s q * ent F (par k pi r) (par k pi q))%R).
  { intros Q' F' FS'. exact (sim_fim k pi rho c t s B U TI A D A' D' qA qA' qD qD' mD mA' mD' EA ED pr (fun i => pr (pi i)) sigma (fun j _ => eq_refl) Q Q' F F' FS FS' CE). }
  assert (nF : nr F = (2 * k + 1)%nat) by apply FS.
  pose proof (par_bij k pi rho B A D A' D' qA qA' qD qD' mD mA' mD') as PB.
  assert (PZ : forall i, (i < nr F)%nat -> pscale k s i <> 0%R).
  { intros i _. unfold pscale. destruct (Nat.ltb_spec i k); [apply Nz; assumption|exact R1_neq_R0]. }
  destruct (C71_defined cinv rinv a' l' u' lam' p' P' (fun i => pr (pi i)) sigma N "full" A' D' CO RO W') as (o & Ho); try (rewrite ?Ln; assumption).
  - now left.
  - rewrite Ln. fold k. intros Q' F' g1 g2 g3 g4 g5 g6 g7.
    apply (rinj_similar F F' X (pscale k s) (par k pi) (parinv k rho)); try assumption.
    + rewrite nF. exact PB.
    + congruence.
    + congruence.
    + rewrite nF. apply (Rel Q'). do 6 (split; [assumption|]). assumption.
  - assert (exists V', o = OFull V') as (V' & ->).
    { destruct (stouc_inv cinv rinv RO a' l' u' lam' p' sigma N _ _ W' Ho) as (? & ? & ? & ? & ? & _ & _ & _ & _ & _ & _ & _ & _ & _ & HR & _). cbn in HR. injection HR as <-. eexists. reflexivity. }
    exists V'. split; [exact Ho|].
    destruct (stouc_spec cinv rinv a' l' u' lam' p' P' (fun i => pr (pi i)) sigma N V' CO RO W') as (A1 & D1 & Q' & F' & X' & HA1 & _ & FS' & SyF' & IX' & EV'); try (rewrite ?Ln; assumption).
    { rewrite Ln. intros i Hi. apply Hd', Hi. }
    rewrite HA' in HA1. injection HA1 as <- <-. rewrite Ln in FS', EV'.
    pose proof (Rel Q' F' FS') as R'. assert (nF' : nr F' = nr F) by (rewrite nF; apply FS').
    assert (RX : forall i j, (i < 2 * k + 1)%nat -> (j < 2 * k + 1)%nat -> (pscale k s i * pscale k s j * ent X' i j)%R = ent X (par k pi i) (par k pi j)).
    { rewrite <- nF. apply (inv_similar F F' X X' (pscale k s) (par k pi) (parinv k rho)); try assumption; rewrite nF; assumption. }
    apply (same_intro a a' l l' u u' lam lam' idx vx vy SC); [rewrite EV'; reflexivity|rewrite EV'; reflexivity|].
    subst V V'. apply (sym_scaled_rel k pi s (Mat k k (ent X)) (Mat k k (ent X')) (/ N)); try reflexivity.
    intros i j Hi Hj. cbn [ent]. pose proof (RX i j ltac:(lia) ltac:(lia)) as E. unfold pscale, par in E. rewrite (proj2 (Nat.ltb_lt i k) Hi), (proj2 (Nat.ltb_lt j k) Hj) in E. exact E.
Qed.

(** ** a concrete scene described twice: a two-element array with a source at broadside; and the same turned by 30 degrees, enlarged together with
    the wavelength by two, and moved, with the angle in degrees *)
Definition ex_array' : array := Array (LArr DFloat (Mat 2 2 (fun i j =>
  if Nat.eqb j 0 then 2 * (INR i / 2 * cos (PI / 6)) + 3 else 2 * (- (INR i / 2 * sin (PI / 6))) - 1)%R)) "x" ISOTROPIC_SCALAR_SENSOR [].
Lemma ex_scene : same_scene ex_array [0%R] "rad" 1 ex_array' [30%R] "deg" 2 [0%nat] 3 (-1).
Proof.
  pose proof PI_RGT_0 as PP. split.
  - split; (split; [unfold known_unit; auto|]); (constructor; [|constructor]).
    + left. split; [reflexivity|]. lra.
    + right. left. split; [reflexivity|]. lra.
  - split; intros E; discriminate.
  - split; [constructor; constructor|reflexivity].
  - reflexivity.
  - reflexivity.
  - exists (LArr DFloat (Mat 2 1 (fun i _ => INR i / 2)%R)), (ar_loc ex_array'), 2%R, (PI / 6)%R. split; [reflexivity|]. split; [reflexivity|]. split; [lra|]. split; [ring|]. split.
    + intros i Hi. cbn [ar_size ex_array ar_loc la_m nr] in Hi. unfold coord. cbn -[INR]. split; ring.
    + intros j Hj. cbn in Hj. assert (j = 0)%nat by lia. subst j. unfold to_rad. cbn. field.
Qed.
Example C93_example : exists Vd Vd' Vs Vs' : rmat,
  crb_det_farfield_1d solve0 rinv0 (fun _ => Raise LinAlgError) ex_array (FF1 [0%R] "rad") 1 ex_P 1 10 "full" = Ok (OFull Vd) /\
  crb_det_farfield_1d solve0 rinv0 (fun _ => Raise LinAlgError) ex_array' (FF1 [30%R] "deg") 2 ex_P 1 10 "full" = Ok (OFull Vd') /\
  crb_sto_farfield_1d solve0 rinv0 ex_array (FF1 [0%R] "rad") 1 (PArr ex_P) 1 10 "full" = Ok (OFull Vs) /\
  crb_sto_farfield_1d solve0 rinv0 ex_array' (FF1 [30%R] "deg") 2 (PArr ex_P) 1 10 "full" = Ok (OFull Vs') /\
  ((PI / 180) * (PI / 180) * ent Vd' 0 0 = ent Vd 0 0 /\ (PI / 180) * (PI / 180) * ent Vs' 0 0 = ent Vs 0 0)%R.
Proof.
  destruct C70_example as (Vd & Vs & Hd & Hs & HP & _).
  destruct ex_steering as (A & D & ES & A1 & A2 & D1 & D2 & E0 & E1 & F0 & F1).
  assert (HA' : exists r', steering_matrix ex_array' (FF1 [30%R] "deg") 2 true "all" false = Ok r').
  { eexists. unfold steering_matrix, phase_delay_matrix. rewrite (P_sources.Reqb_neq 2 0 ltac:(lra)). reflexivity. }
  destruct HA' as (r' & HA').
  destruct (C93_defined solve0 cinv0 rinv0 (fun _ => Raise LinAlgError) ex_array [0%R] "rad" 1 ex_array' [30%R] "deg" 2 [0%nat] 3 (-1) 1 10 A D r'
    solve0_exact cinv0_exact rinv0_exact (wf_empty _ _ _) (wf_empty _ _ _) ex_scene ES (ex_inj A A1 A2 E0) HA') as (T1 & T2 & _).
  assert (SW : forall M, same_waveforms 1 [0%nat] (shift_phase [30%R] "deg" 2 3 (-1)) M M).
  { intros M i j Hi Hj. assert (i = 0 /\ j = 0)%nat as (-> & ->) by lia. rewrite Rminus_diag_eq, cis_0 by reflexivity. cbn [nth]. ring. }
  destruct (T1 ex_P ex_P Vd eq_refl (proj1 HP) (SW _) Hd) as (Vd' & Hd' & (_ & _ & Rd)).
  destruct (T2 (PArr ex_P) (PArr ex_P) (fun i j => nth (i * 1 + j) (nd_data ex_P) (RtoC 0)) (fun i j => nth (i * 1 + j) (nd_data ex_P) (RtoC 0)) Vs) as (Vs' & Hs' & (_ & _ & Rs)); try exact Hs.
  - apply (den_matrix 1 (nd_data ex_P)); reflexivity.
  - apply (den_matrix 1 (nd_data ex_P)); reflexivity.
  - exact HP.
  - lra.
  - apply SW.
  - exists Vd, Vd', Vs, Vs'. do 4 (split; [assumption|]). specialize (Rd 0%nat 0%nat ltac:(cbn; lia) ltac:(cbn; lia)). specialize (Rs 0%nat 0%nat ltac:(cbn; lia) ltac:(cbn; lia)).
    unfold unit_step in Rd, Rs. cbn in Rd, Rs. lra.
Qed.

(** Moving the origin changes the matrix inverted for uncorrelated sources (the true Fisher information does not change): two unit-power sources,
    a two-element array, and the same array moved by a quarter wavelength. *)
Definition ex_moved : array := Array (LArr DFloat (Mat 2 1 (fun i _ => INR i / 2 + / 4)%R)) "x" ISOTROPIC_SCALAR_SENSOR [].
Lemma ex_moved_scene : same_scene ex_array ex_angles "rad" 1 ex_moved ex_angles "rad" 1 [0%nat; 1%nat] (/ 4) 0.
Proof.
  pose proof PI_RGT_0 as PP. assert (VA : valid_sources (FF1 ex_angles "rad")).
  { split; [unfold known_unit; auto|]. constructor; [left; split; [reflexivity|lra]|]. constructor; [left; split; [reflexivity|lra]|constructor]. }
  split.
  - split; assumption.
  - split; intros E; discriminate.
  - split; [apply Permutation_refl|reflexivity].
  - reflexivity.
  - reflexivity.
  - exists (ar_loc ex_array), (ar_loc ex_moved), 1%R, 0%R. split; [reflexivity|]. split; [reflexivity|]. split; [lra|]. split; [ring|]. split.
    + intros i Hi. unfold coord. cbn -[INR]. rewrite cos_0, sin_0. split; ring.
    + intros j Hj. cbn in Hj. destruct j as [|[|j]]; [| |lia]; unfold to_rad; cbn; ring.
Qed.
Lemma ex_z A Q : nr A = 2%nat -> nc A = 2%nat -> ent A 0 0 = RtoC 1 -> ent A 1 0 = RtoC 1 -> ent A 0 1 = RtoC 1 -> ent A 1 1 = Ci -> nr Q = 2%nat -> nc Q = 2%nat ->
  model_cov A (fun _ => 1%R) 1 *m Q ==m mid 2 -> bform Q (col A 0) (col A 1) = RtoC (/ 7) * (RtoC 1 + Ci).
Proof.
  intros A1 A2 E00 E10 E01 E11 Q1 Q2 HQ.
  assert (ME : forall i j, (i < 2)%nat -> (j < 2)%nat -> ent (model_cov A (fun _ => 1%R) 1) i j = csum 2 (fun k => ent A i k * Cconj (ent A j k)) + (if Nat.eqb i j then RtoC 1 else RtoC 0)).
  { intros i j Hi Hj. rewrite model_cov_ent by lia. rewrite A2. f_equal. apply csum_ext; intros; ring. }
  unfold bform, col. rewrite Q1, Q2. cbn [csum]. rewrite E00, E10, E01, E11.
  assert (MQ : forall i j, (i < 2)%nat -> (j < 2)%nat -> csum 2 (fun k => ent (model_cov A (fun _ => 1%R) 1) i k * ent Q k j) = ent (mid 2) i j).
  { intros i j Hi Hj. pose proof (meq_ent _ _ i j HQ) as E. cbn [mmul nr nc ent] in E. rewrite Q2 in E. change (nr (model_cov A (fun _ => 1%R) 1)) with (nr A) in E. change (nc (model_cov A (fun _ => 1%R) 1)) with (nr A) in E. rewrite A1 in E. exact (E Hi Hj). }
  pose proof (MQ 0 0 ltac:(lia) ltac:(lia))%nat as M00. pose proof (MQ 0 1 ltac:(lia) ltac:(lia))%nat as M01. pose proof (MQ 1 0 ltac:(lia) ltac:(lia))%nat as M10. pose proof (MQ 1 1 ltac:(lia) ltac:(lia))%nat as M11.
  cbn [csum] in M00, M01, M10, M11. rewrite !ME in M00, M01, M10, M11 by lia. cbn [csum Nat.eqb mid ent] in M00, M01, M10, M11. rewrite E00, E10, E01, E11 in M00, M01, M10, M11.
  destruct (ent Q 0 0) as [a0 b0], (ent Q 0 1) as [c1 b1], (ent Q 1 0) as [c2 b2], (ent Q 1 1) as [a3 b3].
  apply (f_equal fst) in M00 as X1. apply (f_equal snd) in M00 as X2. apply (f_equal fst) in M01 as X3. apply (f_equal snd) in M01 as X4. apply (f_equal fst) in M10 as X5. apply (f_equal snd) in M10 as X6. apply (f_equal fst) in M11 as X7. apply (f_equal snd) in M11 as X8.
  clear M00 M01 M10 M11. cbn in X1, X2, X3, X4, X5, X6, X7, X8. apply injective_projections; cbn; lra.
Qed.
Theorem C93_origin_defect : exists A D A' D' F F',
  steering_matrix ex_array (FF1 ex_angles "rad") 1 true "all" false = Ok (Flat A, [D]) /\
  steering_matrix ex_moved (FF1 ex_angles "rad") 1 true "all" false = Ok (Flat A', [D']) /\
  fim_stouc cinv0 2 A D [RtoC 1; RtoC 1] 1 = Ok F /\ fim_stouc cinv0 2 A' D' [RtoC 1; RtoC 1] 1 = Ok F' /\
  ent F 2 3 = 0%R /\ ent F' 2 3 = (- (2 / 49))%R.
Proof.
  destruct C71_power_block_defect as (A & D & Q & F & ES & HQ & HF & F0 & SB). cbv zeta in *.
  destruct ex_steering2 as (A1 & D1 & ES1 & a1 & a2 & d1 & d2 & E00 & E10 & E01 & E11). rewrite ES in ES1. injection ES1 as <- <-.
  assert (HA' : exists A' D', steering_matrix ex_moved (FF1 ex_angles "rad") 1 true "all" false = Ok (Flat A', [D'])).
  { eexists _, _. unfold steering_matrix, phase_delay_matrix. rewrite (P_sources.Reqb_neq 1 0 R1_neq_R0). reflexivity. }
  destruct HA' as (A' & D' & ES').
  destruct (scene_data_ok _ _ _ _ _ _ _ _ _ _ _ A D A' D' ex_moved_scene (wf_empty _ _ _) (wf_empty _ _ _) ES ES') as (rho & SD).
  pose proof SD as [_ (mA' & qA & qA' & qD & qD' & mD & mD') B U Nz EA ED].
  assert (HP : forall i, (i < 2)%nat -> nth i [RtoC 1; RtoC 1] (RtoC 0) = RtoC 1) by (intros i Hi; destruct i as [|[|i]]; [reflexivity..|lia]).
  assert (HI : forall M, inj (model_cov M (fun _ => 1%R) 1)) by (intros M; unfold model_cov; apply cov_inj; [reflexivity | apply psd_mdiag; intros; lra | lra]).
  destruct (fim_defined cinv0 2 A' D' [RtoC 1; RtoC 1] (fun _ => 1%R) 1 cinv0_exact ltac:(congruence) qA' ltac:(congruence) qD' HP (HI A')) as (F' & HF').
  destruct (fim_inv cinv0 2 A D [RtoC 1; RtoC 1] (fun _ => 1%R) 1 F cinv0_exact a1 a2 d1 d2 HP HF) as (Q0 & Q1 & Q2 & _ & HQ0 & _ & _ & _ & FP).
  destruct (fim_inv cinv0 2 A' D' [RtoC 1; RtoC 1] (fun _ => 1%R) 1 F' cinv0_exact ltac:(congruence) qA' ltac:(congruence) qD' HP HF') as (Q' & Q1' & Q2' & _ & HQ' & _ & _ & _ & FP').
  exists A, D, A', D', F, F'. do 4 (split; [assumption|]). split; [exact F0|].
  destruct (FP 0%nat 1%nat ltac:(lia) ltac:(lia)) as (G1 & G2). cbv zeta in G1, G2. rewrite a2 in G1, G2.
  destruct (FP' 0%nat 1%nat ltac:(rewrite qA'; cbn; lia) ltac:(rewrite qA'; cbn; lia)) as (G1' & _). cbv zeta in G1'. rewrite qA' in G1'. change (List.length ex_angles + 0)%nat with 2%nat in G1'. change (List.length ex_angles + 1)%nat with 3%nat in G1'. rewrite G1'.
  (* both covariances agree, so do their inverses *)
  assert (EQ : Q' ==m Q0).
  { apply (mul_inv_unique (model_cov A (fun _ => 1%R) 1) Q' Q0 2); try assumption; try (cbn; exact a1).
    apply (meq_tr _ (model_cov A' (fun _ => 1%R) 1 *m Q')); [|exact HQ']. apply mmul_eq_l. symmetry.
    exact (sim_model_cov 2 (fun j => nth j [0%nat; 1%nat] 0%nat) rho _ B U A A' qA qA' mA' EA (fun _ => 1%R) (fun _ => 1%R) 1 (fun _ _ => eq_refl)). }
  pose proof (ex_z A Q0 a1 a2 E00 E10 E01 E11 Q1 Q2 HQ0) as Z.
  assert (C0 : scene_c ex_angles "rad" 1 (/ 4) 0 0 = RtoC 1).
  { unfold scene_c, shift_phase, to_rad. cbn. rewrite sin_0. replace (2 * PI / 1 * (/ 4 * 0 + 0 * cos 0))%R with 0%R by field. apply cis_0. }
  assert (C1 : scene_c ex_angles "rad" 1 (/ 4) 0 1 * scene_c ex_angles "rad" 1 (/ 4) 0 1 = Ci).
  { unfold scene_c. rewrite <- cis_plus. unfold shift_phase, to_rad. cbn. rewrite sin_PI6. replace (2 * PI / 1 * (/ 4 * (1 / 2) + 0 * cos (PI / 6)) + 2 * PI / 1 * (/ 4 * (1 / 2) + 0 * cos (PI / 6)))%R with (PI / 2)%R by field.
    unfold cis. rewrite cos_PI2, sin_PI2. reflexivity. }
  assert (EZ : bform Q' (col A' 0) (col A' 1) = scene_c ex_angles "rad" 1 (/ 4) 0 1 * bform Q0 (col A 0) (col A 1)).
  { unfold bform. rewrite (meq_nr _ _ EQ), (meq_nc _ _ EQ). rewrite <- csum_scal. apply csum_ext. intros x Hx. rewrite <- csum_scal. apply csum_ext. intros y Hy. unfold col. rewrite Q1 in Hx. rewrite Q2 in Hy.
    rewrite (meq_ent _ _ x y EQ) by (rewrite ?Q1', ?Q2'; assumption).
    rewrite (EA x 0%nat ltac:(rewrite a1; exact Hx) ltac:(cbn; lia)), (EA y 1%nat ltac:(rewrite a1; exact Hy) ltac:(cbn; lia)). cbn [nth]. rewrite Cmult_conj, C0, Cconj_RtoC. ring. }
  rewrite EZ, Z. replace (scene_c ex_angles "rad" 1 (/ 4) 0 1 * (RtoC (/ 7) * (RtoC 1 + Ci)) * (scene_c ex_angles "rad" 1 (/ 4) 0 1 * (RtoC (/ 7) * (RtoC 1 + Ci))))
    with (scene_c ex_angles "rad" 1 (/ 4) 0 1 * scene_c ex_angles "rad" 1 (/ 4) 0 1 * (RtoC (/ 7) * (RtoC 1 + Ci) * (RtoC (/ 7) * (RtoC 1 + Ci)))) by ring.
  rewrite C1. cbn. field.
Qed.
Print Assumptions C93_origin_defect.
Print Assumptions C93_unit_step. Print Assumptions C93_det. Print Assumptions C93_sto. Print Assumptions C93_music. Print Assumptions C93_defined.
Print Assumptions C93_units. Print Assumptions C93_order. Print Assumptions C93_uncorrelated.
