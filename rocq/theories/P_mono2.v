(** Steering matrices of an array and of a part of it, of sources and of some of them; blocks of inverses. *)
From Verif Require Import Base_Np Base_Trig Base_Lin S_utils M_utils M_sources S_sources M_array S_array P_utils P_sources P_sources2 P_array P_array2
  S_model S_subspace M_perf S_perf P_perf P_perf2 S_equiv P_equiv P_equiv2 P_mono S_mono.
Open Scope C_scope.

Lemma steer_ent a l u lam A D : wf_array a -> valid_sources (FF1 l u) -> interior u l -> steering_matrix a (FF1 l u) lam true "all" false = Ok (Flat A, [D]) ->
  exists L, actual_element_locations a = Ok L /\ nr A = ar_size a /\ nc A = List.length l /\ nr D = ar_size a /\ nc D = List.length l /\
    let M := perturbed (response_errors a) (mid (ar_size a)) in
    let ph := fun r j => (2 * PI / lam * (coord (la_m L) r 0 * sin (to_rad u (nth j l 0)) + coord (la_m L) r 1 * cos (to_rad u (nth j l 0))))%R in
    let dph := fun r j => (2 * PI / lam * (coord (la_m L) r 0 * cos (to_rad u (nth j l 0)) - coord (la_m L) r 1 * sin (to_rad u (nth j l 0))) * unit_step u (nth j l 0))%R in
    nr M = ar_size a /\ nc M = ar_size a /\
    forall i j, (i < ar_size a)%nat -> (j < List.length l)%nat ->
      ent A i j = csum (ar_size a) (fun r => ent M i r * cis (ph r j)) /\
      ent D i j = csum (ar_size a) (fun r => ent M i r * (cis (ph r j) * (Ci * RtoC (dph r j)))).
Proof.
  intros W V I H. destruct (steering_shape a l u lam "all" A D W H) as (nA & cA & nD & cD).
  destruct (steering_scalar_inv a _ lam true "all" false _ _ W (steering_der_iso _ _ _ _ _ _ H) H) as (ps & L & T & DT & A0 & Eps & EL & Mv & Ph & nT & Sq & EA0 & EA & ED).
  injection EA0 as <-. cbn in Eps. injection Eps as <-.
  destruct (FF1_phases l u (la_m L) lam T DT V I Ph) as (DD & -> & _ & nc1 & _ & F).
  pose proof (mv_rows _ _ _ Mv) as mr. change (nr (la_m (ar_loc a))) with (ar_size a) in mr.
  inversion ED as [|? ? ? ? ED1 _]; subst. clear ED.
  exists L. split; [exact EL|]. do 4 (split; [assumption|]). cbv zeta.
  set (m := ar_size a) in *. set (qs := response_errors a) in *. set (M := perturbed qs (mid m)).
  assert (Hq : forall q, In q qs -> nr (pert_matrix m q) = m /\ nc (pert_matrix m q) = m).
  { intros q Iq. unfold qs, response_errors in Iq. apply filter_In in Iq as (Iq & _). apply Sq, Iq. }
  assert (LM : forall X : cmat, nr X = m -> perturbed (perturbations a) X ==m M *m X).
  { intros X nX. unfold perturbed at 1. rewrite nX.
    rewrite (perturbed_filter (perturbations a) m X X nX ltac:(reflexivity) Sq).
    destruct (perturbed_linear qs X) as (E1 & _). { intros p Ip. rewrite nX. split; apply Hq, Ip. }
    unfold perturbed in E1 at 1. rewrite nX in E1. exact E1. }
  assert (nM : nr M = m /\ nc M = m) by (unfold M; destruct (perturbed_linear qs (mid m)) as (_ & N1 & N); [cbn; intros p Ip; split; apply Hq, Ip|split; [exact N1|exact N]]).
  destruct nM as (mM & nM). split; [exact mM|]. split; [exact nM|].
  assert (nT1 : nr T = m) by congruence. intros i j Hi Hj. split.
  - pose proof (LM (mmap cis T) nT1) as E1.
    rewrite (meq_ent _ _ i j (meq_tr _ _ _ EA E1)) by (rewrite ?nA, ?cA; assumption).
    cbn [ent mmul mmap]. rewrite nM. apply csum_ext. intros r Hr. destruct (F r j ltac:(rewrite mr; exact Hr) Hj) as (F1 & _). rewrite F1. reflexivity.
  - pose proof (LM (deriv0 (mmap cis T) DD) nT1) as E1.
    rewrite (meq_ent _ _ i j (meq_tr _ _ _ ED1 E1)) by (rewrite ?nD, ?cD; assumption).
    cbn [ent mmul mmap deriv0]. rewrite nM. apply csum_ext. intros r Hr. destruct (F r j ltac:(rewrite mr; exact Hr) Hj) as (F1 & F2). rewrite F1, F2. reflexivity.
Qed.

(** ** Fewer sensors *)
Definition picks (m' : nat) (idx : list nat) : cmat := Mat (List.length idx) m' (fun i r => if Nat.eqb r (nth i idx 0%nat) then RtoC 1 else RtoC 0).
Lemma picks_row m' idx (f : nat -> C) i : (i < List.length idx)%nat -> (nth i idx 0%nat < m')%nat ->
  csum m' (fun r => ent (picks m' idx) i r * f r) = f (nth i idx 0%nat).
Proof.
  intros Hi Hr. rewrite (csum_single m' _ (nth i idx 0%nat)); [|exact Hr|].
  - cbn [picks ent]. rewrite Nat.eqb_refl. ring.
  - intros r _ Hne. cbn [picks ent]. destruct (Nat.eqb_spec r (nth i idx 0%nat)); [congruence|ring].
Qed.
Lemma picks_id m' idx : NoDup idx -> (forall i, In i idx -> (i < m')%nat) -> picks m' idx *m mher (picks m' idx) ==m mid (nr (picks m' idx)).
Proof.
  intros ND H. split; [reflexivity|]. split; [reflexivity|]. intros i j Hi Hj. cbn in Hi, Hj. cbn [mmul ent nc mher picks].
  change (csum m' (fun r => ent (picks m' idx) i r * Cconj (if Nat.eqb r (nth j idx 0%nat) then RtoC 1 else RtoC 0)) = ent (mid (List.length idx)) i j).
  rewrite picks_row by (try apply H, nth_In; exact Hi). cbn [mid ent]. destruct (Nat.eqb_spec (nth i idx 0%nat) (nth j idx 0%nat)) as [E|E].
  - apply (proj1 (NoDup_nth idx 0%nat) ND) in E; [|exact Hi|exact Hj]. subst j. rewrite Nat.eqb_refl. now rewrite Cconj_RtoC.
  - destruct (Nat.eqb_spec i j); [congruence|]. now rewrite Cconj_RtoC.
Qed.
Lemma part_steering a a' idx l u lam A D A' D' : part_of a a' idx -> wf_array a -> wf_array a' -> valid_sources (FF1 l u) -> interior u l ->
  steering_matrix a (FF1 l u) lam true "all" false = Ok (Flat A, [D]) -> steering_matrix a' (FF1 l u) lam true "all" false = Ok (Flat A', [D']) ->
  exists Sm : cmat, Sm *m mher Sm ==m mid (nr Sm) /\ nc Sm = nr A' /\ nr Sm = nr A /\ A ==m Sm *m A' /\ D ==m Sm *m D'.
Proof.
  intros [(Ln & ND & Lt) (L & L' & HL & HL' & Pl) (g & G & G')] W W' V I H H'.
  destruct (steer_ent a l u lam A D W V I H) as (L1 & E1 & nA & cA & nD & cD & R). cbv zeta in R. destruct R as (m1 & m2 & R).
  destruct (steer_ent a' l u lam A' D' W' V I H') as (L1' & E1' & nA' & cA' & nD' & cD' & R'). cbv zeta in R'. destruct R' as (m1' & m2' & R').
  rewrite HL in E1. injection E1 as <-. rewrite HL' in E1'. injection E1' as <-.
  exists (picks (ar_size a') idx). split; [apply picks_id; assumption|]. split; [cbn; congruence|]. split; [cbn; congruence|].
  assert (Di : forall m (M : cmat) g0 (f : nat -> C) i, nr M = m -> nc M = m -> M ==m mdiag m g0 -> (i < m)%nat -> csum m (fun r => ent M i r * f r) = g0 i * f i).
  { intros m M g0 f i n1 n2 E Hi. rewrite (csum_single m _ i Hi).
    - rewrite (meq_ent _ _ i i E) by (rewrite ?n1, ?n2; exact Hi). cbn [mdiag ent]. now rewrite Nat.eqb_refl.
    - intros r Hr Hne. rewrite (meq_ent _ _ i r E) by (rewrite ?n1, ?n2; assumption). cbn [mdiag ent]. destruct (Nat.eqb_spec i r); [congruence|ring]. }
  assert (Ix : forall i, (i < ar_size a)%nat -> (nth i idx 0%nat < ar_size a')%nat) by (intros i Hi; apply Lt, nth_In; lia).
  split; (split; [cbn; congruence|]); (split; [cbn; congruence|]); intros i j Hi Hj; cbn [mmul ent nc picks].
  - rewrite nA in Hi. rewrite cA in Hj. change (ent A i j = csum (ar_size a') (fun r => ent (picks (ar_size a') idx) i r * ent A' r j)).
    rewrite picks_row by (try apply Ix; lia). rewrite (proj1 (R i j Hi Hj)), (proj1 (R' _ j (Ix i Hi) Hj)).
    rewrite (Di _ _ _ _ i m1 m2 G Hi), (Di _ _ _ _ _ m1' m2' G' (Ix i Hi)). destruct (Pl i Hi) as (-> & ->). reflexivity.
  - rewrite nD in Hi. rewrite cD in Hj. change (ent D i j = csum (ar_size a') (fun r => ent (picks (ar_size a') idx) i r * ent D' r j)).
    rewrite picks_row by (try apply Ix; lia). rewrite (proj2 (R i j Hi Hj)), (proj2 (R' _ j (Ix i Hi) Hj)).
    rewrite (Di _ _ _ _ i m1 m2 G Hi), (Di _ _ _ _ _ m1' m2' G' (Ix i Hi)). destruct (Pl i Hi) as (-> & ->). reflexivity.
Qed.

(** ** More sources *)
Lemma more_steering a l l2 u lam A D A' D' : wf_array a -> valid_sources (FF1 (l ++ l2) u) -> interior u (l ++ l2) ->
  steering_matrix a (FF1 l u) lam true "all" false = Ok (Flat A, [D]) -> steering_matrix a (FF1 (l ++ l2) u) lam true "all" false = Ok (Flat A', [D']) ->
  nr A' = nr A /\ nr D' = nr A /\ nr D = nr A /\ nc A = List.length l /\ nc D = List.length l /\ nc A' = (List.length l + List.length l2)%nat /\ nc D' = (List.length l + List.length l2)%nat /\
  forall i j, (i < nr A)%nat -> (j < List.length l)%nat -> ent A' i j = ent A i j /\ ent D' i j = ent D i j.
Proof.
  intros W V I H H'.
  assert (V0 : valid_sources (FF1 l u)) by (destruct V as (K & V); split; [exact K|]; rewrite Forall_forall in *; intros x Hx; apply V, in_or_app; now left).
  assert (I0 : interior u l) by (intros E x Hx; apply I; [exact E|apply in_or_app; now left]).
  destruct (steer_ent a l u lam A D W V0 I0 H) as (L1 & E1 & nA & cA & nD & cD & R). cbv zeta in R. destruct R as (m1 & m2 & R).
  destruct (steer_ent a _ u lam A' D' W V I H') as (L1' & E1' & nA' & cA' & nD' & cD' & R'). cbv zeta in R'. destruct R' as (m1' & m2' & R').
  rewrite E1 in E1'. injection E1' as <-. rewrite app_length in cA', cD'. rewrite nA. do 7 (split; [assumption|]).
  intros i j Hi Hj. assert (Hj' : (j < List.length (l ++ l2))%nat) by (rewrite app_length; lia).
  destruct (R i j Hi Hj) as (-> & ->). destruct (R' i j Hi Hj') as (-> & ->). rewrite (app_nth1 l l2 0%R Hj). split; reflexivity.
Qed.

(** ** Blocks of inverses *)
Definition pad (k : nat) (x : nat -> R) : nat -> R := fun i => if Nat.ltb i k then x i else 0%R.
Lemma rsum_pad n k (f : nat -> R) : (k <= n)%nat -> (forall i, (k <= i < n)%nat -> f i = 0%R) -> rsum n f = rsum k f.
Proof.
  intros Hk Hf. induction n as [|n IH]; [now replace k with 0%nat by lia|]. destruct (Nat.eq_dec k (S n)) as [->|Hne]; [reflexivity|].
  cbn [rsum]. rewrite IH by (try lia; intros; apply Hf; lia). rewrite (Hf n) by lia. lra.
Qed.
Lemma inv_block S S' X X' x : (nr S <= nr S')%nat -> rpsd S -> rpsd S' -> inv_of S X -> inv_of S' X' ->
  (forall z, (rform S' (pad (nr S) z) <= rform S z)%R) -> (rform X x <= rform X' (pad (nr S) x))%R.
Proof.
  intros Hn PS PS' HX HX' Hle. set (k := nr S) in *.
  (* y = X x padded *)
  set (y := rmv X x). set (y' := rmv X' (pad k x)).
  assert (F1 : rform X x = rform S y) by (apply inv_form; exact HX).
  assert (F2 : rform X' (pad k x) = rform S' y') by (apply inv_form; exact HX').
  destruct PS as (Sy & PS). destruct PS' as (Sy' & PS').
  pose proof (PS' (fun i => (y' i - pad k y i)%R)) as NN. rewrite (rform_diff S' _ _ Sy') in NN.
  rewrite (rform_sym_dot S' y' (pad k y) Sy') in NN.
  assert (DT : rdot (nr S') (pad k y) (rmv S' y') = rform S y).
  { unfold rdot. rewrite (rsum_pad (nr S') k); [|exact Hn|].
    - rewrite rform_dot. unfold rdot. fold k. apply rsum_ext. intros i Hi. unfold pad at 1. destruct (Nat.ltb_spec i k) as [_|]; [|lia].
      replace (rmv S' y' i) with (pad k x i) by (symmetry; apply (inv_mv S' X' (pad k x) i HX'); lia). replace (rmv S y i) with (x i) by (symmetry; apply (inv_mv S X x i HX Hi)). unfold pad. destruct (Nat.ltb_spec i k); [reflexivity|lia].
    - intros i Hi. unfold pad at 1. destruct (Nat.ltb_spec i k); [lia|ring]. }
  rewrite DT in NN. pose proof (Hle y). rewrite F1, F2. lra.
Qed.
