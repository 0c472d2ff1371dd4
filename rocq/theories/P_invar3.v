(** Steering matrices of the same sensors described differently. *)
From Coq Require Import Sorting.Permutation.
From Verif Require Import Base_Np Base_Lin Base_Trig M_utils S_utils M_sources S_sources P_sources M_array S_array P_array2 P_array3 M_grid M_sparse M_core P_equiv P_equiv2 Prop_equiv2 S_invar P_invar.
Open Scope C_scope.

Lemma perm_nth_lt idx m i : Permutation idx (seq 0 m) -> (i < m)%nat -> (nth i idx 0 < m)%nat.
Proof.
  intros P Hi. assert (L : List.length idx = m) by (rewrite (Permutation_length P); apply seq_length).
  assert (I : In (nth i idx 0%nat) (seq 0 m)) by (apply (Permutation_in _ P), nth_In; lia). apply in_seq in I. lia.
Qed.
Lemma perm_mvec m idx x i : Permutation idx (seq 0 m) -> (i < m)%nat -> mvec (perm_matrix m idx) x i = x (nth i idx 0%nat).
Proof.
  intros P Hi. unfold mvec. cbn [perm_matrix nc ent]. rewrite (csum_single m _ (nth i idx 0%nat) (perm_nth_lt _ _ _ P Hi)); [rewrite Nat.eqb_refl; ring|].
  intros q Hq Nq. destruct (Nat.eqb_spec q (nth i idx 0%nat)); [lia|ring].
Qed.
Lemma perm_inj m idx i j : Permutation idx (seq 0 m) -> (i < m)%nat -> (j < m)%nat -> nth i idx 0%nat = nth j idx 0%nat -> i = j.
Proof.
  intros P Hi Hj E. assert (L : List.length idx = m) by (rewrite (Permutation_length P); apply seq_length).
  assert (N : NoDup idx) by (apply (Permutation_NoDup (Permutation_sym P)), seq_NoDup). apply (proj1 (NoDup_nth idx 0%nat) N); lia || exact E.
Qed.
Lemma perm_unitary m idx : Permutation idx (seq 0 m) -> unitary m (perm_matrix m idx).
Proof.
  intros P. split; [reflexivity|]. split; [reflexivity|].
  apply (left_inv_right (mher (perm_matrix m idx)) (perm_matrix m idx) m); try reflexivity.
  split; [reflexivity|]. split; [reflexivity|]. intros i j Hi Hj. cbn [mmul mher perm_matrix nr nc] in Hi, Hj.
  change (ent (perm_matrix m idx *m mher (perm_matrix m idx)) i j) with (mvec (perm_matrix m idx) (fun r => Cconj (ent (perm_matrix m idx) j r)) i).
  rewrite perm_mvec by assumption. cbn [perm_matrix mid ent]. destruct (Nat.eqb_spec (nth i idx 0%nat) (nth j idx 0%nat)) as [e|n].
  - rewrite (perm_inj m idx i j P Hi Hj e), Nat.eqb_refl. apply Cconj_RtoC.
  - destruct (Nat.eqb_spec i j); [congruence|]. apply Cconj_RtoC.
Qed.
Lemma perm_cov m idx c d Rm Rm' : Permutation idx (seq 0 m) -> nr Rm = m -> nc Rm = m -> same_measurements m idx c d Rm Rm' -> recorded_cov m (perm_matrix m idx) c d Rm Rm'.
Proof.
  intros P R1 R2 (S1 & S2 & H). split; [exact S1|]. split; [exact S2|]. intros i j Hi Hj. rewrite S1 in Hi. rewrite S2 in Hj. rewrite (H i j Hi Hj).
  cbn [madd mscal mid ent].
  assert (Q : ent (perm_matrix m idx *m Rm *m mher (perm_matrix m idx)) i j = ent Rm (nth i idx 0%nat) (nth j idx 0%nat)).
  { rewrite mmul_ent_mvec. unfold mvec. cbn [mmul nc]. rewrite R2.
    rewrite (csum_single m _ (nth j idx 0%nat) (perm_nth_lt _ _ _ P Hj)).
    - cbn [mher perm_matrix ent]. rewrite Nat.eqb_refl, Cconj_RtoC, Cmult_1_r.
      change (mvec (perm_matrix m idx) (fun r => ent Rm r (nth j idx 0%nat)) i = ent Rm (nth i idx 0%nat) (nth j idx 0%nat)). now rewrite perm_mvec.
    - intros q Hq Nq. cbn [mher perm_matrix ent]. destruct (Nat.eqb_spec q (nth j idx 0%nat)); [lia|]. rewrite Cconj_RtoC. ring. }
  rewrite Q. f_equal. destruct (Nat.eqb i j); ring.
Qed.
Lemma perm_first m idx : Permutation idx (seq 0 m) -> nth 0 idx 0%nat = 0%nat -> keeps_first m (perm_matrix m idx).
Proof. intros P H j Hj. cbn [perm_matrix ent]. rewrite H. destruct (Nat.eqb_spec j 0); [lia|reflexivity]. Qed.

(** phase of direction d at the new origin *)
Definition origin_phase (lam : R) (v : nat -> R) (d : R * R * R) : R := let '(x, y, z) := d in (2 * PI / lam * (v 0%nat * x + v 1%nat * y + v 2%nat * z))%R.
Lemma moved_plane_phase lam al L L' i p d v : al <> 0%R -> lam <> 0%R -> (forall c, (c < 3)%nat -> coord L' i c = (al * coord L p c + v c)%R) ->
  plane_phase (al * lam) L' i d = (origin_phase (al * lam) v d + plane_phase lam L p d)%R.
Proof. intros Ha Hl H. destruct d as ((x, y), z). unfold plane_phase, origin_phase. rewrite !H by lia. field. split; assumption. Qed.

Lemma same_sensors_atoms a lam a' lam' idx v s : same_sensors a lam a' lam' idx v -> valid_sources s -> is_far_field s = true ->
  exists A A', steering_matrix a s lam false "known" true = Ok (Flat A, []) /\ steering_matrix a' s lam' false "known" true = Ok (Flat A', []) /\
    recorded_atoms (ar_size a) (perm_matrix (ar_size a) idx) A A'.
Proof.
  intros [((Hl & W & Iso & DT & Nd & Sz & ps0 & E0 & Pr) & (Hl' & W' & Iso' & DT' & Nd' & Sz' & ps0' & E0' & Pr')) (Pm & Sz2) (ps & ps' & L & L' & al & E1 & E1' & EL & EL' & Ha & Hal & HC & HR & HQ)] V F.
  rewrite E1 in E0. injection E0 as <-. rewrite E1' in E0'. injection E0' as <-.
  destruct (steering_defined a s lam "known" ps true Hl Iso DT Nd Sz E1 Pr) as (A & EA).
  destruct (steering_defined a' s lam' "known" ps' true Hl' Iso' DT' Nd' Sz' E1' Pr') as (A' & EA').
  exists A, A'. do 2 (split; [assumption|]).
  destruct (steering_scalar_inv a s lam false "known" true _ _ W Iso EA) as (q & Lq & T & DD & B & q1 & q2 & q3 & q4 & q5 & q6 & q7 & q8 & _).
  destruct (steering_scalar_inv a' s lam' false "known" true _ _ W' Iso' EA') as (q' & Lq' & T' & DD' & B' & q1' & q2' & q3' & q4' & q5' & q6' & q7' & q8' & _).
  rewrite E1 in q1. injection q1 as <-. rewrite E1' in q1'. injection q1' as <-. rewrite EL in q2. injection q2 as <-. rewrite EL' in q2'. injection q2' as <-.
  injection q7 as <-. injection q7' as <-.
  destruct (phase_ff s _ _ _ _ _ V F q4) as (t1 & t2 & t3). destruct (phase_ff s _ _ _ _ _ V F q4') as (t1' & t2' & t3').
  pose proof (mv_rows _ _ _ q3) as mr. pose proof (mv_rows _ _ _ q3') as mr'. change (nr (la_m (ar_loc a))) with (ar_size a) in mr. change (nr (la_m (ar_loc a'))) with (ar_size a') in mr'.
  set (m := ar_size a) in *. rewrite Sz2 in *.
  set (t := fun k => cis (origin_phase lam' v (direction s k))).
  assert (X : forall i k, (i < m)%nat -> (k < src_size s)%nat -> ent (mmap cis T') i k = t k * ent (mmap cis T) (nth i idx 0%nat) k).
  { intros i k Hi Hk. pose proof (perm_nth_lt idx m i Pm Hi) as Hp. cbn [mmap ent]. rewrite t3' by lia. rewrite t3 by lia. unfold t. rewrite <- cis_plus. f_equal. subst lam'.
    apply moved_plane_phase; [exact Ha|exact Hl|]. intros c Hc. now apply HC. }
  set (qs := known_responses ps) in *.
  assert (Hqs : forall p, In p qs -> nr (pert_matrix m p) = m /\ nc (pert_matrix m p) = m) by (intros p Ip; apply filter_In in Ip as (Ip & _); now apply q6).
  assert (Fl : A ==m fold_left (fun X p => pert_matrix m p *m X) qs (mmap cis T)).
  { apply (meq_tr _ (perturbed ps (mmap cis T))); [exact q8|]. unfold perturbed. replace (nr (mmap cis T)) with m by (cbn; congruence). apply perturbed_filter; [cbn; congruence|reflexivity|exact q6]. }
  assert (Fl' : A' ==m fold_left (fun X p => pert_matrix m p *m X) qs (mmap cis T')).
  { apply (meq_tr _ (perturbed ps' (mmap cis T'))); [exact q8'|]. unfold perturbed. replace (nr (mmap cis T')) with m by (cbn; congruence).
    rewrite <- HR. apply perturbed_filter; [cbn; congruence|reflexivity|exact q6']. }
  assert (Sz0 : nr (mmap cis T) = m /\ nc (mmap cis T) = src_size s /\ nr (mmap cis T') = m /\ nc (mmap cis T') = src_size s) by (cbn; repeat split; congruence).
  destruct Sz0 as (z1 & z2 & z3 & z4).
  destruct HQ as [HQ|HQ].
  - rewrite HQ in Fl, Fl'. cbn [fold_left] in Fl, Fl'. destruct Fl as (f1 & f2 & f3). destruct Fl' as (f1' & f2' & f3').
    split; [congruence|]. split; [congruence|]. split; [congruence|]. exists t. split; [intros; apply cis_mod|]. intros i j Hi Hj.
    rewrite f3' by lia. rewrite (X i j) by lia. f_equal.
    change (ent (perm_matrix m idx *m A) i j) with (mvec (perm_matrix m idx) (fun r => ent A r j) i). rewrite perm_mvec by assumption. symmetry. apply f3; [pose proof (perm_nth_lt idx m i Pm Hi); lia|lia].
  - assert (LM : forall X : cmat, nr X = m -> fold_left (fun X p => pert_matrix m p *m X) qs X ==m perturbed qs (mid m) *m X /\ nr (perturbed qs (mid m)) = m /\ nc (perturbed qs (mid m)) = m).
    { intros Y nY. destruct (perturbed_linear qs Y) as (e1 & e2 & e3); [intros p Ip; rewrite nY; split; now apply Hqs|]. unfold perturbed in e1 at 1. rewrite nY in *. auto. }
    destruct (LM _ z1) as (l1 & l2 & l3). destruct (LM _ z3) as (l1' & _ & _).
    pose proof (meq_tr _ _ _ Fl l1) as (f1 & f2 & f3). pose proof (meq_tr _ _ _ Fl' l1') as (f1' & f2' & f3'). cbn [mmul nr nc] in f1, f2, f1', f2'.
    split; [congruence|]. split; [congruence|]. split; [cbn [mmap nc] in *; congruence|]. exists t. split; [intros; apply cis_mod|]. intros i j Hi Hj.
    change (ent (perm_matrix m idx *m A) i j) with (mvec (perm_matrix m idx) (fun r => ent A r j) i). rewrite perm_mvec by assumption.
    assert (Id : forall r, (r < m)%nat -> nth r idx 0%nat = r) by (intros r Hr; rewrite HQ; now rewrite seq_nth).
    rewrite (Id i Hi). rewrite f3' by (cbn [mmap nc] in *; lia). rewrite f3 by (cbn [mmap nc] in *; lia). cbn [mmul ent]. rewrite <- csum_scal. apply csum_ext. intros r Hr. rewrite l3 in Hr.
    rewrite (X r j Hr) by (cbn [mmap nc] in *; lia). rewrite (Id r Hr). ring.
Qed.
Lemma placement_far g s : create_source_placement g = Ok s -> sg_class g <> GNF -> valid_sources s /\ is_far_field s = true.
Proof.
  unfold create_source_placement. intros H N. destruct (sg_class g); [| |congruence].
  - destruct (sg_axes g) as [|a l]; [discriminate|]. apply Prop_sources.C30_farfield_1d in H as (h1 & h2 & h3 & ->). split; [now split|reflexivity].
  - destruct (cartesian _ _) as [rows|]; cbn [bind] in H; [|discriminate]. apply Prop_sources.C30_farfield_2d in H as (_ & _ & h2 & l & _ & h3 & ->). split; [now split|reflexivity].
Qed.
Lemma same_sensors_default a lam a' lam' idx v g : same_sensors a lam a' lam' idx v -> sg_class g <> GNF ->
  match default_atom a lam g, default_atom a' lam' g with
  | Ok A, Ok A' => recorded_atoms (ar_size a) (perm_matrix (ar_size a) idx) A A'
  | Raise x, Raise y => x = y
  | _, _ => False
  end.
Proof.
  intros HS HG. unfold default_atom. destruct (create_source_placement g) as [s|x] eqn:E; cbn [bind]; [|reflexivity].
  destruct (placement_far g s E HG) as (V & F). destruct (same_sensors_atoms a lam a' lam' idx v s HS V F) as (A & A' & E1 & E2 & HA). rewrite E1, E2. exact HA.
Qed.

(** without known gain, phase or coupling errors every entry has modulus one *)
Lemma unit_columns a lam g A ps : usable a lam -> select_perturbations a "known" = Ok ps -> known_responses ps = [] -> default_atom a lam g = Ok A ->
  nr A = ar_size a /\ forall j, (j < nc A)%nat -> vnorm2 (nr A) (col A j) = INR (ar_size a).
Proof.
  intros (Hl & W & Iso & _) E1 HK H. unfold default_atom in H. destruct (create_source_placement g) as [s|]; cbn [bind] in H; [|discriminate].
  destruct (steering_matrix a s lam false "known" true) as [(St & DA)|] eqn:ES; cbn [bind] in H; [|discriminate].
  destruct (steering_scalar_inv a s lam false "known" true _ _ W Iso ES) as (q & Lq & T & DD & B & q1 & q2 & q3 & q4 & q5 & q6 & -> & q8 & _). injection H as <-.
  rewrite E1 in q1. injection q1 as <-. pose proof (mv_rows _ _ _ q3) as mr. change (nr (la_m (ar_loc a))) with (ar_size a) in mr.
  assert (nT : nr (mmap cis T) = ar_size a) by (cbn; congruence).
  assert (Fl : B ==m mmap cis T).
  { apply (meq_tr _ (perturbed ps (mmap cis T))); [exact q8|]. unfold perturbed. rewrite nT.
    apply (meq_tr _ (fold_left (fun X p => pert_matrix (ar_size a) p *m X) (filter not_moving ps) (mmap cis T))); [apply perturbed_filter; [exact nT|reflexivity|exact q6]|].
    change (filter not_moving ps) with (known_responses ps). rewrite HK. reflexivity. }
  destruct Fl as (f1 & f2 & f3). split; [congruence|]. intros j Hj. unfold vnorm2. rewrite (rsum_ext _ _ (fun _ => 1%R)).
  - rewrite f1, nT. clear. induction (ar_size a) as [|n IH]; [reflexivity|]. rewrite S_INR, <- IH. reflexivity.
  - intros i Hi. unfold col. rewrite f3 by assumption. cbn [mmap ent]. apply cis_norm2.
Qed.
