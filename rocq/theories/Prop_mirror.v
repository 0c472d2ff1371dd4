(** C104: complex-conjugated measurements are measurements of the reflected array: results do not change. *)
From Coq Require Import Lra Sorting.Permutation Sorting.Sorted.
From Verif Require P_subspace3.
From Verif Require Import Base_Np Base_Lin Base_Trig M_utils S_utils M_sources S_sources P_sources M_array S_array P_array2 P_array3 M_grid M_sparse M_designs S_designs P_designs M_core M_srcnum S_srcnum P_srcnum M_subspace S_subspace P_subspace P_core2 P_equiv P_equiv2 Prop_equiv2
  S_invar P_invar P_invar2 P_invar3 P_invar4 Prop_subspace Prop_pipeline Prop_pipeline5 Prop_invar Prop_invar2 S_invar2 S_mirror P_mirror P_mirror2.
Open Scope nat_scope.

Lemma conj_refl_measurements (Rm : cmat) : conj_atoms Rm (mconj Rm).
Proof. split; [reflexivity|]. split; [reflexivity|]. intros; reflexivity. Qed.
Lemma conj_rescaled m (Rm Rm1 : cmat) : nr Rm = m -> nc Rm = m -> conj_atoms Rm Rm1 -> Rm1 ==m mscal (RtoC 1) (mconj Rm) +m mscal (RtoC 0) (mid m).
Proof. intros R1 R2 (a & b & c). split; [cbn; congruence|]. split; [cbn; congruence|]. intros i j Hi Hj. rewrite c by congruence. cbn [madd mscal mconj mmap mid ent]. ring. Qed.

(** *** steering vectors and covariance matrix replaced by their complex conjugates *)
Theorem C104_conjugate : forall m (Rm Rm' : cmat) e e' h k o, nr Rm = m -> nc Rm = m -> conj_atoms Rm Rm' -> conj_estimators e e' ->
  (forall g A, sg_class g = sg_class (e_grid e) -> e_atom e g = Ok A -> nr A = m) ->
  (forall eigh eigh' w E w' E', hermitian Rm -> eigh Rm = Ok (w, E) -> eigh_ok Rm w E -> eigh' Rm' = Ok (w', E') -> eigh_ok Rm' w' E' -> 1 <= k < m -> gap k w ->
    same_results eq (music_estimate eigh m e h Rm (Z.of_nat k) o) (music_estimate eigh' m e' h Rm' (Z.of_nat k) o) /\
    same_results eq (min_norm_estimate eigh m e h Rm (Z.of_nat k) o) (min_norm_estimate eigh' m e' h Rm' (Z.of_nat k) o)) /\
  same_results eq (bartlett_estimate m e h Rm (Z.of_nat k) o) (bartlett_estimate m e' h Rm' (Z.of_nat k) o) /\
  (forall lstsq lstsq', lstsq_contract lstsq -> lstsq_contract lstsq' -> inj Rm ->
    same_results eq (mvdr_estimate lstsq m e h Rm (Z.of_nat k) o) (mvdr_estimate lstsq' m e' h Rm' (Z.of_nat k) o)).
Proof.
  intros m Rm Rm' e e' h k o R1 R2 HR HE HN. split; [|split].
  - intros eigh eigh' w E w' E' HH EE OE EE' OE' Hk Gap. pose proof (conj_eigh Rm Rm' E w HR OE) as OC.
    assert (R1' : nr Rm' = m) by (destruct HR; congruence). assert (R2' : nc Rm' = m) by (destruct HR as (_ & ? & _); congruence).
    assert (HH' : hermitian Rm').
    { destruct HR as (a & b & c). split; [congruence|]. intros i j Hi Hj. rewrite !c by congruence. f_equal. apply (proj2 HH); congruence. }
    assert (Hid : Rm' ==m mscal (RtoC 1) Rm' +m mscal (RtoC 0) (mid m)) by (split; [reflexivity|]; split; [reflexivity|]; intros i j Hi Hj; cbn [madd mscal ent]; ring).
    assert (HA' : recorded_estimators m (mid m) e' e').
    { destruct HE as ((S1 & S2 & S3 & S4 & K1 & K2) & HA). split; [do 4 (split; [reflexivity|]); now split|]. intros g Hg. rewrite S1 in Hg. specialize (HA g Hg). specialize (HN g). destruct (e_atom e g) as [A|x] eqn:EA, (e_atom e' g) as [A'|x'] eqn:EA'; try contradiction; [|reflexivity].
      assert (a1 : nr A' = m) by (destruct HA as (a & _); rewrite a; now apply HN).
      split; [exact a1|]. split; [exact a1|]. split; [reflexivity|]. exists (fun _ => RtoC 1). split; [intros; rewrite Cmod_R; apply Rabs_R1|]. intros i j Hi Hj.
      rewrite (meq_ent _ _ i j (mmul_id_l A' m (eq_sym a1))) by (cbn; lia). now rewrite Cmult_1_l. }
    split.
    + eapply results_trans; [apply (step_music eigh m e e' h Rm Rm' k o w E HE HR R1 EE OE Hk)|].
      apply (C94_music (fun _ => Ok (w, mconj E)) eigh' m (mid m) 1 0 Rm' Rm' w (mconj E) w' E' k e' e' h o (unitary_mid m) R1' HH' Rlt_0_1 (recorded_scaled m 1 0 Rm' Rm' R1' R2' Hid) HA' eq_refl OC EE' OE' Hk Gap).
    + eapply results_trans; [apply (step_min_norm eigh m e e' h Rm Rm' k o w E HE HR R1 EE OE Hk)|].
      apply (C94_min_norm (fun _ => Ok (w, mconj E)) eigh' m (mid m) 1 0 Rm' Rm' w (mconj E) w' E' k e' e' h o (unitary_mid m)); try assumption; try reflexivity; try exact Rlt_0_1.
      * intros j Hj. cbn [mid ent]. destruct (Nat.eqb_spec 0 j); [lia|reflexivity].
      * apply (recorded_scaled m 1 0 Rm' Rm' R1' R2' Hid).
  - now apply step_bartlett.
  - intros lstsq lstsq' HL HL' HI. now apply step_mvdr.
Qed.
Print Assumptions C104_conjugate.

(** *** the reflected array *)
Theorem C104_reflected : forall a lam a' lam' idx v m c d (Rm Rm' : cmat) e e' h k o,
  m = ar_size a -> reflected_sensors a lam a' lam' idx v -> same_search e e' -> sg_class (e_grid e) <> GNF ->
  e_atom e = default_atom a lam -> e_atom e' = default_atom a' lam' ->
  nr Rm = m -> nc Rm = m -> (0 < c)%R -> conj_measurements m idx c d Rm Rm' ->
  (forall eigh eigh' w E w' E', hermitian Rm -> eigh Rm = Ok (w, E) -> eigh_ok Rm w E -> eigh' Rm' = Ok (w', E') -> eigh_ok Rm' w' E' -> 1 <= k < m -> gap k w ->
    same_results eq (music_estimate eigh m e h Rm (Z.of_nat k) o) (music_estimate eigh' m e' h Rm' (Z.of_nat k) o) /\
    (nth 0 idx 0 = 0 -> same_results eq (min_norm_estimate eigh m e h Rm (Z.of_nat k) o) (min_norm_estimate eigh' m e' h Rm' (Z.of_nat k) o))) /\
  (compares_peaks (e_pf e) -> compares_only (e_argsort e) ->
    same_results same_order (bartlett_estimate m e h Rm (Z.of_nat k) o) (bartlett_estimate m e' h Rm' (Z.of_nat k) o) /\
    (forall lstsq lstsq', lstsq_contract lstsq -> lstsq_contract lstsq' -> inj Rm -> d = 0%R ->
      same_results same_order (mvdr_estimate lstsq m e h Rm (Z.of_nat k) o) (mvdr_estimate lstsq' m e' h Rm' (Z.of_nat k) o))).
Proof.
  intros a lam a' lam' idx v m c d Rm Rm' e e' h k o -> HS SS HG A1 A2 R1 R2 Hc HM.
  destruct HS as [(U & U') PO (ps & ps' & L & L' & al & E1 & E1' & EL & EL' & Ha & Hal & HC & HK & HK')].
  assert (S1 : same_sensors a (- lam) a' lam' idx v).
  { split; [split; [now apply usable_opp|exact U']|exact PO|]. exists ps, ps', L, L', (- al)%R. do 4 (split; [assumption|]). split; [lra|]. split; [lra|]. split; [|split; [congruence|now left]]. intros i c0 Hi Hc0. rewrite HC by assumption. ring. }
  set (e1 := with_atom e (default_atom a (- lam))). set (Rm1 := mconj Rm).
  assert (HE : conj_estimators e e1).
  { split; [apply with_atom_search; apply SS|]. intros g Hg. rewrite A1. cbn [e1 with_atom e_atom]. pose proof (conj_default a lam ps g U E1 HK ltac:(congruence)) as Q.
    destruct (default_atom a lam g), (default_atom a (- lam) g); try contradiction; [apply Q|exact Q]. }
  assert (HN : forall g A, sg_class g = sg_class (e_grid e) -> e_atom e g = Ok A -> nr A = ar_size a).
  { intros g A Hg EA. rewrite A1 in EA. apply (unit_columns a lam g A ps U E1 HK EA). }
  assert (HM1 : same_measurements (ar_size a) idx c d Rm1 Rm').
  { destruct HM as (a0 & b0 & c0). split; [exact a0|]. split; [exact b0|]. exact c0. }
  assert (HR : conj_atoms Rm Rm1) by apply conj_refl_measurements.
  destruct (C94_same_sensors a (- lam) a' lam' idx v (ar_size a) c d Rm1 Rm' e1 e' h k o eq_refl S1 (same_search_with e e' _ SS) HG eq_refl A2 R1 R2 Hc HM1) as (T1 & T2).
  split.
  - intros eigh eigh' w E w' E' HH EE OE EE' OE' Hk Gap. pose proof (conj_eigh Rm Rm1 E w HR OE) as OC.
    destruct (T1 (fun _ => Ok (w, mconj E)) eigh' w (mconj E) w' E' (mconj_hermitian Rm HH) eq_refl OC EE' OE' Hk Gap) as (T3 & T4). split.
    + eapply results_trans; [apply (step_music eigh _ e e1 h Rm Rm1 k o w E HE HR R1 EE OE Hk)|exact T3].
    + intros H0. eapply results_trans; [apply (step_min_norm eigh _ e e1 h Rm Rm1 k o w E HE HR R1 EE OE Hk)|exact (T4 H0)].
  - intros C1 C2. destruct (T2 C1 C2) as (T3 & T4). split.
    + eapply results_trans; [apply (step_bartlett _ e e1 h Rm Rm1 _ o HE HR R1)|]. apply T3. right. eauto.
    + intros lstsq lstsq' HL HL' HI Hd. eapply results_trans; [apply (step_mvdr lstsq lstsq _ e e1 h Rm Rm1 _ o HL HL HN HE HR R1 R2 HI)|]. apply T4; auto.
      intros x Hx j Hj. assert (Z : Cconj (x j) = RtoC 0); [|apply (f_equal Cconj) in Z; rewrite Cconj_conj, Cconj_0 in Z; exact Z].
      apply (HI (fun j => Cconj (x j))); [|exact Hj]. intros i Hi. specialize (Hx i Hi). unfold mvec in *. cbn [Rm1 mconj mmap nc ent] in Hx. apply (f_equal Cconj) in Hx. rewrite Cconj_0 in Hx. rewrite <- Hx, csum_conj. apply csum_ext. intros q Hq. now rewrite Cmult_conj, Cconj_conj.
Qed.
Print Assumptions C104_reflected.

(** *** uniform linear arrays: forward and backward covariance matrix *)
Lemma rev_seq_nth m i : i < m -> nth i (rev (seq 0 m)) 0 = m - 1 - i.
Proof. intros H. rewrite rev_nth by (rewrite seq_length; lia). rewrite seq_length, seq_nth by lia. lia. Qed.
Lemma ula_reflected n d nm g lam : mk_ULA (Z.of_nat n) (D0Scalar d) nm no_kwargs = Ok g -> 0 < n -> lam <> 0%R ->
  ar_size (gd_array g) = n /\ reflected_sensors (gd_array g) lam (gd_array g) lam (rev (seq 0 n)) (fun c => if Nat.eqb c 0 then (INR (n - 1) * d)%R else 0%R).
Proof.
  intros Eg Hn Hl. destruct (ULA_facts _ _ _ _ Eg) as (PL & Pe & Iso & DT & _).
  assert (Sz : ar_size (gd_array g) = n) by (rewrite (pl_size _ _ _ PL), ULA_indices_length; lia). split; [exact Sz|].
  assert (U : usable (gd_array g) lam).
  { split; [exact Hl|]. split; [split; rewrite Pe; [constructor|intros ? ? []|intros ? ? []]|]. split; [exact Iso|]. split; [exact DT|]. split; [rewrite (pl_ndim _ _ _ PL); lia|]. split; [lia|].
    exists []. split; [unfold select_perturbations, perturbations; now rewrite Pe|intros ? []]. }
  split; [now split| |].
  - rewrite Sz. split; [symmetry; apply Permutation_rev|reflexivity].
  - exists [], [], (ar_loc (gd_array g)), (ar_loc (gd_array g)), 1%R. do 2 (split; [unfold select_perturbations, perturbations; now rewrite Pe|]). do 2 (split; [reflexivity|]). split; [lra|]. split; [lra|]. split; [|split; reflexivity].
    intros i c Hi Hc. rewrite Sz in Hi. rewrite rev_seq_nth by exact Hi. unfold coord. change (nc (la_m (ar_loc (gd_array g)))) with (ar_ndim (gd_array g)). rewrite (pl_ndim _ _ _ PL).
    destruct c as [|c]; cbn [Nat.ltb Nat.leb Nat.eqb]; [|ring]. rewrite !(pl_loc _ _ _ PL) by (rewrite ULA_indices_length; lia).
    fold (ULA_indices (Z.of_nat n)). rewrite !ULA_indices_nth by lia. rewrite INR_IZR_INZ. rewrite Rmult_1_l, <- Rmult_minus_distr_r. f_equal. rewrite <- minus_IZR. f_equal. lia.
Qed.

(** the same estimator, given the backward covariance matrix instead of the forward one (MUSIC returns the same spectrum; Bartlett and MVDR spectra are ordered in the same way) *)
Theorem C104_backward_ula : forall n d nm g lam (Rm : cmat) e h k o, mk_ULA (Z.of_nat n) (D0Scalar d) nm no_kwargs = Ok g -> 0 < n -> lam <> 0%R ->
  cache_valid e -> sg_class (e_grid e) <> GNF -> e_atom e = default_atom (gd_array g) lam -> nr Rm = n -> nc Rm = n ->
  (forall eigh eigh' w E w' E', hermitian Rm -> eigh Rm = Ok (w, E) -> eigh_ok Rm w E -> eigh' (backward Rm) = Ok (w', E') -> eigh_ok (backward Rm) w' E' -> 1 <= k < n -> gap k w ->
    same_results eq (music_estimate eigh n e h Rm (Z.of_nat k) o) (music_estimate eigh' n e h (backward Rm) (Z.of_nat k) o)) /\
  (compares_peaks (e_pf e) -> compares_only (e_argsort e) ->
    same_results same_order (bartlett_estimate n e h Rm (Z.of_nat k) o) (bartlett_estimate n e h (backward Rm) (Z.of_nat k) o) /\
    (forall lstsq lstsq', lstsq_contract lstsq -> lstsq_contract lstsq' -> inj Rm ->
      same_results same_order (mvdr_estimate lstsq n e h Rm (Z.of_nat k) o) (mvdr_estimate lstsq' n e h (backward Rm) (Z.of_nat k) o))).
Proof.
  intros n d nm g lam Rm e h k o Eg Hn Hl K NF EA R1 R2. destruct (ula_reflected n d nm g lam Eg Hn Hl) as (Sz & RS).
  assert (SS : same_search e e) by (do 4 (split; [reflexivity|]); now split).
  assert (HM : conj_measurements n (rev (seq 0 n)) 1 0 Rm (backward Rm)).
  { split; [exact R1|]. split; [exact R2|]. intros i j Hi Hj. rewrite !rev_seq_nth by assumption. cbn [backward ent]. rewrite R1, R2. rewrite Cmult_1_l. destruct (Nat.eqb i j); now rewrite Cplus_0_r. }
  destruct (C104_reflected _ lam _ lam _ _ n 1 0 Rm (backward Rm) e e h k o (eq_sym Sz) RS SS NF EA EA R1 R2 Rlt_0_1 HM) as (T1 & T2). split.
  - intros eigh eigh' w E w' E' HH EE OE EE' OE' Hk Gap. exact (proj1 (T1 eigh eigh' w E w' E' HH EE OE EE' OE' Hk Gap)).
  - intros C1 C2. destruct (T2 C1 C2) as (T3 & T4). split; [exact T3|]. intros. now apply T4.
Qed.
Print Assumptions C104_backward_ula.

(** *** root-MUSIC: forward and backward covariance matrix give exactly the same result (no grid, any linear array geometry the user claims) *)
Lemma perm_conj_cov m (Rm : cmat) : nr Rm = m -> nc Rm = m -> recorded_cov m (perm_matrix m (rev (seq 0 m))) 1 0 (mconj Rm) (backward Rm).
Proof.
  intros R1 R2. apply perm_cov; [symmetry; apply Permutation_rev|exact R1|exact R2|]. split; [exact R1|]. split; [exact R2|]. intros i j Hi Hj. rewrite !rev_seq_nth by assumption. cbn [backward mconj mmap ent]. rewrite R1, R2. rewrite Cmult_1_l. destruct (Nat.eqb i j); now rewrite Cplus_0_r.
Qed.
Theorem C104_root_music_backward : forall eigh eigh' roots argsort m (Rm : cmat) w E w' E' k lam d0 unit,
  nr Rm = m -> hermitian Rm -> eigh Rm = Ok (w, E) -> eigh_ok Rm w E -> eigh' (backward Rm) = Ok (w', E') -> eigh_ok (backward Rm) w' E' -> 1 <= k < m -> gap k w ->
  root_music eigh' roots argsort lam (backward Rm) (Z.of_nat k) d0 unit = root_music eigh roots argsort lam Rm (Z.of_nat k) d0 unit.
Proof.
  intros eigh eigh' roots argsort m Rm w E w' E' k lam d0 unit R1 HH EE OE EE' OE' Hk Gap.
  assert (R2 : nc Rm = m) by (destruct HH; congruence). assert (Lw : List.length w = m) by (rewrite <- R1; apply OE). unfold gap in Gap. rewrite Lw in Gap.
  set (idx := rev (seq 0 m)). assert (Pm : Permutation idx (seq 0 m)) by (symmetry; apply Permutation_rev). pose proof (perm_unitary m idx Pm) as HU.
  pose proof (conj_eigh Rm (mconj Rm) E w (conj_refl_measurements Rm) OE) as OC. pose proof OE as (_ & e1 & e2 & _).
  destruct (noise_conj eigh Rm (mconj Rm) E w m k EE ltac:(congruence) ltac:(congruence) ltac:(lia)) as (En & En1 & N1 & N2 & CE & n1 & n2).
  destruct (rec_noise (fun _ => Ok (w, mconj E)) eigh' m (perm_matrix m idx) 1 0 (mconj Rm) (backward Rm) w (mconj E) w' E' k HU R1 (mconj_hermitian Rm HH) Rlt_0_1 (perm_conj_cov m Rm R1 R2) eq_refl OC EE' OE' Hk Gap)
    as (Y & En' & G & N & N' & y1 & y2 & n1' & n2' & g1 & g2 & g3 & g4).
  rewrite N2 in N. injection N as <-.
  assert (Q : En' ==m perm_matrix m idx *m (En1 *m G)).
  { etransitivity; [|apply (mmul_eq_r (perm_matrix m idx) (mher (perm_matrix m idx) *m En') (En1 *m G)); [reflexivity|exact g4]]. rewrite <- mmul_assoc. etransitivity; [symmetry; apply (mmul_id_l En' m); congruence|].
    apply mmul_eq_l. symmetry. apply unitary_right. exact HU. }
  assert (Q2 : forall i j, i < m -> j < m -> ent (En' *m mher En') i j = Cconj (ent (En *m mher En) (m - 1 - i) (m - 1 - j))).
  { intros i j Hi Hj.
    assert (V : forall i q, i < m -> q < m - k -> ent En' i q = ent (En1 *m G) (m - 1 - i) q).
    { intros r q Hr Hq. destruct Q as (_ & _ & Q). rewrite Q by lia. change (ent (perm_matrix m idx *m (En1 *m G)) r q) with (mvec (perm_matrix m idx) (fun s => ent (En1 *m G) s q) r). rewrite perm_mvec by assumption. unfold idx. now rewrite rev_seq_nth. }
    assert (W : ent (En1 *m G *m mher (En1 *m G)) (m - 1 - i) (m - 1 - j) = ent (En1 *m mher En1) (m - 1 - i) (m - 1 - j)).
    { destruct (gram_mix En1 G) as (_ & _ & X); [congruence|now rewrite y2|]. apply X; cbn; lia. }
    transitivity (ent (En1 *m G *m mher (En1 *m G)) (m - 1 - i) (m - 1 - j)).
    - cbn [mmul mher nc nr ent]. rewrite n2', g2. apply csum_ext. intros q Hq. rewrite !V by lia. reflexivity.
    - rewrite W. cbn [mmul mher nc nr ent]. rewrite y2, n2. apply csum_conj'. intros q Hq. destruct CE as (_ & _ & CE). rewrite !CE by lia. apply conj_mult. }
  assert (D : forall r, r < m -> diag_sum (En' *m mher En') r = diag_sum (En *m mher En) r).
  { intros r Hr. unfold diag_sum. cbn [mmul nr]. rewrite n1', n1. rewrite <- (csum_rev (m - r) (fun i => ent (En' *m mher En') i (i + r))). apply csum_ext. intros i Hi. rewrite Q2 by lia.
    replace (m - 1 - (m - r - 1 - i)) with (i + r) by lia. replace (m - 1 - (m - r - 1 - i + r)) with i by lia.
    cbn [mmul mher ent nc]. rewrite n2. rewrite csum_conj. apply csum_ext. intros q Hq. rewrite Cmult_conj, Cconj_conj. apply Cmult_comm. }
  assert (RC : root_coeffs (En' *m mher En') = root_coeffs (En *m mher En)).
  { unfold root_coeffs. cbn [mmul nr]. rewrite n1', n1. rewrite (D 0) by lia. assert (Mp : map (fun i => diag_sum (En' *m mher En') i) (seq 1 (m - 1)) = map (fun i => diag_sum (En *m mher En) i) (seq 1 (m - 1))) by (apply map_ext_in; intros i Hi; apply in_seq in Hi; apply D; lia). cbn [mmul mher] in *. rewrite Mp. reflexivity. }
  unfold root_music. cbn [backward nr nc]. rewrite R1, R2. cbv zeta. rewrite N1, N'. cbn [bind]. rewrite !P_subspace3.matmul_ok by reflexivity. cbn [bind]. rewrite RC. reflexivity.
Qed.
Print Assumptions C104_root_music_backward.

(** *** ESPRIT: the conjugated covariance matrix gives the mirrored directions *)
Theorem C104_esprit : forall eigh eigh' solve solve' eigvals eigvals' m (Rm Rm' : cmat) w E w' E' k d formulation rw lam d0 unit,
  solve_contract k solve -> solve_contract k solve' -> eigvals_contract k eigvals -> eigvals_contract k eigvals' ->
  (formulation = "tls"%string -> eigh_contract (2 * k) eigh /\ eigh_contract (2 * k) eigh') ->
  nr Rm = m -> hermitian Rm -> conj_atoms Rm Rm' ->
  eigh Rm = Ok (w, E) -> eigh_ok Rm w E -> eigh' Rm' = Ok (w', E') -> eigh_ok Rm' w' E' -> 1 <= k -> 1 <= d -> k + d <= m -> gap k w ->
  esprit_determined formulation rw m k d E ->
  exists z z', esprit_z eigh solve eigvals Rm (Z.of_nat k) (Z.of_nat d) formulation rw = Ok z /\ esprit_z eigh' solve' eigvals' Rm' (Z.of_nat k) (Z.of_nat d) formulation rw = Ok z' /\
    List.length z = k /\ List.length z' = k /\ (forall x, In x z' <-> In (Cconj x) z) /\
    (NoDup z -> (forall x, In x z -> Im x <> 0%R \/ (0 < Re x)%R) -> match d0 with None => lam | Some s => s end <> 0%R ->
       mirrored (let! r := esprit eigh solve eigvals lam Rm (Z.of_nat k) d0 (Z.of_nat d) formulation rw unit in Ok (snd r))
                (let! r := esprit eigh' solve' eigvals' lam Rm' (Z.of_nat k) d0 (Z.of_nat d) formulation rw unit in Ok (snd r))).
Proof.
  intros eigh eigh' solve solve' eigvals eigvals' m Rm Rm' w E w' E' k d f rw lam d0 unit HS HS' HV HV' HEc R1 HH HR EE OE EE' OE' Hk Hd Hkd Gap HD.
  assert (Lw : List.length w = m) by (rewrite <- R1; apply OE). unfold gap in Gap. rewrite Lw in Gap.
  destruct (esprit_z_conj eigh eigh' solve solve' eigvals eigvals' m Rm Rm' w E w' E' k d f rw HS HS' HV HV' HEc R1 HH HR EE OE EE' OE' Hk Hd Hkd Gap HD) as (z & z' & Z & Z' & L & L' & I).
  exists z, z'. do 5 (split; [assumption|]). intros ND NB N0.
  assert (P : Permutation z' (map Cconj z)).
  { symmetry. apply NoDup_Permutation_bis.
    - apply FinFun.Injective_map_NoDup; [|exact ND]. intros x y Q. apply (f_equal Cconj) in Q. now rewrite !Cconj_conj in Q.
    - rewrite map_length. lia.
    - intros x Hx. apply in_map_iff in Hx as (y & <- & Hy). apply I. now rewrite Cconj_conj. }
  unfold esprit. rewrite Z, Z'. cbn [bind].
  set (s := match d0 with None => (lam / 2)%R | Some x => x end).
  assert (Ns : (s * IZR (Z.of_nat d))%R <> 0%R).
  { apply Rmult_integral_contrapositive_currified; [unfold s; destruct d0; lra|]. apply not_0_IZR. lia. }
  pose proof (from_z_mirror z z' lam _ unit Ns NB P) as Q. destruct (from_z z lam (s * IZR (Z.of_nat d)) unit) as [p|x], (from_z z' lam (s * IZR (Z.of_nat d)) unit) as [p'|x']; cbn [bind snd] in *; exact Q.
Qed.
Print Assumptions C104_esprit.

(** *** source counts *)
Theorem C104_counts : forall eigvalsh eigvalsh' m idx c d (Rm Rm' : cmat), eigvalsh_contract m eigvalsh -> eigvalsh_contract m eigvalsh' ->
  Permutation idx (seq 0 m) -> nr Rm = m -> 0 < m -> (0 < c)%R -> conj_measurements m idx c d Rm Rm' ->
  (pd Rm -> d = 0%R -> forall N, aic eigvalsh' (EMat Rm') N = aic eigvalsh (EMat Rm) N /\ mdl eigvalsh' (EMat Rm') N = mdl eigvalsh (EMat Rm) N) /\
  (forall w E, hermitian Rm -> eigh_ok Rm w E -> (forall k, k + 3 < m -> (gap_var w k < float_eps <-> c * c * gap_var w k < float_eps)%R) ->
    sorte eigvalsh' (EMat Rm') = sorte eigvalsh (EMat Rm)).
Proof.
  intros ev ev' m idx c d Rm Rm' HC HC' Pm R1 Hm Hc HM.
  assert (RC : nc Rm = m -> recorded_cov m (perm_matrix m idx) c d (mconj Rm) Rm').
  { intros R2. apply perm_cov; try assumption. }
  pose proof (perm_unitary m idx Pm) as HU.
  assert (EW : hermitian Rm -> exists w E E', ev Rm = Ok w /\ ev (mconj Rm) = Ok w /\ eigh_ok Rm w E /\ eigh_ok (mconj Rm) w E').
  { intros HH. destruct (HC Rm HH ltac:(lia)) as (w & E & W & OE). destruct (HC (mconj Rm) (mconj_hermitian Rm HH) ltac:(cbn; lia)) as (w1 & E1 & W1 & OE1).
    pose proof (conj_eigh Rm (mconj Rm) E w (conj_refl_measurements Rm) OE) as OC. rewrite (P_courant.eig_unique (mconj Rm) w1 E1 w (mconj E) (mconj_hermitian Rm HH) OE1 OC) in W1. exists w, E, (mconj E). auto. }
  split.
  - intros HP -> N. pose proof (proj1 HP) as HH. destruct (EW HH) as (w & E & E' & W & W1 & OE & OE1).
    assert (HPc : pd (mconj Rm)).
    { split; [now apply mconj_hermitian|]. intros x Hx. replace (qform (mconj Rm) x) with (Cconj (qform Rm (fun i => Cconj (x i)))).
      - rewrite Re_conj'. apply (proj2 HP). destruct Hx as (i & Hi & Nx). exists i. split; [exact Hi|]. intros Q. apply Nx. apply (f_equal Cconj) in Q. now rewrite Cconj_conj, Cconj_0 in Q.
      - unfold qform. cbn [mconj mmap nr nc ent]. rewrite csum_conj. apply csum_ext. intros i Hi. rewrite csum_conj. apply csum_ext; intros j Hj. now rewrite !Cmult_conj, !Cconj_conj. }
    destruct (C96_aic_mdl ev ev' m _ c (mconj Rm) Rm' N HC HC' HU R1 Hm HPc Hc (RC ltac:(destruct HH; congruence))) as (-> & ->).
    rewrite (proj1 (Prop_srcnum.C53_matrix_argument ev Rm w N W)), (proj2 (Prop_srcnum.C53_matrix_argument ev Rm w N W)), (proj1 (Prop_srcnum.C53_matrix_argument ev (mconj Rm) w N W1)), (proj2 (Prop_srcnum.C53_matrix_argument ev (mconj Rm) w N W1)). now split.
  - intros w0 E0 HH O0 HV. destruct (EW HH) as (w & E & E' & W & W1 & OE & OE1). pose proof (P_courant.eig_unique Rm w0 E0 w E HH O0 OE) as ->.
    rewrite (C96_sorte ev ev' m _ c d (mconj Rm) Rm' w E' HC HC' HU R1 (mconj_hermitian Rm HH) Hc (RC ltac:(destruct HH; congruence)) OE1 HV).
    rewrite (Prop_srcnum.C54_matrix_argument ev Rm w W), (Prop_srcnum.C54_matrix_argument ev (mconj Rm) w W1). reflexivity.
Qed.
Print Assumptions C104_counts.

(** *** two sensors, unequal noise: the forward and the backward covariance matrix differ *)
Definition ex_M : cmat := Mat 2 2 (fun i j => match i, j with 0, 0 => RtoC 10 | 0, _ => (0, 4)%R | _, 0 => (0, -4)%R | _, _ => RtoC 4 end).
Definition ex_V : cmat := Mat 2 2 (fun i j => match i, j with 0, 0 => RtoC (/ sqrt 5) | 0, _ => (0, 2 / sqrt 5)%R | _, 0 => (0, 2 / sqrt 5)%R | _, _ => RtoC (/ sqrt 5) end).
Definition ex_Vb : cmat := Mat 2 2 (fun i j => match i, j with 0, 0 => (0, - 2 / sqrt 5)%R | 0, _ => RtoC (/ sqrt 5) | _, 0 => RtoC (/ sqrt 5) | _, _ => (0, - 2 / sqrt 5)%R end).
Lemma s5 : (/ sqrt 5 * / sqrt 5 = / 5)%R.
Proof. rewrite <- Rinv_mult. f_equal. apply sqrt_sqrt. lra. Qed.
Lemma ex_sorted : StronglySorted Rle [2; 12]%R.
Proof. constructor; [constructor; [constructor|constructor]|constructor; [lra|constructor]]. Qed.
Lemma ex_V_ok : eigh_ok ex_M [2; 12]%R ex_V.
Proof.
  pose proof s5 as Q. split; [reflexivity|]. split; [reflexivity|]. split; [reflexivity|]. split; [reflexivity|]. split; [exact ex_sorted|].
  split; (split; [reflexivity|]; split; [reflexivity|]); intros [|[|i]] [|[|j]] Hi Hj; cbn in Hi, Hj; try lia; apply injective_projections; cbn -[sqrt]; unfold Rdiv; nra.
Qed.
Lemma ex_Vb_ok : eigh_ok (backward ex_M) [2; 12]%R ex_Vb.
Proof.
  pose proof s5 as Q. split; [reflexivity|]. split; [reflexivity|]. split; [reflexivity|]. split; [reflexivity|]. split; [exact ex_sorted|].
  split; (split; [reflexivity|]; split; [reflexivity|]); intros [|[|i]] [|[|j]] Hi Hj; cbn in Hi, Hj; try lia; apply injective_projections; cbn -[sqrt]; unfold Rdiv; nra.
Qed.
Lemma ex_M_herm : hermitian ex_M.
Proof. split; [reflexivity|]. intros [|[|i]] [|[|j]] Hi Hj; cbn in Hi, Hj; try lia; apply injective_projections; cbn; ring. Qed.
Example C104_example : ent ex_M 0 0 <> ent (backward ex_M) 0 0 /\
  (forall roots argsort lam unit, root_music (fun _ => Ok ([2; 12]%R, ex_Vb)) roots argsort lam (backward ex_M) 1 None unit = root_music (fun _ => Ok ([2; 12]%R, ex_V)) roots argsort lam ex_M 1 None unit) /\
  exists g, mk_ULA 2 (D0Scalar (1 / 2)) None no_kwargs = Ok g /\ forall h,
  let e := Est (SGrid G1D [vec1 [-1; - / 2; 0; / 2; 1]%R] "rad" DFloat) (Placement "FarField1DSourcePlacement" ["rad"%string] 0) (default_atom (gd_array g) 1) (find_peaks_simple peaks_ref) argsort_R true None in
  same_results eq (music_estimate (fun _ => Ok ([2; 12]%R, ex_V)) 2 e h ex_M 1 (Opts true true 10 3)) (music_estimate (fun _ => Ok ([2; 12]%R, ex_Vb)) 2 e h (backward ex_M) 1 (Opts true true 10 3)) /\
  same_results same_order (bartlett_estimate 2 e h ex_M 1 (Opts true true 10 3)) (bartlett_estimate 2 e h (backward ex_M) 1 (Opts true true 10 3)).
Proof.
  assert (G : gap 1 [2; 12]%R) by (unfold gap; cbn; lra).
  split; [|split].
  - cbn. intros Q. apply (f_equal Re) in Q. cbn in Q. lra.
  - intros roots argsort lam unit. exact (C104_root_music_backward (fun _ => Ok ([2; 12]%R, ex_V)) (fun _ => Ok ([2; 12]%R, ex_Vb)) roots argsort 2 ex_M _ _ _ _ 1 lam None unit eq_refl ex_M_herm eq_refl ex_V_ok eq_refl ex_Vb_ok ltac:(lia) G).
  - destruct (Prop_designs.C10_constructible 2 0 0 (1 / 2) None) as ((g & Eg) & _). exists g. split; [exact Eg|]. intros h e.
    destruct (C104_backward_ula 2 (1 / 2) None g 1 ex_M e h 1 (Opts true true 10 3) Eg ltac:(lia) ltac:(lra) ltac:(now left) ltac:(discriminate) eq_refl eq_refl eq_refl) as (T1 & T2). split.
    + exact (T1 (fun _ => Ok ([2; 12]%R, ex_V)) (fun _ => Ok ([2; 12]%R, ex_Vb)) _ _ _ _ ex_M_herm eq_refl ex_V_ok eq_refl ex_Vb_ok ltac:(lia) G).
    + apply T2; [apply find_peaks_simple_compares, peaks_ref_compares | apply argsort_R_compares].
Qed.
(** ESPRIT on the conjugate: the conjugated shift *)
Example C104_esprit_example : exists z z', esprit_z (fun _ => Ok ([2; 12]%R, ex_V)) P_gauss.solve0 P_fta2.eigvals_ref ex_M 1 1 "ls" (RWStr "none") = Ok [z] /\
  esprit_z (fun _ => Ok ([2; 12]%R, mconj ex_V)) P_gauss.solve0 P_fta2.eigvals_ref (mconj ex_M) 1 1 "ls" (RWStr "none") = Ok [z'] /\ z' = Cconj z.
Proof.
  assert (G : gap 1 [2; 12]%R) by (unfold gap; cbn; lra).
  destruct (C104_esprit (fun _ => Ok ([2; 12]%R, ex_V)) (fun _ => Ok ([2; 12]%R, mconj ex_V)) P_gauss.solve0 P_gauss.solve0 P_fta2.eigvals_ref P_fta2.eigvals_ref 2 ex_M (mconj ex_M) [2; 12]%R ex_V _ _ 1 1 "ls" (RWStr "none") 1 None "rad"
    (P_fta2.solve0_contract 1) (P_fta2.solve0_contract 1) (P_fta2.eigvals_ref_contract 1) (P_fta2.eigvals_ref_contract 1) ltac:(discriminate) eq_refl ex_M_herm (conj_refl_measurements ex_M) eq_refl ex_V_ok eq_refl (conj_eigh _ _ _ _ (conj_refl_measurements ex_M) ex_V_ok))
    as (z & z' & Z & Z' & L & L' & I & _); try lia; [exact G| |].
  - destruct (P_subspace3.esprit_subarrays_value ex_V 2 1 1 None eq_refl eq_refl ltac:(lia) ltac:(lia) Logic.I) as (E1 & E2 & S & Q1 & _).
    exists None, E1, E2. split; [reflexivity|]. split; [exact S|]. left. split; [reflexivity|].
    intros x Hx j Hj. destruct Q1 as (a & b & Q). rewrite b in Hj. cbn in Hj. assert (j = 0) by lia. subst j. specialize (Hx 0 ltac:(rewrite a; cbn; lia)). unfold mvec in Hx. rewrite b in Hx. cbn [P_subspace3.sub_rows nc csum] in Hx.
    rewrite Q in Hx by (rewrite ?a, ?b; cbn; lia). cbn -[sqrt] in Hx.
    destruct (P_spectral.C_eq_dec (x 0) (RtoC 0)) as [H|H]; [exact H|]. exfalso. revert Hx. rewrite Cplus_0_l. apply Cmult_neq_0; [|exact H].
    unfold P_subspace3.row_factor. cbn -[sqrt]. rewrite !Cmult_1_r. intros Q2. apply (f_equal Im) in Q2. cbn -[sqrt] in Q2. assert (0 < 2 / sqrt 5)%R by (apply Rdiv_lt_0_compat; [lra|apply sqrt_lt_R0; lra]). lra.
  - destruct z as [|a [|]]; try discriminate. destruct z' as [|b [|]]; try discriminate. exists a, b. do 2 (split; [assumption|]). destruct (proj1 (I b) (or_introl eq_refl)) as [->|[]]. symmetry. apply Cconj_conj.
Qed.
