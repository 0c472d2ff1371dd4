(** Conjugated measurements. *)
From Coq Require Import Lra Sorting.Permutation.
From Verif Require Import Base_Np Base_Lin Base_Trig M_utils S_utils M_sources S_sources P_sources M_array S_array P_array2 P_array3 M_grid M_sparse M_core M_subspace S_subspace P_subspace P_core2 P_equiv P_equiv2 Prop_equiv2 S_invar P_invar P_invar2 P_invar3 Prop_subspace Prop_invar S_mirror.
Open Scope nat_scope.

Lemma conj_mult (a b : C) : (Cconj a * Cconj b)%C = Cconj (a * b)%C. Proof. now rewrite Cmult_conj. Qed.
Lemma csum_conj' n (f g : nat -> C) : (forall i, i < n -> g i = Cconj (f i)) -> csum n g = Cconj (csum n f).
Proof. intros H. rewrite csum_conj. apply csum_ext. exact H. Qed.
Lemma Re_conj' (a : C) : Re (Cconj a) = Re a. Proof. reflexivity. Qed.

Lemma conj_music (A A' En En' : cmat) : conj_atoms A A' -> conj_atoms En En' -> f_music A' En' = f_music A En.
Proof.
  intros (a1 & a2 & a3) (e1 & e2 & e3). unfold f_music, matmul. cbn [mher nc]. rewrite a1, e1. destruct (Nat.eqb_spec (nr En) (nr A)) as [D|D]; [|reflexivity]. cbn [bind]. f_equal. f_equal.
  unfold col_norms. cbn [mmul mher nr nc ent]. rewrite a2, e2. apply map_ext_in. intros j Hj. apply in_seq in Hj. rewrite <- Re_conj'. f_equal. symmetry. apply csum_conj'. intros i Hi. rewrite e1.
  assert (Q : csum (nr En) (fun k => (Cconj (ent En i k) * ent A k j)%C) = csum (nr En) (fun k => (Cconj (ent En i k) * ent A k j)%C)) by reflexivity. clear Q.
  assert (Q : csum (nr En) (fun k => (Cconj (ent En' k i) * ent A' k j)%C) = Cconj (csum (nr En) (fun k => (Cconj (ent En k i) * ent A k j)%C))).
  { apply csum_conj'. intros k Hk. rewrite e3, a3 by lia. apply conj_mult. }
  rewrite Q. now rewrite Cmult_conj, Cconj_conj, Cmult_comm.
Qed.
Lemma conj_minnorm (En En' : cmat) : conj_atoms En En' -> 0 < nc En ->
  match min_norm_vector En, min_norm_vector En' with
  | Ok (Some d), Ok (Some d') => forall A A' m, m = nr En -> conj_atoms A A' -> f_min_norm m d' A' = f_min_norm m d A
  | Ok None, Ok None => True
  | Raise x, Raise y => x = y
  | _, _ => False
  end.
Proof.
  intros (e1 & e2 & e3) Hc. unfold min_norm_vector. rewrite e1. destruct (Nat.eqb_spec (nr En) 0) as [D|D]; cbn [bind]; [reflexivity|]. rewrite e2.
  assert (Q : rsum (nc En) (fun j => (Cmod (ent En' 0 j) * Cmod (ent En' 0 j))%R) = rsum (nc En) (fun j => (Cmod (ent En 0 j) * Cmod (ent En 0 j))%R)).
  { apply rsum_ext. intros j Hj. rewrite e3 by lia. now rewrite P_spectral.Cmod_conj. }
  rewrite Q. destruct (Req_EM_T _ 0) as [Z|Z]; [exact I|]. clear Q. set (n2 := rsum (nc En) (fun j => (Cmod (ent En 0 j) * Cmod (ent En 0 j))%R)) in *. intros A A' m -> (a1 & a2 & a3). unfold f_min_norm. rewrite a1, a2. destruct (Nat.eqb_spec (nr A) (nr En)) as [F|F]; cbn [negb bind]; [|reflexivity].
  f_equal. apply map_ext_in. intros j Hj. apply in_seq in Hj. f_equal.
  assert (X : csum (nr En) (fun i => (Cconj (mvec En' (fun k => (Cconj (ent En' 0 k) / RtoC n2)%C) i) * ent A' i j)%C) = Cconj (csum (nr En) (fun i => (Cconj (mvec En (fun k => (Cconj (ent En 0 k) / RtoC n2)%C) i) * ent A i j)%C))).
  { apply csum_conj'. intros i Hi. rewrite a3 by lia. rewrite <- conj_mult. f_equal. f_equal. unfold mvec. rewrite e2. apply csum_conj'. intros k Hk. rewrite !e3 by lia. rewrite Cmult_conj. f_equal. unfold Cdiv. rewrite Cmult_conj. f_equal.
    unfold Cinv, RtoC, Cconj. cbn. f_equal. field. intros Y. apply Z. nra. }
  etransitivity; [apply (f_equal abs_squared); exact X|]. generalize (csum (nr En) (fun i => (Cconj (mvec En (fun k => (Cconj (ent En 0 k) / RtoC n2)%C) i) * ent A i j)%C)). intros z. unfold abs_squared, Cconj, Re, Im. cbn. ring.
Qed.
Lemma conj_bartlett (A A' Rm Rm' : cmat) : conj_atoms A A' -> conj_atoms Rm Rm' -> f_bartlett A' Rm' = f_bartlett A Rm.
Proof.
  intros (a1 & a2 & a3) (r1 & r2 & r3). unfold f_bartlett, matmul. rewrite a1, r2. destruct (Nat.eqb_spec (nc Rm) (nr A)) as [D|D]; [|reflexivity]. cbn [bind mmul nr]. rewrite r1. destruct (Nat.eqb_spec (nr A) (nr Rm)) as [F|F]; cbn [negb bind]; [|reflexivity].
  f_equal. rewrite a2. apply map_ext_in. intros j Hj. apply in_seq in Hj. rewrite <- Re_conj'. f_equal. symmetry. apply csum_conj'. intros i Hi. rewrite a3 by lia. cbn [mmul ent]. rewrite r2.
  rewrite Cmult_conj, Cconj_conj. f_equal. rewrite csum_conj. apply csum_ext. intros k Hk. rewrite r3, a3 by lia. now rewrite conj_mult, Cconj_conj.
Qed.
Lemma conj_mvdr lstsq lstsq' (A A' Rm Rm' : cmat) m : lstsq_contract lstsq -> lstsq_contract lstsq' -> nr Rm = m -> nc Rm = m -> inj Rm -> conj_atoms A A' -> conj_atoms Rm Rm' -> nr A = m -> f_mvdr lstsq' A' Rm' = f_mvdr lstsq A Rm.
Proof.
  intros HL HL' R1 R2 HI (a1 & a2 & a3) (r1 & r2 & r3) NA.
  assert (HI' : inj Rm').
  { intros x Hx j Hj. rewrite r1 in Hx. assert (Z : Cconj (x j) = RtoC 0); [|apply (f_equal Cconj) in Z; rewrite Cconj_conj, Cconj_0 in Z; exact Z].
    apply (HI (fun j => Cconj (x j))); [|now rewrite <- r2]. intros i Hi. specialize (Hx i Hi). unfold mvec in *. rewrite r2 in Hx. apply (f_equal Cconj) in Hx. rewrite Cconj_0 in Hx. rewrite <- Hx, csum_conj. apply csum_ext. intros k Hk.
    rewrite r3 by lia. now rewrite Cmult_conj, Cconj_conj. }
  destruct (HL Rm A ltac:(congruence) HI ltac:(congruence)) as (X & EX & X1 & X2 & X3). destruct (HL' Rm' A' ltac:(congruence) HI' ltac:(congruence)) as (X' & EX' & X1' & X2' & X3').
  unfold f_mvdr. rewrite EX, EX'. cbn [bind]. rewrite a1, X1, X1', r1. destruct (Nat.eqb_spec (nr A) (nr Rm)) as [F|F]; cbn [negb bind]; [|reflexivity]. f_equal. rewrite a2. apply map_ext_in. intros j Hj. apply in_seq in Hj. f_equal.
  assert (Q : forall i, i < m -> ent X' i j = Cconj (ent X i j)).
  { intros i Hi. assert (Z : forall i, i < m -> (ent X' i j - Cconj (ent X i j))%C = RtoC 0).
    { intros i0 H0. apply (HI' (fun i => (ent X' i j - Cconj (ent X i j))%C)); [|lia]. intros r Hr. unfold mvec. rewrite r2, R2. rewrite (csum_ext _ _ (fun k => (ent Rm' r k * ent X' k j - Cconj (ent Rm r k * ent X k j))%C)).
      - rewrite csum_minus, <- csum_conj. destruct X3 as (_ & _ & X3), X3' as (_ & _ & X3'). specialize (X3 r j ltac:(cbn; lia) ltac:(cbn; lia)). specialize (X3' r j ltac:(cbn; lia) ltac:(cbn; lia)). cbn [mmul ent] in X3, X3'. rewrite R2 in X3. rewrite r2, R2 in X3'.
        rewrite X3, X3', a3 by lia. ring.
      - intros k Hk. rewrite (r3 r k) by lia. rewrite Cmult_conj. ring. }
    specialize (Z i Hi). rewrite <- (Cplus_0_r (Cconj (ent X i j))), <- Z. ring. }
  rewrite <- Re_conj'. f_equal. symmetry. apply csum_conj'. intros i Hi. rewrite a3, Q by lia. now rewrite conj_mult, Cconj_conj.
Qed.
Lemma conj_eigh (Rm Rm' E : cmat) w : conj_atoms Rm Rm' -> eigh_ok Rm w E -> eigh_ok Rm' w (mconj E).
Proof.
  intros (r1 & r2 & r3) (SQ & e1 & e2 & L & SS & OR & AE). unfold eigh_ok. rewrite ?r1, ?r2. cbn [mconj mmap nr nc]. do 5 (split; [assumption|]). split.
  - destruct OR as (_ & _ & OR). split; [exact e2|]. split; [exact e2|]. intros i j Hi Hj. cbn [mmul mher mconj mmap nr nc] in Hi, Hj.
    specialize (OR i j ltac:(cbn; lia) ltac:(cbn; lia)). cbn [mmul mher mconj mmap mid nr nc ent] in *.
    rewrite (csum_conj' _ (fun k => (Cconj (ent E k i) * ent E k j)%C)) by (intros k Hk; apply conj_mult). rewrite OR. destruct (Nat.eqb i j); [apply Cconj_RtoC|apply Cconj_0].
  - destruct AE as (_ & _ & AE). split; [exact (eq_trans r1 (eq_sym e1))|]. split; [exact e2|]. intros i j Hi Hj. cbn [mmul mconj mmap nr nc] in Hi, Hj.
    specialize (AE i j ltac:(cbn; lia) ltac:(cbn; lia)). cbn [mmul mconj mmap mdiag nr nc ent] in *.
    rewrite (csum_conj' _ (fun k => (ent Rm i k * ent E k j)%C)) by (intros k Hk; rewrite r3 by lia; apply conj_mult). rewrite r2, AE. symmetry. apply csum_conj'. intros k Hk. rewrite <- conj_mult. f_equal. destruct (Nat.eqb k j); now rewrite Cconj_RtoC.
Qed.
Lemma noise_conj eigh (Rm Rm1 E : cmat) w m k : eigh Rm = Ok (w, E) -> nr E = m -> nc E = m -> (1 <= k <= m)%nat ->
  exists En En1, get_noise_subspace eigh Rm (Z.of_nat k) = Ok En /\ get_noise_subspace (fun _ => Ok (w, mconj E)) Rm1 (Z.of_nat k) = Ok En1 /\ conj_atoms En En1 /\ nr En = m /\ nc En = m - k.
Proof.
  intros HE e1 e2 Hk. destruct (noise_value eigh Rm k w E m HE e1 e2 Hk) as (En & N1 & N2 & N3 & N4).
  destruct (noise_value (fun _ => Ok (w, mconj E)) Rm1 k w (mconj E) m eq_refl e1 e2 Hk) as (En1 & M1 & M2 & M3 & M4).
  exists En, En1. do 2 (split; [assumption|]). split; [|now split]. split; [congruence|]. split; [congruence|]. intros i j Hi Hj. rewrite M4, N4. reflexivity.
Qed.

(** the estimator [e] with another way of computing steering vectors *)
Definition with_atom {T} (e : estimator T) (f : sgrid -> res T) : estimator T := Est (e_grid e) (e_pl e) f (e_pf e) (e_argsort e) (e_caching e) None.
Lemma with_atom_search {T} (e : estimator T) f : cache_valid e -> same_search e (with_atom e f).
Proof. intros K. do 4 (split; [reflexivity|]). split; [exact K|now left]. Qed.
Lemma same_search_with {T} (e e' : estimator T) f : same_search e e' -> same_search (with_atom e f) e'.
Proof. intros (a & b & c & d & f' & g). do 4 (split; [assumption|]). split; [now left|assumption]. Qed.
Lemma results_trans {T} Q (x y z : res outcome * estimator T * lheap) : same_results eq x y -> same_results Q y z -> same_results Q x z.
Proof.
  intros (a & b) (c & d). split; [|congruence]. destruct (fst (fst x)) as [p|], (fst (fst y)) as [q|], (fst (fst z)) as [r|]; cbn in *; try contradiction; try congruence.
  destruct a as (a1 & a2 & a3), c as (c1 & c2 & c3). split; [congruence|]. split; [congruence|]. destruct (oc_spectrum p), (oc_spectrum q), (oc_spectrum r); try contradiction; auto. now subst.
Qed.

Lemma step_music eigh m (e e1 : estimator cmat) h (Rm Rm1 : cmat) k o w E : conj_estimators e e1 -> conj_atoms Rm Rm1 -> nr Rm = m -> eigh Rm = Ok (w, E) -> eigh_ok Rm w E -> 1 <= k < m ->
  same_results eq (music_estimate eigh m e h Rm (Z.of_nat k) o) (music_estimate (fun _ => Ok (w, mconj E)) m e1 h Rm1 (Z.of_nat k) o).
Proof.
  intros ((S1 & S2 & S3 & S4 & K1 & K2) & HA) HR R1 HE OE Hk. pose proof OE as (_ & e1' & e2' & _). assert (Z1 : nr Rm1 = m) by (destruct HR; congruence).
  destruct (noise_conj eigh Rm Rm1 E w m k HE ltac:(congruence) ltac:(congruence) ltac:(lia)) as (En & En1 & N1 & N2 & CE & _ & _).
  destruct (C58_estimate_uses_spectrum eigh m e h Rm k o w E R1 Hk HE ltac:(congruence) ltac:(congruence)) as (X & x1 & ->). rewrite N1 in x1. injection x1 as <-.
  destruct (C58_estimate_uses_spectrum (fun _ => Ok (w, mconj E)) m e1 h Rm1 k o w (mconj E) Z1 Hk eq_refl ltac:(cbn; congruence) ltac:(cbn; congruence)) as (X & x1 & ->). rewrite N2 in x1. injection x1 as <-.
  apply estimate_twin; [exact K1|exact K2|]. apply twin_eq; try assumption. intros g Hg. specialize (HA g Hg).
  destruct (e_atom e g) as [A|x], (e_atom e1 g) as [A'|x']; try contradiction; cbn [bind]; [|now subst]. apply map_embed. symmetry. now apply conj_music.
Qed.
Lemma step_min_norm eigh m (e e1 : estimator cmat) h (Rm Rm1 : cmat) k o w E : conj_estimators e e1 -> conj_atoms Rm Rm1 -> nr Rm = m -> eigh Rm = Ok (w, E) -> eigh_ok Rm w E -> 1 <= k < m ->
  same_results eq (min_norm_estimate eigh m e h Rm (Z.of_nat k) o) (min_norm_estimate (fun _ => Ok (w, mconj E)) m e1 h Rm1 (Z.of_nat k) o).
Proof.
  intros ((S1 & S2 & S3 & S4 & K1 & K2) & HA) HR R1 HE OE Hk. pose proof OE as (_ & e1' & e2' & _). assert (Z1 : nr Rm1 = m) by (destruct HR; congruence).
  destruct (noise_conj eigh Rm Rm1 E w m k HE ltac:(congruence) ltac:(congruence) ltac:(lia)) as (En & En1 & N1 & N2 & CE & n1 & n2).
  unfold min_norm_estimate. rewrite (size_ok Rm m R1), (size_ok Rm1 m Z1). cbn [bind]. unfold ensure_n_resolvable_sources. replace (Z.of_nat k >? Z.of_nat m - 1)%Z with false by (symmetry; rewrite Z.gtb_ltb; apply Z.ltb_ge; lia).
  cbn [bind]. rewrite N1, N2. cbn [bind]. pose proof (conj_minnorm En En1 CE ltac:(lia)) as D. destruct (min_norm_vector En) as [[d|]|x], (min_norm_vector En1) as [[d'|]|x']; try contradiction; cbn [bind].
  - apply estimate_twin; [exact K1|exact K2|]. apply twin_eq; try assumption. intros g Hg. specialize (HA g Hg).
    destruct (e_atom e g) as [A|x], (e_atom e1 g) as [A'|x']; try contradiction; cbn [bind]; [|now subst]. replace (nr En1) with (nr En) by (symmetry; apply CE). apply map_embed. symmetry. now apply D.
  - split; reflexivity.
  - subst. split; reflexivity.
Qed.
Lemma step_bartlett m (e e1 : estimator cmat) h (Rm Rm1 : cmat) k o : conj_estimators e e1 -> conj_atoms Rm Rm1 -> nr Rm = m ->
  same_results eq (bartlett_estimate m e h Rm k o) (bartlett_estimate m e1 h Rm1 k o).
Proof.
  intros ((S1 & S2 & S3 & S4 & K1 & K2) & HA) HR R1. assert (Z1 : nr Rm1 = m) by (destruct HR; congruence).
  unfold bartlett_estimate. rewrite (size_ok Rm m R1), (size_ok Rm1 m Z1).
  apply estimate_twin; [exact K1|exact K2|]. apply twin_eq; try assumption. intros g Hg. specialize (HA g Hg).
  destruct (e_atom e g) as [A|x], (e_atom e1 g) as [A'|x']; try contradiction; cbn [bind]; [|now subst]. symmetry. now apply conj_bartlett.
Qed.
Lemma step_mvdr lstsq lstsq' m (e e1 : estimator cmat) h (Rm Rm1 : cmat) k o : lstsq_contract lstsq -> lstsq_contract lstsq' -> (forall g A, sg_class g = sg_class (e_grid e) -> e_atom e g = Ok A -> nr A = m) ->
  conj_estimators e e1 -> conj_atoms Rm Rm1 -> nr Rm = m -> nc Rm = m -> inj Rm ->
  same_results eq (mvdr_estimate lstsq m e h Rm k o) (mvdr_estimate lstsq' m e1 h Rm1 k o).
Proof.
  intros HL HL' HN ((S1 & S2 & S3 & S4 & K1 & K2) & HA) HR R1 R2 HI. assert (Z1 : nr Rm1 = m) by (destruct HR; congruence).
  unfold mvdr_estimate. rewrite (size_ok Rm m R1), (size_ok Rm1 m Z1).
  apply estimate_twin; [exact K1|exact K2|]. apply twin_eq; try assumption. intros g Hg. specialize (HA g Hg). specialize (HN g).
  destruct (e_atom e g) as [A|x], (e_atom e1 g) as [A'|x']; try contradiction; cbn [bind]; [|now subst]. apply map_embed. symmetry. apply (conj_mvdr lstsq lstsq' A A' Rm Rm1 m); auto.
Qed.

(** the steering vectors for a negative wavelength are the complex conjugates *)
Lemma plane_phase_opp lam L i d : plane_phase (- lam) L i d = (- plane_phase lam L i d)%R.
Proof. destruct d as ((x, y), z). unfold plane_phase, Rdiv. rewrite Rinv_opp. ring. Qed.
Lemma usable_opp a lam : usable a lam -> usable a (- lam).
Proof. intros (Hl & H). split; [lra|exact H]. Qed.
Lemma unit_atoms a lam g A ps : usable a lam -> select_perturbations a "known" = Ok ps -> known_responses ps = [] -> sg_class g <> GNF -> default_atom a lam g = Ok A ->
  exists L s, perturb_locations ps (ar_loc a) = Ok L /\ create_source_placement g = Ok s /\ nr A = ar_size a /\ nc A = src_size s /\
    forall i j, i < nr A -> j < nc A -> ent A i j = cis (plane_phase lam (la_m L) i (direction s j)).
Proof.
  intros (Hl & W & Iso & _) E1 HK NF H. unfold default_atom in H. destruct (create_source_placement g) as [s|] eqn:EP; cbn [bind] in H; [|discriminate].
  destruct (placement_far g s EP NF) as (V & F).
  destruct (steering_matrix a s lam false "known" true) as [(St & DA)|] eqn:ES; cbn [bind] in H; [|discriminate].
  destruct (steering_scalar_inv a s lam false "known" true _ _ W Iso ES) as (q & Lq & T & DD & B & q1 & q2 & q3 & q4 & q5 & q6 & -> & q8 & _). injection H as <-.
  rewrite E1 in q1. injection q1 as <-. pose proof (mv_rows _ _ _ q3) as mr. change (nr (la_m (ar_loc a))) with (ar_size a) in mr.
  destruct (phase_ff s _ _ _ _ _ V F q4) as (t1 & t2 & t3).
  assert (nT : nr (mmap cis T) = ar_size a) by (cbn; congruence).
  assert (Fl : B ==m mmap cis T).
  { apply (meq_tr _ (perturbed ps (mmap cis T))); [exact q8|]. unfold perturbed. rewrite nT.
    apply (meq_tr _ (fold_left (fun X p => pert_matrix (ar_size a) p *m X) (filter not_moving ps) (mmap cis T))); [apply perturbed_filter; [exact nT|reflexivity|exact q6]|].
    change (filter not_moving ps) with (known_responses ps). rewrite HK. reflexivity. }
  destruct Fl as (f1 & f2 & f3). cbn [mmap nr nc] in f1, f2. exists Lq, s. split; [exact q2|]. split; [reflexivity|]. split; [congruence|]. split; [congruence|].
  intros i j Hi Hj. rewrite f3 by assumption. cbn [mmap ent]. rewrite t3 by lia. reflexivity.
Qed.
Lemma conj_default a lam ps g : usable a lam -> select_perturbations a "known" = Ok ps -> known_responses ps = [] -> sg_class g <> GNF ->
  match default_atom a lam g, default_atom a (- lam) g with
  | Ok A, Ok A' => conj_atoms A A' /\ nr A = ar_size a
  | Raise x, Raise y => x = y
  | _, _ => False
  end.
Proof.
  intros U E1 HK NF. pose proof (usable_opp a lam U) as U'.
  destruct (default_atom a lam g) as [A|x] eqn:EA, (default_atom a (- lam) g) as [A'|x'] eqn:EA'.
  - destruct (unit_atoms a lam g A ps U E1 HK NF EA) as (L & s & l1 & l2 & l3 & l4 & l5). destruct (unit_atoms a (- lam) g A' ps U' E1 HK NF EA') as (L' & s' & l1' & l2' & l3' & l4' & l5').
    rewrite l1 in l1'. injection l1' as <-. rewrite l2 in l2'. injection l2' as <-. split; [|exact l3]. split; [congruence|]. split; [congruence|]. intros i j Hi Hj. rewrite l5, l5' by congruence. rewrite plane_phase_opp. apply cis_opp.
  - exfalso. destruct U' as (Hl & W & Iso & DT & Nd & Sz & ps' & E1' & Pr). rewrite E1 in E1'. injection E1' as <-. unfold default_atom in *. destruct (create_source_placement g) as [s|]; cbn [bind] in *; [|discriminate].
    destruct (steering_defined a s (- lam) "known" ps true Hl Iso DT Nd Sz E1 Pr) as (B & EB). rewrite EB in EA'. discriminate.
  - exfalso. destruct U as (Hl & W & Iso & DT & Nd & Sz & ps' & E1' & Pr). rewrite E1 in E1'. injection E1' as <-. unfold default_atom in *. destruct (create_source_placement g) as [s|]; cbn [bind] in *; [|discriminate].
    destruct (steering_defined a s lam "known" ps true Hl Iso DT Nd Sz E1 Pr) as (B & EB). rewrite EB in EA. discriminate.
  - destruct U as (Hl & W & Iso & DT & Nd & Sz & ps' & E1' & Pr). rewrite E1 in E1'. injection E1' as <-. unfold default_atom in *. destruct (create_source_placement g) as [s|]; cbn [bind] in *; [|congruence].
    destruct (steering_defined a s lam "known" ps true Hl Iso DT Nd Sz E1 Pr) as (B & EB). rewrite EB in EA. discriminate.
Qed.
