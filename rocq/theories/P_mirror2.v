(** ESPRIT on conjugated measurements. *)
From Coq Require Import Lra Sorting.Permutation FunctionalExtensionality.
From Verif Require Import Base_Np Base_Lin Base_Trig M_utils M_sources P_sources M_core M_subspace S_subspace P_subspace P_subspace3 P_subspace4 Prop_esprit Prop_subspace P_srcnum P_utils P_sources3 S_invar S_invar2 P_invar P_invar4 Prop_invar2 S_mirror P_mirror.
Open Scope nat_scope.

Lemma mat_ext (A B : cmat) : nr A = nr B -> nc A = nc B -> (forall i j, ent A i j = ent B i j) -> A = B.
Proof. destruct A as [a b f], B as [a' b' f']. cbn. intros <- <- H. f_equal. do 2 (apply functional_extensionality; intro). apply H. Qed.
Lemma mconj_mconj (A : cmat) : mconj (mconj A) = A.
Proof. apply mat_ext; try reflexivity. intros i j. cbn. apply Cconj_conj. Qed.
Lemma mconj_mmul (A B : cmat) : mconj (A *m B) = mconj A *m mconj B.
Proof. apply mat_ext; try reflexivity. intros i j. cbn [mconj mmap mmul ent nc]. rewrite csum_conj. apply csum_ext. intros k _. apply Cmult_conj. Qed.
Lemma mconj_mher (A : cmat) : mconj (mher A) = mher (mconj A). Proof. reflexivity. Qed.
Lemma mconj_mtr (A : cmat) : mconj (mtr A) = mtr (mconj A). Proof. reflexivity. Qed.
Lemma mconj_hcat (A B : cmat) : mconj (hcat A B) = hcat (mconj A) (mconj B).
Proof. apply mat_ext; try reflexivity. intros i j. cbn [mconj mmap hcat ent nc]. destruct (Nat.ltb j (nc A)); reflexivity. Qed.
Lemma mconj_fliplr (A : cmat) : mconj (fliplr A) = fliplr (mconj A). Proof. reflexivity. Qed.
Lemma mconj_slice (A : cmat) a b c d : mconj (m_slice A a b c d) = m_slice (mconj A) a b c d.
Proof. unfold m_slice. cbn [mconj mmap nr nc]. destruct (slice_bounds (nr A) a b), (slice_bounds (nc A) c d). reflexivity. Qed.
Lemma mconj_neg (A : cmat) : mconj (mscal (RtoC (-1)) A) = mscal (RtoC (-1)) (mconj A).
Proof. apply mat_ext; try reflexivity. intros i j. cbn [mconj mmap mscal ent]. now rewrite Cmult_conj, Cconj_RtoC. Qed.

Definition eigh_c (eigh : cmat -> res (list R * cmat)) : cmat -> res (list R * cmat) := fun A => match eigh (mconj A) with Ok (w, E) => Ok (w, mconj E) | Raise x => Raise x end.
Definition solve_c (solve : cmat -> cmat -> res cmat) : cmat -> cmat -> res cmat := fun A B => let! X := solve (mconj A) (mconj B) in Ok (mconj X).
Lemma meq_mconj (A B : cmat) : A ==m B -> mconj A ==m mconj B.
Proof. intros (a & b & c). split; [exact a|]. split; [exact b|]. intros i j Hi Hj. cbn. f_equal. now apply c. Qed.
Lemma inj_mconj (A : cmat) : inj A -> inj (mconj A).
Proof.
  intros HI x Hx j Hj. assert (Z : Cconj (x j) = RtoC 0); [|apply (f_equal Cconj) in Z; rewrite Cconj_conj, Cconj_0 in Z; exact Z].
  apply (HI (fun j => Cconj (x j))); [|exact Hj]. intros i Hi. specialize (Hx i Hi). unfold mvec in *. cbn [mconj mmap nc ent] in Hx. apply (f_equal Cconj) in Hx. rewrite Cconj_0 in Hx. rewrite <- Hx, csum_conj. apply csum_ext. intros q Hq. now rewrite Cmult_conj, Cconj_conj.
Qed.
Lemma conj_self (A : cmat) : conj_atoms (mconj A) A.
Proof. split; [reflexivity|]. split; [reflexivity|]. intros i j _ _. cbn. now rewrite Cconj_conj. Qed.
Lemma eigh_c_contract n eigh : eigh_contract n eigh -> eigh_contract n (eigh_c eigh).
Proof.
  intros H A HH Hn. destruct (H (mconj A) (P_srcnum.mconj_hermitian A HH) Hn) as (w & E & EE & OE). exists w, (mconj E). unfold eigh_c. rewrite EE. split; [reflexivity|]. exact (conj_eigh (mconj A) A E w (conj_self A) OE).
Qed.
Lemma solve_c_contract n solve : solve_contract n solve -> solve_contract n (solve_c solve).
Proof.
  intros H G B SQ Hn HI HB. destruct (H (mconj G) (mconj B) SQ Hn (inj_mconj G HI) HB) as (X & EX & x1 & x2 & x3). exists (mconj X). unfold solve_c. rewrite EX. split; [reflexivity|]. split; [exact x1|]. split; [exact x2|].
  rewrite <- (mconj_mconj G), <- mconj_mmul, <- (mconj_mconj B). now apply meq_mconj.
Qed.
Lemma matmul_conj (A B : cmat) : matmul (mconj A) (mconj B) = let! X := matmul A B in Ok (mconj X).
Proof. unfold matmul. cbn [mconj mmap nr nc]. destruct (Nat.eqb (nc A) (nr B)); cbn [bind]; [|reflexivity]. f_equal. symmetry. apply mconj_mmul. Qed.
Lemma rotation_conj eigh solve f k (A B : cmat) : rotation (eigh_c eigh) (solve_c solve) f k (mconj A) (mconj B) = let! X := rotation eigh solve f k A B in Ok (mconj X).
Proof.
  unfold rotation. destruct (String.eqb f "tls").
  - rewrite <- mconj_hcat, <- mconj_mher, matmul_conj. destruct (matmul (mher (hcat A B)) (hcat A B)) as [Y|]; cbn [bind]; [|reflexivity]. unfold eigh_c. rewrite mconj_mconj.
    destruct (eigh Y) as [(w, V)|]; cbn [bind]; [|reflexivity]. unfold solve_c. rewrite <- mconj_fliplr, <- !mconj_slice, <- !mconj_mtr, !mconj_mconj.
    destruct (solve (mtr (m_slice (fliplr V) (Some k) None (Some k) None)) (mtr (m_slice (fliplr V) None (Some k) (Some k) None))); cbn [bind]; [|reflexivity]. now rewrite <- mconj_mtr, <- mconj_neg.
  - destruct (String.eqb f "ls"); [|reflexivity]. rewrite <- mconj_mher, !matmul_conj. destruct (matmul (mher A) A); cbn [bind]; [|reflexivity]. destruct (matmul (mher A) B); cbn [bind]; [|reflexivity]. unfold solve_c. now rewrite !mconj_mconj.
Qed.
Lemma eigenvalue_conj (A : cmat) z : eigenvalue (mconj A) z <-> eigenvalue A (Cconj z).
Proof.
  assert (D : forall (A : cmat) z, eigenvalue A z -> eigenvalue (mconj A) (Cconj z)).
  { clear. intros A z (v & (i & Hi & N) & H). exists (fun i => Cconj (v i)). split.
    - exists i. split; [exact Hi|]. intros Q. apply N. apply (f_equal Cconj) in Q. now rewrite Cconj_conj, Cconj_0 in Q.
    - intros r Hr. unfold mvec in *. cbn [mconj mmap nc ent]. rewrite <- Cmult_conj, <- (H r Hr), csum_conj. apply csum_ext. intros k _. symmetry. apply Cmult_conj. }
  split; intros H; [|rewrite <- (Cconj_conj z); now apply D]. rewrite <- (mconj_mconj A). now apply D.
Qed.
Lemma wt_real w i : exists r, wt w i = RtoC r.
Proof. unfold wt. destruct w; eauto. Qed.
Lemma row_factor_conj w m d i : Cconj (row_factor w m d i) = row_factor w m d i.
Proof. unfold row_factor. rewrite Cmult_conj. destruct (wt_real w i) as (a & ->), (wt_real w (i - d)) as (b & ->). destruct (i <? m - d), (d <=? i); now rewrite ?Cconj_RtoC. Qed.
Lemma sub_rows_conj E m k d r w : sub_rows (mconj E) m k d r (row_factor w m d) = mconj (sub_rows E m k d r (row_factor w m d)).
Proof. apply mat_ext; try reflexivity. intros i j. cbn [sub_rows mconj mmap ent]. now rewrite Cmult_conj, row_factor_conj. Qed.
Lemma determined_conj f k E1 E2 : determined f k E1 E2 -> determined f k (mconj E1) (mconj E2).
Proof.
  intros [(-> & H)|(-> & H)]; [left|right]; (split; [reflexivity|]); [now apply inj_mconj|]. intros w V OV. rewrite <- mconj_hcat, <- mconj_mher, <- mconj_mmul in OV.
  destruct (H w (mconj V)) as (h1 & h2).
  - exact (conj_eigh _ _ V w (conj_self _) OV).
  - split; [exact h1|]. apply inj_mconj in h2. exact (eq_ind _ inj h2 _ (mconj_mconj (Mat k k (fun i j => ent V (k + i) j)))).
Qed.

Lemma esprit_z_conj eigh eigh' solve solve' eigvals eigvals' m (Rm Rm' : cmat) w E w' E' k d f rw :
  solve_contract k solve -> solve_contract k solve' -> eigvals_contract k eigvals -> eigvals_contract k eigvals' ->
  (f = "tls"%string -> eigh_contract (2 * k) eigh /\ eigh_contract (2 * k) eigh') ->
  nr Rm = m -> hermitian Rm -> conj_atoms Rm Rm' ->
  eigh Rm = Ok (w, E) -> eigh_ok Rm w E -> eigh' Rm' = Ok (w', E') -> eigh_ok Rm' w' E' -> (1 <= k)%nat -> (1 <= d)%nat -> (k + d <= m)%nat -> (nth (m - k - 1) w 0 < nth (m - k) w 0)%R ->
  esprit_determined f rw m k d E ->
  exists z z', esprit_z eigh solve eigvals Rm (Z.of_nat k) (Z.of_nat d) f rw = Ok z /\ esprit_z eigh' solve' eigvals' Rm' (Z.of_nat k) (Z.of_nat d) f rw = Ok z' /\
    List.length z = k /\ List.length z' = k /\ forall x, In x z' <-> In (Cconj x) z.
Proof.
  intros HS HS' HV HV' HEc R1 HH HR EE OE EE' OE' Hk Hd Hkd Gap (wt & E1 & E2 & CW & SE & DT).
  pose proof (conj_eigh Rm Rm' E w HR OE) as OC.
  assert (R1' : nr Rm' = m) by (destruct HR; congruence).
  assert (HH' : hermitian Rm').
  { destruct HR as (a & b & c). destruct HH as (h1 & h2). split; [congruence|]. intros i j Hi Hj. rewrite !c by congruence. f_equal. apply h2; congruence. }
  destruct (OE) as (_ & e1 & e2 & _). destruct (OE') as (_ & e1' & e2' & _). rewrite R1 in e1, e2. rewrite R1' in e1', e2'.
  destruct (signal_unitary Rm' w (mconj E) w' E' k HH' OC OE' ltac:(lia) ltac:(rewrite R1'; exact Gap)) as (G & g1 & g2 & U & Q'). rewrite R1' in Q'.
  assert (LW : match wt with None => True | Some l => List.length l = (m - d)%nat end).
  { unfold check_row_weights in CW. destruct rw as [s0|sh l|]; [|destruct (_ || _)%bool eqn:EB; [discriminate|]|discriminate].
    - destruct (String.eqb s0 "none"); [injection CW as <-; exact I|]. destruct (String.eqb s0 "default"); [|discriminate]. injection CW as <-. rewrite Nat2Z.id. apply default_weights.
    - injection CW as <-. apply orb_false_iff in EB as (_ & EB). apply negb_false_iff, Z.eqb_eq in EB. lia. }
  destruct (esprit_subarrays_value E m k d wt e1 e2 ltac:(lia) ltac:(lia) LW) as (A1 & A2 & SA & HA1 & HA2).
  destruct (esprit_subarrays_value E' m k d wt e1' e2' ltac:(lia) ltac:(lia) LW) as (B1 & B2 & SB & HB1 & HB2).
  rewrite SA in SE. injection SE as <- <-.
  assert (M1 : B1 ==m mconj A1 *m G).
  { rewrite HB1. rewrite (mmul_eq_l _ _ G (meq_mconj _ _ HA1)). rewrite <- sub_rows_conj. apply sub_rows_mix; auto; lia. }
  assert (M2 : B2 ==m mconj A2 *m G).
  { rewrite HB2. rewrite (mmul_eq_l _ _ G (meq_mconj _ _ HA2)). rewrite <- sub_rows_conj. apply sub_rows_mix; auto; lia. }
  assert (DA1 : nr A1 = (m - d)%nat /\ nc A1 = k) by (split; [apply (meq_nr _ _ HA1)|apply (meq_nc _ _ HA1)]).
  assert (DA2 : nr A2 = (m - d)%nat /\ nc A2 = k) by (split; [apply (meq_nr _ _ HA2)|apply (meq_nc _ _ HA2)]).
  assert (RT : exists X1 X', rotation (eigh_c eigh) (solve_c solve) f (Z.of_nat k) (mconj A1) (mconj A2) = Ok X1 /\ rotation eigh' solve' f (Z.of_nat k) B1 B2 = Ok X' /\
    nr X1 = k /\ nc X1 = k /\ nr X' = k /\ nc X' = k /\ G *m X' ==m X1 *m G).
  { pose proof (solve_c_contract k solve HS) as HSc. destruct (determined_conj _ _ _ _ DT) as [(-> & HI)|(-> & HT)].
    - apply rot_ls_inv; auto; try (cbn; tauto). cbn. destruct DA1, DA2; congruence.
    - destruct (HEc eq_refl) as (C1 & C2). apply rot_tls_inv; auto; try (cbn; tauto); try (now apply eigh_c_contract). cbn. destruct DA1, DA2; congruence. }
  destruct RT as (X1 & X' & RX & RX' & x1 & x2 & x1' & x2' & SX).
  rewrite rotation_conj in RX. destruct (rotation eigh solve f (Z.of_nat k) A1 A2) as [X|] eqn:RX0; cbn [bind] in RX; [|discriminate]. injection RX as <-.
  cbn [mconj mmap nr nc] in x1, x2. destruct (HV X ltac:(congruence) ltac:(lia)) as (z & Z1 & Z2 & Z3). destruct (HV' X' ltac:(congruence) ltac:(lia)) as (z' & Z1' & Z2' & Z3').
  exists z, z'. unfold esprit_z. rewrite R1, R1'. destruct (Z.ltb_spec (Z.of_nat d) 1); [lia|].
  replace (Z.of_nat m - Z.of_nat d)%Z with (Z.of_nat (m - d)) by lia.
  unfold ensure_n_resolvable_sources. destruct (Z.gtb_spec (Z.of_nat k) (Z.of_nat (m - d))); [lia|]. cbn [bind]. rewrite CW. cbn [bind]. rewrite EE, EE'. cbn [bind]. rewrite SA, SB. cbn [bind]. rewrite RX0, RX'. cbn [bind].
  do 2 (split; [assumption|]). split; [congruence|]. split; [congruence|]. intros x. rewrite Z3, Z3', <- eigenvalue_conj. apply (eigenvalue_similar (mconj X) X' G k x); auto.
Qed.

(** *** shifts to directions *)
Lemma atan2_conj (z : C) : Im z <> 0%R \/ (0 < Re z)%R -> atan2 (Im (Cconj z)) (Re (Cconj z)) = (- atan2 (Im z) (Re z))%R.
Proof.
  destruct z as (x, y). cbn [Cconj Re Im fst snd]. intros H. unfold atan2. destruct (total_order_T x 0) as [[L|L]|L].
  - destruct H as [H|H]; [|lra]. replace (- y / x)%R with (- (y / x))%R by (field; lra). rewrite atan_opp. destruct (Rle_dec 0 (- y)), (Rle_dec 0 y); lra.
  - destruct (total_order_T y 0) as [[T|T]|T], (total_order_T (- y) 0) as [[T'|T']|T']; lra.
  - replace (- y / x)%R with (- (y / x))%R by (field; lra). apply atan_opp.
Qed.
Lemma arcsin_opp x : np_arcsin (- x) = option_map Ropp (np_arcsin x).
Proof. unfold np_arcsin. rewrite Rabs_Ropp. destruct (Rleb (Rabs x) 1); cbn; [|reflexivity]. f_equal. apply asin_opp. Qed.
Lemma range_mirror l l' lb ub : lb = (- ub)%R -> Permutation l' (map (option_map Ropp) l) ->
  existsb (fun o => match o with Some x => Rltb x lb || Rltb ub x | None => false end) l' = existsb (fun o => match o with Some x => Rltb x lb || Rltb ub x | None => false end) l.
Proof.
  intros -> P. rewrite (existsb_perm _ _ _ P). clear P. induction l as [|o l IH]; [reflexivity|]. cbn [map existsb]. rewrite IH. f_equal. destruct o as [x|]; cbn [option_map]; [|reflexivity].
  unfold Rltb. destruct (Rlt_dec (- x) (- ub)), (Rlt_dec ub (- x)), (Rlt_dec x (- ub)), (Rlt_dec ub x); try reflexivity; lra.
Qed.
Lemma ff1_mirror l l' u : Permutation l' (map (option_map Ropp) l) -> mirrored (mk_FF1_nan l u) (mk_FF1_nan l' u).
Proof.
  intros P. unfold mk_FF1_nan. destruct (dget String.eqb VALID_RANGES_1D u) as [(lb, ub)|] eqn:ED; [|reflexivity].
  assert (S : lb = (- ub)%R). { unfold VALID_RANGES_1D in ED. cbn [dget] in ED. destruct (String.eqb _ _); [injection ED as <- <-; lra|]. destruct (String.eqb _ _); [injection ED as <- <-; lra|]. destruct (String.eqb _ _); [injection ED as <- <-; lra|]. discriminate. }
  rewrite (range_mirror l l' lb ub S P). destruct (existsb _ _); [reflexivity|]. cbn [bind mirrored]. now split.
Qed.
Lemma from_z_mirror z z' lam d0 u : d0 <> 0%R -> (forall w, In w z -> Im w <> 0%R \/ (0 < Re w)%R) -> Permutation z' (map Cconj z) -> mirrored (from_z z lam d0 u) (from_z z' lam d0 u).
Proof.
  intros Nd H P. rewrite (from_z_perm _ _ _ _ _ P). unfold from_z. destruct (Reqb lam 0); [reflexivity|]. rewrite (Reqb_neq d0 0 Nd). set (c := (2 * PI * d0 / lam)%R).
  assert (SV : map (fun w : C => (atan2 (Im w) (Re w) / c)%R) (map Cconj z) = map Ropp (map (fun w : C => (atan2 (Im w) (Re w) / c)%R) z)).
  { rewrite !map_map. apply map_ext_in. intros w Hw. rewrite atan2_conj by auto. unfold Rdiv. ring. }
  rewrite SV. set (sv := map (fun w : C => (atan2 (Im w) (Re w) / c)%R) z). clearbody sv. clear SV.
  assert (P1 : Permutation (sort_by oleb (map np_arcsin (map Ropp sv))) (map (option_map Ropp) (sort_by oleb (map np_arcsin sv)))).
  { rewrite (sort_by_perm oleb (map np_arcsin (map Ropp sv))). rewrite (Permutation_map (option_map Ropp) (sort_by_perm oleb (map np_arcsin sv))). rewrite !map_map. rewrite (map_ext (fun x => np_arcsin (- x)) (fun x => option_map Ropp (np_arcsin x))) by apply arcsin_opp. reflexivity. }
  destruct (String.eqb u "sin"); [|destruct (String.eqb u "rad")]; apply ff1_mirror.
  - rewrite map_map. cbn [option_map]. rewrite (sort_by_perm Rleb (map Ropp sv)). rewrite (Permutation_map (fun x => Some (- x)%R) (sort_by_perm Rleb sv)). rewrite map_map. reflexivity.
  - exact P1.
  - rewrite (Permutation_map (option_map rad2deg) P1). rewrite !map_map. rewrite (map_ext (fun x => option_map rad2deg (option_map Ropp x)) (fun x => option_map Ropp (option_map rad2deg x))); [reflexivity|].
    intros [x|]; cbn; [|reflexivity]. f_equal. unfold rad2deg. field. apply PI_neq0.
Qed.
