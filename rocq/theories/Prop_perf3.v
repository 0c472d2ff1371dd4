(** Properties of the asymptotic covariance of coarray MUSIC (C73). *)
From Verif Require Import Base_Np Base_Lin Base_Trig M_utils P_utils S_utils M_sources S_sources P_sources M_array S_array S_model S_subspace P_array P_array2 P_model M_designs S_designs P_designs M_coarray S_coarray P_coarray P_coarray2 Prop_coarray Prop_coarray2 P_subspace2 P_subspace3 P_subspace4 P_subspace5 P_eig2 M_core M_perf S_perf P_gauss P_perf P_perf2 P_perf3 P_perf4 P_perf5 Prop_perf Prop_perf2.
Open Scope C_scope.

(** ** The matrix G: G z is the vectorised (column by column) Toeplitz matrix with entries z[mv-1+r-c] of a virtual observation z *)
Theorem C73_subarray_matrix : forall mv (z : nat -> C),
  nr (subarray_matrix mv) = (mv * mv)%nat /\ nc (subarray_matrix mv) = (2 * mv - 1)%nat /\
  forall r c, (r < mv)%nat -> (c < mv)%nat -> mvec (subarray_matrix mv) z (r + c * mv) = z (mv - 1 + r - c)%nat.
Proof.
  intros mv z. destruct (sub_shape mv) as (E1 & E2). split; [exact E1|]. split; [exact E2|]. intros r c Hr Hc. rewrite (Nat.add_comm r), sub_mvec by assumption. f_equal. lia.
Qed.
(** hence G F maps vec R to the vectorised direct-augmentation matrix of R *)
Theorem C73_augmentation : forall g l w F w' h (Rm D : cmat), grid_1d g l -> mk_WeightFunction1D g = Ok w -> l <> [] -> first_hole l h -> nr Rm = List.length l -> nc Rm = List.length l ->
  get_coarray_selection_matrix w false = Ok (F, w') -> transform (Acm g w) Rm "da" = Ok D ->
  forall r c, (r < nr D)%nat -> (c < nr D)%nat ->
    mvec (subarray_matrix (nr D) *m mofR F) (fun q => ent (vec (RtoC 0) Rm) q 0) (r + c * nr D) = ent D r c.
Proof.
  intros g l w F w' h Rm D Hg Hw Hl Hh R1 R2 HF HD r c Hr Hc. pose proof Hh as (H0 & HN & _).
  destruct (C39_da g l (Acm g w) w [] Rm h Hg Hw eq_refl Hl Hh R1 R2) as (D' & ED & N1 & N2 & ND). change (after w []) with w in ED. rewrite HD in ED. injection ED as <-.
  destruct (C38_selection g l w [] false h Hg Hw Hl Hh) as (F' & w2 & EF & F1 & F2 & FS). change (after w []) with w in EF. rewrite HF in EF. injection EF as <- <-.
  assert (HP : (0 < h)%Z) by lia. set (q := fun r => ent (vec (RtoC 0) Rm) r 0).
  rewrite mvec_mmul. destruct (C73_subarray_matrix (nr D) (mvec (mofR F) q)) as (_ & _ & G). rewrite G by assumption.
  destruct (FS (nr D - 1 + r - c)%nat ltac:(lia)) as (_ & _ & M). unfold mvec. cbn [mofR mmap nc ent]. unfold q. rewrite (M Rm R1 R2), ND by assumption. f_equal. lia.
Qed.

(** ** The whole function *)
Lemma unperturbed a : is_perturbed a = false -> ar_perts a = [] /\ wf_array a.
Proof. unfold is_perturbed. intros H. destruct a as [lo nm el [|? ?]]; [|discriminate H]. split; [reflexivity | apply wf_empty]. Qed.
Lemma response_der g l d s lam der fl A DA : places_1d g l d -> ar_perts (gd_array g) = [] -> scalar_isotropic (gd_array g) -> valid_sources s -> is_far_field s = true ->
  steering_matrix (gd_array g) s lam der "all" fl = Ok (Flat A, DA) ->
  nr A = List.length l /\ nc A = src_size s /\ forall i k, (i < List.length l)%nat -> (k < src_size s)%nat ->
    ent A i k = cis (2 * PI / lam * (IZR (nth i l 0%Z) * d) * fst (fst (direction s k)))%R.
Proof.
  intros P Pe Iso V F H.
  assert (W : wf_array (gd_array g)). { destruct (gd_array g) as [lo nm el pe]. cbn in Pe. subst pe. apply wf_empty. }
  destruct (steering_scalar_inv _ _ _ _ _ _ _ _ W Iso H) as (ps & L & T & DT & B & H1 & H2 & H3 & H4 & H5 & H6 & H7 & H8 & _).
  unfold select_perturbations, perturbations in H1. rewrite Pe in H1. cbn in H1. injection H1 as <-. injection H2 as <-. injection H7 as <-. cbn in H8.
  apply phase_ff in H4 as (P1 & P2 & P3); [|exact V|exact F]. destruct H8 as (E1 & E2 & E3). cbn in E1, E2.
  pose proof (pl_size g l d P) as Sz. pose proof (pl_ndim g l d P) as Nd. unfold ar_size, ar_ndim in *. rewrite P1, Sz in E1. rewrite P2 in E2.
  split; [exact E1|]. split; [exact E2|]. intros i k Hi Hk. rewrite E3 by lia. cbn. rewrite P3 by lia. f_equal.
  unfold plane_phase. destruct (direction s k) as ((x, y), z). unfold coord. rewrite Nd. cbn. rewrite (pl_loc g l d P i Hi). ring.
Qed.
Lemma ULA_scalar h d nm : exists v, mk_ULA h (D0Scalar d) nm no_kwargs = Ok v /\ places_1d v (ULA_indices h) d /\ ar_perts (gd_array v) = [] /\ scalar_isotropic (gd_array v).
Proof.
  destruct (column_places (ULA_indices h) d (name_or nm ("ULA " ++ strZ h))) as (v & E & P). exists v.
  split; [exact E|]. split; [exact P|]. unfold mk_Grid in E. cbn in E. injection E as <-. split; [reflexivity|]. split; reflexivity.
Qed.

(** The full result on an unperturbed 1-D grid array: A is the steering matrix of the array, v the virtual ULA with h sensors at half-wavelength spacing, Av and DAv
    its steering matrix and derivatives, F the selection matrix of C38. *)
Theorem C73_formula : forall pinv eigh g l d th u lam p P pr sigma N V h, pinv_exact pinv -> eigh_contract (Z.to_nat h) eigh ->
  places_1d g l d -> l <> [] -> first_hole l h -> scalar_isotropic (gd_array g) -> valid_sources (FF1 th u) -> (1 <= List.length th)%nat ->
  denotes (List.length th) p P -> (forall i, (i < List.length th)%nat -> P i i = RtoC (pr i) /\ (0 < pr i)%R) ->
  ecov_coarray_music_1d pinv eigh g (FF1 th u) lam p sigma N "full" = Ok (Some (OFull V)) ->
  exists A v Av DAv w w' F, let k := List.length th in let m := List.length l in let mv := Z.to_nat h in
    steering_matrix (gd_array g) (FF1 th u) lam false "all" true = Ok (Flat A, []) /\
    mk_ULA h (D0Scalar (lam / 2)) None no_kwargs = Ok v /\ steering_matrix (gd_array v) (FF1 th u) lam true "all" false = Ok (Flat Av, [DAv]) /\ (k < mv)%nat /\
    mk_WeightFunction1D g = Ok w /\ get_coarray_selection_matrix w false = Ok (F, w') /\
    nr F = (2 * mv - 1)%nat /\ nc F = (m * m)%nat /\ (forall Rm r, nr Rm = m -> nc Rm = m -> (r < nr F)%nat -> csum (nc F) (fun q => RtoC (ent F r q) * ent (vec (RtoC 0) Rm) q 0) = lag_mean l Rm (Z.of_nat r - h + 1)) /\
    nr V = k /\ nc V = k /\
    (inj Av -> exists Pi X, orth_projector_onto Av Pi /\ nr X = k /\ nc X = mv /\ X *m Av ==m mid k /\ hermitian (Av *m X) /\
      (forall i, (i < k)%nat -> vnorm2 mv (coarray_beta Pi DAv i) <> 0%R) /\
      forall i j, (i < k)%nat -> (j < k)%nat -> ent V i j = coarray_mse m (model_cov A pr sigma) (coarray_xi mv F Pi X DAv pr) N i j) /\
    (inj Av -> (0 <= sigma)%R -> (0 < N)%R -> rpsd V).
Proof.
  intros pinv eigh g l d th u lam p P pr sigma N V h PO EO HG Hl Hh Iso HV Hk HD Hp H. unfold ecov_coarray_music_1d in H. cbv zeta in H. destruct (is_perturbed (gd_array g)) eqn:EP; [discriminate|]. destruct (unperturbed _ EP) as (PE & W).
  destruct (C68_agree p _ P HD) as (Mp & vp & _ & HU & _ & _ & SV & WV & _ & HVp). cbn [src_size] in H. rewrite HU in H. cbn [bind] in H.
  apply bind_Ok_inv in H as (w & Hw & H). apply bind_Ok_inv in H as ((F & w') & HF & H). pose proof (places_grid_1d g l d HG) as HGr.
  destruct (C38_selection g l w [] false h HGr Hw Hl Hh) as (F' & w2 & EF & F1 & F2 & FS). change (after w []) with w in EF. rewrite HF in EF. injection EF as <- <-.
  assert (Hp0 : (0 < h)%Z). { destruct Hh as (H0 & HN & _). destruct (Z.eq_dec h 0) as [->|]; [|lia]. exfalso. apply HN. destruct l as [|x l]; [contradiction|]. exists x, x. repeat split; [now left | now left | lia]. }
  assert (EM : Nat.div (nr F + 1) 2 = Z.to_nat h). { rewrite F1. replace (Z.to_nat (2 * h - 1) + 1)%nat with (Z.to_nat h * 2)%nat by lia. apply Nat.div_mul. lia. }
  rewrite EM in H. destruct (Nat.leb_spec (Z.to_nat h) (List.length th)) as [|Lk]; [discriminate|]. apply bind_Ok_inv in H as ((St & DD) & HS & H). rewrite Z2Nat.id in H by lia.
  destruct (ULA_scalar h (lam / 2) None) as (v & Ev & Pv & Pev & Isov). rewrite Ev in H. cbn [bind] in H. apply bind_Ok_inv in H as ((Av & DAv) & HSv & H). apply steering_AD_inv in HSv.
  assert (Wv : wf_array (gd_array v)) by (destruct (gd_array v) as [lo nm el pe]; cbn in Pev; subst pe; apply wf_empty).
  destruct (steering_shape _ _ _ _ _ _ _ Wv HSv) as (V1 & V2 & V3 & V4). rewrite (pl_size _ _ _ Pv), ULA_indices_length in V1, V3.
  assert (EA : as_vector vp = Ok (nd_data vp)) by (unfold as_vector; rewrite SV; reflexivity). rewrite EA in H. cbn [bind] in H. destruct St as [A|]; [|discriminate].
  assert (HS' : steering_matrix (gd_array g) (FF1 th u) lam false "all" true = Ok (Flat A, [])).
  { unfold steering_matrix in HS |- *. unfold select_perturbations, perturbations in HS |- *. rewrite PE in HS |- *. cbn in HS |- *. rewrite (scalar_iso_req _ Iso) in HS |- *. cbn [andb bind] in HS |- *.
    destruct (phase_delay_matrix (FF1 th u) (la_m (ar_loc (gd_array g))) lam false) as [(T & DT)|] eqn:EPd; [|discriminate HS]. cbn [bind] in HS |- *.
    assert (DT = []). { clear -EPd. unfold phase_delay_matrix in EPd. destruct (_ || _)%bool; [discriminate|]. destruct (Reqb lam 0); [discriminate|]. unfold phase_delay_sin, phase_delay_rad in EPd. destruct (String.eqb u "sin"), (Nat.eqb (nc (la_m (ar_loc (gd_array g)))) 1); injection EPd as _ <-; reflexivity. }
    subst DT. cbn [map] in HS |- *. injection HS as <- _. reflexivity. }
  destruct (response_1d g l d _ lam A HG PE Iso HV eq_refl HS') as (A1 & A2 & _). cbn [src_size] in A2. pose proof (pl_size g l d HG) as SZ. rewrite SZ in H.
  assert (LP : List.length (nd_data vp) = List.length th) by (unfold nd_wf in WV; rewrite WV, SV; cbn; lia).
  apply bind_Ok_inv in H as (C & HC & H). destruct C as [C|]; [|destruct (existsb _ _) in H; discriminate]. cbn in H. injection H as ->.
  assert (FN : nr F = (2 * Z.to_nat h - 1)%nat) by lia.
  assert (MAIN : inj Av -> exists Pi X, orth_projector_onto Av Pi /\ nr X = List.length th /\ nc X = Z.to_nat h /\ X *m Av ==m mid (List.length th) /\ hermitian (Av *m X) /\ nr V = List.length th /\ nc V = List.length th /\
      (forall i, (i < List.length th)%nat -> vnorm2 (Z.to_nat h) (coarray_beta Pi DAv i) <> 0%R) /\
      forall i j, (i < List.length th)%nat -> (j < List.length th)%nat -> ent V i j = coarray_mse (List.length l) (model_cov A pr sigma) (coarray_xi (Z.to_nat h) F Pi X DAv pr) N i j).
  { intros HI. apply (coarray_ecov_inv pinv eigh (List.length l) (Z.to_nat h) (List.length th) A Av DAv F (nd_data vp) pr sigma N V); try assumption. intros i Hi. rewrite HVp by exact Hi. apply Hp, Hi. }
  assert (VS : nr V = List.length th /\ nc V = List.length th).
  { unfold coarray_ecov in HC. rewrite LP in HC. repeat (apply bind_Ok_inv in HC as (? & _ & HC)). destruct x1 as (? & ?). repeat (apply bind_Ok_inv in HC as (? & _ & HC)). cbv zeta in HC. destruct (existsb _ _) in HC; [discriminate|].
    apply (f_equal (fun x => match x with Ok (Some y) => (nr y, nc y) | _ => (nr V, nc V) end)) in HC. cbv beta iota in HC. cbn [nr nc] in HC. injection HC as E1 E2. split; congruence. }
  exists A, v, Av, DAv, w, w', F. cbv zeta. do 6 (split; [assumption|]). split; [exact FN|]. split; [exact F2|]. split; [intros Rm r R1 R2 Hr; apply (FS r Hr); assumption|]. split; [apply VS|]. split; [apply VS|]. split.
  - intros HI. destruct (MAIN HI) as (Pi & X & M1 & M2 & M3 & M4 & M5 & _ & _ & M6 & M7). exists Pi, X. repeat (split; [assumption|]). exact M7.
  - intros HI Hs HN. destruct (MAIN HI) as (Pi & X & M1 & M2 & M3 & M4 & M5 & _ & _ & M6 & M7).
    apply (rpsd_meq (Mat (List.length th) (List.length th) (coarray_mse (List.length l) (model_cov A pr sigma) (coarray_xi (Z.to_nat h) F Pi X DAv pr) N))).
    + split; [symmetry; apply VS|]. split; [symmetry; apply VS|]. cbn [nr nc ent]. intros i j Hi Hj. symmetry. now apply M7.
    + apply coarray_mse_psd; try assumption. intros i Hi. rewrite A2 in Hi. left. apply Hp, Hi.
Qed.

(** ** Rejected inputs *)
Theorem C73_rejects : forall pinv eigh g s lam p sigma N mode,
  ((forall l u, s <> FF1 l u) -> ecov_coarray_music_1d pinv eigh g s lam p sigma N mode = Raise ValueError) /\
  (ar_perts (gd_array g) <> [] -> ecov_coarray_music_1d pinv eigh g s lam p sigma N mode = Raise ValueError) /\
  (flat_parg p -> (forall M, ~ denotes (src_size s) p M) -> ecov_coarray_music_1d pinv eigh g s lam p sigma N mode = Raise ValueError) /\
  (forall l w h, grid_1d g l -> mk_WeightFunction1D g = Ok w -> l <> [] -> first_hole l h -> (h <= Z.of_nat (src_size s))%Z -> ecov_coarray_music_1d pinv eigh g s lam p sigma N mode = Raise ValueError).
Proof.
  intros. split; [|split; [|split]].
  - intros H. destruct s; [exfalso; eapply H; reflexivity | reflexivity..].
  - intros H. destruct s; [|reflexivity..]. unfold ecov_coarray_music_1d, is_perturbed. destruct (ar_perts (gd_array g)); [contradiction | reflexivity].
  - intros H1 H2. destruct s; [|reflexivity..]. unfold ecov_coarray_music_1d. cbv zeta. destruct (is_perturbed _); [reflexivity|]. destruct (C68_rejects p _ H1 H2) as (_ & E). rewrite E. reflexivity.
  - intros l w h HG Hw Hl Hh Hk. destruct s as [th u| |]; [|reflexivity..]. unfold ecov_coarray_music_1d. cbv zeta. destruct (is_perturbed _); [reflexivity|].
    assert (U : (exists a, unify_p_to_vector p (src_size (FF1 th u)) = Ok a) \/ unify_p_to_vector p (src_size (FF1 th u)) = Raise ValueError).
    { destruct p as [x|[sh da]|[sh da]]; cbn [unify_p_to_vector nd_shape]; [left; eexists; reflexivity | |].
      - destruct (negb _); [right; reflexivity | left; eexists; reflexivity].
      - destruct sh as [|a [|b [|? ?]]]; try (right; reflexivity); [destruct (negb _) | destruct (_ || _)%bool]; try (right; reflexivity); left; eexists; reflexivity. }
    destruct U as [(a & ->)| ->]; [|reflexivity]. cbn [bind]. rewrite Hw. cbn [bind].
    destruct (C38_selection g l w [] false h HG Hw Hl Hh) as (F & w2 & EF & F1 & F2 & FS). change (after w []) with w in EF. rewrite EF. cbn [bind].
    assert (Hp0 : (0 < h)%Z). { destruct Hh as (H0 & HN & _). destruct (Z.eq_dec h 0) as [->|]; [|lia]. exfalso. apply HN. destruct l as [|x l]; [contradiction|]. exists x, x. repeat split; [now left | now left | lia]. }
    assert (EM : (Nat.div (nr F + 1) 2 <= src_size (FF1 th u))%nat).
    { rewrite F1. apply Nat.div_le_upper_bound; [lia|]. lia. }
    apply Nat.leb_le in EM. rewrite EM. reflexivity.
Qed.

(** ** The virtual array
    At half-wavelength spacing the virtual ULA the function uses is the right one: its model covariance is the direct augmentation of the model covariance of the array. *)
Theorem C73_half_wavelength : forall g l lam w th u p sigma A h v Av DAv, places_1d g l (lam / 2) -> gd_d0 g = [(lam / 2)%R] -> mk_WeightFunction1D g = Ok w -> l <> [] -> NoDup l ->
  ar_perts (gd_array g) = [] -> scalar_isotropic (gd_array g) -> valid_sources (FF1 th u) -> first_hole l h ->
  steering_matrix (gd_array g) (FF1 th u) lam false "all" true = Ok (Flat A, []) ->
  mk_ULA h (D0Scalar (lam / 2)) None no_kwargs = Ok v -> steering_matrix (gd_array v) (FF1 th u) lam true "all" false = Ok (Flat Av, [DAv]) ->
  exists D, transform (Acm g w) (model_cov A p sigma) "da" = Ok D /\ D ==m model_cov Av p sigma.
Proof.
  intros g l lam w th u p sigma A h v Av DAv HG D0 Hw Hl ND PE Iso HV Hh HS Ev HSv.
  destruct (C40_exact g l (lam / 2) w [] (FF1 th u) lam p sigma None A (model_cov A p sigma) HG D0 Hw Hl ND PE Iso HV eq_refl HS ltac:(reflexivity)) as (v' & Av' & D & Ev' & HS' & HT & HD). change (after w []) with w in *.
  destruct (C40_virtual_ula g l (lam / 2) w [] None h HG D0 Hw Hh) as (v2 & q & Ev2 & Pv2 & Lq & Nq). change (after w []) with w in *. rewrite Ev' in Ev2. injection Ev2 as <-.
  destruct (ULA_scalar h (lam / 2) None) as (v0 & Ev0 & Pv & Pev & Isov). rewrite Ev in Ev0. injection Ev0 as <-.
  assert (X : ar_perts (gd_array v') = [] /\ scalar_isotropic (gd_array v')). { unfold get_virtual_ula in Ev'. cbn [acm_array] in Ev'. rewrite D0 in Ev'. destruct (ULA_virtual (acm_output_size (Acm g w)) (lam / 2) (Some (name_or None ("Virtual ULA of " ++ ar_name (gd_array g))))) as (v3 & E3 & _ & X1 & X2). rewrite Ev' in E3. injection E3 as <-. auto. }
  destruct (response_der v' q (lam / 2) _ lam _ _ Av' [] Pv2 (proj1 X) (proj2 X) HV eq_refl HS') as (B1 & B2 & B3). destruct (response_der v (ULA_indices h) (lam / 2) _ lam _ _ Av [DAv] Pv Pev Isov HV eq_refl HSv) as (C1 & C2 & C3).
  exists D. split; [exact HT|]. etransitivity; [exact HD|]. apply model_cov_eq. rewrite ULA_indices_length in C1, C3. rewrite Lq in B1, B3. split; [congruence|]. split; [congruence|]. intros i j Hi Hj. rewrite B1 in Hi. rewrite B2 in Hj. rewrite B3, C3 by assumption. rewrite Nq, ULA_indices_nth by assumption. reflexivity.
Qed.

(** At any other spacing d it is not: sensors at 0 and d, a unit-power source at broadside, unit noise and wavelength, one snapshot.  The function returns the value
    for d = 1/2, 3 / (2 pi^2), whatever d is; with the array's own virtual ULA (get_virtual_ula) the same closed form gives 3 / (2 (2 pi d)^2). *)
Definition two_ones (A : cmat) : Prop := nr A = 2%nat /\ nc A = 1%nat /\ ent A 0 0 = RtoC 1 /\ ent A 1 0 = RtoC 1.
Lemma ex_mse F Pi X Av DAv A kp : (forall q, (q < 4)%nat -> ent F 0 q = if Nat.eqb q 2 then 1%R else 0%R) -> (forall q, (q < 4)%nat -> ent F 2 q = if Nat.eqb q 1 then 1%R else 0%R) ->
  two_ones A -> two_ones Av -> nr DAv = 2%nat -> ent DAv 0 0 = RtoC 0 -> ent DAv 1 0 = Ci * RtoC kp -> kp <> 0%R -> orth_projector_onto Av Pi -> nr X = 1%nat -> nc X = 2%nat -> X *m Av ==m mid 1 -> hermitian (Av *m X) ->
  coarray_mse 2 (model_cov A (fun _ => 1%R) 1) (coarray_xi 2 F Pi X DAv (fun _ => 1%R)) 1 0 0 = (3 / (2 * (kp * kp)))%R.
Proof.
  intros F0 F2 (A1 & A2 & A3 & A4) (V1 & V2 & V3 & V4) D1 D3 D4 Kp HP X1 X2 HX HH.
  pose proof (ex_proj Av Pi V1 V2 V3 V4 HP) as EP. destruct (op_shape _ _ HP) as (P1 & P2).
  assert (EX : ent X 0 0 = RtoC (/ 2) /\ ent X 0 1 = RtoC (/ 2)).
  { pose proof (meq_ent _ _ 0%nat 0%nat HX) as E. cbn [mmul nr nc ent mid] in E. rewrite X1, X2, V2 in E. specialize (E ltac:(lia) ltac:(lia)). cbn [csum Nat.eqb] in E. rewrite V3, V4 in E. destruct HH as (_ & HH). cbn [mmul nr nc ent] in HH. rewrite V1, V2 in HH.
    pose proof (HH 0%nat 0%nat ltac:(lia) ltac:(lia)) as H0. pose proof (HH 0%nat 1%nat ltac:(lia) ltac:(lia)) as H1. cbn [csum] in H0, H1. rewrite V3 in H0, H1. rewrite V4 in H1. destruct (ent X 0 0) as [a b], (ent X 0 1) as [c e].
    apply (f_equal fst) in E as E1. apply (f_equal snd) in E as E2. apply (f_equal fst) in H0 as H01. apply (f_equal snd) in H0 as H02. apply (f_equal fst) in H1 as H11. apply (f_equal snd) in H1 as H12. clear E H0 H1. cbn in E1, E2, H01, H02, H11, H12. split; apply injective_projections; cbn; lra. }
  destruct EX as (X3 & X4).
  assert (B : forall i, (i < 2)%nat -> coarray_beta Pi DAv 0 i = (if Nat.eqb i 0 then - (Ci * RtoC (kp / 2)) else Ci * RtoC (kp / 2))).
  { intros i Hi. unfold coarray_beta, mvec, col. cbn [msub mid nr nc ent]. rewrite D1. cbn [csum]. rewrite !EP by lia. rewrite D3, D4. destruct i as [|[|i]]; try lia; cbn [Nat.eqb]; apply injective_projections; cbn; field. }
  assert (G : vnorm2 2 (coarray_beta Pi DAv 0) = (kp * kp / 2)%R).
  { unfold vnorm2. cbn [rsum]. rewrite !B by lia. cbn [Nat.eqb]. unfold Cnorm2. cbn. field. }
  assert (XI : forall q, (q < 4)%nat -> coarray_xi 2 F Pi X DAv (fun _ => 1%R) 0 q = (if Nat.eqb q 2 then - (Ci * RtoC (/ (2 * kp))) else if Nat.eqb q 1 then Ci * RtoC (/ (2 * kp)) else RtoC 0)).
  { intros q Hq. unfold coarray_xi. rewrite G. cbn [csum Nat.sub Nat.add]. rewrite !B by lia. rewrite X3, X4, (F0 q Hq), (F2 q Hq). cbn [Nat.eqb].
    destruct q as [|[|[|[|q]]]]; try lia; cbn [Nat.eqb]; apply injective_projections; cbn; field; try assumption; split; try assumption; try (intros Z; apply Kp; nra). }
  assert (MR : forall i j, (i < 2)%nat -> (j < 2)%nat -> ent (model_cov A (fun _ => 1%R) 1) i j = if Nat.eqb i j then RtoC 2 else RtoC 1).
  { intros i j Hi Hj. rewrite model_cov_ent, A2. cbn [csum]. destruct i as [|[|i]], j as [|[|j]]; try lia; rewrite ?A3, ?A4; cbn [Nat.eqb]; apply injective_projections; cbn; ring. }
  unfold coarray_mse. change (2 * 2)%nat with 4%nat. cbn [csum]. rewrite !XI by lia. cbn [Nat.eqb]. cbn [Nat.div Nat.modulo Nat.divmod fst snd Nat.sub]. rewrite !MR by lia. cbn [Nat.eqb]. cbn. field. assumption.
Qed.

(** ** Defined when the virtual steering matrix has independent columns, the powers are positive and no projected derivative vanishes *)
Theorem C73_defined : forall pinv eigh g l d th u lam p P pr sigma N w h v Av DAv, pinv_exact pinv -> eigh_contract (Z.to_nat h) eigh ->
  places_1d g l d -> l <> [] -> first_hole l h -> ar_perts (gd_array g) = [] -> scalar_isotropic (gd_array g) -> valid_sources (FF1 th u) -> (1 <= List.length th < Z.to_nat h)%nat ->
  mk_WeightFunction1D g = Ok w -> denotes (List.length th) p P -> (forall i, (i < List.length th)%nat -> P i i = RtoC (pr i) /\ (0 < pr i)%R) ->
  mk_ULA h (D0Scalar (lam / 2)) None no_kwargs = Ok v -> steering_matrix (gd_array v) (FF1 th u) lam true "all" false = Ok (Flat Av, [DAv]) -> inj Av ->
  (forall Pi, orth_projector_onto Av Pi -> forall i, (i < List.length th)%nat -> vnorm2 (Z.to_nat h) (coarray_beta Pi DAv i) <> 0%R) ->
  (exists A, steering_matrix (gd_array g) (FF1 th u) lam false "all" false = Ok (Flat A, [])) ->
  exists V, ecov_coarray_music_1d pinv eigh g (FF1 th u) lam p sigma N "full" = Ok (Some (OFull V)).
Proof.
  intros pinv eigh g l d th u lam p P pr sigma N w h v Av DAv PO EO HG Hl Hh PE Iso HV (K1 & Lk) Hw HD Hp Ev HSv HI Hb (A & HS).
  pose proof (places_grid_1d g l d HG) as HGr. destruct (C38_selection g l w [] false h HGr Hw Hl Hh) as (F & w2 & EF & F1 & F2 & _). change (after w []) with w in EF.
  assert (EM : Nat.div (nr F + 1) 2 = Z.to_nat h). { rewrite F1. replace (Z.to_nat (2 * h - 1) + 1)%nat with (Z.to_nat h * 2)%nat by lia. apply Nat.div_mul. lia. }
  destruct (C68_agree p _ P HD) as (Mp & vp & _ & HU & _ & _ & SV & WV & _ & HVp).
  destruct (response_der g l d _ lam _ _ A [] HG PE Iso HV eq_refl HS) as (A1 & A2 & _). cbn [src_size] in A2.
  destruct (ULA_scalar h (lam / 2) None) as (v0 & Ev0 & Pv & Pev & Isov). rewrite Ev in Ev0. injection Ev0 as <-.
  assert (Wv : wf_array (gd_array v)) by (destruct (gd_array v) as [lo nm el pe]; cbn in Pev; subst pe; apply wf_empty).
  destruct (steering_shape _ _ _ _ _ _ _ Wv HSv) as (V1 & V2 & D1 & D2). rewrite (pl_size _ _ _ Pv), ULA_indices_length in V1, D1.
  unfold ecov_coarray_music_1d. cbv zeta. unfold is_perturbed. rewrite PE. cbn [List.length Nat.ltb Nat.leb src_size]. rewrite HU. cbn [bind]. rewrite Hw. cbn [bind]. rewrite EF. cbn [bind]. rewrite EM.
  destruct (Nat.leb_spec (Z.to_nat h) (List.length th)); [lia|]. rewrite HS. cbn [bind]. rewrite Z2Nat.id by lia. rewrite Ev. cbn [bind]. rewrite (steering_AD_eq _ _ _ _ _ _ HSv). cbn [bind].
  assert (EA : as_vector vp = Ok (nd_data vp)) by (unfold as_vector; rewrite SV; reflexivity). rewrite EA. cbn [bind]. rewrite (pl_size g l d HG).
  assert (LP : List.length (nd_data vp) = List.length th) by (unfold nd_wf in WV; rewrite WV, SV; cbn; lia).
  set (k := List.length th) in *. set (m := List.length l) in *. set (mv := Z.to_nat h) in *. set (pl := nd_data vp) in *.
  assert (Hpl : forall i, (i < k)%nat -> nth i pl (RtoC 0) = RtoC (pr i)) by (intros i Hi; rewrite HVp by exact Hi; apply Hp, Hi).
  unfold coarray_ecov. rewrite LP. rewrite (matmul_ok _ (mher A)) by (cbn [mher nr nc]; congruence). cbn [bind]. rewrite (matmul_ok _ (mher Av)) by (cbn [mher nr nc]; congruence). cbn [bind]. cbv zeta.
  set (Rss := _ *m mher Av +m mscal (RtoC sigma) (mid mv)).
  assert (ES : Rss ==m model_cov Av pr sigma).
  { etransitivity; [|apply stouc_cov]. unfold Rss. rewrite V1. apply madd_eq; [reflexivity | exact V1 | | reflexivity]. apply mmul_eq_l. repeat split. intros i j Hi Hj. cbn [ent nc] in *. rewrite Hpl by lia. reflexivity. }
  assert (HSh : hermitian Rss) by (eapply hermitian_eq; [symmetry; exact ES | apply model_cov_herm]).
  destruct (EO Rss HSh ltac:(cbn [Rss madd mmul nr]; lia)) as (ww & E & EE & HE). rewrite EE. cbn [bind].
  assert (HX : exact_cov Rss Av (mdiag (nc Av) (fun q => RtoC (pr q))) sigma) by (split; [reflexivity|]; split; [reflexivity | exact ES]).
  assert (HPD : pd (mdiag (nc Av) (fun q => RtoC (pr q)))) by (apply pd_mdiag; intros i Hi; apply Hp; lia).
  destruct (noise_projector Rss Av _ sigma ww E k HX HI HPD HE V2 K1) as (HPi & NEn). rewrite V1 in HPi, NEn. set (En := col_slice E None (Some (- Z.of_nat k)%Z)) in *.
  rewrite (matmul_ok En (mher En)) by reflexivity. cbn [bind]. destruct (sub_shape mv) as (G1 & G2). rewrite (matmul_ok (subarray_matrix mv)) by (rewrite G2; cbn [mofR mmap nr]; lia). cbn [bind].
  destruct (PO Av HI) as (X & EX & X1 & X2 & _). rewrite EX. cbn [bind].
  rewrite matmul_ok by (cbn [mher kron mtr madd mmul nr nc]; congruence). cbn [bind]. rewrite matmul_ok by (cbn [mher kron mtr madd mmul nr nc]; congruence). cbn [bind].
  match goal with |- exists V, (let! C := (if ?b then _ else _) in _) = _ => assert (EB : b = false) end.
  { apply not_true_is_false. intros EB. apply existsb_exists in EB as (i & Hi & EB). apply in_seq in Hi.
    destruct (Req_EM_T _ 0) as [Z|_]; [|destruct (Req_EM_T _ 0) as [Z|]; [|discriminate]].
    - apply (Hb _ HPi i ltac:(lia)). rewrite <- Z, csum_Re. apply rsum_ext. intros r Hr. rewrite Cconj_mult_norm2, Re_RtoC. f_equal. unfold coarray_beta, mvec, col. cbn [msub mid nr nc mmul mher ent]. rewrite D1, NEn. apply csum_ext. intros j Hj. ring.
    - rewrite Hpl, Cmod_R in Z by lia. destruct (Hp i ltac:(lia)) as (_ & Q). pose proof (Rabs_pos_lt (pr i) ltac:(lra)). lra. }
  rewrite EB. cbn [bind]. eexists. reflexivity.
Qed.

(** Two sensors a distance d apart *)
Lemma ex_hole : first_hole [0; 1]%Z 2.
Proof.
  split; [lia|]. split.
  - intros (a & b & Ha & Hb & E). cbn in Ha, Hb. destruct Ha as [<-|[<-|[]]], Hb as [<-|[<-|[]]]; lia.
  - intros e He. assert (e = 0 \/ e = 1)%Z as [->| ->] by lia; [exists 0%Z, 0%Z | exists 1%Z, 0%Z]; repeat split; cbn; auto.
Qed.
Lemma ex_ula d : exists g w, mk_ULA 2 (D0Scalar d) None no_kwargs = Ok g /\ mk_WeightFunction1D g = Ok w /\ places_1d g [0; 1]%Z d /\ gd_d0 g = [d] /\ ar_perts (gd_array g) = [] /\ scalar_isotropic (gd_array g) /\ wf_array (gd_array g).
Proof.
  destruct (ULA_scalar 2 d None) as (g & E & P & Pe & Iso). change (ULA_indices 2) with [0; 1]%Z in P. exists g.
  assert (D0 : gd_d0 g = [d]) by (cbn in E; injection E as <-; reflexivity).
  assert (Hw : exists w, mk_WeightFunction1D g = Ok w) by (cbn in E; injection E as <-; eexists; reflexivity). destruct Hw as (w & Hw). exists w.
  repeat (split; [assumption|]). destruct (gd_array g) as [lo nm el pe]; cbn in Pe; subst pe; apply wf_empty.
Qed.
Lemma ex_virtual d g : mk_ULA 2 (D0Scalar d) None no_kwargs = Ok g -> exists A D, steering_matrix (gd_array g) (FF1 [0%R] "rad") 1 true "all" false = Ok (Flat A, [D]) /\
  steering_matrix (gd_array g) (FF1 [0%R] "rad") 1 false "all" false = Ok (Flat A, []) /\ two_ones A /\ nr D = 2%nat /\ ent D 0 0 = RtoC 0 /\ ent D 1 0 = Ci * RtoC (2 * PI * d).
Proof.
  intros E. cbn in E. injection E as <-. eexists _, _. split; [(unfold steering_matrix, phase_delay_matrix; rewrite (P_sources.Reqb_neq 1 0 R1_neq_R0); reflexivity)|]. split; [(unfold steering_matrix, phase_delay_matrix; rewrite (P_sources.Reqb_neq 1 0 R1_neq_R0); reflexivity)|]. split.
  - split; [reflexivity|]. split; [reflexivity|]. cbn. rewrite sin_0, !Rmult_0_r, cis_0. split; reflexivity.
  - split; [reflexivity|]. cbn. rewrite sin_0, cos_0, !Rmult_0_r, cis_0. split; apply injective_projections; cbn; field.
Qed.
Lemma ex_select d g w F w' : mk_ULA 2 (D0Scalar d) None no_kwargs = Ok g -> mk_WeightFunction1D g = Ok w -> get_coarray_selection_matrix w false = Ok (F, w') ->
  (forall q, (q < 4)%nat -> ent F 0 q = if Nat.eqb q 2 then 1%R else 0%R) /\ (forall q, (q < 4)%nat -> ent F 2 q = if Nat.eqb q 1 then 1%R else 0%R).
Proof.
  intros E Hw EF. destruct (ex_ula d) as (g' & w0 & E' & Hw' & P & _). rewrite E in E'. injection E' as <-. rewrite Hw in Hw'. injection Hw' as <-.
  destruct (C38_selection g [0; 1]%Z w [] false 2 (places_grid_1d _ _ _ P) Hw ltac:(discriminate) ex_hole) as (F' & w2 & EF' & F1 & F2 & FS). change (after w []) with w in EF'. rewrite EF in EF'. injection EF' as <- <-.
  cbn [List.length Nat.mul Nat.add] in F2. change (Z.to_nat (2 * 2 - 1)) with 3%nat in F1.
  assert (LP : forall r q, (r < 3)%nat -> ent F r q <> 0%R -> exists i j, (i < 2)%nat /\ (j < 2)%nat /\ q = (i + j * 2)%nat /\ (Z.of_nat i - Z.of_nat j = Z.of_nat r - 2 + 1)%Z).
  { intros r q Hr Hq. apply (FS r ltac:(lia)) in Hq as (i & j & Hi & Hj & -> & Hd). cbn [List.length] in *. exists i, j. repeat split; try assumption. rewrite <- Hd. destruct i as [|[|i]], j as [|[|j]]; cbn; lia. }
  assert (Z0 : forall r q, (r < 3)%nat -> ~ (exists i j, (i < 2)%nat /\ (j < 2)%nat /\ q = (i + j * 2)%nat /\ (Z.of_nat i - Z.of_nat j = Z.of_nat r - 2 + 1)%Z) -> ent F r q = 0%R).
  { intros r q Hr Nq. destruct (Req_dec (ent F r q) 0) as [->|N]; [reflexivity|]. exfalso. apply Nq. now apply LP. }
  assert (S0 : forall q, q <> 2%nat -> ent F 0 q = 0%R) by (intros q Hq; apply Z0; [lia|]; intros (i & j & Hi & Hj & -> & He); lia).
  assert (S2 : forall q, q <> 1%nat -> ent F 2 q = 0%R) by (intros q Hq; apply Z0; [lia|]; intros (i & j & Hi & Hj & -> & He); lia).
  pose proof (proj1 (FS 0%nat ltac:(lia))) as R0. pose proof (proj1 (FS 2%nat ltac:(lia))) as R2. rewrite F2 in R0, R2. cbn [rsum] in R0, R2. rewrite (S0 0%nat), (S0 1%nat), (S0 3%nat) in R0 by lia. rewrite (S2 0%nat), (S2 2%nat), (S2 3%nat) in R2 by lia.
  split; intros q Hq.
  - destruct (Nat.eqb_spec q 2) as [->|N]; [lra | now apply S0].
  - destruct (Nat.eqb_spec q 1) as [->|N]; [lra | now apply S2].
Qed.
Lemma acm_size_2 d g w : mk_ULA 2 (D0Scalar d) None no_kwargs = Ok g -> mk_WeightFunction1D g = Ok w -> acm_output_size (Acm g w) = 2%Z.
Proof.
  intros E Hw. destruct (ex_ula d) as (g' & w0 & E' & _ & P & _). rewrite E in E'. injection E' as <-. pose proof (places_grid_1d _ _ _ P) as Hg.
  destruct (C37_central_ula g _ w [] Hg Hw) as (h & Hh & E1 & _). change (after w []) with w in E1. rewrite (C37_first_hole_unique _ _ _ ex_hole Hh). exact E1.
Qed.
Lemma ex_virtual_list d v nm : mk_ULA 2 (D0List [d]) nm no_kwargs = Ok v -> exists A D, steering_matrix (gd_array v) (FF1 [0%R] "rad") 1 true "all" false = Ok (Flat A, [D]) /\
  two_ones A /\ nr D = 2%nat /\ ent D 0 0 = RtoC 0 /\ ent D 1 0 = Ci * RtoC (2 * PI * d).
Proof.
  intros E. cbn in E. injection E as <-. eexists _, _. split; [(unfold steering_matrix, phase_delay_matrix; rewrite (P_sources.Reqb_neq 1 0 R1_neq_R0); reflexivity)|]. split.
  - split; [reflexivity|]. split; [reflexivity|]. cbn. rewrite sin_0, !Rmult_0_r, cis_0. split; reflexivity.
  - split; [reflexivity|]. cbn. rewrite sin_0, cos_0, !Rmult_0_r, cis_0. split; apply injective_projections; cbn; field.
Qed.
Lemma ones_inj A : two_ones A -> inj A. Proof. intros (A1 & A2 & E0 & _). now apply ex_inj. Qed.
Lemma ex_valid : valid_sources (FF1 [0%R] "rad").
Proof. split; [left; reflexivity|]. pose proof PI_RGT_0. repeat (apply Forall_cons || apply Forall_nil). left. split; [reflexivity | lra]. Qed.
(** np.linalg.pinv through the normal equations *)
Definition pinv0 (A : cmat) : res cmat := solve0 (mher A *m A) (mher A).
Lemma pinv0_exact : pinv_exact pinv0.
Proof.
  intros A HI. assert (IG : inj (mher A *m A)) by (apply pd_inj, gram_pd, HI). destruct (proj2 solve0_exact (mher A *m A) (mher A) eq_refl eq_refl IG) as (X & EX). destruct (proj1 solve0_exact _ _ _ EX) as (_ & _ & X1 & X2 & HX). cbn [mmul mher nr nc] in X1, X2.
  exists X. split; [exact EX|]. split; [exact X1|]. split; [exact X2|]. split.
  - apply (inj_cancel (mher A *m A)); [cbn [mmul mher nr nc]; congruence | reflexivity | reflexivity | exact IG |]. etransitivity; [symmetry; apply mmul_assoc|]. etransitivity; [apply mmul_eq_l; exact HX|]. symmetry. apply mmul_id_r. reflexivity.
  - apply hermitian_mher. apply (op_herm _ _ (normal_eq_projector A X X1 X2 HX)).
Qed.
Theorem C73_spacing_defect : forall pinv eigh d g w v A V, pinv_exact pinv -> eigh_contract 2 eigh -> (0 < d)%R ->
  mk_ULA 2 (D0Scalar d) None no_kwargs = Ok g -> mk_WeightFunction1D g = Ok w -> get_virtual_ula (Acm g w) None = Ok v ->
  steering_matrix (gd_array g) (FF1 [0%R] "rad") 1 false "all" true = Ok (Flat A, []) ->
  ecov_coarray_music_1d pinv eigh g (FF1 [0%R] "rad") 1 (PScalar 1) 1 1 "full" = Ok (Some (OFull V)) ->
  ent V 0 0 = (3 / (2 * PI ^ 2))%R /\
  exists Av DAv F w' Pi X, steering_matrix (gd_array v) (FF1 [0%R] "rad") 1 true "all" false = Ok (Flat Av, [DAv]) /\ get_coarray_selection_matrix w false = Ok (F, w') /\
    orth_projector_onto Av Pi /\ X *m Av ==m mid 1 /\ hermitian (Av *m X) /\
    coarray_mse 2 (model_cov A (fun _ => 1%R) 1) (coarray_xi 2 F Pi X DAv (fun _ => 1%R)) 1 0 0 = (3 / (2 * (2 * PI * d) ^ 2))%R.
Proof.
  intros pinv eigh d g w v A V PO EO Hd Eg Hw Ev HA H. pose proof PI_RGT_0 as PP. destruct (ex_ula d) as (g' & w0 & E' & Hw' & P & D0 & Pe & Iso & W). rewrite Eg in E'. injection E' as <-. rewrite Hw in Hw'. injection Hw' as <-.
  destruct (C38_selection g [0; 1]%Z w [] false 2 (places_grid_1d _ _ _ P) Hw ltac:(discriminate) ex_hole) as (F & w2 & EF & _). change (after w []) with w in EF. destruct (ex_select d g w F w2 Eg Hw EF) as (F0 & F2).
  destruct (response_1d g _ d _ 1 A P Pe Iso ex_valid eq_refl HA) as (A1 & A2 & A3). cbn [List.length src_size] in A1, A2, A3.
  assert (TA : two_ones A). { split; [exact A1|]. split; [exact A2|]. rewrite !A3 by lia. cbn. rewrite sin_0, !Rmult_0_r, cis_0. split; reflexivity. }
  destruct (C73_formula pinv eigh g [0; 1]%Z d [0%R] "rad" 1 (PScalar 1) (fun i j => if Nat.eqb i j then RtoC 1 else RtoC 0) (fun _ => 1%R) 1 1 V 2 PO EO P ltac:(discriminate) ex_hole Iso ex_valid ltac:(cbn; lia) (den_scalar _ 1) ltac:(intros i Hi; cbv beta; rewrite Nat.eqb_refl; split; [reflexivity | lra]) H) as (A' & vu & Av & DAv & wc & wc' & Fc & R). cbv zeta in R.
  destruct R as (HA' & Evu & HSv & _ & Hwc & HFc & _ & _ & _ & _ & _ & HF & _). rewrite HA in HA'. injection HA' as <-. rewrite Hw in Hwc. injection Hwc as <-. rewrite EF in HFc. injection HFc as <- <-.
  assert (OK : forall (v0 : gdesign) dv, (0 < dv)%R -> mk_ULA 2 (D0Scalar dv) None no_kwargs = Ok v0 -> forall Av0 DAv0 Pi X, steering_matrix (gd_array v0) (FF1 [0%R] "rad") 1 true "all" false = Ok (Flat Av0, [DAv0]) -> orth_projector_onto Av0 Pi -> nr X = 1%nat -> nc X = 2%nat -> X *m Av0 ==m mid 1 -> hermitian (Av0 *m X) ->
    coarray_mse 2 (model_cov A (fun _ => 1%R) 1) (coarray_xi 2 F Pi X DAv0 (fun _ => 1%R)) 1 0 0 = (3 / (2 * (2 * PI * dv) ^ 2))%R).
  { intros v0 dv Hdv E0 Av0 DAv0 Pi X HS0 HP X1 X2 X3 X4. destruct (ex_virtual dv v0 E0) as (B & DB & HB & _ & TB & DB1 & DB2 & DB3). rewrite HB in HS0. injection HS0 as <- <-.
    rewrite (ex_mse F Pi X B DB A (2 * PI * dv)); try assumption; [field; split; lra | nra]. }
  split.
  - destruct (ex_virtual _ _ Evu) as (B & DB & HB & _ & TB & _). rewrite HB in HSv. injection HSv as <- <-. destruct (HF (ones_inj _ TB)) as (Pi & X & HP & X1 & X2 & X3 & X4 & _ & EV).
    rewrite (EV 0%nat 0%nat) by (cbn; lia). change (Z.to_nat 2) with 2%nat in *. cbn [List.length] in *. rewrite (OK vu (1 / 2)%R ltac:(lra) Evu B DB Pi X HB HP X1 X2 X3 X4). f_equal. field.
  - assert (Evd : exists nm, mk_ULA 2 (D0List [d]) nm no_kwargs = Ok v). { unfold get_virtual_ula in Ev. cbn [acm_array] in Ev. rewrite D0 in Ev. rewrite (acm_size_2 d g w Eg Hw) in Ev. eexists. exact Ev. }
    destruct Evd as (nm & Evd). destruct (ex_virtual_list d v nm Evd) as (B & DB & HB & TB & DB1 & DB2 & DB3). destruct (pinv0_exact B (ones_inj _ TB)) as (X & _ & X1 & X2 & X3 & X4). destruct TB as (TB1 & TB2 & TB3 & TB4). rewrite TB2 in X1, X3. rewrite TB1 in X2.
    destruct (projm_solve_def solve0 pinv0 B solve0_exact (ones_inj B ltac:(repeat split; assumption))) as (Pi & EPi). apply projm_solve in EPi; [|apply solve0_exact].
    exists B, DB, F, w2, Pi, X. do 5 (split; [assumption|]). rewrite (ex_mse F Pi X B DB A (2 * PI * d)); try assumption; [field; split; lra | split; auto | nra].
Qed.
(** and the function is defined there *)
Example C73_example : forall d, exists g w v A V, mk_ULA 2 (D0Scalar d) None no_kwargs = Ok g /\ mk_WeightFunction1D g = Ok w /\ get_virtual_ula (Acm g w) None = Ok v /\
  steering_matrix (gd_array g) (FF1 [0%R] "rad") 1 false "all" true = Ok (Flat A, []) /\
  ecov_coarray_music_1d pinv0 eigh2 g (FF1 [0%R] "rad") 1 (PScalar 1) 1 1 "full" = Ok (Some (OFull V)).
Proof.
  intros d. pose proof PI_RGT_0 as PP. destruct (ex_ula d) as (g & w & Eg & Hw & P & D0 & Pe & Iso & W). destruct (ex_virtual d g Eg) as (A & DA & _ & HA & TA & _).
  assert (HA2 : steering_matrix (gd_array g) (FF1 [0%R] "rad") 1 false "all" true = Ok (Flat A, [])) by (cbn in Eg; injection Eg as <-; cbn in HA |- *; exact HA).
  destruct (C40_virtual_ula g _ d w [] None 2 P D0 Hw ex_hole) as (v & _ & Ev & _). change (after w []) with w in Ev.
  destruct (ULA_scalar 2 (1 / 2) None) as (vu & Evu & _). destruct (ex_virtual _ _ Evu) as (B & DB & HB & _ & TB & DB1 & DB2 & DB3).
  destruct (C73_defined pinv0 eigh2 g [0; 1]%Z d [0%R] "rad" 1 (PScalar 1) (fun i j => if Nat.eqb i j then RtoC 1 else RtoC 0) (fun _ => 1%R) 1 1 w 2 vu B DB pinv0_exact eigh2_contract P ltac:(discriminate) ex_hole Pe Iso ex_valid ltac:(cbn; lia) Hw (den_scalar _ 1) ltac:(intros i Hi; cbv beta; rewrite Nat.eqb_refl; split; [reflexivity | lra]) Evu HB (ones_inj _ TB)) as (V & HV); [|exists A; exact HA|].
  - intros Pi HP i Hi. cbn [List.length] in Hi. assert (i = 0)%nat by lia. subst i. change (Z.to_nat 2) with 2%nat. destruct TB as (TB1 & TB2 & TB3 & TB4).
    pose proof (ex_proj B Pi TB1 TB2 TB3 TB4 HP) as EP. unfold vnorm2, coarray_beta, mvec, col. cbn [rsum msub mid nr nc ent]. rewrite DB1. cbn [csum]. rewrite !EP by lia. rewrite DB2, DB3. unfold Cnorm2. cbn. nra.
  - exists g, w, v, A, V. repeat (split; [assumption|]). exact HV.
Qed.
Print Assumptions C73_subarray_matrix. Print Assumptions C73_augmentation. Print Assumptions C73_formula. Print Assumptions C73_rejects. Print Assumptions C73_half_wavelength. Print Assumptions C73_defined. Print Assumptions C73_spacing_defect.
