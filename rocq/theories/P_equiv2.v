(** Steering matrices of two descriptions of the same scene. *)
From Coq Require Import Sorting.Permutation.
From Verif Require Import Base_Np Base_Trig Base_Lin S_utils M_utils M_sources S_sources M_array S_array P_utils P_sources P_sources2 P_array P_array2
  M_perf S_perf P_perf P_perf2 S_equiv P_equiv.
Open Scope R_scope.

Lemma sqrt_interior x : -1 < x < 1 -> sqrt (1 - x * x) <> 0.
Proof. intros H. apply Rgt_not_eq, sqrt_lt_R0. nra. Qed.
Lemma unit_step_nz u l x : interior u l -> In x l -> unit_step u x <> 0.
Proof.
  intros I H. unfold unit_step. destruct (String.eqb_spec u "deg"); [pose proof PI_RGT_0; lra|].
  destruct (String.eqb_spec u "sin") as [->|]; [|lra]. apply Rinv_neq_0_compat, sqrt_interior, I; auto.
Qed.
Lemma FF1_phases l u L lam T DT : valid_sources (FF1 l u) -> interior u l -> phase_delay_matrix (FF1 l u) L lam true = Ok (T, DT) ->
  exists DD, DT = [DD] /\ nr T = nr L /\ nc T = List.length l /\ nr DD = nr L /\
    forall i k, (i < nr L)%nat -> (k < List.length l)%nat -> let t := to_rad u (nth k l 0) in
      ent T i k = 2 * PI / lam * (coord L i 0 * sin t + coord L i 1 * cos t) /\
      ent DD i k = 2 * PI / lam * (coord L i 0 * cos t - coord L i 1 * sin t) * unit_step u (nth k l 0).
Proof.
  intros V I H. destruct (phase_ff (FF1 l u) L lam true T DT V eq_refl H) as (n1 & n2 & HT).
  unfold phase_delay_matrix in H. destruct (_ || _)%bool eqn:B; [discriminate|].
  apply orb_false_iff in B as (B1 & B2). apply Nat.ltb_ge in B1, B2.
  destruct (Reqb lam 0); [discriminate|].
  assert (HT' : forall i k, (i < nr L)%nat -> (k < List.length l)%nat -> ent T i k = 2 * PI / lam * (coord L i 0 * sin (to_rad u (nth k l 0)) + coord L i 1 * cos (to_rad u (nth k l 0)))).
  { intros i k Hi Hk. rewrite (HT i k Hi Hk). unfold plane_phase, direction. ring. }
  destruct V as (K & V). unfold phase_delay_sin, phase_delay_rad in H. destruct (String.eqb_spec u "sin") as [->|N].
  - destruct (Nat.eqb_spec (nc L) 1) as [E|E]; injection H as _ <-; eexists; (split; [reflexivity|]); (split; [exact n1|]); (split; [exact n2|]); (split; [reflexivity|]);
      intros i k Hi Hk; cbv zeta; (split; [apply HT'; assumption|]); cbn [ent M_sources.rscal mmap rsub outer_col];
      unfold coord, unit_step; cbn [to_rad String.eqb Ascii.eqb Bool.eqb];
      rewrite ?(nth_map_R (fun x => x / sqrt (1 - x * x))) by exact Hk;
      pose proof (I eq_refl _ (nth_In l 0 Hk)) as Hx; rewrite sin_asin, cos_asin' by lra; pose proof (sqrt_interior _ Hx) as Hs.
    + rewrite E. cbn [Nat.ltb Nat.leb]. set (q := sqrt (1 - nth k l 0 * nth k l 0)) in *.
      replace (2 * PI / lam * (ent L i 0%nat * q - 0 * nth k l 0) * / q) with (2 * PI / lam * ent L i 0%nat * (q * / q)) by ring. rewrite Rinv_r by exact Hs. ring.
    + assert (E2 : nc L = 2%nat \/ nc L = 3%nat) by lia. set (q := sqrt (1 - nth k l 0 * nth k l 0)) in *.
      destruct E2 as [E2|E2]; rewrite E2; cbn [Nat.ltb Nat.leb]; unfold Rdiv;
        transitivity (2 * PI * / lam * (ent L i 0%nat * (q * / q) - ent L i 1%nat * (nth k l 0 * / q))); [rewrite Rinv_r by exact Hs; ring|ring|rewrite Rinv_r by exact Hs; ring|ring].
  - assert (LL : List.length (if String.eqb u "deg" then map deg2rad l else l) = List.length l) by (destruct (String.eqb u "deg"); rewrite ?map_length; reflexivity).
    assert (L0 : forall k, (k < List.length l)%nat -> nth k (if String.eqb u "deg" then map deg2rad l else l) 0 = to_rad u (nth k l 0)).
    { intros k Hk. unfold known_unit in K. destruct K as [->|[->| ->]]; [reflexivity| |congruence]. simpl. now rewrite nth_map_R. }
    assert (US : forall x, unit_step u x = if String.eqb u "deg" then PI / 180 else 1).
    { intros x. unfold unit_step. destruct (String.eqb u "deg"); [reflexivity|]. destruct (String.eqb_spec u "sin"); [congruence|reflexivity]. }
    set (locs := if String.eqb u "deg" then map deg2rad l else l) in *. clearbody locs.
    destruct (Nat.eqb_spec (nc L) 1) as [E|E]; injection H as _ <-; eexists; (split; [reflexivity|]); (split; [exact n1|]); (split; [exact n2|]);
      (split; [destruct (String.eqb u "deg"); reflexivity|]); intros i k Hi Hk; cbv zeta; (split; [apply HT'; assumption|]); rewrite US.
    + assert (C1 : coord L i 1 = 0) by (unfold coord; rewrite E; reflexivity).
      assert (C0 : coord L i 0 = ent L i 0%nat) by (unfold coord; rewrite E; reflexivity). rewrite C0, C1, <- (L0 k Hk).
      destruct (String.eqb u "deg"); cbn [ent M_sources.rscal mmap outer_col]; rewrite (nth_map_R cos) by (now rewrite LL); ring.
    + assert (C0 : coord L i 0 = ent L i 0%nat) by (unfold coord; destruct (Nat.ltb_spec 0 (nc L)); [reflexivity|lia]).
      assert (C1 : coord L i 1 = ent L i 1%nat) by (unfold coord; destruct (Nat.ltb_spec 1 (nc L)); [reflexivity|lia]).
      rewrite C0, C1, <- (L0 k Hk).
      destruct (String.eqb u "deg"); cbn [ent M_sources.rscal mmap outer_col rsub]; rewrite (nth_map_R cos), (nth_map_R sin) by (now rewrite LL); ring.
Qed.

(** errors that do not move the sensors determine the matrix applied to the ideal response *)
Definition not_moving (p : pert) : bool := match p with LocErr _ _ => false | _ => true end.
Lemma perturbed_filter ps : forall m (Bm Bm' : cmat), nr Bm = m -> Bm ==m Bm' ->
  (forall p, In p ps -> nr (pert_matrix m p) = m /\ nc (pert_matrix m p) = m) ->
  fold_left (fun X p => pert_matrix m p *m X) ps Bm ==m fold_left (fun X p => pert_matrix m p *m X) (filter not_moving ps) Bm'.
Proof.
  induction ps as [|p ps IH]; intros m X X' n E H; [exact E|].
  assert (Hp := H p (or_introl eq_refl)). assert (Hps : forall q, In q ps -> nr (pert_matrix m q) = m /\ nc (pert_matrix m q) = m) by (intros q Hq; apply H; now right).
  cbn [fold_left filter]. destruct (not_moving p) eqn:M.
  - cbn [fold_left]. apply IH; [cbn; apply Hp| |exact Hps]. apply mmul_eq_r; [rewrite n; apply Hp|exact E].
  - destruct p; try discriminate. cbn [pert_matrix] in *. apply IH; [cbn; reflexivity| |exact Hps].
    transitivity X; [apply mmul_id_l; symmetry; exact n|exact E].
Qed.

Lemma perm_bij idx k : Permutation idx (seq 0 k) -> exists rho, bij k (fun j => nth j idx 0%nat) rho.
Proof.
  intros P. pose proof (Permutation_length P) as Ln. rewrite seq_length in Ln.
  assert (ND : NoDup idx) by (apply (Permutation_NoDup (Permutation_sym P)), seq_NoDup).
  assert (G : forall v, exists j, (v < k)%nat -> (j < k)%nat /\ nth j idx 0%nat = v).
  { intros v. destruct (Nat.lt_ge_cases v k) as [Hv|Hv].
    - assert (Iv : In v idx) by (apply (Permutation_in _ (Permutation_sym P)), in_seq; lia).
      destruct (In_nth idx v 0%nat Iv) as (j & Hj & E). exists j. intros _. split; [lia|exact E].
    - exists 0%nat. intros; lia. }
  assert (Ch : exists rho, forall v, (v < k)%nat -> (rho v < k)%nat /\ nth (rho v) idx 0%nat = v).
  { exists (fun v => match find (fun j => Nat.eqb (nth j idx 0%nat) v) (seq 0 k) with Some j => j | None => 0%nat end).
    intros v Hv. destruct (G v) as (j & Hj). destruct (Hj Hv) as (Hj1 & Hj2).
    destruct (find _ _) eqn:F.
    - apply find_some in F as (F1 & F2). apply in_seq in F1. apply Nat.eqb_eq in F2. split; [lia|exact F2].
    - exfalso. pose proof (find_none _ _ F j ltac:(apply in_seq; lia)) as F1. cbn in F1. apply Nat.eqb_neq in F1. contradiction. }
  destruct Ch as (rho & Hr). exists rho. split.
  - intros j Hj. assert (Iv : In (nth j idx 0%nat) (seq 0 k)) by (apply (Permutation_in _ P), nth_In; lia). apply in_seq in Iv. lia.
  - intros j Hj. apply Hr, Hj.
  - intros j Hj. assert (Iv : In (nth j idx 0%nat) (seq 0 k)) by (apply (Permutation_in _ P), nth_In; lia). apply in_seq in Iv.
    destruct (Hr (nth j idx 0%nat) ltac:(lia)) as (R1 & R2). apply (proj1 (NoDup_nth idx 0%nat) ND); [lia|lia|exact R2].
  - intros j Hj. apply Hr, Hj.
Qed.

Lemma meq_tr (X Y Z : cmat) : X ==m Y -> Y ==m Z -> X ==m Z.
Proof. intros E F. rewrite E. exact F. Qed.
Lemma moved_nr ps l l' : moved ps l l' -> nr l' = nr l. Proof. apply mv_rows. Qed.

Definition scene_t (l' : list R) (u' : string) (lam' vx vy : R) (j : nat) : C :=
  (Ci * RtoC (2 * PI / lam' * (vx * cos (to_rad u' (nth j l' 0)) - vy * sin (to_rad u' (nth j l' 0))) * unit_step u' (nth j l' 0)))%C.
Definition scene_s (l : list R) u (l' : list R) u' (idx : list nat) (j : nat) : R :=
  unit_step u' (nth j l' 0) / unit_step u (nth (nth j idx 0%nat) l 0).

Lemma scene_sim a l u lam a' l' u' lam' idx vx vy A D A' D' :
  same_scene a l u lam a' l' u' lam' idx vx vy -> wf_array a -> wf_array a' ->
  steering_matrix a (FF1 l u) lam true "all" false = Ok (Flat A, [D]) ->
  steering_matrix a' (FF1 l' u') lam' true "all" false = Ok (Flat A', [D']) ->
  nr A' = nr A /\
  forall i j, (i < nr A)%nat -> (j < List.length l)%nat ->
    let cj := cis (shift_phase l' u' lam' vx vy j) in
    ent A' i j = (cj * ent A i (nth j idx 0%nat))%C /\
    ent D' i j = (cj * (RtoC (scene_s l u l' u' idx j) * ent D i (nth j idx 0%nat) + scene_t l' u' lam' vx vy j * ent A i (nth j idx 0%nat)))%C.
Proof.
  intros S W W' H H'.
  pose proof (steering_nonzero _ _ _ _ _ _ _ H) as Hlam. pose proof (steering_nonzero _ _ _ _ _ _ _ H') as Hlam'.
  destruct (steering_shape a l u lam "all" A D W H) as (nA & cA & nD & cD).
  destruct (steering_shape a' l' u' lam' "all" A' D' W' H') as (nA' & cA' & nD' & cD').
  destruct (steering_scalar_inv a _ lam true "all" false _ _ W (steering_der_iso _ _ _ _ _ _ H) H) as (ps & L & T & DT & A0 & Eps & EL & Mv & Ph & nT & Sq & EA0 & EA & ED).
  destruct (steering_scalar_inv a' _ lam' true "all" false _ _ W' (steering_der_iso _ _ _ _ _ _ H') H') as (ps' & L' & T' & DT' & A0' & Eps' & EL' & Mv' & Ph' & nT' & Sq' & EA0' & EA' & ED').
  injection EA0 as <-. injection EA0' as <-.
  destruct S as [(V & V') (I & I') (Pm & Ln) Sz Er (L1 & L1' & al & be & G1 & G1' & Ha & HL & HC & HS)].
  cbn in Eps, Eps'. injection Eps as <-. injection Eps' as <-.
  unfold actual_element_locations in G1, G1'. rewrite EL in G1. injection G1 as <-. rewrite EL' in G1'. injection G1' as <-.
  destruct (FF1_phases l u (la_m L) lam T DT V I Ph) as (DD & -> & _ & nc1 & _ & F).
  destruct (FF1_phases l' u' (la_m L') lam' T' DT' V' I' Ph') as (DD' & -> & _ & nc1' & _ & F').
  pose proof (mv_rows _ _ _ Mv) as mr. pose proof (mv_rows _ _ _ Mv') as mr'. change (nr (la_m (ar_loc a))) with (ar_size a) in mr. change (nr (la_m (ar_loc a'))) with (ar_size a') in mr'.
  inversion ED as [|? ? ? ? ED1 _]; subst. inversion ED' as [|? ? ? ? ED1' _]; subst. clear ED ED'.
  split; [congruence|].
  (* the common matrix *)
  set (m := ar_size a) in *.
  set (qs := response_errors a) in *.
  set (M := perturbed qs (mid m)).
  assert (Hq : forall q, In q qs -> nr (pert_matrix m q) = m /\ nc (pert_matrix m q) = m).
  { intros q Iq. unfold qs, response_errors in Iq. apply filter_In in Iq as (Iq & _). apply Sq, Iq. }
  assert (LM : forall X : cmat, nr X = m -> perturbed (perturbations a) X ==m M *m X).
  { intros X nX. unfold perturbed at 1. rewrite nX.
    rewrite (perturbed_filter (perturbations a) m X X nX ltac:(reflexivity) Sq).
    destruct (perturbed_linear qs X) as (E1 & _). { intros p Ip. rewrite nX. split; apply Hq, Ip. }
    unfold perturbed in E1 at 1. rewrite nX in E1. exact E1. }
  assert (LM' : forall X : cmat, nr X = m -> perturbed (perturbations a') X ==m M *m X).
  { intros X nX. unfold perturbed at 1. rewrite nX.
    assert (Sq2 : forall p, In p (perturbations a') -> nr (pert_matrix m p) = m /\ nc (pert_matrix m p) = m) by (intros p Ip; rewrite <- Sz; apply Sq', Ip).
    rewrite (perturbed_filter (perturbations a') m X X nX ltac:(reflexivity) Sq2).
    change (filter not_moving (perturbations a')) with (response_errors a'). rewrite Er.
    destruct (perturbed_linear qs X) as (E1 & _). { intros p Ip. rewrite nX. split; apply Hq, Ip. }
    unfold perturbed in E1 at 1. rewrite nX in E1. exact E1. }
  assert (nM : nc M = m) by (unfold M; destruct (perturbed_linear qs (mid m)) as (_ & _ & N); [cbn; intros p Ip; split; apply Hq, Ip|exact N]).
  assert (nT1 : nr T = m) by congruence. assert (nT1' : nr T' = m) by congruence.
  destruct (perm_bij idx _ Pm) as (rho & Bj).
  assert (Ph0 : forall r j, (r < m)%nat -> (j < List.length l)%nat ->
    ent T' r j = ent T r (nth j idx 0%nat) + shift_phase l' u' (al * lam) vx vy j /\
    ent DD' r j = scene_s l u l' u' idx j * ent DD r (nth j idx 0%nat)
      + 2 * PI / (al * lam) * (vx * cos (to_rad u' (nth j l' 0)) - vy * sin (to_rad u' (nth j l' 0))) * unit_step u' (nth j l' 0)).
  { intros r j Hr Hj. pose proof (bj_pi _ _ _ Bj j Hj) as Hpi. cbn beta in Hpi.
    destruct (F r (nth j idx 0%nat) ltac:(rewrite mr; exact Hr) Hpi) as (F1 & F2).
    destruct (F' r j ltac:(rewrite mr', Sz; exact Hr) ltac:(rewrite Ln; exact Hj)) as (F1' & F2').
    destruct (HC r Hr) as (C0 & C1).
    assert (Un : unit_step u (nth (nth j idx 0%nat) l 0) <> 0) by (apply (unit_step_nz u l); [exact I|apply nth_In, Hpi]).
    rewrite F1, F1', F2, F2', C0, C1. unfold shift_phase, scene_s. rewrite !(HS j Hj), sin_plus, cos_plus.
    set (th := to_rad u (nth (nth j idx 0%nat) l 0)) in *.
    assert (SC : sin be * sin be + cos be * cos be = 1) by (pose proof (sin2_cos2 be) as Q; unfold Rsqr in Q; exact Q).
    set (x := coord (la_m L) r 0) in *. set (y := coord (la_m L) r 1) in *.
    set (sb := sin be) in *. set (cb := cos be) in *. set (st := sin th) in *. set (ct := cos th) in *.
    assert (K : 2 * PI / (al * lam) * al = 2 * PI / lam) by (field; split; assumption).
    split.
    - transitivity (2 * PI / (al * lam) * al * ((x * st + y * ct) * (sb * sb + cb * cb)) + 2 * PI / (al * lam) * (vx * (st * cb + ct * sb) + vy * (ct * cb - st * sb))).
      + ring.
      + rewrite K, SC. ring.
    - set (w := unit_step u (nth (nth j idx 0%nat) l 0)) in *. set (w' := unit_step u' (nth j l' 0)) in *.
      transitivity (2 * PI / (al * lam) * al * ((x * ct - y * st) * (sb * sb + cb * cb)) * w' + 2 * PI / (al * lam) * (vx * (ct * cb - st * sb) - vy * (st * cb + ct * sb)) * w').
      + ring.
      + rewrite K, SC. field. repeat split; assumption. }
  intros i j Hi Hj. cbv zeta. pose proof (bj_pi _ _ _ Bj j Hj) as Hpi. cbn beta in Hpi. rewrite nA in Hi.
  assert (ZA : forall r, (r < m)%nat -> cis (ent T' r j) = (cis (shift_phase l' u' (al * lam) vx vy j) * cis (ent T r (nth j idx 0%nat)))%C).
  { intros r Hr. rewrite (proj1 (Ph0 r j Hr Hj)), cis_plus. ring. }
  assert (ZA1 : ent A i (nth j idx 0%nat) = csum m (fun r => ent M i r * cis (ent T r (nth j idx 0%nat)))%C).
  { pose proof (LM (mmap cis T) nT1) as E1.
    rewrite (meq_ent _ _ i (nth j idx 0%nat) (meq_tr _ _ _ EA E1)) by (rewrite ?nA, ?cA; assumption).
    cbn [ent mmul mmap]. rewrite nM. reflexivity. }
  assert (ZD1 : ent D i (nth j idx 0%nat) = csum m (fun r => ent M i r * (cis (ent T r (nth j idx 0%nat)) * (Ci * RtoC (ent DD r (nth j idx 0%nat)))))%C).
  { pose proof (LM (deriv0 (mmap cis T) DD) nT1) as E1.
    rewrite (meq_ent _ _ i (nth j idx 0%nat) (meq_tr _ _ _ ED1 E1)) by (rewrite ?nD, ?cD; assumption).
    cbn [ent mmul mmap deriv0]. rewrite nM. reflexivity. }
  assert (nA2 : nr A' = m) by congruence. assert (nD2 : nr D' = m) by congruence.
  split.
  - pose proof (LM' (mmap cis T') nT1') as E1.
    rewrite (meq_ent _ _ i j (meq_tr _ _ _ EA' E1)) by (rewrite ?nA2, ?cA', ?Ln; assumption).
    cbn [ent mmul mmap]. rewrite nM, ZA1, <- csum_scal. apply csum_ext. intros r Hr. rewrite (ZA r Hr). ring.
  - pose proof (LM' (deriv0 (mmap cis T') DD') nT1') as E1.
    rewrite (meq_ent _ _ i j (meq_tr _ _ _ ED1' E1)) by (rewrite ?nD2, ?cD', ?Ln; assumption).
    cbn [ent mmul mmap deriv0]. rewrite nM, ZA1, ZD1. rewrite <- !csum_scal, <- csum_plus, <- csum_scal. apply csum_ext. intros r Hr.
    rewrite (ZA r Hr), (proj2 (Ph0 r j Hr Hj)). unfold scene_t. rewrite RtoC_plus, RtoC_mult. ring.
Qed.

(** the steering matrix with derivatives exists for every set of far-field 1D sources or for none *)
Lemma steering_any a l u l' u' lam sel A D : steering_matrix a (FF1 l u) lam true sel false = Ok (Flat A, [D]) ->
  exists A' D', steering_matrix a (FF1 l' u') lam true sel false = Ok (Flat A', [D']).
Proof.
  intros H. pose proof (steering_der_iso _ _ _ _ _ _ H) as Iso. unfold steering_matrix in H |- *. apply bind_Ok_inv in H as (ps & Hs & H). rewrite (scalar_iso_req a Iso) in H |- *. cbn [andb] in H |- *.
  apply bind_Ok_inv in H as (L & HL & H). apply bind_Ok_inv in H as ((T0, DT0) & HT & H). cbn [bind] in H.
  apply bind_Ok_inv in H as ((A2, DA2) & HP & _). rewrite Hs. cbn [bind]. rewrite HL. cbn [bind].
  pose proof (phase_cols _ _ _ _ _ _ HT) as Hd. pose proof (phase_delay_nonzero _ _ _ _ _ HT) as Hn.
  assert (N0 : exists X, DT0 = [X] /\ nr T0 = nr (la_m L)).
  { unfold phase_delay_matrix in HT. destruct (_ || _)%bool; [discriminate|]. destruct (Reqb lam 0); [discriminate|].
    unfold phase_delay_sin, phase_delay_rad in HT. destruct (String.eqb u "sin"), (Nat.eqb (nc (la_m L)) 1); injection HT as <- <-; eexists; (split; [reflexivity|reflexivity]). }
  assert (N1 : exists T1 X1, phase_delay_matrix (FF1 l' u') (la_m L) lam true = Ok (T1, [X1]) /\ nr T1 = nr (la_m L)).
  { unfold phase_delay_matrix. destruct (Nat.ltb_spec (nc (la_m L)) 1); [lia|]. destruct (Nat.ltb_spec 3 (nc (la_m L))); [lia|]. cbn [orb]. rewrite (Reqb_neq lam 0 Hn).
    unfold phase_delay_sin, phase_delay_rad. destruct (String.eqb u' "sin"), (Nat.eqb (nc (la_m L)) 1); eexists _, _; (split; [reflexivity|reflexivity]). }
  destruct N0 as (X & -> & n0). destruct N1 as (T1 & X1 & E1 & n1). rewrite E1. cbn [bind map] in HP |- *.
  destruct (perturb_steering_total ps _ _ (mmap cis T1) (deriv0 (mmap cis T1) X1) _ _ HP) as (Bq & Eq & Q); [cbn; congruence|cbn; congruence|].
  unfold deriv0 in Q. rewrite Q. cbn [bind]. eexists _, _. reflexivity.
Qed.

Lemma off_interior u l : valid_sources (FF1 l u) -> off_endfire u l -> interior u l.
Proof.
  intros (K & V) H E x Hx. subst u. specialize (H x Hx). unfold to_rad in H. cbn in H.
  assert (B : -1 <= x <= 1). { rewrite Forall_forall in V. destruct (V x Hx) as [(?&_)|[(?&_)|(_&?)]]; try discriminate. assumption. }
  split.
  - destruct (Rle_lt_or_eq_dec (-1) x (proj1 B)) as [L|L]; [exact L|]. exfalso. subst x. replace (-1) with (- (1)) in H by ring. rewrite asin_opp, asin_1 in H. lra.
  - destruct (Rle_lt_or_eq_dec x 1 (proj2 B)) as [L|L]; [exact L|]. exfalso. subst x. rewrite asin_1 in H. lra.
Qed.
Lemma scene_locations a l u lam sel A D : sel = "all"%string -> steering_matrix a (FF1 l u) lam true sel false = Ok (Flat A, [D]) ->
  exists L, actual_element_locations a = Ok L.
Proof.
  intros -> H. unfold steering_matrix in H. apply bind_Ok_inv in H as (ps & Hs & H). cbn in Hs. injection Hs as <-.
  destruct (_ && _)%bool; [discriminate|]. apply bind_Ok_inv in H as (L & HL & _). exists L. exact HL.
Qed.
Lemma scene_same_array a l u l' u' lam idx A D : steering_matrix a (FF1 l u) lam true "all" false = Ok (Flat A, [D]) ->
  valid_sources (FF1 l u) -> valid_sources (FF1 l' u') -> off_endfire u l -> Permutation idx (seq 0 (List.length l)) -> List.length l' = List.length l ->
  (forall j, (j < List.length l)%nat -> to_rad u' (nth j l' 0) = to_rad u (nth (nth j idx 0%nat) l 0)) ->
  same_scene a l u lam a l' u' lam idx 0 0.
Proof.
  intros H V V' O Pm Ln HS. destruct (scene_locations a l u lam "all" A D eq_refl H) as (L & HL). destruct (perm_bij idx _ Pm) as (rho & B). split.
  - split; assumption.
  - split; [apply off_interior; assumption|]. apply off_interior; [exact V'|]. intros x Hx. apply (In_nth l' x 0) in Hx as (j & Hj & <-). rewrite Ln in Hj. rewrite (HS j Hj). apply O, nth_In. apply (bj_pi _ _ _ B j Hj).
  - split; assumption.
  - reflexivity.
  - reflexivity.
  - exists L, L, 1, 0. split; [exact HL|]. split; [exact HL|]. split; [lra|]. split; [ring|]. split.
    + intros i Hi. rewrite cos_0, sin_0. split; ring.
    + intros j Hj. rewrite (HS j Hj). ring.
Qed.
Lemma scene_units a l u v lam A D : steering_matrix a (FF1 l u) lam true "all" false = Ok (Flat A, [D]) ->
  valid_sources (FF1 l u) -> known_unit v -> off_endfire u l ->
  exists l', as_unit (FF1 l u) v = Ok (FF1 l' v) /\ same_scene a l u lam a l' v lam (seq 0 (List.length l)) 0 0.
Proof.
  intros H V K O. destruct (P_sources2.as_unit_ok (FF1 l u) v V K) as (E & V' & _). cbn [P_sources2.convert_src] in E, V'. eexists. split; [exact E|].
  apply (scene_same_array a l u _ v lam _ A D H V V' O (Permutation_refl _)); [apply map_length|]. intros j Hj. rewrite seq_nth by exact Hj. cbn [Nat.add].
  rewrite (nth_indep _ 0 (of_rad v (to_rad u 0))) by (rewrite map_length; exact Hj). rewrite (map_nth (fun x => of_rad v (to_rad u x))). apply to_of_rad; [exact K|]. pose proof (O _ (nth_In l 0 Hj)). lra.
Qed.
Lemma scene_order a l u lam idx A D : steering_matrix a (FF1 l u) lam true "all" false = Ok (Flat A, [D]) ->
  valid_sources (FF1 l u) -> off_endfire u l -> Permutation idx (seq 0 (List.length l)) ->
  exists l', select_sources (FF1 l u) idx = FF1 l' u /\ same_scene a l u lam a l' u lam idx 0 0.
Proof.
  intros H V O Pm. pose proof (Permutation_length Pm) as Ln. rewrite seq_length in Ln. eexists. split; [reflexivity|].
  apply (scene_same_array a l u _ u lam _ A D H V); try assumption.
  - destruct V as (K & V). split; [exact K|]. apply Forall_forall. intros y Hy. apply in_map_iff in Hy as (i & <- & Hi). rewrite Forall_forall in V. apply V, nth_In.
    apply (Permutation_in _ Pm), in_seq in Hi. lia.
  - rewrite map_length. exact Ln.
  - intros j Hj. rewrite (nth_indep _ 0 (nth 0%nat l 0)) by (rewrite map_length; lia). rewrite (map_nth (fun i => nth i l 0)). reflexivity.
Qed.
