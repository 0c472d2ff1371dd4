(** From the objective at points of the unit circle to the estimates on a uniform linear array. *)
From Coq Require Import Lra Sorting.Permutation Sorting.Sorted.
From Verif Require Import Base_Np Base_Trig Base_Lin M_utils M_sources S_sources P_sources P_sources3 M_array S_array P_array P_array2 P_array3 M_designs S_designs P_designs M_coarray S_coarray P_coarray P_coarray2 P_model M_heap M_grid M_core M_ml S_utils S_subspace S_stable S_ml S_invar3 P_utils P_subspace P_subspace2 P_subspace3 P_spectral P_perf3
  P_ml P_ml2 P_ml3 P_ml4 P_ml6 Prop_ml P_oracles P_stable P_stable2 P_stable3 P_cont4 P_cont6 M_srcnum M_pipeline P_pipeline Prop_pipeline Prop_pipeline2 Prop_invar3 S_cont S_mlc P_mlc P_mlc2 P_mlc3 P_mlc4 P_mlc5.
Open Scope nat_scope.

Section Ula.
  Variables (n : nat) (d : R) (name : option string) (g : gdesign) (lam : R) (doas : list R) (u : string).
  Hypothesis Eg : mk_ULA (Z.of_nat n) (D0Scalar d) name no_kwargs = Ok g.
  Hypothesis K : known_unit u.
  Hypothesis V : Forall (valid_angle u) doas.
  Hypothesis Hl : (0 < lam)%R.
  Hypothesis Hk : 1 <= List.length doas < n.

  Lemma ula_obj env M (Rm : cmat) st l (g0 : pval) : ml_array env = gd_array g -> ml_lam env = lam -> ml_routines env -> hermitian Rm -> nr Rm = n ->
    Forall (valid_angle u) l -> List.length l = List.length doas -> pv_pl g0 = pv_pl (value_of (FF1 l u) DFloat) -> List.length (pv_rows g0) = List.length l -> prepare_M env st Rm (List.length doas) = Ok M ->
    ar_size (ml_array env) = n /\ exists A v, A ==m ula_matrix n (map (zof d lam u) l) /\ nll env M A Rm (List.length doas) = Ok v /\ objective_at env M Rm g0 (src_rows (FF1 l u)) = Ok v.
  Proof.
    intros Ea El HE HH R1 VL LL PG LG HM. destruct (ULA_facts _ _ _ _ Eg) as (PL & Pe & I & DT & _).
    assert (W : wf_array (gd_array g)) by (destruct (gd_array g) as [lo nm el pe]; cbn in Pe; subst pe; apply wf_empty).
    assert (Sz : ar_size (gd_array g) = n) by (rewrite (pl_size _ _ _ PL), ULA_indices_length; lia).
    destruct (steering_defined (gd_array g) (FF1 l u) lam "all" [] true ltac:(lra) I DT) as (A & HA); [rewrite (pl_ndim _ _ _ PL); lia|lia|unfold select_perturbations, perturbations; now rewrite Pe|intros ? []|].
    pose proof (ula_steering g n d u l lam PL Pe I (conj K VL) A HA) as EA. rewrite <- (steering_known _ _ _ Pe) in HA. split; [congruence|].
    destruct (C97_source_order env n (FF1 l u) Rm st M (seq 0 (List.length l)) (Flat A) []) as (v & HV & _); try assumption; try congruence.
    - cbn [src_size]. lia.
    - cbn [src_size]. now rewrite LL.
    - reflexivity.
    - exists A, v. split; [exact EA|].
      assert (OB : objective_at env M Rm g0 (src_rows (FF1 l u)) = objective_at env M Rm (value_of (FF1 l u) DFloat) (src_rows (FF1 l u))) by (unfold objective_at; now rewrite PG, LG, value_len).
      split; [|now rewrite OB]. unfold objective_at in HV. rewrite value_sources, value_len in HV. cbn [bind src_size] in HV. rewrite Ea, El, HA in HV. cbn [bind] in HV. now rewrite LL in HV.
  Qed.
  Lemma ula_bounds l : List.length l = List.length doas -> Forall (valid_angle u) l ->
    exists bounds, opt_bounds (pv_pl (value_of (FF1 l u) DFloat)) (src_rows (FF1 l u)) = Ok bounds /\ in_box bounds doas.
  Proof.
    intros LL VL. destruct (C66_variables (FF1 doas u) DFloat (conj K V)) as (vr & bounds & E1 & EB & L0 & LB & H). cbn zeta in H, L0, LB. exists bounds. split.
    - rewrite <- EB. unfold opt_bounds. rewrite !value_sources. cbn [bind]. replace (valid_ranges (FF1 l u)) with (valid_ranges (FF1 doas u)) by reflexivity. destruct (valid_ranges (FF1 doas u)); [|reflexivity]. cbn [bind src_rows]. now rewrite !map_length, LL.
    - assert (LV : List.length vr = 1). { clear - E1 K. destruct K as [->|[->| ->]]; cbn in E1; injection E1 as <-; reflexivity. }
      rewrite LV, Nat.mul_1_r in LB. cbn [src_size] in *. split; [congruence|]. intros q Hq. destruct (H q 0 Hq ltac:(lia)) as (_ & _ & W). rewrite LV, Nat.mul_1_r, Nat.add_0_r in W.
      replace (opt_x0 (src_rows (FF1 doas u))) with doas in W; [exact W|]. unfold opt_x0. cbn [src_rows]. clear. induction doas as [|a l IH]; [reflexivity|]. cbn. now rewrite <- IH.
  Qed.
  Lemma place_doas (g0 : pval) : pv_class g0 = "FarField1DSourcePlacement"%string -> pv_dt g0 = DFloat -> List.length (pv_rows g0) = List.length doas -> place_at g0 doas = Ok (src_rows (FF1 doas u)).
  Proof.
    intros Ec Ed EL. unfold place_at, dim_of. rewrite Ec, Ed, EL. cbn [String.eqb Ascii.eqb Bool.eqb]. rewrite Nat.mul_1_r, Nat.ltb_irrefl. f_equal. unfold point_rows. cbn [seq map src_rows].
    apply nth_ext with (d := []) (d' := []); [now rewrite !map_length, seq_length|]. intros i Hi. rewrite map_length, seq_length in Hi. rewrite nth_map_seq by exact Hi. rewrite Nat.mul_1_r, Nat.add_0_r.
    change (@nil R) with ((fun x => [x]) 0%R) at 1 || idtac. rewrite (nth_indep _ [] [0%R]) by (rewrite map_length; exact Hi). change [0%R] with ((fun x : R => [x]) 0%R). now rewrite map_nth.
  Qed.

  (** the estimates of an optimiser that finds minima are, up to eps, as good as the true directions *)
  Lemma ml_best eps env mini st guess (Rm' : cmat) : ml_array env = gd_array g -> ml_lam env = lam -> ml_routines env ->
    hermitian Rm' -> nr Rm' = n -> Forall (valid_angle u) guess -> List.length guess = List.length doas ->
    finds_minimum eps env mini (MlSt None (vs_M st)) Rm' (value_of (FF1 guess u) DFloat) ->
    forall b r st', v_estimate env mini st Rm' (value_of (FF1 guess u) DFloat) = (Ok (b, Some r), st') ->
    b = true /\ exists l, r = value_of (FF1 l u) DFloat /\ Forall (valid_angle u) l /\ List.length l = List.length doas /\ ar_size (ml_array env) = n /\
      exists M A A' v v', prepare_M env (MlSt None (vs_M st)) Rm' (List.length doas) = Ok M /\ A ==m ula_matrix n (map (zof d lam u) doas) /\ A' ==m ula_matrix n (map (zof d lam u) l) /\
        nll env M A Rm' (List.length doas) = Ok v /\ nll env M A' Rm' (List.length doas) = Ok v' /\ as_good eps v' v.
  Proof.
    intros Ea El HE HH R1 VG LG FM b r st' HV. set (g0 := value_of (FF1 guess u) DFloat) in *.
    destruct (C65_resolved _ _ _ _ _ _ _ _ HV) as (-> & _ & rc & ru & rd & rl & M & bounds & x & last & HM & HB & HO & HP). split; [reflexivity|].
    destruct (FM M bounds x last HM HB HO) as ((BX1 & BX2) & MIN). assert (LG0 : List.length (pv_rows g0) = List.length doas) by (unfold g0; rewrite value_len; exact LG).
    destruct (C66_result_valid (FF1 guess u) x bounds (conj K VG)) as (rows & s' & PX & EV & VS & SS); [exact HB|exact BX1|exact BX2|]. fold g0 in PX, EV. rewrite HP in PX. injection PX as <-.
    assert (X : exists l, s' = FF1 l u). { destruct s' as [l u'|l u'|l]; try (cbn in EV; discriminate EV). exists l. cbn in EV. injection EV as Eu _. now rewrite Eu. }
    destruct X as (l & ->). exists l. assert (ER : r = value_of (FF1 l u) DFloat). { rewrite EV. destruct r. cbn in *. subst. reflexivity. }
    split; [exact ER|]. split; [apply VS|]. cbn [src_size] in SS. assert (LL : List.length l = List.length doas) by congruence. split; [exact LL|]. rewrite LG0 in HM.
    destruct (ula_obj env M Rm' _ l g0 Ea El HE HH R1 (proj2 VS) LL eq_refl ltac:(congruence) HM) as (Sz & A' & v' & EA' & N' & O'). split; [exact Sz|].
    destruct (ula_obj env M Rm' _ doas g0 Ea El HE HH R1 V eq_refl eq_refl LG0 HM) as (_ & A & v & EA & N & O).
    destruct (ula_bounds guess LG VG) as (bounds' & EB' & IB). unfold g0 in HB. rewrite value_rows in HB. rewrite HB in EB'. injection EB' as <-.
    assert (PR : pv_rows r = src_rows (FF1 l u)) by (rewrite ER; apply value_rows). rewrite PR in HP.
    pose proof (MIN doas _ _ _ _ IB HP (place_doas g0 eq_refl eq_refl LG0) O' O) as AG. exists M, A, A', v, v'. auto 10.
  Qed.
  Lemma ml_lift kind (Rm : cmat) tol : (0 < d)%R -> (2 * d <= lam)%R -> in_view d 1 lam u doas -> (0 < tol)%R -> zconv kind n (map (zof d lam u) doas) Rm ->
    exists eps, (0 < eps)%R /\ forall env mini st guess (Rm' : cmat), ml_kind env = kind -> ml_array env = gd_array g -> ml_lam env = lam -> ml_routines env ->
      hermitian Rm' -> nr Rm' = n -> (distance Rm Rm' < eps)%R -> Forall (valid_angle u) guess -> List.length guess = List.length doas ->
      finds_minimum eps env mini (MlSt None (vs_M st)) Rm' (value_of (FF1 guess u) DFloat) ->
      forall b r st', v_estimate env mini st Rm' (value_of (FF1 guess u) DFloat) = (Ok (b, Some r), st') -> b = true /\ exists l, r = value_of (FF1 l u) DFloat /\ close_to tol doas l.
  Proof.
    intros Hd H2 IV Ht ZC. destruct (directions_close d lam u doas tol Hd Hl H2 V IV Ht) as (e & He & HD). destruct (ZC e He) as (eps & ep & HZ). rewrite map_length in HZ. exists eps. split; [exact ep|].
    intros env mini st guess Rm' Ek Ea El HE HH R1 DS VG LG FM b r st' HV. destruct (ml_best eps env mini st guess Rm' Ea El HE HH R1 VG LG FM b r st' HV) as (Eb & l & ER & VL & LL & Sz & M & A & A' & v & v' & HM & EA & EA' & N & N' & AG).
    split; [exact Eb|]. exists l. split; [exact ER|]. apply HD; [exact VL|].
    apply (HZ env (MlSt None (vs_M st)) M Rm' A A' (map (zof d lam u) l) v v' Ek Sz HE HH R1 DS); try assumption.
    - now rewrite map_length.
    - intros w Iw. apply in_map_iff in Iw as (a & <- & _). apply cis_mod.
  Qed.
End Ula.
