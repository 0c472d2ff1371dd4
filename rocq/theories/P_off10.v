(** Min-Norm on a uniform linear array with sources between the grid points. *)
From Coq Require Import Lra Lia Sorted Permutation.
From Coquelicot Require Import Complex.
From Verif Require Import Base_Np Base_Trig Base_Lin S_model M_utils S_utils P_utils M_sources S_sources P_sources M_array S_array P_array P_array2 P_array3 M_designs S_designs P_designs M_coarray S_coarray P_coarray P_coarray2 P_model
  M_grid S_grid P_grid M_core P_core P_core2 M_sparse M_subspace S_subspace P_subspace P_subspace2 P_subspace5 M_pipeline S_pipeline Prop_subspace P_pipeline P_pipeline4 P_beam S_stable P_stable P_stable2 P_stable3 P_stable4 P_stable5 S_cont P_cont P_cont2 P_cont4 P_cont5 P_fta P_fta2 P_rootc P_rootc2 P_rootc3
  S_offgrid S_refine P_off1 P_off2 P_off3 P_off4 P_off5 P_off7 P_off8 P_off6 P_off9.
From Verif Require P_oracles P_signals P_minnorm P_spectral Prop_esprit.
Open Scope nat_scope.

(** *** the zeros of the Min-Norm polynomial on the unit circle are the sources, and they are simple *)
Lemma nodup_split (zs : list C) : forall rho, NoDup zs -> incl zs rho -> exists rest, Permutation rho (zs ++ rest).
Proof.
  induction zs as [|z zs IH]; intros rho ND IN; [exists rho; reflexivity|]. inversion ND as [|? ? N1 N2]; subst.
  destruct (in_split z rho (IN z (or_introl eq_refl))) as (r1 & r2 & ->). destruct (IH (r1 ++ r2) N2) as (rest & P).
  { intros y Iy. specialize (IN y (or_intror Iy)). apply in_app_or in IN as [I|[->|I]]; [apply in_or_app; now left|contradiction|apply in_or_app; now right]. }
  exists rest. cbn [app]. rewrite <- P. symmetry. apply Permutation_middle.
Qed.
Definition coefs (n : nat) (d : nat -> C) : list C := map d (seq 0 n).
Lemma coefs_pe n d z : pe (coefs n d) z = P_minnorm.poly n d z.
Proof.
  rewrite (pe_csum (coefs n d) z n) by (unfold coefs; now rewrite map_length, seq_length). unfold P_minnorm.poly. apply csum_ext. intros i Hi. f_equal. unfold coefs. now apply nth_map_seq.
Qed.
Section Zeros.
Variables (n : nat) (zs : list C) (d : nat -> C).
Hypotheses (Hn : 0 < n) (D0 : d 0 = RtoC 1) (ND : NoDup zs) (UZ : forall z, In z zs -> Cmod z = 1%R) (DZ : forall z, In z zs -> P_minnorm.poly n d z = RtoC 0)
  (DM : forall e, e 0 = RtoC 1 -> (forall z, In z zs -> P_minnorm.poly n e z = RtoC 0) -> (vnorm2 n d <= vnorm2 n e)%R).
Lemma min_norm_factor : exists a rest, a <> RtoC 0 /\ (forall z, P_minnorm.poly n d z = (a * (lin_prod zs z * lin_prod rest z))%C) /\ forall w, In w rest -> Cmod w <> 1%R.
Proof.
  set (c := coefs n d). assert (NZ : nonzero c).
  { exists 0. unfold c, coefs. rewrite (nth_map_seq d) by exact Hn. rewrite D0. intros E. injection E. lra. }
  destruct (factor c NZ) as (a & rho & Na & EQ).
  assert (RT : forall z, P_minnorm.poly n d z = RtoC 0 <-> In z rho).
  { intros z. rewrite <- coefs_pe. fold c. rewrite EQ. split; intros Q.
    - apply Cmult_0 in Q as [Q|Q]; [contradiction|]. now apply lin_prod_0.
    - apply lin_prod_0 in Q. rewrite Q. ring. }
  destruct (nodup_split zs rho ND) as (rest & PM). { intros z Iz. now apply RT, DZ. }
  exists a, rest. split; [exact Na|]. split.
  { intros z. rewrite <- coefs_pe. fold c. rewrite EQ, (lin_prod_perm _ _ z PM), lin_prod_app. reflexivity. }
  intros w Iw Uw. assert (Dw : P_minnorm.poly n d w = RtoC 0). { apply RT. apply (Permutation_in _ (Permutation_sym PM)). apply in_or_app. now right. }
  apply (P_minnorm.min_norm_split n zs d w Hn D0 DM Uw Dw). intros z Iz.
  destruct (in_split w rest Iw) as (r1 & r2 & ER). set (rho' := zs ++ r1 ++ r2).
  assert (PM' : Permutation rho (w :: rho')). { rewrite PM, ER. unfold rho'. rewrite !app_assoc. symmetry. apply Permutation_middle. }
  pose proof (deflate c a w rho' (fun x => eq_trans (EQ x) (f_equal (fun y => (a * y)%C) (lin_prod_perm _ _ x PM')))) as DF.
  assert (W1 : (Cconj w * w)%C = RtoC 1) by (rewrite Cconj_mult_norm2, <- Cmod_norm2, Uw; f_equal; ring). assert (Nw : Cconj w <> RtoC 0) by (intros E; rewrite E, Cmult_0_l in W1; injection W1; lra).
  set (q := P_minnorm.quot d (Cconj w)). set (t := coefs n (fun i => (- Cconj w * q i)%C)).
  assert (TP : forall x, pe t x = (- Cconj w * P_minnorm.poly n q x)%C). { intros x. unfold t. rewrite coefs_pe. unfold P_minnorm.poly. rewrite <- csum_scal. apply csum_ext. intros i Hi. ring. }
  assert (AG : forall x, pe t x = pe (P_fta2.quot c w) x).
  { apply (pe_agree t (P_fta2.quot c w) w). intros x Nx. apply (Ccancel (x - w)%C); [now apply Cdiff_0|].
    rewrite TP, DF. pose proof (EQ x) as E1. rewrite (lin_prod_perm _ _ x PM') in E1. cbn [lin_prod] in E1. unfold c in E1. rewrite coefs_pe in E1.
    assert (E2 : P_minnorm.poly n d x = ((RtoC 1 - Cconj w * x) * P_minnorm.poly n q x)%C). { destruct n as [|m]; [lia|]. now apply P_minnorm.quot_root. }
    rewrite E2 in E1. rewrite <- W1 in E1. transitivity ((Cconj w * w - Cconj w * x) * P_minnorm.poly n q x)%C; [ring|]. rewrite E1. ring. }
  specialize (AG z). rewrite TP, DF in AG. assert (Z : lin_prod rho' z = RtoC 0) by (apply lin_prod_0; unfold rho'; apply in_or_app; now left). rewrite Z in AG.
  assert (AG' : (Cconj w * P_minnorm.poly n q z)%C = RtoC 0). { replace (Cconj w * P_minnorm.poly n q z)%C with (- (- Cconj w * P_minnorm.poly n q z))%C by ring. rewrite AG. ring. }
  apply Cmult_0 in AG' as [Q|Q]; [contradiction|exact Q].
Qed.
Lemma min_norm_above : exists kap, (0 < kap)%R /\ forall z, Cmod z = 1%R -> (kap * (Cmod (lin_prod zs z) * Cmod (lin_prod zs z)) <= Cnorm2 (P_minnorm.poly n d z))%R.
Proof.
  destruct min_norm_factor as (a & rest & Na & EQ & RU).
  destruct (list_eps (fun w h => forall z, Cmod z = 1%R -> (h <= Cmod (z - w)%C)%R) rest) as (h & Hh & HW).
  { intros w e e' E1 E2 H z Hz. specialize (H z Hz). lra. }
  { intros w Iw. exists (Rabs (Cmod w - 1)). split; [apply Rabs_pos_lt; specialize (RU w Iw); lra|]. intros z Hz. pose proof (Cmod_sub_abs z w) as Q. rewrite Hz in Q. rewrite Rabs_minus_sym. exact Q. }
  pose proof (Cmod_gt_0 a) as (A0 & _). specialize (A0 Na). set (L := (h ^ List.length rest)%R). assert (L0 : (0 < L)%R) by (now apply pow_lt).
  exists (Cmod a * L * (Cmod a * L))%R. split; [repeat apply Rmult_lt_0_compat; assumption|]. intros z Hz. rewrite <- Cmod_norm2, EQ, !Cmod_mult.
  assert (LR : (L <= Cmod (lin_prod rest z))%R) by (apply lin_prod_lower; [lra|]; intros w Iw; now apply HW). set (r := Cmod (lin_prod rest z)) in *. set (p := Cmod (lin_prod zs z)). assert (P0 : (0 <= p)%R) by apply Cmod_ge_0.
  replace (Cmod a * L * (Cmod a * L) * (p * p))%R with (Cmod a * (p * L) * (Cmod a * (p * L)))%R by ring.
  assert (X : (Cmod a * (p * L) <= Cmod a * (p * r))%R) by (apply Rmult_le_compat_l; [lra|]; now apply Rmult_le_compat_l).
  assert (Y : (0 <= Cmod a * (p * L))%R) by (apply Rmult_le_pos; [lra|]; apply Rmult_le_pos; lra). now apply Rmult_le_compat.
Qed.
End Zeros.

(** *** the Min-Norm vector in terms of the noise projector *)
Lemma min_norm_form (En : cmat) n : nr En = n -> 0 < n -> ent (En *m mher En) 0 0 <> RtoC 0 ->
  exists d n2, min_norm_vector En = Ok (Some d) /\ (0 < n2)%R /\ forall i, i < n -> d i = (Cconj (ent (En *m mher En) i 0) * RtoC (/ n2))%C.
Proof.
  intros N1 Hn NQ. unfold min_norm_vector. rewrite N1. destruct (Nat.eqb_spec n 0); [lia|]. cbv zeta. set (n2 := rsum (nc En) (fun j => (Cmod (ent En 0 j) * Cmod (ent En 0 j))%R)).
  assert (Q0 : ent (En *m mher En) 0 0 = RtoC n2). { cbn [mmul mher ent]. unfold n2. rewrite <- csum_RtoC. apply csum_ext. intros j Hj. rewrite Cmod_norm2, <- Cconj_mult_norm2. ring. }
  assert (P0 : (0 <= n2)%R) by (apply rsum_nonneg; intros; apply Rmult_le_pos; apply Cmod_ge_0).
  destruct (Req_EM_T n2 0) as [Z|NZ]; [exfalso; apply NQ; now rewrite Q0, Z|]. cbn [bind]. eexists. exists n2. split; [reflexivity|]. split; [lra|]. intros i Hi. cbv beta.
  assert (E : mvec En (fun j => (Cconj (ent En 0 j) / RtoC n2)%C) i = (ent (En *m mher En) i 0 * RtoC (/ n2))%C).
  { cbn [mmul mher ent]. unfold mvec. rewrite <- csum_scal_r. apply csum_ext. intros j Hj. rewrite RtoC_inv by exact NZ. unfold Cdiv. ring. }
  rewrite E, Cmult_conj, Cconj_RtoC. reflexivity.
Qed.
Definition mn (n : nat) (Q : cmat) : cmat := Mat n n (fun i j => (ent Q i 0 * Cconj (ent Q j 0))%C).
Lemma cq_mn n Q x : cq n (mn n Q) x = Cnorm2 (csum n (fun i => (Cconj (ent Q i 0) * cpow (cis x) i)%C)).
Proof.
  rewrite cq_qform by reflexivity. set (t := csum n (fun i => (Cconj (ent Q i 0) * cpow (cis x) i)%C)). set (a := fun i => cpow (cis x) i).
  assert (E : qform (mn n Q) a = (Cconj t * t)%C).
  { unfold qform. cbn [mn nr nc ent]. transitivity (csum n (fun i => (Cconj (a i) * ent Q i 0) * t)%C).
    - apply csum_ext. intros i Hi. unfold t. rewrite <- csum_scal. apply csum_ext. intros j Hj. unfold a. ring.
    - rewrite csum_scal_r. f_equal. unfold t. rewrite csum_conj. apply csum_ext. intros i Hi. rewrite Cmult_conj, Cconj_conj. unfold a. ring. }
  rewrite E, Cconj_mult_norm2. reflexivity.
Qed.
Lemma mn_ranked n d lam u (En : cmat) dv : nr En = n -> 0 < n -> ent (En *m mher En) 0 0 <> RtoC 0 -> min_norm_vector En = Ok (Some dv) ->
  ranked n d lam u (fun A => let! l := f_min_norm n dv A in Ok (embed_inf l)) (cq n (mn n (En *m mher En))).
Proof.
  intros N1 Hn NQ Ed angles B V HB. pose proof HB as (b1 & b2 & b3). cbn [ula_matrix nr nc] in b1, b2, b3. rewrite map_length in b2. set (Q := En *m mher En) in *.
  destruct (min_norm_form En n N1 Hn NQ) as (d' & n2 & Ed' & P2 & F). rewrite Ed in Ed'. injection Ed' as <-. fold Q in F.
  set (vv := fun j => (/ n2 * / n2 * cq n (mn n Q) (phase d lam u (nth j angles 0%R)))%R). assert (I2 : (0 < / n2)%R) by (now apply Rinv_0_lt_compat). assert (I4 : (0 < / n2 * / n2)%R) by (now apply Rmult_lt_0_compat).
  assert (VQ : forall j, j < List.length angles -> Cnorm2 (vdot n (fun i => Cconj (dv i)) (col B j)) = vv j).
  { intros j Hj. unfold vv. rewrite cq_mn. assert (E : vdot n (fun i => Cconj (dv i)) (col B j) = (RtoC (/ n2) * csum n (fun i => Cconj (ent Q i 0) * cpow (cis (phase d lam u (nth j angles 0%R))) i))%C).
    { unfold vdot. rewrite <- csum_scal. apply csum_ext. intros i Hi. rewrite Cconj_conj, F by exact Hi. unfold col. rewrite b3 by lia. cbn [ula_matrix ent]. rewrite (nth_indep _ _ (zof d lam u 0%R)) by (now rewrite map_length). rewrite map_nth, zof_phase. ring. }
    rewrite E, Cnorm2_mult. f_equal. unfold Cnorm2. rewrite Re_RtoC, Im_RtoC. ring. }
  destruct (recip_order (List.length angles) vv) as (LX & OR). { intros j. unfold vv. apply Rmult_le_pos; [lra|]. rewrite cq_mn. apply Cnorm2_nonneg. }
  eexists. split; [|split; [exact LX|]].
  - rewrite C59_spectrum by exact b1. cbn [bind]. do 2 f_equal. rewrite b2. apply map_ext_in. intros j Ij. apply in_seq in Ij. f_equal. apply VQ. lia.
  - intros i j Hi Hj. rewrite OR by assumption. unfold vv. split; intros L; [apply (Rmult_lt_reg_l (/ n2 * / n2)); assumption|now apply Rmult_lt_compat_l].
Qed.
Lemma mn_close n (Q : cmat) tol : (0 < tol)%R -> exists eps, (0 < eps)%R /\ forall Q', entrywise n eps Q Q' -> entrywise n tol (mn n Q) (mn n Q').
Proof.
  intros Ht. set (c := fun X : cmat => Mat n 1 (fun i _ => ent X i 0)). destruct (near_mul (c Q) (mher (c Q)) tol eq_refl Ht) as (eps & He & H). exists eps. split; [exact He|]. intros Q' E.
  assert (NC : near eps (c Q) (c Q')). { split; [reflexivity|]. split; [reflexivity|]. cbn [c nr nc ent]. intros i j Hi Hj. apply E; lia. }
  pose proof (H (c Q') (mher (c Q')) NC (near_her _ _ _ NC)) as (_ & _ & X). cbn [mmul mher c nr nc ent csum] in X. intros i j Hi Hj. specialize (X i j Hi Hj). rewrite !Cplus_0_l in X. exact X.
Qed.

(** *** the exact noise subspace *)
Lemma null_exists_perp n zs : NoDup zs -> 1 <= List.length zs < n -> exists En, nr En = n /\ orthonormal En /\ (forall a, proj_power En a = 0%R <-> in_span (ula_matrix n zs) a) /\
  forall v, (forall q, q < List.length zs -> vdot n (col (ula_matrix n zs) q) v = RtoC 0) -> in_span En v.
Proof.
  intros ND Hk. pose proof (Prop_esprit.cov_of_exact (ula_matrix n zs)) as HX. assert (P1 : pd (mid (nc (ula_matrix n zs)))) by apply pd_mid.
  set (Rm := Prop_esprit.cov_of (ula_matrix n zs)) in *. pose proof (exact_herm _ _ _ _ HX (proj1 P1)) as HH.
  destruct (P_oracles.eigh_ref_contract (nr Rm) Rm HH (le_n _)) as (w & E & EE & OE). assert (IA : inj (ula_matrix n zs)) by (apply ula_inj; [exact ND|lia]).
  destruct (exact_noise P_oracles.eigh_ref Rm (ula_matrix n zs) _ 1 w E HX IA P1 ltac:(cbn; lia) EE OE) as (En & EN & N1 & _ & O & H).
  exists En. split; [exact N1|]. split; [exact O|]. split; [exact H|]. intros v Hv. apply (perp_in_noise P_oracles.eigh_ref Rm (ula_matrix n zs) _ 1 w E En v HX IA P1 ltac:(cbn; lia) EE OE EN). intros j Hj. cbn [ula_matrix nr nc] in *. now apply Hv.
Qed.
Lemma mn_exact n ps (En : cmat) : let zs := map cis ps in NoDup zs -> 1 <= List.length ps < n -> nr En = n -> orthonormal En -> (forall a, proj_power En a = 0%R <-> in_span (ula_matrix n zs) a) ->
  (forall v, (forall q, q < List.length zs -> vdot n (col (ula_matrix n zs) q) v = RtoC 0) -> in_span En v) ->
  let Q := En *m mher En in ent Q 0 0 <> RtoC 0 /\ above_zeros ps (cq n (mn n Q)) /\ forall p, In p ps -> cq n (mn n Q) p = 0%R.
Proof.
  intros zs ND Hk N1 ON NS PN Q. assert (Lz : List.length zs = List.length ps) by apply map_length.
  assert (UZ : forall z, In z zs -> Cmod z = 1%R) by (intros z Iz; apply in_map_iff in Iz as (p & <- & _); apply cis_mod).
  assert (Z0 : ~ In (RtoC 0) zs) by (intros I0; apply UZ in I0; rewrite Cmod_0 in I0; lra).
  assert (R0 : exists j, j < nc En /\ ent En 0 j <> RtoC 0).
  { destruct (Classical_Prop.classic (exists j, j < nc En /\ ent En 0 j <> RtoC 0)) as [Y|N]; [exact Y|]. exfalso. apply (ula_no_e0 n zs ND ltac:(lia) Z0). apply NS. apply proj_power_0. intros j Hj. unfold vdot, col, unit_vec. apply csum_0. intros i Hi.
    destruct (Nat.eqb_spec i 0) as [->|NE]; [|ring]. destruct (P_spectral.C_eq_dec (ent En 0 j) (RtoC 0)) as [->|NQ]; [rewrite Cconj_RtoC; ring|]. exfalso. apply N. eauto. }
  destruct (C59_min_norm_vector En ltac:(lia) ON R0) as (dv & Ed & D0 & (y & Hy) & DM). rewrite N1 in *.
  assert (NQ : ent Q 0 0 <> RtoC 0).
  { destruct R0 as (j & Hj & Nj). unfold Q. cbn [mmul mher ent]. intros E. apply Nj. assert (X : csum (nc En) (fun l => (ent En 0 l * Cconj (ent En 0 l))%C) = RtoC (vnorm2 (nc En) (fun l => ent En 0 l))).
    { unfold vnorm2. rewrite <- csum_RtoC. apply csum_ext. intros l Hl. rewrite <- Cconj_mult_norm2. ring. }
    rewrite X in E. apply RtoC_inj in E. exact (vnorm2_0 _ _ E j Hj). }
  split; [exact NQ|]. destruct (min_norm_form En n N1 ltac:(lia) NQ) as (d' & n2 & Ed' & P2 & F). rewrite Ed in Ed'. injection Ed' as <-. fold Q in F.
  assert (CQ : forall x, cq n (mn n Q) x = (n2 * n2 * Cnorm2 (P_minnorm.poly n dv (cis x)))%R).
  { intros x. rewrite cq_mn. assert (E : csum n (fun i => (Cconj (ent Q i 0) * cpow (cis x) i)%C) = (RtoC n2 * P_minnorm.poly n dv (cis x))%C).
    { unfold P_minnorm.poly. rewrite <- csum_scal. apply csum_ext. intros i Hi. rewrite F by exact Hi. rewrite RtoC_inv by lra. field. apply RtoC_neq_0. lra. }
    rewrite E, Cnorm2_mult. f_equal. unfold Cnorm2. rewrite Re_RtoC, Im_RtoC. ring. }
  assert (COLS : forall (e : nat -> C) j, j < List.length zs -> vdot n (fun i => Cconj (e i)) (col (ula_matrix n zs) j) = P_minnorm.poly n e (nth j zs (RtoC 0))).
  { intros e j Hj. unfold vdot, P_minnorm.poly, col. apply csum_ext. intros i Hi. rewrite Cconj_conj. reflexivity. }
  assert (DZ : forall z, In z zs -> P_minnorm.poly n dv z = RtoC 0).
  { intros z Iz. destruct (In_nth _ _ (RtoC 0) Iz) as (j & Hj & <-). rewrite <- COLS by exact Hj.
    assert (IS : in_span (ula_matrix n zs) (col (ula_matrix n zs) j)). { exists (fun q => if Nat.eqb q j then RtoC 1 else RtoC 0). intros i Hi. unfold mvec. cbn [ula_matrix nc]. rewrite (csum_single _ _ j Hj); [rewrite Nat.eqb_refl; unfold col; ring|]. intros q Hq NE. apply Nat.eqb_neq in NE. rewrite NE. ring. }
    apply NS in IS. rewrite proj_power_0, N1 in IS. set (a := col (ula_matrix n zs) j) in *.
    rewrite (P_subspace.vdot_ext n _ (mvec En y) _ a) by (try (intros; reflexivity); intros i Hi; now apply Hy).
    rewrite <- vdot_conj. pose proof (vdot_mvec_her En a y) as VH. rewrite N1 in VH. rewrite VH. clear VH. unfold vdot at 1. rewrite csum_0; [apply Cconj_RtoC|]. intros q Hq. replace (mvec (mher En) a q) with (vdot n (col En q) a) by (unfold mvec, vdot, col; cbn [mher nc ent]; rewrite N1; reflexivity). rewrite IS by exact Hq. rewrite Cconj_RtoC. ring. }
  assert (DM' : forall e, e 0 = RtoC 1 -> (forall z, In z zs -> P_minnorm.poly n e z = RtoC 0) -> (vnorm2 n dv <= vnorm2 n e)%R).
  { intros e E0 EZ. rewrite <- (vnorm2_conj n e). apply DM; [|rewrite E0; apply Cconj_RtoC]. apply PN. intros q Hq. rewrite <- vdot_conj, COLS by exact Hq. rewrite EZ by (now apply nth_In). apply Cconj_RtoC. }
  destruct (min_norm_above n zs dv ltac:(lia) D0 ND DZ DM') as (kap & K0 & KA).
  split.
  - exists (n2 * n2 * kap)%R. split; [repeat apply Rmult_lt_0_compat; lra|]. intros x. rewrite CQ, Rmult_assoc. apply Rmult_le_compat_l; [apply Rmult_le_pos; lra|]. apply KA. apply cis_mod.
  - intros p Ip. rewrite CQ. assert (Z : P_minnorm.poly n dv (cis p) = RtoC 0) by (apply DZ; unfold zs; now apply in_map). rewrite Z. replace (Cnorm2 (RtoC 0)) with 0%R by (symmetry; now apply Cnorm2_0). ring.
Qed.

(** *** Min-Norm *)
Lemma min_norm_intro n d lam u doas lo hi step tol (Rm : cmat) : (0 < lam)%R -> known_unit u -> valid_angle u lo -> valid_angle u hi -> 1 <= List.length doas < n -> hermitian Rm -> nr Rm = n ->
  (forall w E En, eigh_ok Rm w E -> nr En = n -> nc En = n - List.length doas -> (forall i j, ent En i j = ent E i j) ->
    ent (En *m mher En) 0 0 <> RtoC 0 /\ one_valley_each d lam u doas lo hi step tol (cq n (mn n (En *m mher En)))) ->
  forall eigh, eigh_contract n eigh -> both_run (min_norm_estimate eigh n) n d lam u doas lo hi step tol Rm.
Proof.
  intros Hl K VL VH Hk HH HN OV eigh EC. destruct (EC Rm HH ltac:(lia)) as (w & E & EE & OE). pose proof OE as (_ & z1 & z2 & _).
  destruct (noise_value eigh Rm (List.length doas) w E n EE ltac:(congruence) ltac:(congruence) ltac:(lia)) as (En & EN & N1 & N2 & N3).
  destruct (OV w E En OE N1 N2 N3) as (NQ & O1). destruct (min_norm_form En n N1 ltac:(lia) NQ) as (dv & n2 & Ed & _).
  apply (scan_both (min_norm_estimate eigh n) n d lam u doas lo hi step tol Rm (cq n (mn n (En *m mher En)))); try assumption; try lia; [apply min_norm_forwards|].
  exists (fun A => let! l := f_min_norm n dv A in Ok (embed_inf l)). split; [|apply mn_ranked; try assumption; lia].
  intros e h o. pose proof (C59_estimate_uses_spectrum eigh n e h Rm (Z.of_nat (List.length doas)) o En dv HN ltac:(lia) EN Ed) as X. rewrite N1 in X. exact X.
Qed.
Lemma min_norm_off n d lam u doas lo hi : (0 < d)%R -> (0 < lam)%R -> known_unit u -> field_of_view d lam u lo hi -> (forall a, In a doas -> (lo < a < hi)%R) -> NoDup doas -> 1 <= List.length doas < n ->
  exists step, (0 < step)%R /\ forall (A P Rm : cmat) s, A ==m ula_matrix n (map (zof d lam u) doas) -> exact_cov Rm A P s -> pd P ->
    (forall eigh, eigh_contract n eigh -> both_run (min_norm_estimate eigh n) n d lam u doas lo hi step 0 Rm) /\
    forall tol, (0 < tol)%R -> exists eps, (0 < eps)%R /\ forall Rm' : cmat, hermitian Rm' -> nr Rm' = n -> (distance Rm Rm' < eps)%R ->
      forall eigh, eigh_contract n eigh -> both_run (min_norm_estimate eigh n) n d lam u doas lo hi step tol Rm'.
Proof.
  intros Hd Hl K FV IN ND Hk. set (ps := map (phase d lam u) doas). set (zs := map cis ps). assert (EZ : zs = map (zof d lam u) doas) by (unfold zs, ps; rewrite map_map; reflexivity).
  assert (Lp : List.length ps = List.length doas) by apply map_length. assert (Lz : List.length zs = List.length doas) by (unfold zs; now rewrite map_length).
  assert (NZ : NoDup zs).
  { pose proof (fine_inner d lam u doas lo hi Hd Hl FV IN) as X1. pose proof (fine_nodup d lam u doas lo hi Hd Hl FV IN ND) as X2. pose proof (fine_wide d lam u lo hi Hl FV) as X3. exact (shape_nodup ps _ _ X3 X1 X2). }
  destruct (null_exists_perp n zs NZ ltac:(lia)) as (En0 & N0 & O0 & NS0 & PN0). set (Q0 := En0 *m mher En0).
  destruct (mn_exact n ps En0 NZ ltac:(lia) N0 O0 NS0 PN0) as (NQ0 & AZ & Z0). fold Q0 in NQ0, AZ, Z0.
  destruct (form_grids n d lam u doas lo hi (mn n Q0) Hd Hl FV IN ND AZ) as (step & S0 & EXA & APP). { intros a Ia. apply Z0. unfold ps. now apply in_map. }
  exists step. split; [exact S0|]. rewrite <- EZ.
  intros A P Rm s EA HX HP. destruct (ex_dims Rm A P s HX) as (D1 & D2). pose proof EA as (A1 & A2 & _). cbn [ula_matrix nr nc] in A1, A2. rewrite Lz in A2.
  assert (IA : inj A) by (apply (Base_Lin.inj_eq (ula_matrix n zs)); [now symmetry|]; apply ula_inj; [exact NZ | lia]).
  pose proof (exact_herm _ _ _ _ HX (proj1 HP)) as HH. destruct FV as (F1 & VL & VH & F2).
  assert (PRJ : forall w E En, eigh_ok Rm w E -> nr En = n -> nc En = n - List.length doas -> (forall i j, ent En i j = ent E i j) -> Q0 ==m En *m mher En).
  { intros w E En OE N1 N2 N3. destruct (exact_noise (fun _ => Ok (w, E)) Rm A P s w E HX IA HP ltac:(lia) eq_refl OE) as (En1 & EN & M1 & M2 & M3 & M4).
    destruct (noise_value (fun _ => Ok (w, E)) Rm (nc A) w E n eq_refl) as (En2 & EN2 & Q1 & Q2 & Q3); [destruct OE as (_ & z1 & z2 & _); congruence|destruct OE as (_ & z1 & z2 & _); congruence|lia|]. rewrite EN in EN2. injection EN2 as <-.
    assert (EQ : En1 ==m En). { split; [congruence|]. split; [congruence|]. intros i j _ _. now rewrite Q3, N3. }
    transitivity (En1 *m mher En1).
    - apply (proj_same En0 En1 (ula_matrix n zs) n); try assumption; try congruence. intros y. rewrite M4. apply in_span_meq. exact EA.
    - transitivity (En *m mher En1); [now apply mmul_eq_l|]. apply mmul_eq_r; [cbn; congruence|]. now apply P_signals.mher_eq. }
  split.
  - apply min_norm_intro; try assumption; [congruence|]. intros w E En OE N1 N2 N3. destruct (PRJ w E En OE N1 N2 N3) as (_ & _ & Q). cbn [Q0 mmul mher nr nc] in Q. rewrite N0 in Q.
    assert (QE : forall i j, i < n -> j < n -> ent Q0 i j = ent (En *m mher En) i j) by (intros; now apply Q).
    split; [rewrite <- QE by lia; exact NQ0|]. apply (one_valley_ext d lam u doas lo hi step 0 (cq n (mn n Q0))); [|exact EXA].
    intros x. apply cq_ext. intros i j Hi Hj. cbn [mn ent]. rewrite !QE by lia. reflexivity.
  - intros tol Ht. destruct (APP tol Ht) as (tau & Htau & H). destruct (mn_close n Q0 tau Htau) as (t1 & T1 & MC). set (q0 := Cmod (ent Q0 0 0)). assert (Pq : (0 < q0)%R) by (now apply Cmod_gt_0).
    set (t := Rmin t1 (q0 / 2)). assert (T0 : (0 < t)%R) by (apply Rmin_glb_lt; lra). assert (ta : (t <= t1)%R) by apply Rmin_l. assert (tb : (t <= q0 / 2)%R) by apply Rmin_r.
    destruct (P_oracles.eigh_ref_contract (nr Rm) Rm HH (le_n _)) as (w & E & _ & OE). pose proof (exact_gap Rm A P s w E HX IA HP OE ltac:(lia)) as GP.
    destruct (noise_near Rm w E n (List.length doas) t ltac:(congruence) HH OE Hk ltac:(rewrite <- A2, <- A1, <- D1; exact GP) T0) as (eps & He & NN).
    exists eps. split; [exact He|]. intros Rm' HH' N' DS. apply min_norm_intro; try assumption. intros w' E' En OE' N1 N2 N3.
    pose proof (NN Rm' w' E' HH' N' OE' DS) as X. set (W := win n 0 (n - List.length doas) E) in *. set (W' := win n 0 (n - List.length doas) E') in *.
    assert (EQ1 : Q0 ==m W *m mher W) by (apply (PRJ w E W OE); try reflexivity).
    assert (EQ2 : W' ==m En). { split; [cbn; congruence|]. split; [cbn; congruence|]. intros i j _ _. rewrite N3. reflexivity. }
    assert (NR : near t Q0 (En *m mher En)).
    { apply (near_eq t (W *m mher W) _ (W' *m mher W') _); [now symmetry| |exact X]. transitivity (En *m mher W'); [now apply mmul_eq_l|]. apply mmul_eq_r; [cbn; congruence|]. now apply P_signals.mher_eq. }
    assert (EW : entrywise n t Q0 (En *m mher En)). { destruct NR as (_ & _ & Y). intros i j Hi Hj. apply Y; cbn [Q0 mmul mher nr nc]; lia. }
    split.
    + intros Z. pose proof (EW 0 0 ltac:(lia) ltac:(lia)) as Y. rewrite Z in Y. replace (ent Q0 0 0 - RtoC 0)%C with (ent Q0 0 0) in Y by ring. fold q0 in Y. lra.
    + apply H. apply MC. intros i j Hi Hj. specialize (EW i j Hi Hj). lra.
Qed.
