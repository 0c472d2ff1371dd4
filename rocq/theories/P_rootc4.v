(** Continuity of root-MUSIC: the selected roots. *)
From Coq Require Import Sorting.Sorted Sorting.Permutation.
From Verif Require Import Base_Np Base_Lin Base_Trig P_utils M_sources M_grid S_grid M_core P_core M_subspace S_subspace P_subspace P_subspace2 P_subspace3 P_subspace5 P_spectral P_courant P_fta P_fta2 S_stable P_stable P_stable2 P_invar P_cont P_cont2 P_cont4 P_oracles P_pipeline P_rootc P_rootc2 P_rootc3 S_rootc Prop_subspace Prop_root.
Open Scope C_scope.

Lemma root_shifts m zs (Rm P : cmat) s tol : NoDup zs -> (forall z, In z zs -> Cmod z = 1%R) -> (1 <= List.length zs < m)%nat -> exact_cov Rm (ula_matrix m zs) P s -> pd P -> (0 < tol)%R ->
  exists eps, (0 < eps)%R /\ forall eigh roots argsort (Rm' : cmat), eigh_contract m eigh -> roots_contract roots -> (forall v, is_argsort v (argsort v)) ->
    hermitian Rm' -> nr Rm' = m -> (distance Rm Rm' < eps)%R -> no_exact_null eigh Rm' (List.length zs) ->
    exists chosen z0, Permutation z0 chosen /\ Forall2 (fun a b => (Cmod (a - b)%C < tol)%R) zs z0 /\
      forall lam d0 unit, root_music eigh roots argsort lam Rm' (Z.of_nat (List.length zs)) d0 unit =
        (let! p := from_z chosen lam (match d0 with None => (lam / 2)%R | Some d => d end) unit in Ok (true, Some p)).
Proof.
  intros ND U Hk HX HP Ht. set (k := List.length zs) in *.
  pose proof (exact_herm _ _ _ _ HX (proj1 HP)) as HH. destruct (ex_dims Rm _ P s HX) as (D1 & D2). cbn [ula_matrix nr] in D1, D2.
  assert (IA : inj (ula_matrix m zs)) by (apply ula_inj; [exact ND|fold k; lia]).
  destruct (P_oracles.eigh_ref_contract m Rm HH ltac:(lia)) as (w & E & EE & OE).
  destruct (exact_noise eigh_ref Rm (ula_matrix m zs) P s w E HX IA HP ltac:(cbn; fold k; lia) EE OE) as (En & EN & N1 & N2 & N3 & N4). cbn [ula_matrix nc nr] in EN, N1, N2. fold k in EN, N2.
  assert (EE1 : nr E = m) by (rewrite <- D1; apply OE). assert (EE2 : nc E = m) by (rewrite <- D1; apply OE).
  destruct (noise_value eigh_ref Rm k w E m EE EE1 EE2 ltac:(lia)) as (En2 & EN2 & _ & _ & N5). rewrite EN in EN2. injection EN2 as <-.
  assert (W0 : En ==m win m 0 (m - k) E) by (split; [exact N1|]; split; [exact N2|]; intros i j Hi Hj; cbn [win ent]; apply N5).
  destruct (exact_factor En m zs N1 N3 ND ltac:(fold k; lia) U N4) as (a & rest & Na & HF & OR).
  destruct (circle_roots zs _ a rest tol ND U Na HF OR Ht) as (e1 & p1 & H1).
  set (e2 := (e1 / INR m)%R). assert (Mp : (0 < INR m)%R) by (apply lt_0_INR; lia). assert (p2 : (0 < e2)%R) by now apply Rdiv_lt_0_compat.
  assert (Gap : (nth (m - k - 1) w 0 < nth (m - k) w 0)%R).
  { pose proof (ex_noise_level Rm (ula_matrix m zs) P s w E HX HP OE (m - k - 1)) as Q1. pose proof (ex_signal_level Rm (ula_matrix m zs) P s w E HX IA HP OE (m - k)) as Q2. cbn [ula_matrix nr nc] in Q1, Q2. fold k in Q1, Q2. rewrite Q1 by lia. apply Q2. lia. }
  destruct (noise_near Rm w E m k e2 D1 HH OE ltac:(lia) Gap p2) as (eps & ep & H2).
  exists eps. split; [exact ep|]. intros eigh roots argsort Rm' EC RC HA HH' R1' DS NN.
  destruct (EC Rm' HH' ltac:(lia)) as (w' & E' & EE' & OE'). assert (E1' : nr E' = m) by (rewrite <- R1'; apply OE'). assert (E2' : nc E' = m) by (rewrite <- R1'; apply OE').
  destruct (noise_value eigh Rm' k w' E' m EE' E1' E2' ltac:(lia)) as (En' & EN' & M1 & M2 & M3). specialize (NN En' EN').
  assert (W' : En' ==m win m 0 (m - k) E') by (split; [exact M1|]; split; [exact M2|]; intros i j Hi Hj; cbn [win ent]; apply M3).
  pose proof (H2 Rm' w' E' HH' R1' OE' DS) as NR.
  assert (NG : near e2 (En *m mher En) (En' *m mher En')).
  { refine (near_eq _ _ _ _ _ _ _ NR).
    - etransitivity; [apply (mmul_eq_l (win m 0 (m - k) E) En); now symmetry|]. apply mmul_eq_r; [cbn; lia|]. apply P_signals.mher_eq. now symmetry.
    - etransitivity; [apply (mmul_eq_l (win m 0 (m - k) E') En'); now symmetry|]. apply mmul_eq_r; [cbn; lia|]. apply P_signals.mher_eq. now symmetry. }
  apply coeffs_near in NG; [|cbn; lia|cbn; reflexivity|lra]. cbn [mmul nr] in NG. rewrite N1 in NG. replace (INR m * e2)%R with e1 in NG by (unfold e2; field; lra).
  set (cf := root_coeffs (En' *m mher En')) in *. assert (HHn : hermitian (En' *m mher En')) by apply (psd_gram' En').
  assert (OnC : forall z, Cmod z = 1%R -> poly cf z <> RtoC 0).
  { intros z Hz Z. rewrite poly_pe in Z. pose proof (noise_poly_mod En' m z M1 ltac:(lia) Hz) as Q. fold cf in Q. rewrite Z, Cmod_0 in Q. symmetry in Q. rewrite proj_power_0 in Q. destruct (NN z Hz) as (j & Hj & N). apply N. now apply Q. }
  destruct (RC cf) as (l' & a' & ER & Na' & HF').
  { destruct (zero_or cf) as [(i & Y)|Y]; [|exfalso; apply (OnC (RtoC 1) Cmod_1); rewrite poly_pe; apply pe_zero; intros i; destruct (Nat.lt_ge_cases i (List.length (rev cf))) as [L|L]; [rewrite rev_nth by (rewrite rev_length in L; lia); apply Y|now apply nth_overflow]].
    exists (nth i cf (RtoC 0)). split; [|exact Y]. destruct (Nat.lt_ge_cases i (List.length cf)) as [L|L]; [now apply nth_In|]. exfalso. apply Y. now apply nth_overflow. }
  assert (HF'' : forall x, pe (rev cf) x = a' * lin_prod l' x) by (intros x; rewrite <- poly_pe, HF', product_lin; reflexivity).
  assert (Off : forall v, In v l' -> Cmod v <> 1%R). { intros v Iv Hv. apply (OnC v Hv). rewrite poly_pe, HF'', (proj2 (lin_prod_0 l' v) Iv). ring. }
  destruct (H1 (rev cf) a' l' NG Na' HF'') as (I & F & r & PI & FI & HI & HFr).
  { intros v Nv Zv. rewrite <- poly_pe in *. apply (C61_reciprocal_pairs (En' *m mher En') v HHn ltac:(cbn; lia) Nv). exact Zv. }
  { exact Off. }
  destruct (C62_selection argsort l' k) as (_ & SEL); [apply Forall_forall; exact Off|exact HA|]. change (fun w => if Rlt_dec (Cmod w) 1 then true else false) with inside in SEL.
  assert (LI : List.length I = k) by (symmetry; exact (F2_len _ _ _ FI)).
  destruct SEL as (chosen & rst & ES & PS & LS & HS). { rewrite (Permutation_length PI), app_length. lia. }
  exists chosen, I. split; [symmetry; apply (top_k chosen rst I F r); auto; [now rewrite PS|congruence]|]. split; [exact FI|].
  intros lam d0 unit. assert (R2' : nc Rm' = m) by (destruct HH' as (SQ & _); congruence). unfold root_music. rewrite R1', R2', Nat.eqb_refl. cbn [negb]. unfold ensure_n_resolvable_sources. rewrite Z.gtb_ltb.
  destruct (Z.ltb_spec (Z.of_nat m - 1) (Z.of_nat k)); [lia|]. cbn [bind]. rewrite EN'. cbn [bind]. rewrite matmul_ok by reflexivity. cbn [bind]. fold cf. rewrite ER. cbn [bind]. rewrite ES. reflexivity.
Qed.
