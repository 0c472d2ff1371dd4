(** The asymptotic covariance of MUSIC never falls below the stochastic Cramer-Rao bound (C90). *)
From Coq Require Import Lra.
From Verif Require Import Base_Np Base_Lin Base_Trig M_utils P_utils S_utils M_sources M_array S_array S_model S_subspace P_array P_array2 P_array3 S_sources P_sources P_model P_subspace P_subspace3 M_perf S_perf P_gauss P_perf P_perf2 Prop_perf Prop_perf2 P_mse.
Open Scope C_scope.

(** everything the two functions share, once both have returned *)
Lemma music_sto : forall solve cinv rinv a l u lam p Pm sigma N Vm Vs, solve_exact solve -> cinv_exact cinv -> rinv_exact rinv -> wf_array a ->
  denotes (List.length l) p Pm -> psd (Mat (List.length l) (List.length l) Pm) -> (0 < sigma)%R -> (0 < N)%R ->
  ecov_music_1d solve cinv a (FF1 l u) lam p sigma N "all" "full" = Ok (Some (OFull Vm)) ->
  crb_sto_farfield_1d solve rinv a (FF1 l u) lam p sigma N "full" = Ok (OFull Vs) ->
  let k := List.length l in exists A D Pi U B, let h := fun i j => bform (mid (nr D) -m Pi) (col D i) (col D j) in
    orth_projector_onto A Pi /\ nr D = nr A /\ nc D = k /\ nr U = k /\ nc U = k /\ psd U /\ nr B = k /\ nc B = k /\ (forall v i, (i < k)%nat -> mvec U (mvec B v) i = v i) /\
    scaled_inverse (info_matrix D Pi U) (sigma / (2 * N)) Vs /\ nr Vs = k /\ nr Vm = k /\ nc Vm = k /\ rsym Vs /\
    (forall i, (i < k)%nat -> Re (h i i) <> 0%R) /\
    (forall i j, (i < k)%nat -> (j < k)%nat -> ent Vm i j = (sigma / (2 * N) * Re (h i j * ent B j i)%C / (Re (h i i) * Re (h j j)))%R).
Proof.
  intros solve cinv rinv a l u lam p Pm sigma N Vm Vs SO CO RO W HD HP Hs HN HM HS. cbv zeta.
  destruct (C72_formula solve cinv a l u lam p sigma N "all" Vm SO CO W HM) as (A & D & Pi & Pa & Pv & Gv & B & R). cbv zeta in R.
  destruct R as (Hk & ES & A1 & A2 & HO & HN0 & HU & P1 & P2 & V1 & V2 & G1 & G2 & EP & EG & EB & M1 & M2 & HH & HV & _).
  destruct (C70_sto solve rinv a l u lam p sigma N Vs SO RO W HS) as (A' & D' & Pi' & Pa' & Z & ES' & HO' & HU' & S1 & _ & R). rewrite ES in ES'. injection ES' as <- <-. rewrite HU in HU'. injection HU' as <-. cbv zeta in R. destruct R as (_ & _ & Z1 & Z2 & EZ & SYM & HI & _).
  destruct (C68_agree p _ Pm HD) as (M0 & v0 & HU0 & _ & SH0 & _ & _ & _ & HM0 & _). rewrite HU in HU0. injection HU0 as <-.
  set (P := nd_mat (RtoC 0) Pa) in *.
  assert (HPP : psd P).
  { apply (psd_eq (Mat (List.length l) (List.length l) Pm)); [|exact HP]. split; [symmetry; exact P1|]. split; [symmetry; exact P2|]. cbn [nr nc ent]. intros i j Hi Hj. unfold P, nd_mat. rewrite SH0. cbn [ent nth]. symmetry. apply HM0; assumption. }
  destruct (sto_inv solve rinv SO RO a l u lam p sigma N _ _ W HS) as (A' & D' & ? & ? & ? & ? & ES' & _ & _ & _ & D1 & D2 & _). rewrite ES in ES'. injection ES' as <- <-.
  set (U := P *m (mher A *m Z) *m P) in *.
  assert (HW : psd U) by (apply (sto_W_psd A P Z sigma (nr A)); auto; try congruence; lra).
  exists A, D, Pi, U, B. cbv zeta. 
  assert (EI : scaled_inverse (info_matrix D Pi U) (sigma / (2 * N)) Vs).
  { specialize (HI (proj1 HPP)). destruct HI as (I1 & I2 & I3). split; [exact I1|]. split; [exact I2|]. intros i j Hi Hj. etransitivity; [|apply I3; assumption]. apply rsum_ext. intros r Hr. f_equal.
    cbn [info_matrix ent nr] in *. do 2 f_equal. pose proof (projector_unique _ _ _ HO HO') as EPI. unfold bform. cbn [msub mid nr nc ent]. apply csum_ext. intros q Hq. apply csum_ext. intros c Hc. destruct (op_shape _ _ HO). rewrite (meq_ent _ _ _ _ EPI) by lia. reflexivity. }
  assert (B1 : nr B = List.length l) by (destruct EB as (Q & _); rewrite Q; cbn; exact V1). assert (B2 : nc B = List.length l) by (destruct EB as (_ & Q & _); rewrite Q; cbn; exact V2).
  split; [exact HO|]. split; [congruence|]. split; [exact D2|]. split; [exact P1|]. split; [exact P2|]. split; [exact HW|]. split; [exact B1|]. split; [exact B2|]. split.
  { intros v i Hi. unfold U. apply (W_inverse A P Z Pv Gv B sigma); try congruence; try assumption; rewrite ?A2; assumption. }
  split; [exact EI|]. repeat split; try assumption; try apply SYM; try (intros; now apply HV). 
Qed.

Theorem C90_music_above_crb : forall solve cinv rinv a l u lam p Pm sigma N Vm Vs, solve_exact solve -> cinv_exact cinv -> rinv_exact rinv -> wf_array a ->
  denotes (List.length l) p Pm -> psd (Mat (List.length l) (List.length l) Pm) -> (0 < sigma)%R -> (0 < N)%R ->
  ecov_music_1d solve cinv a (FF1 l u) lam p sigma N "all" "full" = Ok (Some (OFull Vm)) ->
  crb_sto_farfield_1d solve rinv a (FF1 l u) lam p sigma N "full" = Ok (OFull Vs) ->
  rloewner Vs Vm /\ forall i, (i < List.length l)%nat -> (0 <= ent Vs i i <= ent Vm i i)%R.
Proof.
  intros solve cinv rinv a l u lam p Pm sigma N Vm Vs SO CO RO W HD HP Hs HN HM HS.
  destruct (music_sto _ _ _ _ _ _ _ _ _ _ _ _ _ SO CO RO W HD HP Hs HN HM HS) as (A & D & Pi & U & B & HO & D1 & D2 & U1 & U2 & HU & B1 & B2 & HB & HI & S1 & M1 & M2 & SYM & HH & HV).
  assert (Hc : (0 < sigma / (2 * N))%R) by (apply Rdiv_lt_0_compat; lra).
  assert (L : forall w, (rform Vs w <= rform Vm w)%R).
  { intros w. apply (music_sto_forms A D Pi U B (sigma / (2 * N)) Vs Vm w); try assumption; try congruence; rewrite ?U1, ?D2; assumption. }
  split; [split; [congruence | exact L]|]. intros i Hi.
  assert (E : forall V : rmat, nr V = List.length l -> rform V (fun j => rident j i) = ent V i i).
  { intros V EV. unfold rform. rewrite EV. rewrite (rsum_ext _ _ (fun r => ent V r i * rident r i)%R) by (intros r Hr; rewrite rsum_rident_r by exact Hi; ring). now rewrite (rsum_rident_r _ _ (fun r => ent V r i)). }
  rewrite <- (E Vs S1), <- (E Vm M1). split; [|apply L].
  rewrite E by exact S1. 
  destruct (C70_sto solve rinv a l u lam p sigma N Vs SO RO W HS) as (A' & D' & Pi' & Pa' & Z & ES' & HO' & HU' & _ & _ & R). cbv zeta in R. destruct R as (_ & _ & _ & _ & _ & _ & _ & PS).
  destruct (C68_agree p _ Pm HD) as (M0 & v0 & HU0 & _ & SH0 & _ & _ & _ & HM0 & _). rewrite HU' in HU0. injection HU0 as <-.
  rewrite <- (E Vs S1). apply PS; [|lra|lra]. apply (psd_eq (Mat (List.length l) (List.length l) Pm)); [|exact HP]. unfold nd_mat. rewrite SH0. cbn [nth]. split; [reflexivity|]. split; [reflexivity|]. cbn [nr nc ent]. intros r c Hr Hc1. symmetry. apply HM0; assumption.
Qed.

(** with a single source MUSIC attains the bound *)
Theorem C90_single_source : forall solve cinv rinv a t u lam p Pm q sigma N Vm Vs, solve_exact solve -> cinv_exact cinv -> rinv_exact rinv -> wf_array a ->
  denotes 1 p Pm -> Pm 0%nat 0%nat = RtoC q -> (0 <= q)%R -> (0 < sigma)%R -> (0 < N)%R ->
  ecov_music_1d solve cinv a (FF1 [t] u) lam p sigma N "all" "full" = Ok (Some (OFull Vm)) ->
  crb_sto_farfield_1d solve rinv a (FF1 [t] u) lam p sigma N "full" = Ok (OFull Vs) ->
  ent Vm 0 0 = ent Vs 0 0.
Proof.
  intros solve cinv rinv a t u lam p Pm q sigma N Vm Vs SO CO RO W HD EQ Hq Hs HN HM HS.
  assert (HP : psd (Mat 1 1 Pm)).
  { apply (psd_eq (mdiag 1 (fun _ => RtoC q))); [|apply psd_mdiag; intros; lra]. split; [reflexivity|]. split; [reflexivity|]. cbn [mdiag nr nc ent]. intros i j Hi Hj. assert (i = 0 /\ j = 0)%nat as (-> & ->) by lia. cbn. now rewrite EQ. }
  destruct (music_sto solve cinv rinv a [t] u lam p _ sigma N Vm Vs SO CO RO W HD HP Hs HN HM HS) as (A & D & Pi & U & B & HO & D1 & D2 & U1 & U2 & HU & B1 & B2 & HB & HI & S1 & M1 & M2 & SYM & HH & HV).
  cbn [List.length] in *. specialize (HB (fun _ => RtoC 1) 0%nat ltac:(lia)). unfold mvec in HB. rewrite U2, B2 in HB. cbn [csum] in HB.
  destruct HI as (_ & _ & HI). cbn [info_matrix nr ent] in HI. rewrite D2 in HI. specialize (HI 0%nat 0%nat ltac:(lia) ltac:(lia)). cbn [rsum] in HI. unfold rident in HI. cbn [Nat.eqb] in HI.
  rewrite (HV 0%nat 0%nat) by lia. specialize (HH 0%nat ltac:(lia)).
  assert (UI : Im (ent U 0 0) = 0%R).
  { destruct HU as ((_ & UH) & _). specialize (UH 0%nat 0%nat ltac:(lia) ltac:(lia)). destruct (ent U 0 0) as (x, y). apply (f_equal snd) in UH. cbn in UH |- *. lra. }
  set (h := bform (mid (nr D) -m Pi) (col D 0) (col D 0)) in *. set (Uv := ent U 0 0) in *. set (Bv := ent B 0 0) in *. set (c := (sigma / (2 * N))%R) in *. set (V0 := ent Vs 0 0) in *. clearbody h Uv Bv c V0.
  destruct Uv as (x, y), Bv as (b1, b2), h as (h1, h2). cbn in UI, HH. subst y. apply (f_equal fst) in HB as E1. apply (f_equal snd) in HB as E2. cbn in E1, E2, HI |- *.
  assert (X : (x * b1 = 1)%R) by lra. assert (b2 = 0)%R.
  { apply (Rmult_eq_reg_l x); [lra|]. intros ->. lra. }
  subst b2. assert (c = h1 * x * V0)%R by lra. subst c. rewrite Rmult_0_r, Rminus_0_r. 
  replace (h1 * x * V0 * (h1 * b1) / (h1 * h1))%R with ((x * b1) * V0)%R by (field; exact HH). rewrite X. ring.
Qed.

(** the deterministic bound, the stochastic bound and the asymptotic covariance of MUSIC form a chain *)
Theorem C90_chain : forall solve cinv rinv pinv a l u lam P sigma N Vd Vs Vm, solve_exact solve -> cinv_exact cinv -> rinv_exact rinv -> wf_array a ->
  psd (nd_mat (RtoC 0) P) -> (0 < sigma)%R -> (0 < N)%R -> nd_wf P ->
  crb_det_farfield_1d solve rinv pinv a (FF1 l u) lam P sigma N "full" = Ok (OFull Vd) ->
  crb_sto_farfield_1d solve rinv a (FF1 l u) lam (PArr P) sigma N "full" = Ok (OFull Vs) ->
  ecov_music_1d solve cinv a (FF1 l u) lam (PArr P) sigma N "all" "full" = Ok (Some (OFull Vm)) ->
  rloewner Vd Vs /\ rloewner Vs Vm /\ rloewner Vd Vm.
Proof.
  intros solve cinv rinv pinv a l u lam P sigma N Vd Vs Vm SO CO RO W HP Hs HN WF Hd HS HM.
  destruct (C70_det _ _ _ _ _ _ _ _ _ _ _ SO RO W Hd) as (_ & _ & _ & _ & _ & SH & _).
  assert (DN : denotes (List.length l) (PArr P) (fun i j => nth (i * List.length l + j) (nd_data P) (RtoC 0))) by (destruct P as [sh dt]; cbn [nd_shape nd_data] in *; subst sh; constructor; unfold nd_wf in WF; cbn in WF; lia).
  assert (X1 : rloewner Vd Vs) by (apply (C70_order solve rinv pinv a l u lam P sigma N); auto; lra).
  assert (X2 : rloewner Vs Vm).
  { refine (proj1 (C90_music_above_crb solve cinv rinv a l u lam (PArr P) _ sigma N Vm Vs SO CO RO W DN _ Hs HN HM HS)). refine (psd_eq _ _ _ HP). unfold nd_mat. rewrite SH. reflexivity. }
  split; [exact X1|]. split; [exact X2|]. destruct X1 as (N1 & L1), X2 as (N2 & L2). split; [congruence|]. intros x. exact (Rle_trans _ _ _ (L1 x) (L2 x)).
Qed.
Example C90_example : exists Vd Vs Vm, nd_wf ex_P /\ psd (nd_mat (RtoC 0) ex_P) /\
  crb_det_farfield_1d solve0 rinv0 (fun _ => Raise LinAlgError) ex_array (FF1 [0%R] "rad") 1 ex_P 1 10 "full" = Ok (OFull Vd) /\
  crb_sto_farfield_1d solve0 rinv0 ex_array (FF1 [0%R] "rad") 1 (PArr ex_P) 1 10 "full" = Ok (OFull Vs) /\
  ecov_music_1d solve0 cinv0 ex_array (FF1 [0%R] "rad") 1 (PArr ex_P) 1 10 "all" "full" = Ok (Some (OFull Vm)) /\ rloewner Vs Vm /\ (ent Vd 0 0 < ent Vm 0 0)%R /\ ent Vm 0 0 = ent Vs 0 0.
Proof.
  destruct C70_example as (Vd & Vs & H1 & H2 & HP & LT). destruct C72_example as (Vm0 & H3).
  assert (X : exists Vm, ecov_music_1d solve0 cinv0 ex_array (FF1 [0%R] "rad") 1 (PArr ex_P) 1 10 "all" "full" = Ok (Some (OFull Vm))) by (exists Vm0; exact H3).
  destruct X as (Vm & H4). exists Vd, Vs, Vm. assert (WF : nd_wf ex_P) by reflexivity. split; [exact WF|]. split; [exact HP|]. split; [exact H1|]. split; [exact H2|]. split; [exact H4|].
  destruct (C90_chain solve0 cinv0 rinv0 (fun _ => Raise LinAlgError) ex_array [0%R] "rad" 1 ex_P 1 10 Vd Vs Vm solve0_exact cinv0_exact rinv0_exact ltac:(apply wf_empty) HP ltac:(lra) ltac:(lra) WF H1 H2 H4) as (_ & X2 & _). split; [exact X2|].
  assert (DN : denotes 1 (PArr ex_P) (fun i j => nth (i * 1 + j) (nd_data ex_P) (RtoC 0))) by (constructor; reflexivity).
  destruct (C90_music_above_crb solve0 cinv0 rinv0 ex_array [0%R] "rad" 1 (PArr ex_P) _ 1 10 Vm Vs solve0_exact cinv0_exact rinv0_exact ltac:(apply wf_empty) DN HP ltac:(lra) ltac:(lra) H4 H2) as (_ & Q). specialize (Q 0%nat ltac:(cbn; lia)). split; [lra|].
  exact (C90_single_source solve0 cinv0 rinv0 ex_array 0 "rad" 1 (PArr ex_P) _ 1 1 10 Vm Vs solve0_exact cinv0_exact rinv0_exact ltac:(apply wf_empty) DN eq_refl ltac:(lra) ltac:(lra) ltac:(lra) H4 H2).
Qed.
Print Assumptions C90_music_above_crb. Print Assumptions C90_single_source. Print Assumptions C90_chain.
