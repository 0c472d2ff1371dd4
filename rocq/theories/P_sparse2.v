(** SparseCovarianceMatching and GroupSparseEstimator objects *)
From Verif Require Import Base_Np Base_Mem M_utils P_utils M_sources M_array S_array P_array P_array2 M_grid S_grid P_grid M_coarray M_core P_core P_core2 M_sparse S_sparse P_sparse.
Open Scope nat_scope.

Lemma dictionary_ok arr lam g A nk : grid_steering arr lam g A ->
  nr A = ar_size arr /\ nc A = sg_size g /\ exists Phi, scm_atom arr lam nk g = Ok Phi /\ is_dictionary A nk Phi.
Proof.
  intros (W & I & P & s & DA & HS & HA). destruct (steering_dims _ _ _ _ _ _ W I HA) as (A' & EA & A1 & A2). injection EA as <-. rewrite (placement_size g s P HS) in A2. split; [exact A1|]. split; [exact A2|].
  destruct (scm_atom_ok arr lam nk g s A DA HS HA A1) as (Phi & E & P1 & P2 & PE & PI). exists Phi. split; [exact E|]. split; [exact P1|]. split; [exact P2|].
  intros p sg r (_ & _ & RS) row Hrow. rewrite P1 in Hrow. cbn [grid_cov nr nc] in RS. set (M := nr A) in *.
  assert (SUM : forall q, rsum (nc Phi) (fun c => ent Phi q c * truth (nc A) p sg c)%R = (rsum (nc A) (fun c => ent Phi q c * p c) + (if nk then 0 else ent Phi q (nc A) * sg))%R).
  { intros q. rewrite P2. assert (S0 : rsum (nc A) (fun c => ent Phi q c * truth (nc A) p sg c)%R = rsum (nc A) (fun c => ent Phi q c * p c)%R) by (apply rsum_ext; intros c Hc; unfold truth; apply Nat.ltb_lt in Hc; rewrite Hc; reflexivity).
    destruct nk; [rewrite S0; ring|]. rewrite Nat.add_1_r. cbn [rsum]. rewrite S0. unfold truth. rewrite Nat.ltb_irrefl. reflexivity. }
  rewrite SUM. destruct (Nat.ltb_spec row (M * M)) as [L|L].
  - destruct (vec_index_surj _ _ _ L) as (i & j & Hi & Hj & ->). rewrite (proj1 (RS i j Hi Hj)), grid_cov_re. apply f_equal2.
    + apply rsum_ext. intros c Hc. rewrite (proj1 (PE i j c Hi Hj Hc)). reflexivity.
    + destruct nk; [destruct (Nat.eqb i j); reflexivity|]. rewrite (proj1 (PI eq_refl i j Hi Hj)). destruct (Nat.eqb i j); ring.
  - destruct (vec_index_surj M M (row - M * M)) as (i & j & Hi & Hj & E'); [lia|]. replace row with (M * M + (i + j * M)) by lia. rewrite (proj2 (RS i j Hi Hj)), grid_cov_im.
    rewrite <- (Rplus_0_r (rsum (nc A) (fun c => (Im (ent A i c * Cconj (ent A j c))%C * p c)%R))). apply f_equal2.
    + apply rsum_ext. intros c Hc. rewrite (proj2 (PE i j c Hi Hj Hc)). reflexivity.
    + destruct nk; [reflexivity|]. rewrite (proj2 (PI eq_refl i j Hi Hj)). ring.
Qed.

Lemma from_const {T} (e : estimator T) A h sp k rs : estimate_from e A h (fun _ => sp) k (Opts rs false 10 3) =
  estimate_from (Est (e_grid e) (e_pl e) (fun _ : sgrid => Ok tt) (e_pf e) (e_argsort e) false None) tt h (fun _ => sp) k (Opts rs false 10 3).
Proof. reflexivity. Qed.
Lemma from_spectrum_eq {T} (e : estimator T) A h sp k rs :
  from_spectrum (e_grid e) (e_pl e) (e_pf e) (e_argsort e) h sp k rs = match estimate_from e A h (fun _ => Ok sp) k (Opts rs false 10 3) with Ok (oc, h') => (Ok oc, h') | Raise x => (Raise x, h) end.
Proof. rewrite (from_const e A h). unfold from_spectrum. rewrite estimate_eq. cbn [get_atom_matrix e_cache e_atom e_caching]. destruct (estimate_from _ _ _ _ _ _) as [(oc, h')|]; reflexivity. Qed.
Lemma from_raise {T} (e : estimator T) A h x k o : estimate_from e A h (fun _ => Raise x) k o = Raise x.
Proof. reflexivity. Qed.

(** objects reachable from a new one *)
Definition cache_ok {T} (e0 e : estimator T) : Prop := (e = e0 /\ e_cache e0 = None) \/ exists x, e = set_cache e0 (Some x) /\ e_atom e0 (e_grid e0) = Ok x.
Lemma get_atom_ok {T} (e0 e : estimator T) : e_cache e0 = None -> cache_ok e0 e -> fst (get_atom_matrix e None) = e_atom e0 (e_grid e0) /\ cache_ok e0 (snd (get_atom_matrix e None)).
Proof.
  intros N [(-> & _)|(x & -> & E)].
  - unfold get_atom_matrix. rewrite N. destruct (e_atom e0 (e_grid e0)) as [x|] eqn:E; [|split; [reflexivity | left; auto]]. cbn [fst snd]. split; [reflexivity|]. destruct (e_caching e0); [right; exists x; auto | left; auto].
  - cbn [get_atom_matrix set_cache e_cache fst snd]. split; [now rewrite E|]. right. exists x. auto.
Qed.
Lemma scm_reach_inv sv c0 c : e_cache (sc_est c0) = None -> scm_reach sv c0 c -> sc_array c = sc_array c0 /\ sc_known c = sc_known c0 /\ cache_ok (sc_est c0) (sc_est c) /\ same_prob (sc_prob c) (sc_prob c0).
Proof.
  intros N H. induction H as [|c h m Rv k l sigma o kw H (I1 & I2 & I3 & I4)]; [repeat split; left; auto|].
  unfold scm_estimate. destruct (kw_refine kw); [cbn [fst snd]; auto|]. match goal with |- context [match ?e with Ok _ => _ | Raise _ => _ end] => destruct e as [(m1, Rv1)|] end; [|cbn [fst snd]; auto].
  destruct (get_atom_ok _ _ N I3) as (G1 & G2). destruct (get_atom_matrix (sc_est c) None) as [[Phi|] est]; cbn [fst snd] in *; [|cbn [sc_array sc_known sc_est sc_prob]; auto].
  unfold scm_spectrum. destruct (scm_vector _) as [r|]; cbn [sc_array sc_known sc_est sc_prob].
  2:{ rewrite do_estimate_from_pure, from_raise. cbn [fst snd sc_array sc_known sc_est sc_prob]. auto. }
  pose proof (l1_solve_same sv (sc_prob c) Phi r l o) as SS. destruct (l1_solve sv (sc_prob c) Phi r l o) as (v, p). cbn [snd] in SS.
  assert (SP : same_prob p (sc_prob c0)) by (destruct SS as (S1 & S2 & S3 & S4), I4 as (T1 & T2 & T3 & T4); repeat split; congruence).
  rewrite do_estimate_from_pure. destruct (estimate_from _ _ _ _ _ _) as [(oc, h')|]; cbn [fst snd sc_array sc_known sc_est sc_prob]; auto.
Qed.
Lemma cache_ok_fields {T} (e0 e : estimator T) : cache_ok e0 e -> e_grid e = e_grid e0 /\ e_pl e = e_pl e0 /\ e_pf e = e_pf e0 /\ e_argsort e = e_argsort e0.
Proof. intros [(-> & _)|(x & -> & _)]; repeat split; reflexivity. Qed.
Lemma doc_ext p q A b l : same_prob p q -> l1_instance p A b l = l1_instance q A b l.
Proof. intros (_ & _ & E1 & E2). unfold l1_instance. rewrite E1, E2. reflexivity. Qed.
Lemma stacks_ext (r : rmat) (A B : cmat) : A ==m B -> stacks r A -> stacks r B.
Proof. intros (E1 & E2 & E3) (S1 & S2 & S3). rewrite E1, E2 in *. split; [exact S1|]. split; [exact S2|]. intros i j Hi Hj. rewrite <- E3 by assumption. apply S3; assumption. Qed.
Lemma np_sub_square (Rm : cmat) (s : R) n : nr Rm = n -> nc Rm = n -> exists D, np_sub Rm (mscal (RtoC s) (mid n)) = Ok D /\ D ==m denoised true s Rm.
Proof.
  intros H1 H2. unfold np_sub, bdim. cbn [mscal mid nr nc]. rewrite H1, H2, Nat.eqb_refl. eexists. split; [reflexivity|]. split; [symmetry; exact H1|]. split; [symmetry; exact H2|]. cbn [denoised nr nc ent]. intros i j Hi Hj. unfold bidx. destruct (Nat.eqb_spec n 1) as [->|]; [assert (i = 0) as -> by lia; assert (j = 0) as -> by lia|]; cbn [mscal mid ent].
  - rewrite Nat.eqb_refl. ring.
  - destruct (Nat.eqb i j); ring.
Qed.
Lemma flatC_column (x : rmat) : nc x = 1 -> flatC x = map (fun i => ent x i 0) (seq 0 (nr x)).
Proof. intros H. unfold flatC. rewrite H. cbn [seq map]. induction (seq 0 (nr x)) as [|a l IH]; [reflexivity|]. cbn [flat_map map app]. rewrite IH. reflexivity. Qed.
Lemma firstn_repeat {T} (a : T) n : forall m, m <= n -> firstn m (repeat a n) = repeat a m.
Proof. induction n as [|n IH]; intros [|m] H; cbn; try reflexivity; [lia|]. rewrite IH by lia. reflexivity. Qed.
