(** C98: sparse estimates depend on the physical scene only. *)
From Coq Require Import Sorting.Permutation.
From Verif Require Import Base_Np Base_Lin Base_Mem M_utils M_sources S_sources M_array S_array M_grid S_grid M_core M_sparse S_sparse P_sparse P_sparse2 Prop_subspace Prop_sparse P_ml4 S_invar P_invar P_invar2 P_invar3 Prop_invar S_invar4 P_invar6.
Open Scope nat_scope.

(** ** What SparseCovarianceMatching solves *)
Theorem C98_matching : forall f A D nk l Phi r x, is_dictionary A nk Phi -> stacks r D -> nr D = nr A -> nc D = nr A ->
  doc_solution f true Phi r l x <-> fit_array f A D nk l x.
Proof.
  intros f A D nk l Phi r x HP Hr d1 d2. rewrite (doc_fit f A nk Phi D r l x HP Hr d1 d2). destruct HP as (_ & P2 & _). rewrite P2. reflexivity.
Qed.
(** best fits are unique if the covariance matrix determines the powers (no two different assignments of powers to the grid give the same one) *)
Theorem C98_unique : forall f A D nk l p s, f = "penalizedl1"%string \/ f = "constrainedl1"%string -> (0 <= l)%R -> nr D = nr A -> nc D = nr A ->
  (forall p s q t, (nk = true -> s = 0%R /\ t = 0%R) -> grid_cov A p s ==m grid_cov A q t -> forall j, j < nc A -> p j = q j) ->
  best_fit f A D nk l p s -> one_fit f A D nk l.
Proof.
  intros f A D nk l p s Hf Hl d1 d2 I B. exists p, s. split; [exact B|]. intros q t B' j Hj. apply (I q t p s).
  - intros ->. split; [apply B'|apply B].
  - exact (best_unique f A D nk l q t p s d1 d2 Hl Hf B' B).
  - exact Hj.
Qed.
(** ** Changes of coordinates and of scale *)
Theorem C98_problem : forall m U c f A A' D D' nk l p s, unitary m U -> recorded_atoms m U A A' -> nr D = m -> nc D = m -> recorded_cov m U c 0 D D' -> (0 < c)%R ->
  best_fit f A D nk l p s <-> best_fit f A' D' nk (c * l) (fun j => c * p j)%R (c * s).
Proof. intros. now apply (best_rec m U c A A' D D'). Qed.
Lemma one_fit_rec m U c f A A' D D' nk l : unitary m U -> recorded_atoms m U A A' -> nr D = m -> nc D = m -> recorded_cov m U c 0 D D' -> (0 < c)%R ->
  forall p s q t, best_fit f A D nk l p s -> (forall q t, best_fit f A D nk l q t -> forall j, j < nc A -> q j = p j) ->
  best_fit f A' D' nk (c * l) q t -> forall j, j < nc A -> q j = (c * p j)%R.
Proof.
  intros HU HA d1 d2 HD Hc p s q t B Un B' j Hj.
  assert (E1 : forall j, j < nc A' -> q j = (c * (q j / c))%R) by (intros; field; lra). replace t with (c * (t / c))%R in B' by (field; lra).
  apply (best_ext f A' D' nk _ _ _ _ E1) in B'. apply (best_rec m U c A A' D D' HU HA d1 d2 HD Hc f nk l (fun j => q j / c)%R (t / c)%R) in B'. rewrite <- (Un _ _ B' j Hj). field. lra.
Qed.
Lemma times_order c x y : (0 < c)%R -> times c x y -> same_order x y.
Proof.
  intros Hc ->. split; [now rewrite map_length|]. intros i j Hi Hj. rewrite !(nth_indep (map (Rmult c) x) 0%R (c * 0)%R) by (now rewrite map_length). rewrite !(map_nth (Rmult c)). split; intros; nra.
Qed.
Lemma from_times g pl pf argsort h x y k rs c : (0 < c)%R -> compares_peaks pf -> compares_only argsort -> times c x y ->
  same_outcome (times c) (fst (from_spectrum g pl pf argsort h x k rs)) (fst (from_spectrum g pl pf argsort h y k rs)) /\
  snd (from_spectrum g pl pf argsort h x k rs) = snd (from_spectrum g pl pf argsort h y k rs).
Proof.
  intros Hc C1 C2 T. unfold from_spectrum.
  pose proof (estimate_twin (times c) (Est g pl (fun _ => Ok tt) pf argsort false None) (Est g pl (fun _ => Ok tt) pf argsort false None) (fun _ => Ok x) (fun _ => Ok y) h k (Opts rs false 10 3)) as H.
  unfold same_results in H. destruct (estimate _ h (fun _ => Ok x) k _) as ((r1, e1), h1). destruct (estimate _ h (fun _ => Ok y) k _) as ((r2, e2), h2). cbn [fst snd] in *. apply H; [now left|now left|].
  constructor; try reflexivity; cbn [e_grid e_pf e_argsort e_atom bind].
  - intros. now apply (times_order c).
  - intros _ _. exact T.
  - intros u v Q L. apply C1; [exact L|]. now apply (times_order c).
  - intros u v ps Q L Hp. apply C2. apply at_idx_order; [exact L| |exact Hp]. now apply (times_order c).
Qed.
Lemma denoised_rec m U (c d : R) (nk : bool) (s s' : R) Rm Rm' : unitary m U -> nr Rm = m -> nc Rm = m -> recorded_cov m U c d Rm Rm' -> (if nk then s' = (c * s + d)%R else d = 0%R) ->
  recorded_cov m U c 0 (denoised nk s Rm) (denoised nk s' Rm').
Proof.
  intros HU R1 R2 HR Hs. pose proof HU as (u1 & u2 & _). destruct (rec_sizes _ _ _ _ _ _ HU HR) as (Z1 & Z2). apply (P_invar5.rec_cov_0 m U c _ _ HU). apply (P_invar5.rec_cov_eq m U c d _ _ HU) in HR. set (s0 := if nk then s else 0%R).
  assert (E : denoised nk s Rm ==m Rm -m mscal (RtoC s0) (mid m)).
  { split; [reflexivity|]. split; [reflexivity|]. intros i j Hi Hj. cbn [denoised msub mscal mid ent]. unfold s0. destruct nk, (Nat.eqb i j); ring. }
  rewrite (mscal_eq (RtoC c) _ _ (P_invar5.cj_eq m U HU (denoised nk s Rm) _ R1 E)).
  assert (E2 : P_invar5.cj U (Rm -m mscal (RtoC s0) (mid m)) ==m P_invar5.cj U Rm -m mscal (RtoC s0) (mid m)).
  { rewrite (P_invar5.cj_sub U Rm (mscal (RtoC s0) (mid m))) by (cbn; congruence). apply Base_Mat.msub_eq; [cbn; congruence|cbn; congruence|reflexivity|]. rewrite (P_invar5.cj_scal U (RtoC s0) (mid m)). apply mscal_eq. now apply (P_invar5.cj_id m). }
  rewrite (mscal_eq (RtoC c) _ _ E2). split; [cbn; congruence|]. split; [cbn; congruence|]. intros i j Hi Hj. cbn [denoised nr nc] in Hi, Hj. cbn [denoised mscal msub mid ent].
  rewrite (meq_ent _ _ i j HR) by lia. cbn [madd mscal mid ent]. unfold s0. destruct nk, (Nat.eqb i j); subst; rewrite ?RtoC_plus, ?RtoC_mult; ring.
Qed.
(** estimate(): the same flag, sources and errors, and c times the spectrum *)
Theorem C98_scm_estimate : forall sv sv' arr lam arr' lam' g pl pf argsort caching caching' nk f e0 e e0' e' A A' U c delta h m Rv m' Rv' k l sigma sigma' s o o' ret_sp,
  unitary (ar_size arr) U -> grid_steering arr lam g A -> grid_steering arr' lam' g A' -> recorded_atoms (ar_size arr) U A A' ->
  mk_scm true arr lam g pl pf argsort caching nk f = Ok e0 -> scm_reach sv e0 e ->
  mk_scm true arr' lam' g pl pf argsort caching' nk f = Ok e0' -> scm_reach sv' e0' e' ->
  v_nr Rv = ar_size arr -> v_nc Rv = ar_size arr -> (0 < c)%R -> recorded_cov (ar_size arr) U c delta (v_read m Rv) (v_read m' Rv') ->
  (if nk then sigma = Some s /\ sigma' = Some (c * s + delta)%R else delta = 0%R) -> (0 <= l)%R ->
  one_fit f A (denoised nk s (v_read m Rv)) nk l ->
  works_on sv (if nk then sg_size g else sg_size g + 1) 1 (fit_array f A (denoised nk s (v_read m Rv)) nk l) ->
  works_on sv' (if nk then sg_size g else sg_size g + 1) 1 (fit_array f A' (denoised nk (c * s + delta) (v_read m' Rv')) nk (c * l)) ->
  compares_peaks pf -> compares_only argsort ->
  let '(r, _, h1, _) := scm_estimate sv e h m Rv k l sigma o (Skw None ret_sp) in
  let '(r', _, h1', _) := scm_estimate sv' e' h m' Rv' k (c * l) sigma' o' (Skw None ret_sp) in
  same_outcome (times c) r r' /\ h1 = h1'.
Proof.
  intros sv sv' arr lam arr' lam' g pl pf argsort caching caching' nk f e0 e e0' e' A A' U c delta h m Rv m' Rv' k l sigma sigma' s o o' ret_sp HU GA GA' HA M Re M' Re' v1 v2 Hc HR Hs Hl (p & s0 & B & Un) W W' C1 C2.
  destruct (dictionary_ok arr lam g A nk GA) as (n1 & n2 & _). destruct (dictionary_ok arr' lam' g A' nk GA') as (n1' & n2' & _). pose proof HA as (a1 & a2 & a3 & _).
  assert (SZ : ar_size arr' = ar_size arr) by congruence. destruct (rec_sizes _ _ _ _ _ _ HU HR) as (z1 & z2). cbn [v_read nr nc] in z1, z2.
  assert (HD : recorded_cov (ar_size arr) U c 0 (denoised nk s (v_read m Rv)) (denoised nk (c * s + delta) (v_read m' Rv'))).
  { apply (denoised_rec _ U c delta nk s); try assumption. destruct nk; [reflexivity|assumption]. }
  destruct (C76_estimate sv arr lam g pl pf argsort caching nk f e0 e A h m Rv k l sigma s o ret_sp GA M Re v1 v2 Hl) as (Phi & r & pr & w & D1 & D2 & D3 & D4 & D5 & H). { intros ->. apply Hs. }
  destruct (C76_estimate sv' arr' lam' g pl pf argsort caching' nk f e0' e' A' h m' Rv' k (c * l) sigma' (c * s + delta)%R o' ret_sp GA' M' Re') as (Phi' & r' & pr' & w' & D1' & D2' & D3' & D4' & D5' & H'); [congruence|congruence|nra|intros ->; apply Hs|].
  destruct (scm_estimate sv e h m Rv k l sigma o (Skw None ret_sp)) as (((rr, ?), h1), ?). destruct (scm_estimate sv' e' h m' Rv' k (c * l) sigma' o' (Skw None ret_sp)) as (((rr', ?), h1'), ?).
  destruct H as (_ & H), H' as (_ & H').
  destruct (W pr w o) as (x & Ex & Sx). { intros x. rewrite <- D3, D5. apply C98_matching; [exact D1|exact D4|cbn; congruence|cbn; congruence]. }
  destruct (W' pr' w' o') as (x' & Ex' & Sx'). { intros y. rewrite <- D3', D5'. apply C98_matching; [exact D1'|exact D4'|cbn; congruence|cbn; congruence]. }
  rewrite Ex in H. rewrite Ex' in H'. destruct Sx as (x1 & x2 & Bx), Sx' as (x1' & x2' & Bx').
  destruct H as (sp & _ & Sp & _ & FS). { intros _. split; [|exact x2]. rewrite D3, x1, n2. reflexivity. }
  destruct H' as (sp' & _ & Sp' & _ & FS'). { intros _. split; [|exact x2']. rewrite D3', x1', n2'. reflexivity. }
  specialize (Sp eq_refl). specialize (Sp' eq_refl).
  assert (T : times c sp sp').
  { unfold times. rewrite Sp, Sp', map_map. apply map_ext_in. intros i Hi. apply in_seq in Hi. rewrite <- n2 in Hi.
    rewrite (one_fit_rec _ U c f A A' (denoised nk s (v_read m Rv)) _ nk l HU HA v1 v2 HD Hc p s0 _ _ B Un Bx' i ltac:(lia)). f_equal. symmetry. apply (Un _ _ Bx). lia. }
  pose proof (from_times g pl pf argsort h sp sp' k ret_sp c Hc C1 C2 T) as F. rewrite <- FS, <- FS' in F. exact F.
Qed.
(** ** Group-sparse estimates: snapshots in the new coordinates and in another scale *)
Theorem C98_group_problem : forall m U c A A' Y Y' l, unitary m U -> recorded_atoms m U A A' -> nr Y = m -> Y' ==m mscal (RtoC c) (U *m Y) -> (0 < c)%R ->
  exists seen : cmat -> cmat, (forall X, nr (seen X) = nr X /\ nc (seen X) = nc X /\ forall i, row_length (seen X) i = (c * row_length X i)%R) /\
    (forall X, doc_solution21 true A Y l X <-> doc_solution21 true A' Y' (c * l) (seen X)) /\
    (forall Z, doc_solution21 true A' Y' (c * l) Z -> exists X, doc_solution21 true A Y l X /\ seen X ==m Z).
Proof.
  intros m U c A A' Y Y' l HU (a1 & a2 & a3 & t & T & HA) y1 HY Hc. exists (seen c t).
  pose proof (sol21_rec m U c A A' Y Y' t HU a1 a2 a3 T HA y1 HY Hc l) as S. split; [intros X; do 2 (split; [reflexivity|]); intros i; now apply seen_row|]. split; [exact S|].
  intros Z HZ. pose proof (seen_unseen c t T Hc Z) as E. exists (unseen c t Z). split; [|exact E]. apply S.
  destruct HZ as ((z1 & z2 & z3) & O). split; [cbn; repeat split; [exact z1|exact z2|discriminate]|]. intros X HX. rewrite (obj21_eq A' Y' (c * l) _ Z E z1 z2). now apply O.
Qed.
Theorem C98_group_estimate : forall sv sv' arr lam arr' lam' g pl pf argsort caching caching' n e0 e e0' e' A A' U c h Y Y' k l o o' ret_sp,
  unitary (ar_size arr) U -> grid_steering arr lam g A -> grid_steering arr' lam' g A' -> recorded_atoms (ar_size arr) U A A' ->
  mk_gsparse true arr lam g pl pf argsort caching n = Ok e0 -> gs_reach sv e0 e ->
  mk_gsparse true arr' lam' g pl pf argsort caching' n = Ok e0' -> gs_reach sv' e0' e' ->
  nr Y = ar_size arr -> nc Y = n -> (0 < c)%R -> Y' ==m mscal (RtoC c) (U *m Y) -> (0 <= l)%R ->
  one_group_fit A Y l -> works_on sv (sg_size g) n (doc_solution21 true A Y l) -> works_on sv' (sg_size g) n (doc_solution21 true A' Y' (c * l)) ->
  compares_peaks pf -> compares_only argsort ->
  let '(r, _, h1) := gs_estimate sv e h Y k l o (Skw None ret_sp) in
  let '(r', _, h1') := gs_estimate sv' e' h Y' k (c * l) o' (Skw None ret_sp) in
  same_outcome (times c) r r' /\ h1 = h1'.
Proof.
  intros sv sv' arr lam arr' lam' g pl pf argsort caching caching' n e0 e e0' e' A A' U c h Y Y' k l o o' ret_sp HU GA GA' HA M Re M' Re' y1 y2 Hc HY Hl (X0 & S0 & Un) W W' C1 C2.
  destruct (dictionary_ok arr lam g A true GA) as (n1 & n2 & _). destruct (dictionary_ok arr' lam' g A' true GA') as (n1' & n2' & _). pose proof HA as (a1 & a2 & a3 & _). pose proof HU as (u1 & u2 & _).
  pose proof (meq_nr _ _ HY) as z1. pose proof (meq_nc _ _ HY) as z2. cbn [mscal mmul nr nc] in z1, z2.
  destruct (C98_group_problem _ U c A A' Y Y' l HU HA y1 HY Hc) as (sn & SN & _ & SB).
  destruct (C76_group_estimate sv arr lam g pl pf argsort caching n e0 e A h Y k l o ret_sp GA M Re y1 y2 Hl) as (pr & w & D5 & H).
  destruct (C76_group_estimate sv' arr' lam' g pl pf argsort caching' n e0' e' A' h Y' k (c * l) o' ret_sp GA' M' Re') as (pr' & w' & D5' & H'); [congruence|congruence|nra|].
  destruct (gs_estimate sv e h Y k l o (Skw None ret_sp)) as ((rr, ?), h1). destruct (gs_estimate sv' e' h Y' k (c * l) o' (Skw None ret_sp)) as ((rr', ?), h1').
  destruct (W pr w o D5) as (x & Ex & Sx). destruct (W' pr' w' o' D5') as (x' & Ex' & Sx'). rewrite Ex in H. rewrite Ex' in H'.
  destruct H as (sp & _ & Sp & _ & FS). { intros _. destruct Sx as ((q & _) & _). congruence. }
  destruct H' as (sp' & _ & Sp' & _ & FS'). { intros _. destruct Sx' as ((q & _) & _). congruence. }
  specialize (Sp eq_refl). specialize (Sp' eq_refl).
  assert (T : times c sp sp').
  { unfold times. rewrite Sp, Sp', map_map. apply map_ext_in. intros i Hi. apply in_seq in Hi. fold (row_length x' i) (row_length x i). destruct (SB x' Sx') as (X & SX & EX).
    destruct (SN X) as (q1 & q2 & q3). pose proof SX as ((w1 & _) & _). rewrite <- (row_length_eq _ _ i EX) by lia. rewrite q3. f_equal. rewrite (Un X SX i) by lia. symmetry. apply (Un x Sx). lia. }
  pose proof (from_times g pl pf argsort h sp sp' k ret_sp c Hc C1 C2 T) as F. rewrite <- FS, <- FS' in F. exact F.
Qed.
(** ** The same sensors described differently *)
Theorem C98_same_sensors : forall arr lam arr' lam' idx v g A A', same_sensors arr lam arr' lam' idx v -> sg_class g <> GNF ->
  grid_steering arr lam g A -> grid_steering arr' lam' g A' ->
  unitary (ar_size arr) (perm_matrix (ar_size arr) idx) /\ recorded_atoms (ar_size arr) (perm_matrix (ar_size arr) idx) A A' /\
  (forall c delta Rm Rm', nr Rm = ar_size arr -> nc Rm = ar_size arr -> same_measurements (ar_size arr) idx c delta Rm Rm' -> recorded_cov (ar_size arr) (perm_matrix (ar_size arr) idx) c delta Rm Rm') /\
  (forall c n Y Y', nr Y = ar_size arr -> nc Y = n -> nr Y' = ar_size arr -> nc Y' = n -> (forall i j, i < ar_size arr -> j < n -> ent Y' i j = (RtoC c * ent Y (nth i idx 0) j)%C) ->
    Y' ==m mscal (RtoC c) (perm_matrix (ar_size arr) idx *m Y)).
Proof.
  intros arr lam arr' lam' idx v g A A' HS Hg (_ & _ & _ & s & DA & E1 & E2) (_ & _ & _ & s' & DA' & E1' & E2'). pose proof (proj1 (ss_order _ _ _ _ _ _ HS)) as Pm.
  split; [now apply perm_unitary|]. split.
  - rewrite E1 in E1'. injection E1' as <-. destruct (placement_far g s E1 Hg) as (V & F). destruct (same_sensors_atoms arr lam arr' lam' idx v s HS V F) as (B & B' & F1 & F2 & RA).
    rewrite E2 in F1. rewrite E2' in F2. injection F1 as <- _. injection F2 as <- _. exact RA.
  - split; [intros; now apply perm_cov|]. intros c n Y Y' y1 y2 y1' y2' H. split; [cbn; congruence|]. split; [cbn; congruence|]. intros i j Hi Hj. rewrite H by congruence. cbn [mscal ent]. f_equal. symmetry. rewrite mmul_ent_mvec.
    rewrite y1' in Hi. exact (perm_mvec _ idx (fun r => ent Y r j) i Pm Hi).
Qed.
(** ** Example: two sensors half a wavelength apart, directions with sines 0 and 1/2, noise power known; the same sensors in the opposite order, in another
    unit of length, from another origin, in another amplitude scale and with more noise *)
Definition ex_sin : sgrid := SGrid G1D [vec1 [0; / 2]%R] "sin" DFloat.
Definition ex_A : cmat := Mat 2 2 (fun i j => cis (2 * PI * (INR i / 2) * nth j [0; / 2]%R 0%R)).
Lemma ex_sin_valid : valid_grid ex_sin.
Proof.
  split; [split; [intros a [<-|[]]; reflexivity|reflexivity]|]. split; [right; right; reflexivity|]. intros idx Hi. cbn in Hi. destruct idx as [|i [|]]; try tauto. assert (Hi' : i < 2) by tauto. cbn [valid_pt sg_class ex_sin]. right. right. split; [reflexivity|].
  destruct i as [|[|i]]; [| |lia]; cbn; lra.
Qed.
Lemma ex_gs : exists A A', grid_steering ex_a 1 ex_sin A /\ grid_steering ex_a' 2 ex_sin A' /\ A ==m ex_A.
Proof.
  pose proof ex_same as SS. destruct (ss_usable _ _ _ _ _ _ SS) as ((z1 & z2 & z3 & z4 & z5 & z6 & _) & (y1 & y2 & y3 & y4 & y5 & y6 & _)).
  destruct (grid_steering_exists ex_a 1 ex_sin z1 z2 z3 z4 z5 z6 eq_refl ex_sin_valid) as (A & HA). destruct (grid_steering_exists ex_a' 2 ex_sin y1 y2 y3 y4 y5 y6 eq_refl ex_sin_valid) as (A' & HA').
  exists A, A'. split; [exact HA|]. split; [exact HA'|]. destruct HA as (_ & _ & _ & s & DA & E1 & E2).
  assert (Es : s = FF1 [0; / 2]%R "sin"). { cbn in E1. destruct (_ || _)%bool in E1; cbn [bind] in E1; [discriminate|]. now injection E1. }
  subst s. revert E2. unfold steering_matrix, phase_delay_matrix. rewrite (P_sources.Reqb_neq 1 0 R1_neq_R0). cbn. intros E2. injection E2 as <- _.
  split; [reflexivity|]. split; [reflexivity|]. intros i j Hi Hj. cbn [mmap outer_col mscal ent ex_A rscal]. f_equal. cbn in Hi, Hj. cbn [rscal mmap outer_col ent nr nc]. field.
Qed.
Definition ex_p (j : nat) : R := match j with 0 => 2 | _ => 1 end%R.
Lemma ex_A_ent i j A : A ==m ex_A -> i < 2 -> j < 2 -> ent A i j = match i, j with 1, 1 => Ci | _, _ => RtoC 1 end.
Proof.
  intros (a1 & a2 & E) Hi Hj. rewrite E by (rewrite ?a1, ?a2; assumption). cbn [ex_A ent]. destruct i as [|[|i]], j as [|[|j]]; try lia; cbn [nth INR].
  - replace (2 * PI * (0 / 2) * 0)%R with 0%R by field. apply cis_0.
  - replace (2 * PI * (0 / 2) * / 2)%R with 0%R by field. apply cis_0.
  - replace (2 * PI * (1 / 2) * 0)%R with 0%R by field. apply cis_0.
  - replace (2 * PI * (1 / 2) * / 2)%R with (PI / 2)%R by field. unfold cis. rewrite cos_PI2, sin_PI2. reflexivity.
Qed.
Lemma ex_identifiable A : A ==m ex_A -> forall p s q t, (true = true -> s = 0%R /\ t = 0%R) -> grid_cov A p s ==m grid_cov A q t -> forall j, j < nc A -> p j = q j.
Proof.
  intros HA p s q t Z E. destruct (Z eq_refl) as (-> & ->). pose proof (meq_nr _ _ HA) as a1. pose proof (meq_nc _ _ HA) as a2. cbn in a1, a2.
  pose proof (meq_ent _ _ 0 0 E ltac:(cbn; lia) ltac:(cbn; lia)) as E0. pose proof (meq_ent _ _ 1 0 E ltac:(cbn; lia) ltac:(cbn; lia)) as E1. cbn [grid_cov ent] in E0, E1. rewrite a2 in E0, E1. cbn [csum Nat.eqb] in E0, E1.
  rewrite !(ex_A_ent 0 _ A HA) in E0, E1 by lia. rewrite !(ex_A_ent 1 _ A HA) in E1 by lia. apply (f_equal Re) in E0. apply (f_equal Im) in E1. cbn in E0, E1.
  intros [|[|j]] Hj; [| |lia]; lra.
Qed.
Example C98_example : exists A A' e e', grid_steering ex_a 1 ex_sin A /\ grid_steering ex_a' 2 ex_sin A' /\
  (let pl := Placement "FarField1DSourcePlacement" ["sin"%string] 0 in
   mk_scm true ex_a 1 ex_sin pl (find_peaks_simple Prop_pipeline.peaks_ref) argsort_R true true "constrainedl1" = Ok e /\
   mk_scm true ex_a' 2 ex_sin pl (find_peaks_simple Prop_pipeline.peaks_ref) argsort_R false true "constrainedl1" = Ok e') /\
  forall m Rv m' Rv', v_read m Rv ==m grid_cov A ex_p 1 -> same_measurements 2 [1; 0] 3 5 (v_read m Rv) (v_read m' Rv') ->
    one_fit "constrainedl1" A (denoised true 1 (v_read m Rv)) true 3 /\
    exists sv sv', works_on sv 2 1 (fit_array "constrainedl1" A (denoised true 1 (v_read m Rv)) true 3) /\
      works_on sv' 2 1 (fit_array "constrainedl1" A' (denoised true (3 * 1 + 5) (v_read m' Rv')) true (3 * 3)) /\
      forall h k, let '(r, _, h1, _) := scm_estimate sv e h m Rv k 3 (Some 1%R) "" (Skw None true) in
        let '(r', _, h1', _) := scm_estimate sv' e' h m' Rv' k (3 * 3) (Some (3 * 1 + 5)%R) "" (Skw None true) in
        same_outcome (times 3) r r' /\ h1 = h1'.
Proof.
  destruct ex_gs as (A & A' & GA & GA' & EA). destruct (C98_same_sensors ex_a 1 ex_a' 2 _ _ ex_sin A A' ex_same ltac:(discriminate) GA GA') as (HU & HA & HM & _). cbn [ex_a ar_size ar_loc la_m nr] in *.
  change (ar_size ex_a) with 2 in *. pose proof (meq_nr _ _ EA) as a1. pose proof (meq_nc _ _ EA) as a2. cbn in a1, a2.
  eexists A, A', _, _. split; [exact GA|]. split; [exact GA'|]. split; [split; reflexivity|].
  intros m Rv m' Rv' ER SM. pose proof (meq_nr _ _ ER) as r1. pose proof (meq_nc _ _ ER) as r2. cbn [v_read grid_cov nr nc] in r1, r2. rewrite a1 in r1, r2.
  pose proof (HM 3%R 5%R (v_read m Rv) (v_read m' Rv') r1 r2 SM) as HR.
  pose proof (denoised_rec 2 _ 3 5 true 1 (3 * 1 + 5) (v_read m Rv) (v_read m' Rv') HU r1 r2 HR eq_refl) as HD.
  assert (B : best_fit "constrainedl1" A (denoised true 1 (v_read m Rv)) true 3 ex_p 0).
  { assert (M0 : misfit A (denoised true 1 (v_read m Rv)) ex_p 0 = 0%R).
    { unfold misfit. apply rsum_0. intros i Hi. apply rsum_0. intros j Hj. apply Cnorm2_0. cbn [denoised ent]. rewrite (meq_ent _ _ i j ER) by (cbn; lia). cbn [grid_cov ent]. destruct (Nat.eqb i j); ring. }
    split.
    - split; [intros [|j] Hj; cbn; lra|]. split; [reflexivity|]. split; [intros _; unfold total_power; rewrite a2; cbn; rewrite !Rabs_pos_eq by lra; lra|discriminate].
    - intros q t _. unfold fit_objective. cbn [String.eqb Ascii.eqb Bool.eqb]. rewrite M0. apply rsum_nonneg. intros. apply rsum_nonneg. intros. apply Cnorm2_nonneg. }
  assert (O : one_fit "constrainedl1" A (denoised true 1 (v_read m Rv)) true 3).
  { apply (C98_unique _ _ _ _ _ ex_p 0%R); [now right|lra|cbn; congruence|cbn; congruence|exact (ex_identifiable A EA)|exact B]. }
  split; [exact O|].
  exists (fun _ _ _ => Ok ("optimal"%string, Mat 2 1 (fun i _ => ex_p i))), (fun _ _ _ => Ok ("optimal"%string, Mat 2 1 (fun i _ => 3 * ex_p i)%R)).
  pose proof HA as (_ & _ & a3 & _).
  assert (W1 : fit_array "constrainedl1" A (denoised true 1 (v_read m Rv)) true 3 (Mat 2 1 (fun i _ => ex_p i))) by (split; [cbn; congruence|]; split; [reflexivity|exact B]).
  assert (W2 : fit_array "constrainedl1" A' (denoised true (3 * 1 + 5) (v_read m' Rv')) true (3 * 3) (Mat 2 1 (fun i _ => 3 * ex_p i)%R)).
  { split; [cbn; congruence|]. split; [reflexivity|]. cbn [ent]. apply (C98_problem 2 _ 3 "constrainedl1" A A' _ _ true 3 ex_p 0 HU HA) in HD; try lra; try (cbn; congruence). replace 0%R with (3 * 0)%R by lra. now apply HD. }
  assert (V1 : forall {T} (Sol : mat T -> Prop) x, Sol x -> works_on (fun _ _ _ => Ok ("optimal"%string, x)) 2 1 Sol) by (intros T Sol x Hx pr w o _; exists x; auto).
  pose proof (V1 _ _ _ W1) as Q1. pose proof (V1 _ _ _ W2) as Q2. split; [exact Q1|]. split; [exact Q2|]. intros h k.
  refine (C98_scm_estimate _ _ ex_a 1 ex_a' 2 ex_sin _ _ _ true false true "constrainedl1" _ _ _ _ A A' _ 3 5 h m Rv m' Rv' k 3 (Some 1%R) _ 1 "" "" true HU GA GA' HA eq_refl (scm_new _ _) eq_refl (scm_new _ _) r1 r2 ltac:(lra) HR _ ltac:(lra) O Q1 Q2 _ _);
    [split; reflexivity|apply find_peaks_simple_compares, peaks_ref_compares|apply argsort_R_compares].
Qed.
(** a group-sparse problem with one fit: one sensor, one direction, one snapshot 2, l = 1; the power is shrunk to 1 *)
Example C98_group_example : one_group_fit (Mat 1 1 (fun _ _ => RtoC 1)) (Mat 1 1 (fun _ _ => RtoC 2)) 1 /\
  exists X, doc_solution21 true (Mat 1 1 (fun _ _ => RtoC 1)) (Mat 1 1 (fun _ _ => RtoC 2)) 1 X /\ row_length X 0 = 1%R.
Proof.
  set (A := Mat 1 1 (fun _ _ => RtoC 1)). set (Y := Mat 1 1 (fun _ _ => RtoC 2)). set (X := Mat 1 1 (fun _ _ => RtoC 1)).
  assert (OB : forall Z : cmat, nr Z = 1 -> nc Z = 1 -> (doc_objective21 A Y 1 Z = 1 / 2 * ((fst (ent Z 0 0%nat) - 2) ^ 2 + snd (ent Z 0 0%nat) ^ 2) + sqrt (fst (ent Z 0 0%nat) ^ 2 + snd (ent Z 0 0%nat) ^ 2))%R).
  { intros Z z1 z2. unfold doc_objective21. cbn [A Y nr nc ent]. rewrite z1, z2. cbn [rsum csum]. unfold Cnorm2. cbn. rewrite Rplus_0_l. f_equal; [field|]. rewrite Rmult_1_l. rewrite !Rplus_0_l, !Rmult_1_r. reflexivity. }
  assert (SQ : forall a b, (a <= sqrt (a ^ 2 + b ^ 2))%R).
  { intros a b. destruct (Rle_or_lt a 0) as [L|L]; [pose proof (sqrt_pos (a ^ 2 + b ^ 2)); lra|]. rewrite <- (sqrt_pow2 a) at 1 by lra. apply sqrt_le_1_alt. nra. }
  assert (OX : doc_objective21 A Y 1 X = (3 / 2)%R).
  { rewrite OB by reflexivity. cbn [X ent fst snd RtoC]. replace (1 ^ 2 + 0 ^ 2)%R with 1%R by ring. rewrite sqrt_1. field. }
  assert (SX : doc_solution21 true A Y 1 X).
  { split; [split; [reflexivity|]; split; [reflexivity|discriminate]|]. intros Z (z1 & z2 & _). cbn in z1, z2. rewrite OX, (OB Z z1 z2). pose proof (SQ (fst (ent Z 0 0)) (snd (ent Z 0 0))). pose proof (pow2_ge_0 (fst (ent Z 0%nat 0%nat) - 1)). pose proof (pow2_ge_0 (snd (ent Z 0%nat 0%nat))). lra. }
  assert (RX : row_length X 0 = 1%R). { unfold row_length. cbn [X nc rsum ent]. unfold Cnorm2. cbn. replace (0 + (1 * 1 + 0 * 0))%R with 1%R by ring. apply sqrt_1. }
  split; [|exists X; auto]. exists X. split; [exact SX|]. intros Z ((z1 & z2 & _) & OZ) i Hi. cbn [A nc nr Y] in *. assert (i = 0) as -> by lia. rewrite RX.
  specialize (OZ X (proj1 SX)). rewrite OX, (OB Z z1 z2) in OZ. pose proof (SQ (fst (ent Z 0 0)) (snd (ent Z 0 0))) as S1.
  assert (Q : ((fst (ent Z 0 0%nat) - 1) ^ 2 + snd (ent Z 0 0%nat) ^ 2 <= 0)%R) by lra.
  pose proof (pow2_ge_0 (fst (ent Z 0%nat 0%nat) - 1)) as P1. pose proof (pow2_ge_0 (snd (ent Z 0%nat 0%nat))) as P2.
  assert (E1 : (fst (ent Z 0%nat 0%nat) - 1 = 0)%R) by (apply Rsqr_0_uniq; rewrite Rsqr_pow2; lra). assert (E2 : snd (ent Z 0 0) = 0%R) by (apply Rsqr_0_uniq; rewrite Rsqr_pow2; lra). apply Rminus_diag_uniq in E1.
  unfold row_length. rewrite z2. cbn [rsum]. unfold Cnorm2, Re, Im. rewrite E1, E2. replace (0 + (1 * 1 + 0 * 0))%R with 1%R by ring. apply sqrt_1.
Qed.
Print Assumptions C98_scm_estimate. Print Assumptions C98_group_estimate. Print Assumptions C98_example.
