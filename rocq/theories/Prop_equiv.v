(** ** C93: performance bounds depend on the physical scene only *)
From Coq Require Import Sorting.Permutation.
From Verif Require Import Base_Np Base_Trig Base_Lin S_utils M_utils M_sources S_sources M_array S_array P_utils P_sources P_sources2 P_array P_array2
  M_perf S_perf P_perf P_perf2 P_perf3 Prop_perf Prop_perf2 S_equiv P_equiv P_equiv2 P_gauss Prop_sources Prop_array.
Open Scope C_scope.

Lemma waveform_factor x y : cis (y - x) = Cconj (cis x) * cis y.
Proof. unfold Rminus. rewrite cis_plus, cis_opp. ring. Qed.
Lemma denoted_matrix k p P M : denotes k p P -> unify_p_to_matrix p k = Ok M -> nd_mat (RtoC 0) M ==m Mat k k P.
Proof.
  intros H E. destruct (C68_agree p k P H) as (M' & v & E' & _ & Sh & _ & _ & _ & G & _). rewrite E in E'. injection E' as <-.
  unfold nd_mat. rewrite Sh. split; [reflexivity|]. split; [reflexivity|]. cbn. intros i j Hi Hj. apply G; assumption.
Qed.
Section Scene.
Variables (a a' : array) (l l' : list R) (u u' : string) (lam lam' : R) (idx : list nat) (vx vy : R).
Hypothesis SC : same_scene a l u lam a' l' u' lam' idx vx vy.
Hypothesis W : wf_array a. Hypothesis W' : wf_array a'.
Let k := List.length l.
Let pi := fun j => nth j idx 0%nat.
Let c := fun j => cis (shift_phase l' u' lam' vx vy j).
Let t := scene_t l' u' lam' vx vy.
Let s := scene_s l u l' u' idx.
Lemma scene_len : List.length l' = k. Proof. destruct SC. apply sc_order. Qed.
Lemma scene_bij : exists rho, bij k pi rho. Proof. destruct SC. destruct sc_order as (Pm & _). apply perm_bij, Pm. Qed.
Lemma scene_unit j : (j < k)%nat -> Cconj (c j) * c j = RtoC 1. Proof. intros _. apply cis_conj_l. Qed.
Lemma step_nz j : (j < k)%nat -> unit_step u (nth (pi j) l 0%R) <> 0%R /\ unit_step u' (nth j l' 0%R) <> 0%R.
Proof.
  intros Hj. destruct scene_bij as (rho & B). pose proof (bj_pi _ _ _ B j Hj) as Hp. destruct SC. destruct sc_interior as (I & I').
  split; [apply (unit_step_nz u l); [exact I|apply nth_In; exact Hp]|apply (unit_step_nz u' l'); [exact I'|apply nth_In; rewrite scene_len; exact Hj]].
Qed.
Lemma scene_s_nz j : (j < k)%nat -> s j <> 0%R.
Proof.
  intros Hj. destruct (step_nz j Hj) as (S1 & S2). unfold s, scene_s. fold pi. apply Rmult_integral_contrapositive_currified; [exact S2|]. now apply Rinv_neq_0_compat.
Qed.
Lemma same_intro V V' : nr V' = k -> nc V' = k ->
  (forall i j, (i < k)%nat -> (j < k)%nat -> (s i * s j * ent V' i j)%R = ent V (pi i) (pi j)) -> same_in_radians l u V l' u' V' idx.
Proof.
  intros n1 n2 H. split; [rewrite scene_len; exact n1|]. split; [rewrite scene_len; exact n2|]. rewrite scene_len. intros i j Hi Hj.
  pose proof (H i j Hi Hj) as E. destruct (step_nz i Hi) as (S1 & _). destruct (step_nz j Hj) as (S2 & _). unfold pi in *. rewrite <- E. unfold s, scene_s.
  field. split; assumption.
Qed.
Section Steer.
Variables A D A' D' : cmat.
Hypothesis HA : steering_matrix a (FF1 l u) lam true "all" false = Ok (Flat A, [D]).
Hypothesis HA' : steering_matrix a' (FF1 l' u') lam' true "all" false = Ok (Flat A', [D']).
Lemma scene_dims : nr A' = nr A /\ nc A = k /\ nc A' = k /\ nc D = k /\ nc D' = k /\ nr D = nr A /\ nr D' = nr A.
Proof.
  destruct (scene_sim _ _ _ _ _ _ _ _ _ _ _ A D A' D' SC W W' HA HA') as (E & _).
  destruct (steering_shape a l u lam "all" A D W HA) as (nA & cA & nD & cD).
  destruct (steering_shape a' l' u' lam' "all" A' D' W' HA') as (nA' & cA' & nD' & cD').
  pose proof scene_len as Ln. unfold k in *. repeat split; congruence.
Qed.
Lemma scene_A i j : (i < nr A)%nat -> (j < k)%nat -> ent A' i j = c j * ent A i (pi j).
Proof. intros Hi Hj. apply (proj2 (scene_sim _ _ _ _ _ _ _ _ _ _ _ A D A' D' SC W W' HA HA') i j Hi Hj). Qed.
Lemma scene_D i j : (i < nr A)%nat -> (j < k)%nat -> ent D' i j = c j * (RtoC (s j) * ent D i (pi j) + t j * ent A i (pi j)).
Proof. intros Hi Hj. apply (proj2 (scene_sim _ _ _ _ _ _ _ _ _ _ _ A D A' D' SC W W' HA HA') i j Hi Hj). Qed.
End Steer.
End Scene.

Lemma sym_scaled_rel k pi (s : nat -> R) X X' c : nr X' = k -> nc X' = k ->
  (forall i j, (i < k)%nat -> (j < k)%nat -> (s i * s j * ent X' i j)%R = ent X (pi i) (pi j)) ->
  forall i j, (i < k)%nat -> (j < k)%nat -> (s i * s j * ent (symmetrised (rscal c X')) i j)%R = ent (symmetrised (rscal c X)) (pi i) (pi j).
Proof.
  intros n1 n2 H i j Hi Hj. unfold symmetrised, rscal, mmap. cbn [ent].
  rewrite <- (H i j Hi Hj), <- (H j i Hj Hi). field.
Qed.
Lemma full_V x V : reduce_output_matrix x "full" = Ok (OFull V) -> V = x.
Proof. cbn. intros E. injection E as <-. reflexivity. Qed.

Definition scene_c (l' : list R) (u' : string) (lam' vx vy : R) : nat -> C := fun j => cis (shift_phase l' u' lam' vx vy j).
Definition wave_rel (k : nat) (idx : list nat) (c : nat -> C) (Q Q' : cmat) : Prop :=
  nr Q = k /\ nc Q = k /\ nr Q' = k /\ nc Q' = k /\
  forall i j, (i < k)%nat -> (j < k)%nat -> ent Q' i j = Cconj (c i) * c j * ent Q (nth i idx 0%nat) (nth j idx 0%nat).

(** what two descriptions of a scene have in common *)
Record scene_data a l u lam a' l' u' lam' idx vx vy (A D A' D' : cmat) (rho : nat -> nat) : Prop := {
  sd_scene : same_scene a l u lam a' l' u' lam' idx vx vy;
  sd_dims : nr A' = nr A /\ nc A = List.length l /\ nc A' = List.length l /\ nc D = List.length l /\ nc D' = List.length l /\ nr D = nr A /\ nr D' = nr A;
  sd_bij : bij (List.length l) (fun j => nth j idx 0%nat) rho;
  sd_unit : forall j, (j < List.length l)%nat -> Cconj (scene_c l' u' lam' vx vy j) * scene_c l' u' lam' vx vy j = RtoC 1;
  sd_nz : forall j, (j < List.length l)%nat -> scene_s l u l' u' idx j <> 0%R;
  sd_A : forall i j, (i < nr A)%nat -> (j < List.length l)%nat -> ent A' i j = scene_c l' u' lam' vx vy j * ent A i (nth j idx 0%nat);
  sd_D : forall i j, (i < nr A)%nat -> (j < List.length l)%nat -> ent D' i j = scene_c l' u' lam' vx vy j * (RtoC (scene_s l u l' u' idx j) * ent D i (nth j idx 0%nat) + scene_t l' u' lam' vx vy j * ent A i (nth j idx 0%nat))
}.
Lemma scene_data_ok a l u lam a' l' u' lam' idx vx vy A D A' D' :
  same_scene a l u lam a' l' u' lam' idx vx vy -> wf_array a -> wf_array a' ->
  steering_matrix a (FF1 l u) lam true "all" false = Ok (Flat A, [D]) ->
  steering_matrix a' (FF1 l' u') lam' true "all" false = Ok (Flat A', [D']) -> exists rho, scene_data a l u lam a' l' u' lam' idx vx vy A D A' D' rho.
Proof.
  intros SC W W' HA HA'. destruct (scene_bij a a' l l' u u' lam lam' idx vx vy SC) as (rho & B). exists rho. split.
  - exact SC.
  - exact (scene_dims a a' l l' u u' lam lam' idx vx vy SC W W' A D A' D' HA HA').
  - exact B.
  - intros j _. apply cis_conj_l.
  - apply (scene_s_nz a a' l l' u u' lam lam' idx vx vy SC).
  - exact (scene_A a a' l l' u u' lam lam' idx vx vy SC W W' A D A' D' HA HA').
  - exact (scene_D a a' l l' u u' lam lam' idx vx vy SC W W' A D A' D' HA HA').
Qed.
Lemma waveform_rel k idx l' u' lam' vx vy (P P' : cmat) : nr P = k -> nc P = k -> nr P' = k -> nc P' = k ->
  same_waveforms k idx (shift_phase l' u' lam' vx vy) (ent P) (ent P') -> wave_rel k idx (scene_c l' u' lam' vx vy) P P'.
Proof.
  intros p1 p2 q1 q2 SW. do 4 (split; [assumption|]). intros i j Hi Hj. rewrite (SW i j Hi Hj), waveform_factor. reflexivity.
Qed.
Section SD.
Variables (a a' : array) (l l' : list R) (u u' : string) (lam lam' : R) (idx : list nat) (vx vy : R) (A D A' D' : cmat) (rho : nat -> nat).
Hypothesis SD : scene_data a l u lam a' l' u' lam' idx vx vy A D A' D' rho.
Let k := List.length l.
Let pi := fun j => nth j idx 0%nat.
Let c := scene_c l' u' lam' vx vy.
Let t := scene_t l' u' lam' vx vy.
Let s := scene_s l u l' u' idx.
Lemma sd_proj Pi : orth_projector_onto A Pi -> orth_projector_onto A' Pi.
Proof.
  destruct SD as [_ (mA' & qA & qA' & _) B U _ EA _]. intros Op. exact (sim_proj k pi rho c B U A A' qA qA' mA' EA Pi Op).
Qed.
Lemma sd_inj : inj A -> inj A'.
Proof. destruct SD as [_ (mA' & qA & qA' & _) B U _ EA _]. exact (sim_inj k pi rho c B U A A' qA qA' mA' EA). Qed.
Lemma sd_info Pi Q Q' i j : orth_projector_onto A Pi -> wave_rel k idx c Q Q' -> (i < k)%nat -> (j < k)%nat ->
  ent (info_matrix D' Pi Q') i j = (s i * s j * ent (info_matrix D Pi Q) (pi i) (pi j))%R.
Proof.
  destruct SD as [_ (mA' & qA & qA' & qD & qD' & mD & mD') B U _ EA ED]. intros Op (_ & _ & _ & _ & EQ) Hi Hj.
  exact (sim_info k pi rho c t s B U A D D' qA mD mD' ED Pi Q Q' i j Op Hi Hj EQ).
Qed.
Lemma sd_info_eq Pi Pi' Q : orth_projector_onto A' Pi -> orth_projector_onto A' Pi' -> meq (info_matrix D' Pi' Q) (info_matrix D' Pi Q).
Proof.
  destruct SD as [_ (mA' & qA & qA' & qD & qD' & mD & mD') _ _ _ _ _]. intros Op Op'. pose proof (projector_unique A' Pi' Pi Op' Op) as EPi.
  split; [reflexivity|]. split; [reflexivity|]. cbn [info_matrix nr nc ent]. intros i j Hi Hj. f_equal. f_equal.
  apply csum_ext. cbn. intros x Hx. apply csum_ext. intros y Hy. cbn.
  rewrite (meq_ent _ _ x y EPi); [reflexivity| |]; destruct (op_shape _ _ Op') as (z1 & z2); rewrite ?z1, ?z2, mA', <- mD'; assumption.
Qed.
Lemma sd_bound Pi Pi' Q Q' X X' q : orth_projector_onto A Pi -> orth_projector_onto A' Pi' -> wave_rel k idx c Q Q' -> hermitian Q' ->
  inv_of (info_matrix D Pi Q) X -> inv_of (info_matrix D' Pi' Q') X' ->
  same_in_radians l u (symmetrised (rscal q X)) l' u' (symmetrised (rscal q X')) idx.
Proof.
  intros Op Op' WQ HQ IX IX'. pose proof (sd_proj Pi Op) as OpA'.
  apply (inv_of_meq _ _ _ (sd_info_eq Pi Pi' Q' OpA' Op')) in IX'.
  pose proof SD as [SC (mA' & qA & qA' & qD & qD' & mD & mD') B U Nz EA ED]. pose proof WQ as (p1 & p2 & p3 & p4 & _).
  pose proof (info_sym A' D' Pi Q' OpA' ltac:(congruence) ltac:(rewrite qD'; exact p3) HQ) as Sy.
  assert (nS : nr (info_matrix D Pi Q) = k) by (cbn; exact qD).
  assert (REL : forall i j, (i < k)%nat -> (j < k)%nat -> (s i * s j * ent X' i j)%R = ent X (pi i) (pi j)).
  { rewrite <- nS. apply (inv_similar _ (info_matrix D' Pi Q') X X' s pi rho); try assumption.
    - rewrite nS. exact B.
    - cbn. congruence.
    - rewrite nS. exact Nz.
    - rewrite nS. intros i j Hi Hj. apply sd_info; assumption. }
  destruct IX' as (_ & x1 & x2 & _). cbn in x1, x2. rewrite qD' in x1, x2.
  apply (same_intro a a' l l' u u' lam lam' idx vx vy SC).
  - cbn. exact x1.
  - cbn. exact x2.
  - apply (sym_scaled_rel k pi s X X' q x1 x2 REL).
Qed.
Lemma sd_rinj Pi Pi' Q Q' X : orth_projector_onto A Pi -> orth_projector_onto A' Pi' -> wave_rel k idx c Q Q' -> hermitian Q ->
  inv_of (info_matrix D Pi Q) X -> rinj (info_matrix D' Pi' Q').
Proof.
  intros Op Op' WQ HQ IX. pose proof (sd_proj Pi Op) as OpA'.
  apply (rinj_meq (info_matrix D' Pi Q')); [apply meq_rsym, (sd_info_eq Pi Pi' Q' OpA' Op')|].
  pose proof SD as [SC (mA' & qA & qA' & qD & qD' & mD & mD') B U Nz EA ED]. pose proof WQ as (p1 & p2 & p3 & p4 & _).
  assert (nS : nr (info_matrix D Pi Q) = k) by (cbn; exact qD).
  apply (rinj_similar (info_matrix D Pi Q) _ X s pi rho); try (rewrite ?nS; cbn; assumption).
  - apply (info_sym A); try assumption. rewrite qD. exact p1.
  - rewrite nS. intros i j Hi Hj. apply sd_info; assumption.
Qed.
Lemma sd_herm Q Q' : wave_rel k idx c Q Q' -> hermitian Q -> hermitian Q'.
Proof.
  destruct SD as [_ _ B _ _ _ _]. intros (p1 & p2 & p3 & p4 & E) H. apply (sim_P_herm k pi rho c B Q Q' (conj p1 p2) (conj p3 p4) E H).
Qed.
Lemma sd_psd Q Q' : wave_rel k idx c Q Q' -> psd Q -> psd Q'.
Proof.
  destruct SD as [_ _ B _ _ _ _]. intros (p1 & p2 & p3 & p4 & E) H. apply (sim_P_psd k pi rho c B Q Q' (conj p1 p2) (conj p3 p4) E H).
Qed.
Lemma sd_W P P' Z Z' sigma : wave_rel k idx c P P' -> psd P -> (0 < sigma)%R -> nr Z = nr A -> nc Z = nc A -> nr Z' = nr A' -> nc Z' = nc A' ->
  (A *m P *m mher A +m mscal (RtoC sigma) (mid (nr A))) *m Z ==m A ->
  (A' *m P' *m mher A' +m mscal (RtoC sigma) (mid (nr A'))) *m Z' ==m A' ->
  wave_rel k idx c (P *m (mher A *m Z) *m P) (P' *m (mher A' *m Z') *m P').
Proof.
  destruct SD as [_ (mA' & qA & qA' & _ & _ & _ & mD') B U _ EA _]. intros (p1 & p2 & p3 & p4 & E) Hp Hs z1 z2 z3 z4 EZ EZ'.
  do 4 (split; [cbn; assumption|]).
  exact (sim_W k pi rho c B U A A' D' qA qA' mA' mD' EA P P' (conj p1 p2) (conj p3 p4) E Z Z' sigma Hp Hs z1 ltac:(rewrite z2; exact qA) ltac:(rewrite z3; exact mA') ltac:(rewrite z4; exact qA') EZ EZ').
Qed.
End SD.

(** the deterministic bound *)
Theorem C93_det : forall solve rinv pinv a l u lam a' l' u' lam' idx vx vy P P' sigma N V V',
  solve_exact solve -> rinv_exact rinv -> wf_array a -> wf_array a' ->
  same_scene a l u lam a' l' u' lam' idx vx vy ->
  hermitian (nd_mat (RtoC 0) P) ->
  same_waveforms (List.length l) idx (shift_phase l' u' lam' vx vy) (ent (nd_mat (RtoC 0) P)) (ent (nd_mat (RtoC 0) P')) ->
  crb_det_farfield_1d solve rinv pinv a (FF1 l u) lam P sigma N "full" = Ok (OFull V) ->
  crb_det_farfield_1d solve rinv pinv a' (FF1 l' u') lam' P' sigma N "full" = Ok (OFull V') ->
  same_in_radians l u V l' u' V' idx.
Proof.
  intros solve rinv pinv a l u lam a' l' u' lam' idx vx vy P P' sigma N V V' SO RO W W' SC HP SW H H'.
  destruct (det_inv solve rinv pinv SO RO a l u lam P sigma N _ _ W H) as (A & D & Pi & X & HA & Op & nA & cA & nD & cD & _ & Sh & IX & E & _).
  destruct (det_inv solve rinv pinv SO RO a' l' u' lam' P' sigma N _ _ W' H') as (A' & D' & Pi' & X' & HA' & Op' & nA' & cA' & nD' & cD' & _ & Sh' & IX' & E' & _).
  apply full_V in E. apply full_V in E'. subst V V'.
  destruct (scene_data_ok _ _ _ _ _ _ _ _ _ _ _ A D A' D' SC W W' HA HA') as (rho & SD).
  pose proof (scene_len a a' l l' u u' lam lam' idx vx vy SC) as Ln.
  assert (WP : wave_rel (List.length l) idx (scene_c l' u' lam' vx vy) (nd_mat (RtoC 0) P) (nd_mat (RtoC 0) P')).
  { apply waveform_rel; try exact SW; unfold nd_mat; rewrite ?Sh, ?Sh'; cbn; congruence. }
  apply (sd_bound a a' l l' u u' lam lam' idx vx vy A D A' D' rho SD Pi Pi' _ _ X X' _ Op Op' WP); [|exact IX|exact IX'].
  apply (sd_herm a a' l l' u u' lam lam' idx vx vy A D A' D' rho SD _ _ WP HP).
Qed.

(** the stochastic bound *)
Theorem C93_sto : forall solve rinv a l u lam a' l' u' lam' idx vx vy p p' P P' sigma N V V',
  solve_exact solve -> rinv_exact rinv -> wf_array a -> wf_array a' ->
  same_scene a l u lam a' l' u' lam' idx vx vy ->
  denotes (List.length l) p P -> denotes (List.length l) p' P' -> psd (Mat (List.length l) (List.length l) P) -> (0 < sigma)%R ->
  same_waveforms (List.length l) idx (shift_phase l' u' lam' vx vy) P P' ->
  crb_sto_farfield_1d solve rinv a (FF1 l u) lam p sigma N "full" = Ok (OFull V) ->
  crb_sto_farfield_1d solve rinv a' (FF1 l' u') lam' p' sigma N "full" = Ok (OFull V') ->
  same_in_radians l u V l' u' V' idx.
Proof.
  intros solve rinv a l u lam a' l' u' lam' idx vx vy p p' P P' sigma N V V' SO RO W W' SC Dp Dp' HP Hs SW H H'.
  destruct (sto_inv solve rinv SO RO a l u lam p sigma N _ _ W H) as (A & D & Pi & Pa & Z & X & HA & Op & nA & cA & nD & cD & _ & Un & (p1 & p2 & z1 & z2 & EZ & IX) & E & _).
  destruct (sto_inv solve rinv SO RO a' l' u' lam' p' sigma N _ _ W' H') as (A' & D' & Pi' & Pa' & Z' & X' & HA' & Op' & nA' & cA' & nD' & cD' & _ & Un' & (p1' & p2' & z1' & z2' & EZ' & IX') & E' & _).
  apply full_V in E. apply full_V in E'. subst V V'.
  destruct (scene_data_ok _ _ _ _ _ _ _ _ _ _ _ A D A' D' SC W W' HA HA') as (rho & SD).
  pose proof (scene_len a a' l l' u u' lam lam' idx vx vy SC) as Ln. rewrite Ln in *.
  pose proof (denoted_matrix _ _ _ _ Dp Un) as EP. pose proof (denoted_matrix _ _ _ _ Dp' Un') as EP'.
  assert (WP : wave_rel (List.length l) idx (scene_c l' u' lam' vx vy) (nd_mat (RtoC 0) Pa) (nd_mat (RtoC 0) Pa')).
  { apply waveform_rel; try congruence. intros i j Hi Hj. pose proof (bj_pi _ _ _ (sd_bij _ _ _ _ _ _ _ _ _ _ _ _ _ _ _ _ SD)) as Hp. cbn in Hp.
    rewrite (meq_ent _ _ i j EP') by (rewrite ?p1', ?p2', ?cA'; assumption). rewrite (meq_ent _ _ _ _ EP) by (rewrite ?p1, ?p2, ?cA; apply Hp; assumption). cbn. apply SW; assumption. }
  assert (HPa : psd (nd_mat (RtoC 0) Pa)) by (apply (psd_eq (Mat (List.length l) (List.length l) P)); [symmetry; exact EP|exact HP]).
  assert (HPa' : psd (nd_mat (RtoC 0) Pa')) by (apply (sd_psd a a' l l' u u' lam lam' idx vx vy A D A' D' rho SD _ _ WP HPa)).
  pose proof (sd_W a a' l l' u u' lam lam' idx vx vy A D A' D' rho SD _ _ Z Z' sigma WP HPa Hs z1 z2 z1' z2' EZ EZ') as WW.
  apply (sd_bound a a' l l' u u' lam lam' idx vx vy A D A' D' rho SD Pi Pi' _ _ X X' _ Op Op' WW); [|exact IX|exact IX'].
  apply (sto_W_herm A' (nd_mat (RtoC 0) Pa') Z' sigma (nr A')); auto. apply HPa'.
Qed.

(** the error covariance of MUSIC *)
Theorem C93_music : forall solve cinv a l u lam a' l' u' lam' idx vx vy p p' P P' sigma N V V',
  solve_exact solve -> cinv_exact cinv -> wf_array a -> wf_array a' ->
  same_scene a l u lam a' l' u' lam' idx vx vy ->
  denotes (List.length l) p P -> denotes (List.length l) p' P' ->
  same_waveforms (List.length l) idx (shift_phase l' u' lam' vx vy) P P' ->
  ecov_music_1d solve cinv a (FF1 l u) lam p sigma N "all" "full" = Ok (Some (OFull V)) ->
  ecov_music_1d solve cinv a' (FF1 l' u') lam' p' sigma N "all" "full" = Ok (Some (OFull V')) ->
  same_in_radians l u V l' u' V' idx.
Proof.
  intros solve cinv a l u lam a' l' u' lam' idx vx vy p p' P P' sigma N V V' SO CO W W' SC Dp Dp' SW H H'.
  destruct (C72_formula solve cinv a l u lam p sigma N "all" V SO CO W H) as (A & D & Pi & Pa & Pv & Gv & Bm & _ & HA & nA & cA & Op & HN & Un & p1 & p2 & v1 & v2 & g1 & g2 & EPv & EGv & EB & n1 & n2 & Hh & HV & _).
  destruct (C72_formula solve cinv a' l' u' lam' p' sigma N "all" V' SO CO W' H') as (A' & D' & Pi' & Pa' & Pv' & Gv' & Bm' & _ & HA' & nA' & cA' & Op' & _ & Un' & p1' & p2' & v1' & v2' & g1' & g2' & EPv' & EGv' & EB' & n1' & n2' & Hh' & HV' & _).
  destruct (scene_data_ok _ _ _ _ _ _ _ _ _ _ _ A D A' D' SC W W' HA HA') as (rho & SD).
  pose proof (scene_len a a' l l' u u' lam lam' idx vx vy SC) as Ln. rewrite Ln in *.
  pose proof (denoted_matrix _ _ _ _ Dp Un) as EP. pose proof (denoted_matrix _ _ _ _ Dp' Un') as EP'.
  assert (WP : wave_rel (List.length l) idx (scene_c l' u' lam' vx vy) (nd_mat (RtoC 0) Pa) (nd_mat (RtoC 0) Pa')).
  { apply waveform_rel; try congruence. intros i j Hi Hj. pose proof (bj_pi _ _ _ (sd_bij _ _ _ _ _ _ _ _ _ _ _ _ _ _ _ _ SD)) as Hp. cbn in Hp.
    rewrite (meq_ent _ _ i j EP') by (rewrite ?p1', ?p2'; assumption). rewrite (meq_ent _ _ _ _ EP) by (rewrite ?p1, ?p2; apply Hp; assumption). cbn. apply SW; assumption. }
  pose proof SD as [_ (mA' & qA & qA' & qD & qD' & mD & mD') B U Nz EA ED].
  set (k := List.length l) in *. set (pi := fun j => nth j idx 0%nat) in *. set (c := scene_c l' u' lam' vx vy) in *. set (s := scene_s l u l' u' idx) in *. set (t := scene_t l' u' lam' vx vy) in *.
  pose proof (sd_proj a a' l l' u u' lam lam' idx vx vy A D A' D' rho SD Pi Op) as OpA'.
  pose proof (projector_unique A' Pi' Pi Op' OpA') as EPi.
  destruct WP as (_ & _ & _ & _ & WP).
  assert (BB : forall i j, (i < k)%nat -> (j < k)%nat -> ent Bm' i j = Cconj (c i) * c j * ent Bm (pi i) (pi j)).
  { intros i j Hi Hj. rewrite (meq_ent _ _ i j EB') by (rewrite ?(meq_nr _ _ EB'), ?(meq_nc _ _ EB'); cbn; congruence).
    rewrite (meq_ent _ _ (pi i) (pi j) EB) by (rewrite ?(meq_nr _ _ EB), ?(meq_nc _ _ EB); cbn; rewrite ?v1, ?v2; apply (bj_pi _ _ _ B); assumption).
    apply (sim_B k pi rho c B U A A' qA qA' mA' EA _ _ (conj p1 p2) (conj p1' p2') WP Pv Pv' Gv Gv' sigma); assumption. }
  assert (hE : forall i j, (i < k)%nat -> (j < k)%nat -> bform (mid (nr D') -m Pi') (col D' i) (col D' j) = RtoC (s i * s j) * (Cconj (c i) * c j) * bform (mid (nr D) -m Pi) (col D (pi i)) (col D (pi j))).
  { intros i j Hi Hj. pose proof (sim_h k pi rho c t s B A D D' qA mD mD' ED Pi i j Op Hi Hj) as E. unfold hh in E. rewrite <- E.
    apply csum_ext. cbn. intros x Hx. apply csum_ext. intros y Hy. cbn.
    rewrite (meq_ent _ _ x y EPi); [reflexivity| |]; destruct (op_shape _ _ Op') as (w1 & w2); rewrite ?w1, ?w2, mA', <- mD'; assumption. }
  assert (hD : forall i, (i < k)%nat -> Re (bform (mid (nr D') -m Pi') (col D' i) (col D' i)) = (s i * s i * Re (bform (mid (nr D) -m Pi) (col D (pi i)) (col D (pi i))))%R).
  { intros i Hi. rewrite (hE i i Hi Hi), (U i Hi). rewrite Cmult_1_r, Re_mult, Re_RtoC, Im_RtoC. ring. }
  apply (same_intro a a' l l' u u' lam lam' idx vx vy SC); [exact n1'|exact n2'|].
  fold k pi s. intros i j Hi Hj. pose proof (bj_pi _ _ _ B i Hi) as Hpi. pose proof (bj_pi _ _ _ B j Hj) as Hpj.
  change (s i * s j * ent V' i j = ent V (pi i) (pi j))%R.
  rewrite (HV' i j Hi Hj), (HV _ _ Hpi Hpj), (hD i Hi), (hD j Hj), (hE i j Hi Hj), (BB j i Hj Hi).
  replace (RtoC (s i * s j) * (Cconj (c i) * c j) * bform (mid (nr D) -m Pi) (col D (pi i)) (col D (pi j)) * (Cconj (c j) * c i * ent Bm (pi j) (pi i)))
    with ((Cconj (c i) * c i) * (Cconj (c j) * c j) * (RtoC (s i * s j) * (bform (mid (nr D) -m Pi) (col D (pi i)) (col D (pi j)) * ent Bm (pi j) (pi i)))) by ring.
  rewrite (U i Hi), (U j Hj), !Cmult_1_l, Re_mult, Re_RtoC, Im_RtoC.
  pose proof (Hh _ Hpi) as H1. pose proof (Hh _ Hpj) as H2. cbn beta in H1, H2. pose proof (Nz i Hi). pose proof (Nz j Hj). field. repeat split; assumption.
Qed.

(** the second description of the scene gives a bound whenever the first one does *)
Theorem C93_defined : forall solve cinv rinv pinv a l u lam a' l' u' lam' idx vx vy sigma N A D r',
  solve_exact solve -> cinv_exact cinv -> rinv_exact rinv -> wf_array a -> wf_array a' ->
  same_scene a l u lam a' l' u' lam' idx vx vy ->
  steering_matrix a (FF1 l u) lam true "all" false = Ok (Flat A, [D]) -> inj A ->
  steering_matrix a' (FF1 l' u') lam' true "all" false = Ok r' ->
  (forall P P' V, nd_shape P' = [List.length l; List.length l] -> hermitian (nd_mat (RtoC 0) P) ->
     same_waveforms (List.length l) idx (shift_phase l' u' lam' vx vy) (ent (nd_mat (RtoC 0) P)) (ent (nd_mat (RtoC 0) P')) ->
     crb_det_farfield_1d solve rinv pinv a (FF1 l u) lam P sigma N "full" = Ok (OFull V) ->
     exists V', crb_det_farfield_1d solve rinv pinv a' (FF1 l' u') lam' P' sigma N "full" = Ok (OFull V') /\ same_in_radians l u V l' u' V' idx) /\
  (forall p p' P P' V, denotes (List.length l) p P -> denotes (List.length l) p' P' -> psd (Mat (List.length l) (List.length l) P) -> (0 < sigma)%R ->
     same_waveforms (List.length l) idx (shift_phase l' u' lam' vx vy) P P' ->
     crb_sto_farfield_1d solve rinv a (FF1 l u) lam p sigma N "full" = Ok (OFull V) ->
     exists V', crb_sto_farfield_1d solve rinv a' (FF1 l' u') lam' p' sigma N "full" = Ok (OFull V') /\ same_in_radians l u V l' u' V' idx) /\
  (forall p p' P P' V, denotes (List.length l) p P -> denotes (List.length l) p' P' ->
     same_waveforms (List.length l) idx (shift_phase l' u' lam' vx vy) P P' ->
     ecov_music_1d solve cinv a (FF1 l u) lam p sigma N "all" "full" = Ok (Some (OFull V)) ->
     exists V', ecov_music_1d solve cinv a' (FF1 l' u') lam' p' sigma N "all" "full" = Ok (Some (OFull V')) /\ same_in_radians l u V l' u' V' idx).
Proof.
  intros solve cinv rinv pinv a l u lam a' l' u' lam' idx vx vy sigma N A D r' SO CO RO W W' SC HA IA HA'.
  assert (exists A' D', r' = (Flat A', [D'])) as (A' & D' & ->).
  { destruct r' as (St, DA). destruct (steering_scalar_inv a' _ lam' true "all" false _ _ W' (steering_der_iso _ _ _ _ _ _ HA') HA') as (ps & L & T & DT & A0 & _ & _ & _ & Ph & _ & _ & -> & _ & F).
    pose proof SC as [(_ & V') (_ & I') _ _ _ _]. destruct (FF1_phases l' u' (la_m L) lam' T DT V' I' Ph) as (DD & -> & _). inversion F as [|? D' ? ? _ F2]; subst. inversion F2; subst. eexists _, _. reflexivity. }
  destruct (scene_data_ok _ _ _ _ _ _ _ _ _ _ _ A D A' D' SC W W' HA HA') as (rho & SD).
  pose proof (scene_len a a' l l' u u' lam lam' idx vx vy SC) as Ln. pose proof (bj_pi _ _ _ (sd_bij _ _ _ _ _ _ _ _ _ _ _ _ _ _ _ _ SD)) as Hp. cbn in Hp.
  pose proof (sd_inj a a' l l' u u' lam lam' idx vx vy A D A' D' rho SD IA) as IA'.
  split; [|split].
  - intros P P' V Sh' HP SW H. pose proof H as H0.
    destruct (det_inv solve rinv pinv SO RO a l u lam P sigma N _ _ W H) as (A1 & D1 & Pi & X & HA1 & Op & nA & cA & nD & cD & HN & Sh & IX & _). rewrite HA in HA1. injection HA1 as <- <-.
    assert (WP : wave_rel (List.length l) idx (scene_c l' u' lam' vx vy) (nd_mat (RtoC 0) P) (nd_mat (RtoC 0) P')).
    { apply waveform_rel; try exact SW; unfold nd_mat; rewrite ?Sh, ?Sh'; reflexivity. }
    destruct (det_defined solve rinv pinv SO RO a' l' u' lam' P' sigma N "full" A' D' W' HA' IA' HN) as (o & Ho).
    + rewrite Ln. exact Sh'.
    + intros Pi' Op'. exact (sd_rinj a a' l l' u u' lam lam' idx vx vy A D A' D' rho SD Pi Pi' _ _ X Op Op' WP HP IX).
    + now left.
    + destruct (det_inv solve rinv pinv SO RO a' l' u' lam' P' sigma N _ _ W' Ho) as (_ & _ & _ & X' & _ & _ & _ & _ & _ & _ & _ & _ & _ & E & _). cbn in E. injection E as <-.
      eexists. split; [exact Ho|]. exact (C93_det solve rinv pinv a l u lam a' l' u' lam' idx vx vy P P' sigma N V _ SO RO W W' SC HP SW H0 Ho).
  - intros p p' P P' V Dp Dp' HP Hs SW H. pose proof H as H0.
    destruct (sto_inv solve rinv SO RO a l u lam p sigma N _ _ W H) as (A1 & D1 & Pi & Pa & Z & X & HA1 & Op & nA & cA & nD & cD & HN & Un & (p1 & p2 & z1 & z2 & EZ & IX) & _). rewrite HA in HA1. injection HA1 as <- <-.
    destruct (C68_agree p' _ P' Dp') as (Pa' & _ & Un' & _ & Sh' & _).
    pose proof (denoted_matrix _ _ _ _ Dp Un) as EP. pose proof (denoted_matrix _ _ _ _ Dp' Un') as EP'.
    assert (WP : wave_rel (List.length l) idx (scene_c l' u' lam' vx vy) (nd_mat (RtoC 0) Pa) (nd_mat (RtoC 0) Pa')).
    { assert (q1 : nr (nd_mat (RtoC 0) Pa') = List.length l) by exact (meq_nr _ _ EP'). assert (q2 : nc (nd_mat (RtoC 0) Pa') = List.length l) by exact (meq_nc _ _ EP'). apply waveform_rel; try congruence. intros i j Hi Hj.
      rewrite (meq_ent _ _ i j EP') by (rewrite ?q1, ?q2; assumption). rewrite (meq_ent _ _ _ _ EP) by (rewrite ?p1, ?p2, ?cA; apply Hp; assumption). cbn. apply SW; assumption. }
    assert (HPa : psd (nd_mat (RtoC 0) Pa)) by (apply (psd_eq (Mat (List.length l) (List.length l) P)); [symmetry; exact EP|exact HP]).
    assert (HPa' : psd (nd_mat (RtoC 0) Pa')) by (apply (sd_psd a a' l l' u u' lam lam' idx vx vy A D A' D' rho SD _ _ WP HPa)).
    destruct (sto_defined solve rinv SO RO a' l' u' lam' p' Pa' sigma N "full" A' D' W' HA' IA' HN) as (o & Ho); try (rewrite ?Ln; assumption).
    + intros Pi' Z' Op' z1' z2' EZ'.
      pose proof (sd_W a a' l l' u u' lam lam' idx vx vy A D A' D' rho SD _ _ Z Z' sigma WP HPa Hs z1 z2 z1' z2' EZ EZ') as WW.
      refine (sd_rinj a a' l l' u u' lam lam' idx vx vy A D A' D' rho SD Pi Pi' _ _ X Op Op' WW _ IX).
      apply (sto_W_herm A (nd_mat (RtoC 0) Pa) Z sigma (nr A)); auto. apply HPa.
    + now left.
    + destruct (sto_inv solve rinv SO RO a' l' u' lam' p' sigma N _ _ W' Ho) as (_ & _ & _ & _ & _ & X' & _ & _ & _ & _ & _ & _ & _ & _ & _ & E & _). cbn in E. injection E as <-.
      eexists. split; [exact Ho|]. exact (C93_sto solve rinv a l u lam a' l' u' lam' idx vx vy p p' P P' sigma N V _ SO RO W W' SC Dp Dp' HP Hs SW H0 Ho).
  - intros p p' P P' V Dp Dp' SW H. pose proof H as H0.
    destruct (C72_formula solve cinv a l u lam p sigma N "all" V SO CO W H) as (A1 & D1 & Pi & Pa & Pv & Gv & Bm & Hk & HA1 & nA & cA & Op & HN & Un & p1 & p2 & v1 & v2 & g1 & g2 & EPv & EGv & EB & n1 & n2 & Hh & HV & _). rewrite HA in HA1. injection HA1 as <- <-.
    pose proof (denoted_matrix _ _ _ _ Dp Un) as EP.
    pose proof SD as [_ (mA' & qA & qA' & qD & qD' & mD & mD') B U Nz EA ED].
    assert (exists V', ecov_music_1d solve cinv a' (FF1 l' u') lam' p' sigma N "all" "full" = Ok (Some (OFull V'))) as (V' & HV').
    { apply (C72_defined solve cinv a' l' u' lam' p' P' sigma N "all" A' D' SO CO W'); try assumption.
      - destruct (steering_shape a' l' u' lam' "all" A' D' W' HA') as (s1 & _). rewrite Ln. rewrite <- s1, mA', nA. exact Hk.
      - rewrite Ln. exact Dp'.
      - rewrite Ln. (* P' = T^H P T is invertible *)
        assert (WP : wave_rel (List.length l) idx (scene_c l' u' lam' vx vy) (Mat (List.length l) (List.length l) P) (Mat (List.length l) (List.length l) P')) by (apply waveform_rel; try reflexivity; exact SW).
        destruct WP as (_ & _ & _ & _ & WP).
        apply (Base_Lin.inj_eq (mher (mono (List.length l) (fun j => nth j idx 0%nat) (scene_c l' u' lam' vx vy)) *m Mat (List.length l) (List.length l) P *m mono (List.length l) (fun j => nth j idx 0%nat) (scene_c l' u' lam' vx vy))).
        { symmetry. exact (sim_P (List.length l) (fun j => nth j idx 0%nat) rho (scene_c l' u' lam' vx vy) B (Mat (List.length l) (List.length l) P) (Mat (List.length l) (List.length l) P') (conj eq_refl eq_refl) (conj eq_refl eq_refl) WP). }
        apply inj_mmul; [reflexivity| |].
        + apply inj_mmul; [reflexivity| |].
          * apply (left_inv_inj _ (mono (List.length l) (fun j => nth j idx 0%nat) (scene_c l' u' lam' vx vy)) (List.length l)); [|reflexivity]. apply (mono_unit_r _ _ rho _ B U).
          * apply (left_inv_inj _ Pv (List.length l)); [|cbn; exact v2]. apply left_inv_right; try assumption; try reflexivity.
            rewrite <- EPv. apply mmul_eq_l. symmetry. exact EP.
        + apply (left_inv_inj _ (mher (mono (List.length l) (fun j => nth j idx 0%nat) (scene_c l' u' lam' vx vy))) (List.length l)); [|reflexivity]. apply (mono_unit_l _ _ rho _ B U).
      - intros Pi' Op' i Hi. rewrite Ln in Hi.
        pose proof (sd_proj a a' l l' u u' lam lam' idx vx vy A D A' D' rho SD Pi Op) as OpA'.
        pose proof (projector_unique A' Pi' Pi Op' OpA') as EPi.
        pose proof (sim_h _ _ rho _ _ _ B A D D' qA mD mD' ED Pi i i Op Hi Hi) as E. unfold hh in E.
        replace (bform (mid (nr D') -m Pi') (col D' i) (col D' i)) with (bform (mid (nr D') -m Pi) (col D' i) (col D' i)).
        + rewrite E, (U i Hi), Cmult_1_r, Re_mult, Re_RtoC, Im_RtoC. pose proof (Nz i Hi). pose proof (Hh _ (Hp i Hi)) as Hz. cbn beta in Hz.
          intros E0. apply Hz. apply Rmult_eq_reg_l with (scene_s l u l' u' idx i * scene_s l u l' u' idx i)%R; [rewrite Rmult_0_r; rewrite <- E0; ring|].
          apply Rmult_integral_contrapositive_currified; assumption.
        + apply csum_ext. cbn. intros x Hx. apply csum_ext. intros y Hy. cbn.
          rewrite (meq_ent _ _ x y EPi); [reflexivity| |]; destruct (op_shape _ _ Op') as (w1 & w2); rewrite ?w1, ?w2, mA', <- mD'; assumption. }
    exists V'. split; [exact HV'|]. exact (C93_music solve cinv a l u lam a' l' u' lam' idx vx vy p p' P P' sigma N V V' SO CO W W' SC Dp Dp' SW H0 HV').
Qed.

(** ** what the definitions of the specification mean *)
(** [unit_step] is the derivative of the conversion to radians *)
Theorem C93_unit_step : forall u x, known_unit u -> (u = "sin"%string -> (-1 < x < 1)%R) -> derivable_pt_lim (to_rad u) x (unit_step u x).
Proof.
  intros u x K I. destruct K as [->|[->| ->]].
  - exact (derivable_pt_lim_id x).
  - pose proof (derivable_pt_lim_mult id (fct_cte (PI / 180)) x 1 0 (derivable_pt_lim_id x) (derivable_pt_lim_const _ x)) as D.
    replace (1 * fct_cte (PI / 180) x + id x * 0)%R with (unit_step "deg" x) in D by (unfold unit_step, fct_cte, id; cbn; ring). exact D.
  - specialize (I eq_refl). pose proof (derive_pt_eq_1 _ _ _ _ (derive_pt_asin x I)) as D. unfold Rsqr in D. unfold Rdiv in D. rewrite Rmult_1_l in D. exact D.
Qed.
Lemma zero_shift l' u' lam' j : shift_phase l' u' lam' 0 0 j = 0%R.
Proof. unfold shift_phase. ring. Qed.
Lemma same_waveforms_id k l' u' lam' P : same_waveforms k (seq 0 k) (shift_phase l' u' lam' 0 0) P P.
Proof. intros i j Hi Hj. rewrite !zero_shift, !seq_nth by assumption. cbn [Nat.add]. rewrite Rminus_diag_eq, cis_0 by reflexivity. ring. Qed.
Lemma same_waveforms_perm k idx l' u' lam' P P' : (forall i j, (i < k)%nat -> (j < k)%nat -> P' i j = P (nth i idx 0%nat) (nth j idx 0%nat)) ->
  same_waveforms k idx (shift_phase l' u' lam' 0 0) P P'.
Proof. intros H i j Hi Hj. rewrite !zero_shift, (H i j Hi Hj), Rminus_diag_eq, cis_0 by reflexivity. ring. Qed.

(** ** the three bounds in another unit, in another order *)
Theorem C93_units : forall solve cinv rinv pinv a l u v lam sigma N A D,
  solve_exact solve -> cinv_exact cinv -> rinv_exact rinv -> wf_array a -> valid_sources (FF1 l u) -> off_endfire u l -> known_unit v ->
  steering_matrix a (FF1 l u) lam true "all" false = Ok (Flat A, [D]) -> inj A ->
  exists l', as_unit (FF1 l u) v = Ok (FF1 l' v) /\ List.length l' = List.length l /\
  let converted (V V' : rmat) := nr V' = List.length l /\ nc V' = List.length l /\ forall i j, (i < List.length l)%nat -> (j < List.length l)%nat ->
    (unit_step v (nth i l' 0) * unit_step v (nth j l' 0) * ent V' i j = unit_step u (nth i l 0) * unit_step u (nth j l 0) * ent V i j)%R in
  (forall P V, hermitian (nd_mat (RtoC 0) P) ->
     crb_det_farfield_1d solve rinv pinv a (FF1 l u) lam P sigma N "full" = Ok (OFull V) ->
     exists V', crb_det_farfield_1d solve rinv pinv a (FF1 l' v) lam P sigma N "full" = Ok (OFull V') /\ converted V V') /\
  (forall p P V, denotes (List.length l) p P -> psd (Mat (List.length l) (List.length l) P) -> (0 < sigma)%R ->
     crb_sto_farfield_1d solve rinv a (FF1 l u) lam p sigma N "full" = Ok (OFull V) ->
     exists V', crb_sto_farfield_1d solve rinv a (FF1 l' v) lam p sigma N "full" = Ok (OFull V') /\ converted V V') /\
  (forall p P V, denotes (List.length l) p P ->
     ecov_music_1d solve cinv a (FF1 l u) lam p sigma N "all" "full" = Ok (Some (OFull V)) ->
     exists V', ecov_music_1d solve cinv a (FF1 l' v) lam p sigma N "all" "full" = Ok (Some (OFull V')) /\ converted V V').
Proof.
  intros solve cinv rinv pinv a l u v lam sigma N A D SO CO RO W Vs Off K HA IA.
  destruct (scene_units a l u v lam A D HA Vs K Off) as (l' & E & SC). exists l'. split; [exact E|].
  pose proof (scene_len a a l l' u v lam lam _ 0 0 SC) as Ln. split; [exact Ln|]. intros converted.
  destruct (steering_any a l u l' v lam "all" A D HA) as (A' & D' & HA').
  destruct (C93_defined solve cinv rinv pinv a l u lam a l' v lam _ 0 0 sigma N A D _ SO CO RO W W SC HA IA HA') as (T1 & T2 & T3).
  assert (CV : forall V V', same_in_radians l u V l' v V' (seq 0 (List.length l)) -> converted V V').
  { intros V V' (m1 & m2 & H). rewrite Ln in *. split; [exact m1|]. split; [exact m2|]. intros i j Hi Hj. rewrite (H i j Hi Hj), !seq_nth by assumption. reflexivity. }
  split; [|split].
  - intros P V HP H. destruct (T1 P P V) as (V' & H' & S'); try assumption.
    + destruct (det_inv solve rinv pinv SO RO a l u lam P sigma N _ _ W H) as (_ & _ & _ & _ & _ & _ & _ & _ & _ & _ & _ & Sh & _). exact Sh.
    + apply same_waveforms_id.
    + exists V'. split; [exact H'|apply CV, S'].
  - intros p P V Dp HP Hs H. destruct (T2 p p P P V) as (V' & H' & S'); try assumption; [apply same_waveforms_id|]. exists V'. split; [exact H'|apply CV, S'].
  - intros p P V Dp H. destruct (T3 p p P P V) as (V' & H' & S'); try assumption; [apply same_waveforms_id|]. exists V'. split; [exact H'|apply CV, S'].
Qed.

Theorem C93_order : forall solve cinv rinv pinv a l u lam idx sigma N A D,
  solve_exact solve -> cinv_exact cinv -> rinv_exact rinv -> wf_array a -> valid_sources (FF1 l u) -> off_endfire u l ->
  Permutation idx (seq 0 (List.length l)) ->
  steering_matrix a (FF1 l u) lam true "all" false = Ok (Flat A, [D]) -> inj A ->
  (forall P P' V, nd_shape P' = [List.length l; List.length l] -> hermitian (nd_mat (RtoC 0) P) -> reordered (List.length l) idx (ent (nd_mat (RtoC 0) P)) (ent (nd_mat (RtoC 0) P')) ->
     crb_det_farfield_1d solve rinv pinv a (FF1 l u) lam P sigma N "full" = Ok (OFull V) ->
     exists V', crb_det_farfield_1d solve rinv pinv a (select_sources (FF1 l u) idx) lam P' sigma N "full" = Ok (OFull V') /\ reordered (List.length l) idx (ent V) (ent V')) /\
  (forall p p' P P' V, denotes (List.length l) p P -> denotes (List.length l) p' P' -> psd (Mat (List.length l) (List.length l) P) -> (0 < sigma)%R -> reordered (List.length l) idx P P' ->
     crb_sto_farfield_1d solve rinv a (FF1 l u) lam p sigma N "full" = Ok (OFull V) ->
     exists V', crb_sto_farfield_1d solve rinv a (select_sources (FF1 l u) idx) lam p' sigma N "full" = Ok (OFull V') /\ reordered (List.length l) idx (ent V) (ent V')) /\
  (forall p p' P P' V, denotes (List.length l) p P -> denotes (List.length l) p' P' -> reordered (List.length l) idx P P' ->
     ecov_music_1d solve cinv a (FF1 l u) lam p sigma N "all" "full" = Ok (Some (OFull V)) ->
     exists V', ecov_music_1d solve cinv a (select_sources (FF1 l u) idx) lam p' sigma N "all" "full" = Ok (Some (OFull V')) /\ reordered (List.length l) idx (ent V) (ent V')).
Proof.
  intros solve cinv rinv pinv a l u lam idx sigma N A D SO CO RO W Vs Off Pm HA IA.
  destruct (scene_order a l u lam idx A D HA Vs Off Pm) as (l' & E & SC). rewrite E.
  pose proof (scene_len a a l l' u u lam lam _ 0 0 SC) as Ln.
  destruct (steering_any a l u l' u lam "all" A D HA) as (A' & D' & HA').
  destruct (C93_defined solve cinv rinv pinv a l u lam a l' u lam _ 0 0 sigma N A D _ SO CO RO W W SC HA IA HA') as (T1 & T2 & T3).
  assert (El : forall i, (i < List.length l)%nat -> nth i l' 0%R = nth (nth i idx 0%nat) l 0%R).
  { intros i Hi. injection E as <-. pose proof (Permutation_length Pm) as Lq. rewrite seq_length in Lq. rewrite (nth_indep _ 0%R (nth 0%nat l 0%R)) by (rewrite map_length; lia). apply (map_nth (fun i => nth i l 0%R)). }
  assert (CV : forall V V', same_in_radians l u V l' u V' idx -> reordered (List.length l) idx (ent V) (ent V')).
  { intros V V' (_ & _ & H) i j Hi Hj. rewrite Ln in H. specialize (H i j Hi Hj). rewrite (El i Hi), (El j Hj) in H.
    destruct (step_nz a a l l' u u lam lam idx 0 0 SC i Hi) as (Z1 & _). destruct (step_nz a a l l' u u lam lam idx 0 0 SC j Hj) as (Z2 & _).
    apply Rmult_eq_reg_l in H; [exact H|]. apply Rmult_integral_contrapositive_currified; assumption. }
  split; [|split].
  - intros P P' V Sh HP RP H. destruct (T1 P P' V) as (V' & H' & S'); try assumption; [apply same_waveforms_perm; exact RP|]. exists V'. split; [exact H'|apply CV, S'].
  - intros p p' P P' V Dp Dp' HP Hs RP H. destruct (T2 p p' P P' V) as (V' & H' & S'); try assumption; [apply same_waveforms_perm; exact RP|]. exists V'. split; [exact H'|apply CV, S'].
  - intros p p' P P' V Dp Dp' RP H. destruct (T3 p p' P P' V) as (V' & H' & S'); try assumption; [apply same_waveforms_perm; exact RP|]. exists V'. split; [exact H'|apply CV, S'].
Qed.
