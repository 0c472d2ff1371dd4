(** Two sensors, one source: the AML objective has two global minima. *)
From Coq Require Import Lra Sorting.Permutation Sorting.Sorted.
From Verif Require Import Base_Np Base_Trig Base_Lin M_utils M_sources M_array M_coarray M_heap M_grid M_core M_ml S_utils S_subspace S_stable S_ml S_invar3 P_utils P_subspace P_subspace2 P_subspace3 P_spectral P_perf3 P_perf5 P_ml3 P_ml4 P_ml5 P_ml6 P_ml7 Prop_ml2 Prop_ml4 P_oracles P_stable P_pipeline P_signals S_mlc P_mlc P_mlc2 P_mlc5 P_mlc8 P_mlc9 P_mlc10.
Open Scope C_scope.

Lemma gram_projector (A : cmat) c : (0 < c)%R -> mher A *m A ==m mscal (RtoC c) (mid (nc A)) -> orth_projector_onto A (mscal (RtoC (/ c)) (A *m mher A)).
Proof.
  intros Hc HG. set (P := mscal (RtoC (/ c)) (A *m mher A)). assert (CC : RtoC (/ c) * RtoC c = RtoC 1) by (rewrite <- RtoC_mult; f_equal; field; lra).
  assert (FX : P *m A ==m A).
  { unfold P. etransitivity; [apply mscal_mmul_l|]. transitivity (mscal (RtoC (/ c)) (A *m (mher A *m A))); [apply mscal_eq; apply mmul_assoc|].
    transitivity (mscal (RtoC (/ c)) (A *m mscal (RtoC c) (mid (nc A)))); [apply mscal_eq; apply mmul_eq_r; [reflexivity|exact HG]|]. transitivity (mscal (RtoC (/ c)) (mscal (RtoC c) A)).
    - apply mscal_eq. etransitivity; [apply mscal_mmul_r|]. apply mscal_eq, mmul_id_r. reflexivity.
    - split; [reflexivity|]. split; [reflexivity|]. intros i j _ _. cbn [mscal ent]. replace (RtoC (/ c) * (RtoC c * ent A i j)) with ((RtoC (/ c) * RtoC c) * ent A i j) by ring. rewrite CC. ring. }
  constructor.
  - split; reflexivity.
  - unfold P at 2. etransitivity; [apply mscal_mmul_r|]. unfold P at 2. apply mscal_eq. etransitivity; [symmetry; apply mmul_assoc|]. apply mmul_eq_l, FX.
  - split; [reflexivity|]. split; [reflexivity|]. intros i j Hi Hj. unfold P. cbn [mher mscal mmul ent nr nc]. rewrite Cmult_conj, Cconj_RtoC. f_equal. rewrite csum_conj. apply csum_ext. intros q Hq. rewrite Cmult_conj, Cconj_conj. ring.
  - exact FX.
  - exists (mscal (RtoC (/ c)) (mher A)). split; [reflexivity|]. split; [reflexivity|]. unfold P. symmetry. apply mscal_mmul_r.
Qed.
(** k sources of equal power p in m = 2k sensors with mutually orthogonal steering vectors A; the columns of B span the orthogonal complement *)
Lemma aml_same env M (A B Rm : cmat) m k p s v v' : ml_kind env = AML -> ml_routines env -> ar_size (ml_array env) = m -> m = (2 * k)%nat -> (1 <= k)%nat -> (0 <= p)%R -> (0 < s)%R ->
  nr A = m -> nc A = k -> nr B = m -> nc B = k -> mher A *m A ==m mscal (RtoC (INR m)) (mid k) -> mher B *m B ==m mscal (RtoC (INR m)) (mid k) ->
  A *m mher A +m B *m mher B ==m mscal (RtoC (INR m)) (mid m) -> inj A -> exact_cov Rm A (mscal (RtoC p) (mid k)) s -> pd Rm ->
  nll env M A Rm k = Ok v -> nll env M B Rm k = Ok v' -> v' = v /\ exists w E, eigh_ok Rm w E /\ v = Some (logdet w m).
Proof.
  intros Kd ((Hp & _) & _ & Hr & _) Sz Hm Hk Pp Sp A1 A2 B1 B2 GA GB CP HI HX PD V V'. rewrite Sz in Hr. unfold nll in V, V'. rewrite Kd, Sz in V, V'. pose proof (slogdet_regular_ok _ _ Hr) as SO. assert (Mp : (0 < INR m)%R) by (apply lt_0_INR; lia).
  pose proof (proj1 PD) as HH. pose proof HX as (_ & _ & ER). assert (R1 : nr Rm = m) by (rewrite (meq_nr _ _ ER); exact A1). assert (KL : (k < m)%nat) by lia.
  destruct (aml_matrix (ml_pinv env) m k A Rm) as [H1|] eqn:E1; [|discriminate]. destruct (aml_matrix (ml_pinv env) m k B Rm) as [H2|] eqn:E2; [|discriminate]. cbn [bind] in V, V'.
  destruct (aml_ok _ m _ _ _ _ Hp A1 HH R1 KL E1) as (P & OP & Q1). destruct (aml_ok _ m _ _ _ _ Hp B1 HH R1 KL E2) as (P' & OP' & Q2).
  pose proof (gram_projector A (INR m) Mp ltac:(rewrite A2; exact GA)) as OA. pose proof (gram_projector B (INR m) Mp ltac:(rewrite B2; exact GB)) as OB.
  pose proof (proj_unique _ _ _ OP OA) as EA. pose proof (proj_unique _ _ _ OP' OB) as EB.
  assert (C1 : concentrated P Rm m k ==m Rm). { pose proof (conc_exact Rm A _ s P HX HH OP HI ltac:(lia)) as X. now rewrite A1, A2 in X. }
  assert (CC : RtoC (/ INR m) * RtoC (INR m) = RtoC 1) by (rewrite <- RtoC_mult; f_equal; field; lra).
  assert (EP : P' ==m mid m -m P).
  { etransitivity; [exact EB|]. transitivity (mid m -m mscal (RtoC (/ INR m)) (A *m mher A)).
    - split; [mdim|]. split; [mdim|]. intros i j Hi Hj. cbn [mscal mmul mher nr nc] in Hi, Hj. pose proof (meq_ent _ _ i j CP ltac:(mdim) ltac:(mdim)) as Y. cbn [madd mscal ent] in Y. cbn [mscal msub ent].
      replace (ent (B *m mher B) i j) with (RtoC (INR m) * ent (mid m) i j - ent (A *m mher A) i j) by (rewrite <- Y; ring). replace (RtoC (/ INR m) * (RtoC (INR m) * ent (mid m) i j - ent (A *m mher A) i j)) with ((RtoC (/ INR m) * RtoC (INR m)) * ent (mid m) i j - RtoC (/ INR m) * ent (A *m mher A) i j) by ring. rewrite CC. cbn. ring.
    - apply msub_eq; [mdim|mdim|reflexivity|now symmetry]. }
  assert (ER2 : Rm ==m mscal (RtoC (p * INR m)) P +m mscal (RtoC s) (mid m)).
  { etransitivity; [exact ER|]. rewrite A1. apply madd_eq; [mdim|mdim| |reflexivity]. transitivity (mscal (RtoC p) (A *m mher A)).
    - transitivity (mscal (RtoC p) A *m mher A); [apply mmul_eq_l|apply mscal_mmul_l]. etransitivity; [apply mscal_mmul_r|]. apply mscal_eq, mmul_id_r. congruence.
    - transitivity (mscal (RtoC (p * INR m)) (mscal (RtoC (/ INR m)) (A *m mher A))); [|apply mscal_eq; now symmetry]. split; [reflexivity|]. split; [reflexivity|]. intros i j _ _. cbn [mscal ent]. rewrite RtoC_mult.
      replace (RtoC p * RtoC (INR m) * (RtoC (/ INR m) * ent (A *m mher A) i j)) with (RtoC p * (RtoC (/ INR m) * RtoC (INR m)) * ent (A *m mher A) i j) by ring. rewrite CC. ring. }
  pose proof (conc_swap Rm P P' A B m k _ s A1 B1 A2 Hm Hk HI OP OP' EP ER2) as C2.
  destruct (eigh_ref_ok Rm HH) as (w & E & _ & OE). pose proof (eigh_pos Rm w E PD OE) as WP. rewrite R1 in WP.
  assert (S1 : Rm ==m H1) by (symmetry; etransitivity; [exact Q1|exact C1]). assert (S2 : Rm ==m H2) by (symmetry; etransitivity; [exact Q2|exact C2]).
  rewrite (aml_value_pos (ml_slogdet env) m H1 w E SO) in V; [|rewrite <- (meq_nr _ _ S1); exact R1|exact (hermitian_eq _ _ S1 HH)|exact (eigh_ok_eq _ _ _ _ S1 OE)|exact WP].
  rewrite (aml_value_pos (ml_slogdet env) m H2 w E SO) in V'; [|rewrite <- (meq_nr _ _ S2); exact R1|exact (hermitian_eq _ _ S2 HH)|exact (eigh_ok_eq _ _ _ _ S2 OE)|exact WP].
  injection V as <-. injection V' as <-. split; [reflexivity|]. exists w, E. split; [exact OE|reflexivity].
Qed.
