(** Moments of the emitted signals. *)
From Verif Require Import Base_Np Base_Trig Base_Lin M_utils M_sources M_array M_signals S_signals P_subspace3.
Open Scope C_scope.

(** one complex sample made from the normal draws P (imaginary part) and Q (real part) *)
Definition cw (P Q : nat) (x : nat -> R) : C := (Ci * RtoC (x P) + RtoC (x Q)) * RtoC (sqrt (1 / 2)).
Definition kd (i j : nat) : R := if Nat.eqb i j then 1%R else 0%R.
Lemma half_sq : (sqrt (1 / 2) * sqrt (1 / 2) = 1 / 2)%R. Proof. apply sqrt_sqrt. lra. Qed.

Section E.
  Variables (N : nat) (E : ((nat -> R) -> R) -> R).
  Hypothesis W : white N E.
  Lemma E_0 : E (fun _ => 0%R) = 0%R.
  Proof. pose proof (wh_lin N E W 0 0 (fun _ => 0%R) (fun _ => 0%R)) as H. rewrite !Rmult_0_l, Rplus_0_l in H. etransitivity; [|exact H]. apply (wh_ext N E W). intros; ring. Qed.
  Lemma E_plus f g : E (fun x => f x + g x)%R = (E f + E g)%R.
  Proof. pose proof (wh_lin N E W 1 1 f g) as H. rewrite !Rmult_1_l in H. rewrite <- H. apply (wh_ext N E W). intros; ring. Qed.
  Lemma E_scal a f : E (fun x => a * f x)%R = (a * E f)%R.
  Proof. pose proof (wh_lin N E W a 0 f f) as H. rewrite Rmult_0_l, Rplus_0_r in H. rewrite <- H. apply (wh_ext N E W). intros; ring. Qed.
  Lemma ex_ext f g : (forall x, f x = g x) -> expect E f = expect E g.
  Proof. intros H. unfold expect. f_equal; apply (wh_ext N E W); intros x; now rewrite H. Qed.
  Lemma ex_plus f g : expect E (fun x => f x + g x) = expect E f + expect E g.
  Proof. unfold expect, Cplus. cbn [fst snd]. f_equal; rewrite <- E_plus; reflexivity. Qed.
  Lemma ex_scal c f : expect E (fun x => c * f x) = c * expect E f.
  Proof.
    unfold expect, Cmult. cbn [fst snd]. f_equal.
    - replace (fst c * E (fun x => Re (f x)) - snd c * E (fun x => Im (f x)))%R with (fst c * E (fun x => Re (f x)) + (- snd c) * E (fun x => Im (f x)))%R by ring. rewrite <- (wh_lin N E W). apply (wh_ext N E W). intros x. unfold Re, Im, Cmult. cbn. ring.
    - rewrite <- (wh_lin N E W). apply (wh_ext N E W). intros x. unfold Re, Im, Cmult. cbn. ring.
  Qed.
  Lemma ex_0 : expect E (fun _ => RtoC 0) = RtoC 0.
  Proof. unfold expect. cbn. rewrite E_0. reflexivity. Qed.
  Lemma ex_csum k f : expect E (fun x => csum k (fun a => f a x)) = csum k (fun a => expect E (f a)).
  Proof. induction k; cbn [csum]; [apply ex_0|]. rewrite ex_plus, IHk. reflexivity. Qed.
  Lemma cw_mean P Q : (P < N)%nat -> (Q < N)%nat -> expect E (cw P Q) = RtoC 0.
  Proof.
    intros HP HQ. unfold expect, RtoC. f_equal.
    - rewrite (wh_ext N E W _ (fun x => sqrt (1 / 2) * x Q)%R) by (intros x; unfold cw, Re, Ci, Cmult, Cplus, RtoC; cbn [fst snd]; ring). rewrite E_scal, (wh_mean N E W Q HQ). ring.
    - rewrite (wh_ext N E W _ (fun x => sqrt (1 / 2) * x P)%R) by (intros x; unfold cw, Im, Ci, Cmult, Cplus, RtoC; cbn [fst snd]; ring). rewrite E_scal, (wh_mean N E W P HP). ring.
  Qed.
  Lemma cw_cov P Q P' Q' : (P < N)%nat -> (Q < N)%nat -> (P' < N)%nat -> (Q' < N)%nat ->
    expect E (fun x => cw P Q x * Cconj (cw P' Q' x)) = ((kd Q Q' + kd P P') / 2, (kd P Q' - kd Q P') / 2)%R.
  Proof.
    intros HP HQ HP' HQ'. pose proof half_sq as S2. unfold expect. f_equal.
    - rewrite (wh_ext N E W _ (fun x => 1 / 2 * (x Q * x Q')%R + 1 / 2 * (x P * x P')%R)%R).
      + rewrite (wh_lin N E W), !(wh_cov N E W) by assumption. unfold kd. lra.
      + intros x. rewrite <- S2. unfold cw, Re, Ci, Cmult, Cplus, Cconj, RtoC; cbn [fst snd]. ring.
    - rewrite (wh_ext N E W _ (fun x => 1 / 2 * (x P * x Q')%R + (- (1 / 2)) * (x Q * x P')%R)%R).
      + rewrite (wh_lin N E W), !(wh_cov N E W) by assumption. unfold kd. lra.
      + intros x. rewrite <- S2. unfold cw, Im, Ci, Cmult, Cplus, Cconj, RtoC; cbn [fst snd]. ring.
  Qed.
  Lemma cw_rel P Q P' Q' : (P < N)%nat -> (Q < N)%nat -> (P' < N)%nat -> (Q' < N)%nat ->
    expect E (fun x => cw P Q x * cw P' Q' x) = ((kd Q Q' - kd P P') / 2, (kd P Q' + kd Q P') / 2)%R.
  Proof.
    intros HP HQ HP' HQ'. pose proof half_sq as S2. unfold expect. f_equal.
    - rewrite (wh_ext N E W _ (fun x => 1 / 2 * (x Q * x Q')%R + (- (1 / 2)) * (x P * x P')%R)%R).
      + rewrite (wh_lin N E W), !(wh_cov N E W) by assumption. unfold kd. lra.
      + intros x. rewrite <- S2. unfold cw, Re, Ci, Cmult, Cplus, Cconj, RtoC; cbn [fst snd]. ring.
    - rewrite (wh_ext N E W _ (fun x => 1 / 2 * (x P * x Q')%R + 1 / 2 * (x Q * x P')%R)%R).
      + rewrite (wh_lin N E W), !(wh_cov N E W) by assumption. unfold kd. lra.
      + intros x. rewrite <- S2. unfold cw, Im, Ci, Cmult, Cplus, Cconj, RtoC; cbn [fst snd]. ring.
  Qed.
  (** linear combinations of random variables *)
  Lemma ex_bilin k k' (g g' : nat -> C) (f f' : nat -> (nat -> R) -> C) (h : C -> C) :
    (forall a b, h (a + b) = h a + h b) -> (forall a b, h (a * b) = h a * h b) -> h (RtoC 0) = RtoC 0 ->
    expect E (fun x => csum k (fun a => g a * f a x) * h (csum k' (fun b => g' b * f' b x))) = csum k (fun a => csum k' (fun b => g a * h (g' b) * expect E (fun x => f a x * h (f' b x)))).
  Proof.
    intros Hp Hm H0. rewrite (ex_ext _ (fun x => csum k (fun a => csum k' (fun b => (g a * h (g' b)) * (f a x * h (f' b x)))))).
    - rewrite (ex_csum k (fun a x => csum k' (fun b => g a * h (g' b) * (f a x * h (f' b x))))). apply csum_ext. intros a Ha. rewrite (ex_csum k' (fun b x => g a * h (g' b) * (f a x * h (f' b x)))). apply csum_ext. intros b Hb. apply ex_scal.
    - intros x. assert (HS : forall q u, h (csum q u) = csum q (fun b => h (u b))) by (induction q; intros u; cbn [csum]; [exact H0 | rewrite Hp, IHq; reflexivity]). rewrite HS, <- csum_scal_r. apply csum_ext. intros a Ha. rewrite <- csum_scal. apply csum_ext. intros b Hb. rewrite Hm. ring.
  Qed.
End E.

(** *** the generator *)
Definition gain (g : cstoch) : cmat :=
  match g with StoScalar k c2 => mdiag k (fun _ => RtoC c2) | StoVec k c2 => mdiag k (fun i => RtoC (nth i c2 0%R)) | StoMat _ c2 => c2 end.
Definition wf_gen (g : cstoch) : Prop := nr (gain g) = sto_dim g /\ nc (gain g) = sto_dim g.
Lemma mk_stochastic_ok sqrtm dim c : sqrtm_ok sqrtm -> carg_ok dim c ->
  exists g, mk_stochastic sqrtm dim c = Ok g /\ sto_dim g = dim /\ wf_gen g /\ gain g *m mher (gain g) ==m carg_cov dim c.
Proof.
  intros HS HC. destruct c as [x|l|c| |]; cbn [carg_ok] in HC; try contradiction.
  - eexists. split; [reflexivity|]. split; [reflexivity|]. split; [split; reflexivity|]. cbn [gain carg_cov]. etransitivity; [apply mmul_diag_l; reflexivity|]. split; [reflexivity|]. split; [reflexivity|]. intros i j Hi Hj. cbn [mher mdiag ent nr nc] in *. rewrite (Nat.eqb_sym j i). destruct (Nat.eqb i j); [|rewrite Cconj_0; ring]. rewrite Cconj_RtoC, <- RtoC_mult, sqrt_sqrt by exact HC. reflexivity.
  - destruct HC as (HL & HF). unfold mk_stochastic. rewrite HL, Nat.eqb_refl. eexists. split; [reflexivity|]. split; [reflexivity|]. split; [split; reflexivity|]. cbn [gain carg_cov]. etransitivity; [apply mmul_diag_l; reflexivity|]. split; [reflexivity|]. split; [reflexivity|]. intros i j Hi Hj. cbn [mher mdiag ent nr nc] in *. rewrite (Nat.eqb_sym j i). destruct (Nat.eqb_spec i j) as [->|]; [|rewrite Cconj_0; ring]. rewrite Cconj_RtoC, <- RtoC_mult. rewrite (nth_indep _ 0%R (sqrt 0)) by (rewrite map_length; lia). rewrite map_nth, sqrt_sqrt; [reflexivity|]. rewrite Forall_forall in HF. apply HF, nth_In. lia.
  - destruct HC as (H1 & H2 & HP). destruct (HS c HP) as (X & EX & HX & NX & XX). unfold mk_stochastic. rewrite H1, H2, Nat.eqb_refl. cbn [negb orb]. rewrite EX. cbn [bind]. eexists. split; [reflexivity|]. split; [reflexivity|]. split; [split; cbn [gain sto_dim]; [congruence | rewrite <- (proj1 HX); congruence]|].
    cbn [gain carg_cov]. etransitivity; [apply mmul_eq_r; [cbn [mher nr]; reflexivity | apply hermitian_mher; exact HX] | exact XX].
Qed.
Definition white_sample (u k n : nat) (x : nat -> R) (a t : nat) : C := cw (u + (a * n + t)) (u + k * n + (a * n + t)) x.
Lemma sto_emit_ok d g n st : wf_gen g -> exists Y W, randcn d (sto_dim g) n st = (W, Rng (used_normals st + 2 * (sto_dim g * n)) (used_uniforms st)) /\
  sto_emit d g n st = (Ok Y, Rng (used_normals st + 2 * (sto_dim g * n)) (used_uniforms st)) /\
  nr W = sto_dim g /\ nc W = n /\ nr Y = sto_dim g /\ nc Y = n /\ Y ==m gain g *m W /\
  forall a t, ent W a t = white_sample (used_normals st) (sto_dim g) n (normals d) a t.
Proof.
  intros (G1 & G2). set (k := sto_dim g) in *. assert (ER : randcn d k n st = (Mat k n (fun i t => white_sample (used_normals st) k n (normals d) i t), Rng (used_normals st + 2 * (k * n)) (used_uniforms st))).
  { unfold randcn, randn. cbn [used_normals used_uniforms]. do 2 f_equal. lia. }
  destruct g as [k' c2|k' c2|k' c2]; cbn [sto_dim gain] in *; unfold sto_emit; cbn [sto_dim]; change k with k' in *; rewrite ER.
  - eexists _, _. split; [reflexivity|]. split; [reflexivity|]. repeat (split; [reflexivity|]). split; [|reflexivity]. symmetry. etransitivity; [apply mmul_diag_l; reflexivity|]. reflexivity.
  - eexists _, _. split; [reflexivity|]. split; [reflexivity|]. repeat (split; [reflexivity|]). split; [|reflexivity]. symmetry. etransitivity; [apply mmul_diag_l; reflexivity|]. reflexivity.
  - rewrite matmul_ok by exact G2. eexists _, _. split; [reflexivity|]. split; [reflexivity|]. split; [reflexivity|]. split; [reflexivity|]. split; [exact G1|]. split; [reflexivity|]. split; reflexivity.
Qed.
Lemma idx_inj n a b t t' : (t < n)%nat -> (t' < n)%nat -> Nat.eqb (a * n + t) (b * n + t') = (Nat.eqb a b && Nat.eqb t t')%bool.
Proof.
  intros Ht Ht'. destruct (Nat.eqb_spec (a * n + t) (b * n + t')) as [E|N].
  - assert (a = b) by nia. subst b. rewrite Nat.eqb_refl. assert (t = t') by lia. subst. now rewrite Nat.eqb_refl.
  - destruct (Nat.eqb_spec a b) as [->|]; [|reflexivity]. destruct (Nat.eqb_spec t t') as [->|]; [now elim N | reflexivity].
Qed.
Lemma idx_lt k n a t : (a < k)%nat -> (t < n)%nat -> (a * n + t < k * n)%nat. Proof. nia. Qed.
Lemma kd_shift c a b : kd (c + a) (c + b) = kd a b.
Proof. unfold kd. destruct (Nat.eqb_spec a b) as [->|]; [now rewrite Nat.eqb_refl|]. destruct (Nat.eqb_spec (c + a) (c + b)); [lia | reflexivity]. Qed.
Lemma kd_ne a b : a <> b -> kd a b = 0%R. Proof. intros H. unfold kd. destruct (Nat.eqb_spec a b); [contradiction | reflexivity]. Qed.
Section Moments.
  Variables (N : nat) (E : ((nat -> R) -> R) -> R).
  Hypothesis W : white N E.
  Variables (u k n : nat).
  Hypothesis HN : (u + 2 * (k * n) <= N)%nat.
  Notation ws := (white_sample u k n).
  Lemma ws_mean a t : (a < k)%nat -> (t < n)%nat -> expect E (fun x => ws x a t) = RtoC 0.
  Proof. intros Ha Ht. pose proof (idx_lt k n a t Ha Ht). apply (cw_mean N E W); lia. Qed.
  Lemma ws_cov a b t t' : (a < k)%nat -> (b < k)%nat -> (t < n)%nat -> (t' < n)%nat ->
    expect E (fun x => ws x a t * Cconj (ws x b t')) = if (Nat.eqb a b && Nat.eqb t t')%bool then RtoC 1 else RtoC 0.
  Proof.
    intros Ha Hb Ht Ht'. pose proof (idx_lt k n a t Ha Ht). pose proof (idx_lt k n b t' Hb Ht'). unfold white_sample. rewrite (cw_cov N E W) by lia. rewrite (kd_ne (u + (a * n + t)) (u + k * n + _)), (kd_ne (u + k * n + _) (u + (b * n + t'))) by lia.
    rewrite !kd_shift. unfold kd. rewrite idx_inj by assumption. destruct (_ && _)%bool; unfold RtoC; f_equal; lra.
  Qed.
  Lemma ws_rel a b t t' : (a < k)%nat -> (b < k)%nat -> (t < n)%nat -> (t' < n)%nat -> expect E (fun x => ws x a t * ws x b t') = RtoC 0.
  Proof.
    intros Ha Hb Ht Ht'. pose proof (idx_lt k n a t Ha Ht). pose proof (idx_lt k n b t' Hb Ht'). unfold white_sample. rewrite (cw_rel N E W) by lia. rewrite (kd_ne (u + (a * n + t)) (u + k * n + _)), (kd_ne (u + k * n + _) (u + (b * n + t'))) by lia.
    rewrite !kd_shift. unfold RtoC; f_equal; lra.
  Qed.
  (** samples of two blocks that do not share draws *)
  Lemma ws_cross u' k' n' a b t t' : (u + 2 * (k * n) <= u')%nat -> (u' + 2 * (k' * n') <= N)%nat -> (a < k)%nat -> (b < k')%nat -> (t < n)%nat -> (t' < n')%nat ->
    expect E (fun x => ws x a t * Cconj (white_sample u' k' n' x b t')) = RtoC 0 /\ expect E (fun x => white_sample u' k' n' x b t' * Cconj (ws x a t)) = RtoC 0.
  Proof.
    intros H1 H2 Ha Hb Ht Ht'. pose proof (idx_lt k n a t Ha Ht). pose proof (idx_lt k' n' b t' Hb Ht'). unfold white_sample. rewrite !(cw_cov N E W) by lia. rewrite !kd_ne by lia. split; unfold RtoC; f_equal; lra.
  Qed.
End Moments.

Lemma mher_eq A B : A ==m B -> mher A ==m mher B.
Proof. intros H. split; [apply (meq_nc _ _ H)|]. split; [apply (meq_nr _ _ H)|]. intros i j Hi Hj. cbn [mher nr nc ent] in *. now rewrite (meq_ent _ _ j i H). Qed.
Lemma mscal_eq' c A B : A ==m B -> mscal c A ==m mscal c B.
Proof. intros H. split; [apply (meq_nr _ _ H)|]. split; [apply (meq_nc _ _ H)|]. intros i j Hi Hj. cbn [mscal nr nc ent] in *. now rewrite (meq_ent _ _ i j H). Qed.
