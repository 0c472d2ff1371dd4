(** Fourth moments of linear forms in the draws; mean-square error of the sample covariance (C109). *)
From Verif Require Import Base_Np Base_Trig Base_Lin M_utils M_sources M_array M_signals S_signals P_model P_subspace3 P_perf3 P_signals Prop_signals S_stable P_stable S_stat.
Open Scope C_scope.

(** *** polynomials in the draws *)
Definition cpoly (f : (nat -> R) -> C) : Prop := polynomial (fun x => Re (f x)) /\ polynomial (fun x => Im (f x)).
Lemma poly_scal c f : polynomial f -> polynomial (fun x => c * f x)%R.
Proof. intros H. apply (Poly_mult (fun _ => c) f); [apply Poly_const | exact H]. Qed.
Lemma poly_sub f g : polynomial f -> polynomial g -> polynomial (fun x => f x - g x)%R.
Proof. intros H1 H2. apply (Poly_ext (fun x => f x + (-1) * g x)%R); [apply Poly_plus; [exact H1 | now apply poly_scal] | intros x; ring]. Qed.
Lemma cpoly_const c : cpoly (fun _ => c). Proof. split; [apply (Poly_const (Re c)) | apply (Poly_const (Im c))]. Qed.
Lemma cpoly_draw i : cpoly (fun x => RtoC (x i)). Proof. split; [apply Poly_draw | apply (Poly_ext (fun _ => 0%R)); [apply Poly_const | reflexivity]]. Qed.
Lemma cpoly_plus f g : cpoly f -> cpoly g -> cpoly (fun x => f x + g x).
Proof. intros (H1 & H2) (H3 & H4). split; [apply (Poly_plus _ _ H1 H3) | apply (Poly_plus _ _ H2 H4)]. Qed.
Lemma cpoly_mult f g : cpoly f -> cpoly g -> cpoly (fun x => f x * g x).
Proof. intros (H1 & H2) (H3 & H4). split; [apply (poly_sub _ _ (Poly_mult _ _ H1 H3) (Poly_mult _ _ H2 H4)) | apply (Poly_plus _ _ (Poly_mult _ _ H1 H4) (Poly_mult _ _ H2 H3))]. Qed.
Lemma cpoly_conj f : cpoly f -> cpoly (fun x => Cconj (f x)).
Proof. intros (H1 & H2). split; [exact H1|]. apply (Poly_ext (fun x => (-1) * Im (f x))%R); [now apply poly_scal | intros x; cbn; unfold Im; ring]. Qed.
Lemma cpoly_ext f g : cpoly f -> (forall x, f x = g x) -> cpoly g.
Proof. intros (H1 & H2) H. split; [apply (Poly_ext _ _ H1) | apply (Poly_ext _ _ H2)]; intros x; now rewrite H. Qed.
Lemma cpoly_csum n f : (forall i, (i < n)%nat -> cpoly (f i)) -> cpoly (fun x => csum n (fun i => f i x)).
Proof. induction n; intros H; cbn [csum]; [apply cpoly_const|]. apply (cpoly_plus (fun x => csum n (fun i => f i x)) (f n)); [apply IHn; intros; apply H; lia | apply H; lia]. Qed.
Lemma poly_rsum n f : (forall i, (i < n)%nat -> polynomial (f i)) -> polynomial (fun x => rsum n (fun i => f i x)).
Proof. induction n; intros H; cbn [rsum]; [apply Poly_const|]. apply (Poly_plus (fun x => rsum n (fun i => f i x)) (f n)); [apply IHn; intros; apply H; lia | apply H; lia]. Qed.
Lemma poly_norm2 f : cpoly f -> polynomial (fun x => Cnorm2 (f x)).
Proof. intros (H1 & H2). apply (Poly_ext _ _ (Poly_plus _ _ (Poly_mult _ _ H1 H1) (Poly_mult _ _ H2 H2))). intros x. reflexivity. Qed.

(** *** moments of linear forms *)
Definition dl (i j : nat) : C := if Nat.eqb i j then RtoC 1 else RtoC 0.
Lemma csum_dl Q f p : (p < Q)%nat -> csum Q (fun q => f q * dl p q) = f p.
Proof. intros Hp. rewrite (csum_single _ _ p Hp); unfold dl. - rewrite Nat.eqb_refl. ring. - intros i Hi Ni. destruct (Nat.eqb_spec p i); [congruence | ring]. Qed.
Lemma prod4 Q (a b c d : nat -> C) : csum Q a * csum Q b * csum Q c * csum Q d = csum Q (fun p => csum Q (fun q => csum Q (fun r => csum Q (fun s => a p * b q * c r * d s)))).
Proof.
  transitivity (csum Q a * (csum Q b * (csum Q c * csum Q d))); [ring|].
  rewrite <- csum_scal_r. apply csum_ext. intros p Hp. rewrite <- csum_scal_r, <- csum_scal. apply csum_ext. intros q Hq.
  transitivity ((a p * b q) * (csum Q c * csum Q d)); [ring|]. rewrite <- csum_scal_r, <- csum_scal. apply csum_ext. intros r Hr.
  transitivity ((a p * b q * c r) * csum Q d); [ring|]. rewrite <- csum_scal. reflexivity.
Qed.
Definition lin (u n Q : nat) (c : nat -> C) (t : nat) (x : nat -> R) : C := csum Q (fun q => c q * RtoC (x (u + (q * n + t))%nat)).
Lemma lin_conj u n Q c t x : Cconj (lin u n Q c t x) = lin u n Q (fun q => Cconj (c q)) t x.
Proof. unfold lin. rewrite csum_conj. apply csum_ext. intros q Hq. rewrite Cmult_conj, Cconj_RtoC. reflexivity. Qed.
Section Fourth.
  Variables (N : nat) (kappa : R) (E : ((nat -> R) -> R) -> R).
  Hypothesis W4 : white4 N kappa E.
  Let W := w4_white N kappa E W4.
  Variables (u n Q : nat).
  Hypothesis HN : (u + Q * n <= N)%nat.
  Notation L := (lin u n Q).
  Lemma ex_real f : expect E (fun x => RtoC (f x)) = RtoC (E f).
  Proof. unfold expect, RtoC. f_equal. unfold Im. cbn [snd]. apply (E_0 N E W). Qed.
  Lemma ex_const c : expect E (fun _ => c) = c.
  Proof.
    rewrite (ex_ext N E W _ (fun x => c * RtoC 1)) by (intros; ring). rewrite (ex_scal N E W c (fun _ => RtoC 1)).
    rewrite (ex_real (fun _ => 1%R)), (w4_one N kappa E W4). ring.
  Qed.
  Lemma same_dl u' p q t t' : (t < n)%nat -> (t' < n)%nat -> RtoC (if Nat.eqb (u' + (p * n + t)) (u' + (q * n + t')) then 1%R else 0%R) = dl p q * dl t t'.
  Proof.
    intros Ht Ht'. assert (EQ : Nat.eqb (u' + (p * n + t)) (u' + (q * n + t')) = Nat.eqb (p * n + t) (q * n + t')) by (destruct (Nat.eqb_spec (u' + (p * n + t)) (u' + (q * n + t'))), (Nat.eqb_spec (p * n + t) (q * n + t')); try reflexivity; lia).
    rewrite EQ, idx_inj by assumption. unfold dl. destruct (Nat.eqb p q), (Nat.eqb t t'); cbn [andb]; ring.
  Qed.
  Lemma lin_two a b t : (t < n)%nat -> expect E (fun x => L a t x * L b t x) = csum Q (fun q => a q * b q).
  Proof.
    intros Ht. unfold lin. rewrite (ex_bilin N E W Q Q a b (fun q x => RtoC (x (u + (q * n + t))%nat)) (fun q x => RtoC (x (u + (q * n + t))%nat)) (fun c => c)) by reflexivity.
    apply csum_ext. intros p Hp. rewrite (csum_ext Q _ (fun q => (a p * b q) * dl p q)).
    - rewrite (csum_dl Q (fun q => a p * b q) p Hp). reflexivity.
    - intros q Hq. f_equal. rewrite (ex_ext N E W _ (fun x => RtoC (x (u + (p * n + t))%nat * x (u + (q * n + t))%nat)%R)) by (intros x; rewrite RtoC_mult; reflexivity).
      rewrite ex_real, (wh_cov N E W) by nia. rewrite same_dl by assumption. unfold dl at 2. rewrite Nat.eqb_refl. ring.
  Qed.
  Lemma lin_four a b c d t t' : (t < n)%nat -> (t' < n)%nat ->
    expect E (fun x => L a t x * L b t x * L c t' x * L d t' x) =
    csum Q (fun q => a q * b q) * csum Q (fun q => c q * d q) +
    dl t t' * (csum Q (fun q => a q * c q) * csum Q (fun q => b q * d q) + csum Q (fun q => a q * d q) * csum Q (fun q => b q * c q) + RtoC (kappa - 3) * csum Q (fun q => a q * b q * c q * d q)).
  Proof.
    intros Ht Ht'. set (X := fun q t (x : nat -> R) => x (u + (q * n + t))%nat).
    rewrite (ex_ext N E W _ (fun x => csum Q (fun p => csum Q (fun q => csum Q (fun r => csum Q (fun s => (a p * b q * c r * d s) * RtoC (X p t x * X q t x * X r t' x * X s t' x)%R)))))).
    2:{ intros x. unfold lin. rewrite prod4. do 4 (apply csum_ext; intros ? ?). unfold X. rewrite !RtoC_mult. ring. }
    assert (EV : forall p q r s, (p < Q)%nat -> (q < Q)%nat -> (r < Q)%nat -> (s < Q)%nat -> expect E (fun x => RtoC (X p t x * X q t x * X r t' x * X s t' x)%R) =
       dl p q * dl r s + dl t t' * (dl p r * dl q s + dl p s * dl q r + RtoC (kappa - 3) * (dl p q * dl p r * dl p s))).
    { intros p q r s Hp Hq Hr Hs. rewrite (ex_real (fun x => X p t x * X q t x * X r t' x * X s t' x)%R). unfold X. rewrite (w4_fourth N kappa E W4) by nia. cbv zeta. rewrite !RtoC_plus, !RtoC_mult, !same_dl by assumption.
      assert (D1 : forall v, dl v v = RtoC 1) by (intros v; unfold dl; now rewrite Nat.eqb_refl). rewrite !D1. assert (D2 : dl t t' * dl t t' = dl t t') by (unfold dl; destruct (Nat.eqb t t'); ring).
      transitivity (dl p q * dl r s + dl p r * dl q s * (dl t t' * dl t t') + dl p s * dl q r * (dl t t' * dl t t') + RtoC (kappa - 3) * (dl p q * dl p r * dl p s * (dl t t' * dl t t'))); [ring|]. rewrite D2. ring. }
    rewrite (ex_csum N E W Q (fun p x => csum Q (fun q => csum Q (fun r => csum Q (fun s => (a p * b q * c r * d s) * RtoC (X p t x * X q t x * X r t' x * X s t' x)%R))))).
    set (U := dl t t') in *.
    transitivity (csum Q (fun p => csum Q (fun q => dl p q * (a p * b q) * csum Q (fun r => c r * d r)) + U * (a p * c p * csum Q (fun q => b q * d q) + a p * d p * csum Q (fun q => b q * c q) + RtoC (kappa - 3) * (a p * b p * c p * d p)))).
    - apply csum_ext. intros p Hp. rewrite (ex_csum N E W Q (fun q x => csum Q (fun r => csum Q (fun s => (a p * b q * c r * d s) * RtoC (X p t x * X q t x * X r t' x * X s t' x)%R)))).
      transitivity (csum Q (fun q => dl p q * (a p * b q) * csum Q (fun r => c r * d r) + U * (a p * c p * (b q * d q) + a p * d p * (b q * c q) + RtoC (kappa - 3) * (a p * c p * d p * b q * dl p q)))).
      + apply csum_ext. intros q Hq. rewrite (ex_csum N E W Q (fun r x => csum Q (fun s => (a p * b q * c r * d s) * RtoC (X p t x * X q t x * X r t' x * X s t' x)%R))).
        transitivity (csum Q (fun r => dl p q * (a p * b q) * (c r * d r) + U * ((a p * b q * d q) * (c r * dl p r) + (a p * d p * b q) * (c r * dl q r) + RtoC (kappa - 3) * ((a p * b q * d p * dl p q) * (c r * dl p r))))).
        * apply csum_ext. intros r Hr. rewrite (ex_csum N E W Q (fun s x => (a p * b q * c r * d s) * RtoC (X p t x * X q t x * X r t' x * X s t' x)%R)).
          transitivity (csum Q (fun s => (a p * b q * c r * dl p q) * (d s * dl r s) + (U * a p * b q * c r * dl p r) * (d s * dl q s) + (U * a p * b q * c r * dl q r + U * RtoC (kappa - 3) * a p * b q * c r * dl p q * dl p r) * (d s * dl p s))).
          -- apply csum_ext. intros s Hs. rewrite (ex_scal N E W (a p * b q * c r * d s)). rewrite EV by assumption. ring.
          -- rewrite !csum_plus, !csum_scal, !csum_dl by assumption. ring.
        * rewrite csum_plus, !csum_scal, !csum_plus, !csum_scal, !csum_dl by assumption. ring.
      + rewrite csum_plus. f_equal. rewrite !csum_scal, !csum_plus, !csum_scal, (csum_dl Q) by assumption. ring.
    - rewrite csum_plus. f_equal.
      + rewrite <- csum_scal_r. apply csum_ext. intros p Hp. rewrite csum_scal_r. f_equal. rewrite (csum_ext Q _ (fun q => a p * b q * dl p q)) by (intros; ring). rewrite (csum_dl Q (fun q => a p * b q)) by assumption. reflexivity.
      + rewrite csum_scal, !csum_plus, !csum_scal_r, !csum_scal. ring.
  Qed.
End Fourth.
Section MeanSquare.
  Variables (N : nat) (kappa : R) (E : ((nat -> R) -> R) -> R).
  Hypothesis W4 : white4 N kappa E.
  Let W := w4_white N kappa E W4.
  Variables (u n Q : nat).
  Hypothesis HN : (u + Q * n <= N)%nat.
  Hypothesis Hn : (0 < n)%nat.
  Notation L := (lin u n Q).
  Lemma lin_mean_square a b : let r := csum Q (fun q => a q * b q) in
    E (fun x => Cnorm2 (csum n (fun t => L a t x * L b t x) / RtoC (INR n) - r)%C) =
    ((rsum Q (fun q => Cnorm2 (a q)) * rsum Q (fun q => Cnorm2 (b q)) + Cnorm2 (csum Q (fun q => a q * Cconj (b q)))%C + (kappa - 3) * rsum Q (fun q => Cnorm2 (a q) * Cnorm2 (b q))) / INR n)%R.
  Proof.
    intros r. assert (N0 : INR n <> 0%R) by (apply not_0_INR; lia). assert (NC : RtoC (INR n) <> RtoC 0) by (intros H; injection H; exact N0).
    set (a' := fun q => Cconj (a q)). set (b' := fun q => Cconj (b q)). set (V := ((rsum Q (fun q => Cnorm2 (a q)) * rsum Q (fun q => Cnorm2 (b q)) + Cnorm2 (csum Q (fun q => a q * Cconj (b q)))%C + (kappa - 3) * rsum Q (fun q => Cnorm2 (a q) * Cnorm2 (b q))))%R).
    assert (rc : csum Q (fun q => a' q * b' q) = Cconj r) by (unfold r, a', b'; rewrite csum_conj; apply csum_ext; intros; rewrite Cmult_conj; reflexivity).
    assert (EV : csum Q (fun q => a q * a' q) * csum Q (fun q => b q * b' q) + csum Q (fun q => a q * b' q) * csum Q (fun q => b q * a' q) + RtoC (kappa - 3) * csum Q (fun q => a q * b q * a' q * b' q) = RtoC V).
    { unfold V. rewrite !RtoC_plus, !RtoC_mult, <- !csum_RtoC. unfold a', b'. f_equal; [f_equal|].
      - f_equal; apply csum_ext; intros; rewrite Cmult_conj_norm2; reflexivity.
      - rewrite <- Cmult_conj_norm2. f_equal. rewrite csum_conj. apply csum_ext. intros q Hq. rewrite Cmult_conj, Cconj_conj. ring.
      - f_equal. apply csum_ext. intros q Hq. rewrite RtoC_mult, <- !Cmult_conj_norm2. ring. }
    apply RtoC_inj. rewrite <- (ex_real N kappa E W4). set (i := / RtoC (INR n)).
    set (S1 := fun x => csum n (fun t => L a t x * L b t x)). set (S2 := fun x => csum n (fun t => L a' t x * L b' t x)).
    assert (HS : forall x, Cconj (S1 x) = S2 x). { intros x. unfold S1, S2. rewrite csum_conj. apply csum_ext. intros t Ht. rewrite Cmult_conj, !lin_conj. reflexivity. }
    assert (HI : Cconj i = i) by (unfold i; rewrite <- RtoC_inv by exact N0; apply Cconj_RtoC).
    assert (IN : i * RtoC (INR n) = RtoC 1) by (unfold i; rewrite Cmult_comm; apply Cinv_r, NC).
    rewrite (ex_ext N E W _ (fun x => (i * i) * csum n (fun t => csum n (fun t' => L a t x * L b t x * L a' t' x * L b' t' x)) + ((- (i * Cconj r)) * S1 x + ((- (i * r)) * S2 x + r * Cconj r)))).
    2:{ intros x. rewrite <- Cmult_conj_norm2. change (csum n (fun t => L a t x * L b t x)) with (S1 x). unfold Cdiv. fold i. rewrite Cminus_conj, Cmult_conj, HI, HS.
        transitivity ((i * i) * (S1 x * S2 x) + ((- (i * Cconj r)) * S1 x + ((- (i * r)) * S2 x + r * Cconj r))); [ring|]. f_equal. f_equal. unfold S1, S2. rewrite <- csum_scal_r. apply csum_ext. intros t Ht. rewrite <- csum_scal. apply csum_ext. intros; ring. }
    rewrite !(ex_plus N E W), !(ex_scal N E W), (ex_const N kappa E W4).
    assert (E1 : expect E S1 = RtoC (INR n) * r).
    { unfold S1. rewrite (ex_csum N E W n (fun t x => L a t x * L b t x)). rewrite (csum_ext n _ (fun _ => r)) by (intros t Ht; apply (lin_two N kappa E W4); assumption). apply csum_const. }
    assert (E2 : expect E S2 = RtoC (INR n) * Cconj r).
    { unfold S2. rewrite (ex_csum N E W n (fun t x => L a' t x * L b' t x)). rewrite (csum_ext n _ (fun _ => Cconj r)) by (intros t Ht; rewrite <- rc; apply (lin_two N kappa E W4); assumption). apply csum_const. }
    rewrite E1, E2. rewrite (ex_csum N E W n (fun t x => csum n (fun t' => L a t x * L b t x * L a' t' x * L b' t' x))).
    rewrite (csum_ext n _ (fun t => RtoC (INR n) * (r * Cconj r) + RtoC V)).
    - rewrite csum_const. unfold Rdiv. rewrite RtoC_mult, RtoC_inv by exact N0. fold i.
      transitivity ((i * RtoC (INR n)) * (i * RtoC (INR n)) * (r * Cconj r) + (i * RtoC (INR n)) * (i * RtoC V) - (i * RtoC (INR n)) * (r * Cconj r) - (i * RtoC (INR n)) * (r * Cconj r) + r * Cconj r); [ring|]. rewrite IN. ring.
    - intros t Ht. rewrite (ex_csum N E W n (fun t' x => L a t x * L b t x * L a' t' x * L b' t' x)).
      rewrite (csum_ext n _ (fun t' => r * Cconj r + RtoC V * dl t t')).
      + rewrite csum_plus, csum_const, (csum_dl n (fun _ => RtoC V)) by exact Ht. ring.
      + intros t' Ht'. rewrite (lin_four N kappa E W4) by assumption. rewrite EV. fold r. rewrite rc. ring.
  Qed.
End MeanSquare.

(** *** the simulated snapshots are linear forms in the draws *)
(** the coefficients of row i: imaginary and real parts of the source samples, then of the noise samples *)
Definition coef (k m : nat) (B G : cmat) (i q : nat) : C :=
  if (q <? k)%nat then ent B i q * Ci * RtoC (sqrt (1 / 2)) else if (q <? 2 * k)%nat then ent B i (q - k) * RtoC (sqrt (1 / 2))
  else if (q <? 2 * k + m)%nat then ent G i (q - 2 * k) * Ci * RtoC (sqrt (1 / 2)) else ent G i (q - 2 * k - m) * RtoC (sqrt (1 / 2)).
Lemma csum_blocks k m B G i (g : nat -> C) : csum (2 * k + 2 * m) (fun q => coef k m B G i q * g q) =
  csum k (fun a => ent B i a * Ci * RtoC (sqrt (1 / 2)) * g a) + csum k (fun a => ent B i a * RtoC (sqrt (1 / 2)) * g (k + a)%nat) +
  (csum m (fun a => ent G i a * Ci * RtoC (sqrt (1 / 2)) * g (2 * k + a)%nat) + csum m (fun a => ent G i a * RtoC (sqrt (1 / 2)) * g (2 * k + m + a)%nat)).
Proof.
  replace (2 * k + 2 * m)%nat with ((k + k) + (m + m))%nat by lia. rewrite !csum_app. f_equal; f_equal; apply csum_ext; intros a Ha; unfold coef.
  - destruct (Nat.ltb_spec a k); [reflexivity | lia].
  - destruct (Nat.ltb_spec (k + a) k); [lia|]. destruct (Nat.ltb_spec (k + a) (2 * k)); [|lia]. replace (k + a - k)%nat with a by lia. reflexivity.
  - destruct (Nat.ltb_spec (k + k + a) k); [lia|]. destruct (Nat.ltb_spec (k + k + a) (2 * k)); [lia|]. destruct (Nat.ltb_spec (k + k + a) (2 * k + m)); [|lia]. replace (k + k + a - 2 * k)%nat with a by lia. replace (2 * k + a)%nat with (k + k + a)%nat by lia. reflexivity.
  - destruct (Nat.ltb_spec (k + k + (m + a)) k); [lia|]. destruct (Nat.ltb_spec (k + k + (m + a)) (2 * k)); [lia|]. destruct (Nat.ltb_spec (k + k + (m + a)) (2 * k + m)); [lia|]. replace (k + k + (m + a) - 2 * k - m)%nat with a by lia. replace (2 * k + m + a)%nat with (k + k + (m + a))%nat by lia. reflexivity.
Qed.
Lemma coef_blocks k m B G i a : let h := RtoC (sqrt (1 / 2)) in
  ((a < k)%nat -> coef k m B G i a = ent B i a * Ci * h /\ coef k m B G i (k + a) = ent B i a * h) /\
  ((a < m)%nat -> coef k m B G i (2 * k + a) = ent G i a * Ci * h /\ coef k m B G i (2 * k + m + a) = ent G i a * h).
Proof.
  intros h. split; intros Ha; split; unfold coef, h.
  - destruct (Nat.ltb_spec a k); [reflexivity | lia].
  - destruct (Nat.ltb_spec (k + a) k); [lia|]. destruct (Nat.ltb_spec (k + a) (2 * k)); [|lia]. replace (k + a - k)%nat with a by lia. reflexivity.
  - destruct (Nat.ltb_spec (2 * k + a) k); [lia|]. destruct (Nat.ltb_spec (2 * k + a) (2 * k)); [lia|]. destruct (Nat.ltb_spec (2 * k + a) (2 * k + m)); [|lia]. replace (2 * k + a - 2 * k)%nat with a by lia. reflexivity.
  - destruct (Nat.ltb_spec (2 * k + m + a) k); [lia|]. destruct (Nat.ltb_spec (2 * k + m + a) (2 * k)); [lia|]. destruct (Nat.ltb_spec (2 * k + m + a) (2 * k + m)); [lia|]. replace (2 * k + m + a - 2 * k - m)%nat with a by lia. reflexivity.
Qed.
Lemma half_C : RtoC (sqrt (1 / 2)) * RtoC (sqrt (1 / 2)) = RtoC (1 / 2).
Proof. rewrite <- RtoC_mult, half_sq. reflexivity. Qed.
Lemma two_halves : RtoC (1 / 2) + RtoC (1 / 2) = RtoC 1.
Proof. rewrite <- RtoC_plus. f_equal. lra. Qed.
Lemma Ci_conj : Cconj Ci = - Ci. Proof. unfold Cconj, Ci, Copp. cbn. f_equal; ring. Qed.
Lemma Ci_sq : Ci * Ci = - RtoC 1. Proof. unfold Ci, Cmult, Copp, RtoC. cbn. f_equal; ring. Qed.
Lemma coef_circular k m B G i j : csum (2 * k + 2 * m) (fun q => coef k m B G i q * coef k m B G j q) = RtoC 0.
Proof.
  rewrite (csum_blocks k m B G i (coef k m B G j)). pose proof half_C as HC. pose proof Ci_sq as HI. set (h := RtoC (sqrt (1 / 2))) in *.
  assert (Z : forall a b c d, a + b = RtoC 0 -> c + d = RtoC 0 -> a + b + (c + d) = RtoC 0) by (intros a b c d H1 H2; rewrite H1, H2; ring). apply Z; rewrite <- csum_plus; apply csum_0; intros a Ha.
  - destruct (proj1 (coef_blocks k m B G j a) Ha) as (-> & ->). fold h. transitivity (ent B i a * ent B j a * (h * h) * (Ci * Ci + RtoC 1)); [ring|]. rewrite HI. ring.
  - destruct (proj2 (coef_blocks k m B G j a) Ha) as (-> & ->). fold h. transitivity (ent G i a * ent G j a * (h * h) * (Ci * Ci + RtoC 1)); [ring|]. rewrite HI. ring.
Qed.
Lemma coef_cov k m B G i j : nc B = k -> nc G = m -> csum (2 * k + 2 * m) (fun q => coef k m B G i q * Cconj (coef k m B G j q)) = ent (B *m mher B) i j + ent (G *m mher G) i j.
Proof.
  intros HB HG. rewrite (csum_blocks k m B G i (fun q => Cconj (coef k m B G j q))). pose proof half_C as HC. pose proof Ci_sq as HI. set (h := RtoC (sqrt (1 / 2))) in *. assert (Hh : Cconj h = h) by apply Cconj_RtoC.
  cbn [mmul mher ent]. rewrite HB, HG. f_equal; rewrite <- csum_plus; apply csum_ext; intros a Ha.
  - destruct (proj1 (coef_blocks k m B G j a) Ha) as (-> & ->). fold h. rewrite !Cmult_conj, Hh, Ci_conj. transitivity (ent B i a * Cconj (ent B j a) * (h * h) * (- (Ci * Ci) + RtoC 1)); [ring|]. rewrite HI, HC. transitivity (ent B i a * Cconj (ent B j a) * (RtoC (1 / 2) + RtoC (1 / 2))); [ring|]. rewrite two_halves. ring.
  - destruct (proj2 (coef_blocks k m B G j a) Ha) as (-> & ->). fold h. rewrite !Cmult_conj, Hh, Ci_conj. transitivity (ent G i a * Cconj (ent G j a) * (h * h) * (- (Ci * Ci) + RtoC 1)); [ring|]. rewrite HI, HC. transitivity (ent G i a * Cconj (ent G j a) * (RtoC (1 / 2) + RtoC (1 / 2))); [ring|]. rewrite two_halves. ring.
Qed.
Lemma simulated_ok sqrtm arr s lam k c cn g gn A DA : sqrtm_ok sqrtm -> steering_matrix arr s lam false "all" true = Ok (Flat A, DA) ->
  nc A = k -> carg_ok k c -> carg_ok (nr A) cn -> mk_stochastic sqrtm k c = Ok g -> mk_stochastic sqrtm (nr A) cn = Ok gn ->
  sto_dim g = k /\ sto_dim gn = nr A /\ exists B G, nc B = k /\ nc G = nr A /\
  (forall i j, (i < nr A)%nat -> (j < nr A)%nat -> ent (B *m mher B) i j + ent (G *m mher G) i j = ent (A *m carg_cov k c *m mher A +m carg_cov (nr A) cn) i j) /\
  forall n st u x, (0 < n)%nat -> let Rm := simulated arr s lam g gn n st u x in psd Rm /\ nr Rm = nr A /\
    forall i j, (i < nr A)%nat -> (j < nr A)%nat ->
      ent Rm i j = csum n (fun t => lin (used_normals st) n (2 * k + 2 * nr A) (coef k (nr A) B G i) t x * lin (used_normals st) n (2 * k + 2 * nr A) (fun q => Cconj (coef k (nr A) B G j q)) t x) / RtoC (INR n).
Proof.
  intros HS HA HAk HC HCn Eg Egn.
  destruct (mk_stochastic_ok sqrtm k c HS HC) as (g' & Eg' & Dg & Wg & GG). rewrite Eg in Eg'. injection Eg' as <-. pose proof Wg as (G1 & G2). rewrite Dg in G1, G2.
  destruct (mk_stochastic_ok sqrtm (nr A) cn HS HCn) as (gn' & Egn' & Dgn & Wgn & GGn). rewrite Egn in Egn'. injection Egn' as <-. pose proof Wgn as (Gn1 & Gn2). rewrite Dgn in Gn1, Gn2.
  split; [exact Dg|]. split; [exact Dgn|]. set (m := nr A) in *. set (B := A *m gain g). set (Gn := gain gn) in *. exists B, Gn. split; [cbn [B mmul nc]; exact G2|]. split; [exact Gn2|]. split.
  { intros i j Hi Hj. cbn [madd ent]. rewrite <- (meq_ent _ _ i j GGn) by (cbn [mmul mher nr nc]; rewrite Gn1; assumption). f_equal.
    assert (BB : B *m mher B ==m A *m carg_cov k c *m mher A).
    { unfold B. etransitivity; [apply mmul_eq_r; [reflexivity | apply mher_mmul; congruence]|]. etransitivity; [symmetry; apply mmul_assoc|]. apply mmul_eq_l. etransitivity; [apply mmul_assoc|]. apply mmul_eq_r; [cbn [mmul nr]; congruence | exact GG]. }
    apply (meq_ent _ _ i j BB); cbn [mmul mher nr nc B]; assumption. }
  intros n st u x Hn Rm0. set (u0 := used_normals st) in *. set (u1 := (u0 + 2 * (k * n))%nat) in *. set (ws := white_sample u0 k n). set (wn := white_sample u1 m n).
  set (ys := fun x i t => csum k (fun a => ent B i a * ws x a t)). set (yn := fun x i t => csum m (fun a => ent Gn i a * wn x a t)). set (y := fun x i t => ys x i t + yn x i t).
  destruct (sto_emit_ok (Draws x u) g n st Wg) as (Sg & W & _ & ES & W1 & W2 & S1 & S2 & SW & Wv). rewrite Dg in *. destruct (sto_emit_ok (Draws x u) gn n (Rng u1 (used_uniforms st)) Wgn) as (Nm & V & _ & EN & V1 & V2 & N1 & N2 & NV & Vv). rewrite Dgn in *. fold m in EN, N1. cbn [used_normals used_uniforms] in *.
  destruct (C75_noisy _ arr s lam (sto_emit (Draws x u) g) (sto_emit (Draws x u) gn) n true st _ _ A DA Sg Nm HA ES ltac:(congruence) EN N1 ltac:(congruence)) as (r & Y & ER & (Y1 & Y2 & YE) & IR).
  pose proof IR as IR0. destruct r as [|Y' [Rm|]]; cbn [is_result] in IR; [contradiction | | lia]. destruct IR as (-> & _ & R1 & R2 & RE).
  assert (ERm : Rm0 = Rm) by exact (f_equal (fun r => snap_cov r) ER). rewrite ERm. split; [apply (C75_covariance n Y Rm IR0)|]. split; [etransitivity; [exact R1 | exact Y1]|].
  assert (YV : forall i t, (i < m)%nat -> (t < n)%nat -> ent Y i t = lin u0 n (2 * k + 2 * m) (coef k m B Gn i) t x).
  { intros i t Hi Ht. rewrite YE by (rewrite ?S2; assumption). transitivity (y x i t).
    - unfold y. f_equal.
      + unfold ys. rewrite HAk. rewrite (csum_ext _ _ (fun a => csum k (fun b => ent A i a * ent (gain g) a b * ws x b t))).
        * rewrite csum_swap. apply csum_ext. intros b Hb. unfold B. cbn [mmul ent]. rewrite HAk, csum_scal_r. reflexivity.
        * intros a Ha. rewrite (meq_ent _ _ a t SW) by (rewrite ?S1, ?S2; assumption). cbn [mmul ent]. rewrite G2, <- csum_scal. apply csum_ext. intros b Hb. rewrite Wv. unfold ws. fold u0. cbn [normals]. ring.
      + unfold yn. rewrite (meq_ent _ _ i t NV) by (rewrite ?N1, ?N2; assumption). cbn [mmul ent]. fold Gn. rewrite Gn2. apply csum_ext. intros a Ha. rewrite Vv. reflexivity.
    - unfold lin. rewrite (csum_blocks k m B Gn i). unfold y, ys, yn, ws, wn, white_sample, cw. rewrite <- !csum_plus. f_equal; apply csum_ext; intros a Ha.
      + replace (u0 + ((k + a) * n + t))%nat with (u0 + k * n + (a * n + t))%nat by lia. ring.
      + replace (u0 + ((2 * k + a) * n + t))%nat with (u1 + (a * n + t))%nat by (unfold u1; lia). replace (u0 + ((2 * k + m + a) * n + t))%nat with (u1 + m * n + (a * n + t))%nat by (unfold u1; lia). ring. }
  intros i j Hi Hj. rewrite RE by (rewrite Y1; assumption). f_equal. rewrite Y2, S2. apply csum_ext. intros t Ht. rewrite !YV by assumption. f_equal. apply lin_conj.
Qed.

(** *** mean-square error of the simulated sample covariance *)
Lemma E_rsum N E (W : white N E) k f : E (fun x => rsum k (fun i => f i x)) = rsum k (fun i => E (f i)).
Proof.
  induction k; cbn [rsum]; [apply (E_0 N E W)|]. rewrite <- IHk. apply (E_plus N E W).
Qed.
Lemma rsum_prod Q (f g : nat -> R) : (forall i, (i < Q)%nat -> (0 <= f i)%R) -> (forall i, (i < Q)%nat -> (0 <= g i)%R) -> (0 <= rsum Q (fun q => f q * g q) <= rsum Q f * rsum Q g)%R.
Proof.
  intros Hf Hg. split; [apply rsum_nonneg; intros q Hq; apply Rmult_le_pos; auto|]. induction Q; cbn [rsum]; [lra|].
  assert (I : (rsum Q (fun q => f q * g q) <= rsum Q f * rsum Q g)%R) by (apply IHQ; intros; [apply Hf | apply Hg]; lia).
  assert (F0 : (0 <= rsum Q f)%R) by (apply rsum_nonneg; intros; apply Hf; lia). assert (G0 : (0 <= rsum Q g)%R) by (apply rsum_nonneg; intros; apply Hg; lia).
  assert (f1 : (0 <= f Q)%R) by (apply Hf; lia). assert (g1 : (0 <= g Q)%R) by (apply Hg; lia).
  pose proof (Rmult_le_pos _ _ F0 g1). pose proof (Rmult_le_pos _ _ f1 G0). nra.
Qed.
Lemma distance_sq A B : (distance A B * distance A B = rsum (nr A) (fun i => rsum (nc A) (fun j => Cnorm2 (ent A i j - ent B i j)%C)))%R.
Proof. unfold distance. apply sqrt_sqrt. apply rsum_nonneg. intros i Hi. apply rsum_nonneg. intros j Hj. apply Cnorm2_nonneg. Qed.
Lemma trace_sq m (d : nat -> R) : (rsum m (fun i => rsum m (fun j => d i * d j)) = rsum m d * rsum m d)%R.
Proof. rewrite (rsum_ext m _ (fun i => rsum m d * d i)%R); [apply rsum_scal|]. intros i Hi. rewrite rsum_scal. ring. Qed.
Lemma simulated_mean_square sqrtm arr s lam k c cn g gn A DA : sqrtm_ok sqrtm -> steering_matrix arr s lam false "all" true = Ok (Flat A, DA) ->
  nc A = k -> carg_ok k c -> carg_ok (nr A) cn -> mk_stochastic sqrtm k c = Ok g -> mk_stochastic sqrtm (nr A) cn = Ok gn ->
  forall Rm : cmat, Rm ==m A *m carg_cov k c *m mher A +m carg_cov (nr A) cn ->
  sto_dim g = k /\ sto_dim gn = nr A /\ exists w : nat -> nat -> R,
    (forall i, (i < nr A)%nat -> (0 <= Re (ent Rm i i))%R) /\
    (forall i j, (i < nr A)%nat -> (j < nr A)%nat -> (0 <= w i j <= Re (ent Rm i i) * Re (ent Rm j j))%R) /\
    (forall n st u x, (0 < n)%nat -> let Rx := simulated arr s lam g gn n st u x in psd Rx /\ nr Rx = nr A) /\
    forall kappa N E n st u, (0 < n)%nat -> white4 N kappa E -> (used_normals st + 2 * (k * n) + 2 * (nr A * n) <= N)%nat -> forall i j, (i < nr A)%nat -> (j < nr A)%nat ->
      cpoly (fun x => ent (simulated arr s lam g gn n st u x) i j) /\
      E (fun x => Cnorm2 (ent (simulated arr s lam g gn n st u x) i j - ent Rm i j)%C) = ((Re (ent Rm i i) * Re (ent Rm j j) + (kappa - 3) * w i j) / INR n)%R.
Proof.
  intros HS HA HAk HC HCn Eg Egn Rm ER. destruct (simulated_ok sqrtm arr s lam k c cn g gn A DA HS HA HAk HC HCn Eg Egn) as (Dg & Dgn & B & G & NB & NG & HR & HX).
  split; [exact Dg|]. split; [exact Dgn|]. set (m := nr A) in *. set (Q := (2 * k + 2 * m)%nat) in *. set (cf := coef k m B G) in *.
  assert (HD : forall i, (i < m)%nat -> Re (ent Rm i i) = rsum Q (fun q => Cnorm2 (cf i q))).
  { intros i Hi. rewrite (meq_ent _ _ i i ER) by (rewrite (meq_nr _ _ ER) || rewrite (meq_nc _ _ ER); exact Hi). rewrite <- HR by assumption. rewrite <- (coef_cov k m B G i i NB NG). fold cf Q. rewrite (csum_ext Q _ (fun q => RtoC (Cnorm2 (cf i q)))) by (intros; apply Cmult_conj_norm2). rewrite csum_RtoC. reflexivity. }
  exists (fun i j => rsum Q (fun q => Cnorm2 (cf i q) * Cnorm2 (cf j q))%R). split; [|split; [|split]].
  - intros i Hi. rewrite HD by assumption. apply rsum_nonneg. intros. apply Cnorm2_nonneg.
  - intros i j Hi Hj. rewrite !HD by assumption. apply rsum_prod; intros; apply Cnorm2_nonneg.
  - intros n st u x Hn. destruct (HX n st u x Hn) as (H1 & H2 & _). split; assumption.
  - intros kappa N E n st u Hn HW HN i j Hi Hj. assert (HN' : (used_normals st + Q * n <= N)%nat) by (unfold Q; nia). set (u0 := used_normals st) in *.
    assert (HE : forall x, ent (simulated arr s lam g gn n st u x) i j = csum n (fun t => lin u0 n Q (cf i) t x * lin u0 n Q (fun q => Cconj (cf j q)) t x) / RtoC (INR n)) by (intros x; apply (HX n st u x Hn); assumption).
    assert (PL : forall a t, cpoly (lin u0 n Q a t)).
    { intros a t. unfold lin. apply (cpoly_csum Q (fun q x => a q * RtoC (x (u0 + (q * n + t))%nat))). intros q Hq. apply (cpoly_mult (fun _ => a q)); [apply cpoly_const | apply cpoly_draw]. }
    split.
    + apply (cpoly_ext (fun x => csum n (fun t => lin u0 n Q (cf i) t x * lin u0 n Q (fun q => Cconj (cf j q)) t x) * / RtoC (INR n))); [|intros x; rewrite HE; reflexivity].
      apply (cpoly_mult _ (fun _ => / RtoC (INR n))); [|apply cpoly_const]. apply (cpoly_csum n (fun t x => lin u0 n Q (cf i) t x * lin u0 n Q (fun q => Cconj (cf j q)) t x)). intros t Ht. apply cpoly_mult; apply PL.
    + assert (ER' : ent Rm i j = csum Q (fun q => cf i q * Cconj (cf j q))).
      { rewrite (meq_ent _ _ i j ER) by (rewrite (meq_nr _ _ ER) || rewrite (meq_nc _ _ ER); assumption). rewrite <- HR by assumption. symmetry. apply (coef_cov k m B G i j NB NG). }
      rewrite (wh_ext N E (w4_white N kappa E HW) _ (fun x => Cnorm2 (csum n (fun t => lin u0 n Q (cf i) t x * lin u0 n Q (fun q => Cconj (cf j q)) t x) / RtoC (INR n) - csum Q (fun q => cf i q * Cconj (cf j q)))%C)) by (intros x; rewrite HE, ER'; reflexivity).
      rewrite (lin_mean_square N kappa E HW u0 n Q HN' Hn (cf i) (fun q => Cconj (cf j q))). cbv beta.
      assert (NCj : forall z, Cnorm2 (Cconj z) = Cnorm2 z) by (intros z; unfold Cnorm2, Cconj, Re, Im; cbn [fst snd]; ring).
      f_equal. rewrite !HD by assumption. f_equal.
      * rewrite (csum_ext Q _ (fun q => cf i q * cf j q)) by (intros; rewrite Cconj_conj; reflexivity). unfold cf, Q. rewrite coef_circular. rewrite (proj2 (Cnorm2_0 (RtoC 0)) eq_refl), Rplus_0_r. f_equal. apply rsum_ext. intros; apply NCj.
      * f_equal. apply rsum_ext. intros. now rewrite NCj.
Qed.
