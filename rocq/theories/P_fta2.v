(** Factorisation of polynomials and eigenvalues of arbitrary square matrices: reference routines that meet the contracts of
    numpy.roots and numpy.linalg.eigvals for every order. *)
From Coq Require Import Lra.
From Verif Require Import Base_Np Base_Lin Base_Trig S_subspace P_subspace P_spectral P_fta P_gauss S_perf.
Open Scope C_scope.

(** *** synthetic division *)
Fixpoint quot (l : list C) (a : C) : list C := match l with [] => [] | [_] => [] | _ :: l' => pe l' a :: quot l' a end.
Lemma quot_cons b c l a : quot (b :: c :: l) a = pe (c :: l) a :: quot (c :: l) a.
Proof. reflexivity. Qed.
Lemma quot_length l a : List.length (quot l a) = pred (List.length l).
Proof. induction l as [|b l IH]; [reflexivity|]. destruct l as [|c l]; [reflexivity|]. rewrite quot_cons. cbn [List.length] in *. now rewrite IH. Qed.
Lemma quot_spec l a z : pe l z = pe l a + (z - a) * pe (quot l a) z.
Proof.
  induction l as [|b l IH]; [cbn; ring|]. destruct l as [|c l]; [cbn; ring|]. rewrite quot_cons. remember (c :: l) as l' eqn:El. cbn [pe]. rewrite IH at 1. ring.
Qed.
Definition nonzero (l : list C) : Prop := exists i, nth i l (RtoC 0) <> RtoC 0.
Lemma nonzero_cases l : nonzero l -> nonconst l \/ (nth 0 l (RtoC 0) <> RtoC 0 /\ forall z, pe l z = nth 0 l (RtoC 0)).
Proof.
  intros (i & N). destruct (nonconst_dec l) as [Y|Y]; [now left|]. right. split; [|now apply pe_const]. destruct i as [|i]; [exact N|]. elim Y. exists (S i). split; [lia | exact N].
Qed.
Lemma zero_or l : {nonzero l} + {forall i, nth i l (RtoC 0) = RtoC 0}.
Proof.
  destruct (pivot_dec (List.length l) (fun i => nth i l (RtoC 0))) as [(i & _ & N)|Z]; [left; now exists i|]. right. intros i. destruct (Nat.lt_ge_cases i (List.length l)) as [H|H]; [now apply Z | now apply nth_overflow].
Qed.
Lemma pe_zero l : (forall i, nth i l (RtoC 0) = RtoC 0) -> forall z, pe l z = RtoC 0.
Proof. intros Z z. rewrite pe_const; [apply Z|]. intros (i & _ & N). apply N, Z. Qed.
Lemma quot_nonzero l a : nonconst l -> pe l a = RtoC 0 -> nonzero (quot l a).
Proof.
  intros N E. destruct (zero_or (quot l a)) as [Y|Z]; [exact Y|]. exfalso. apply (const_not_growing l (RtoC 0) N). intros z. rewrite (quot_spec l a z), E, (pe_zero _ Z). ring.
Qed.
Lemma roots_finite n : forall l, (List.length l <= n)%nat -> nonzero l -> exists zs, forall z, pe l z = RtoC 0 -> In z zs.
Proof.
  induction n as [|n IH]; intros l Hl NZ; [destruct l; [destruct NZ as ([|i] & N); elim N; reflexivity | cbn in Hl; lia]|].
  destruct (nonzero_cases l NZ) as [N|(N & E)]; [|exists []; intros z Hz; rewrite E in Hz; contradiction].
  destruct (fta l N) as (a & Ha). destruct (IH (quot l a)) as (zs & H); [rewrite quot_length; lia | now apply quot_nonzero|]. exists (a :: zs). intros z Hz. rewrite (quot_spec l a z), Ha in Hz.
  destruct (C_eq_dec z a) as [->|Nz]; [now left|]. right. apply H. assert (Y : (z - a) * pe (quot l a) z = RtoC 0) by (rewrite <- Hz; ring).
  apply (f_equal (fun x => / (z - a) * x)) in Y. rewrite Cmult_assoc, Cinv_l, Cmult_1_l in Y; [rewrite Y; ring|]. intros X. apply Nz. replace z with (z - a + a) by ring. rewrite X. ring.
Qed.

(** *** an element of a finite nonempty set of complex numbers *)
Lemma finite_min (f : C -> R) (Q : C -> Prop) zs : (exists z, In z zs /\ Q z) -> exists z, Q z /\ forall w, In w zs -> Q w -> (f z <= f w)%R.
Proof.
  induction zs as [|a zs IH]; intros (z & Hz & HQ); [destruct Hz|].
  destruct (Classical_Prop.classic (exists z, In z zs /\ Q z)) as [Y|NY].
  - destruct (IH Y) as (m & Qm & Hm). destruct (Classical_Prop.classic (Q a)) as [Qa|Na].
    + destruct (Rle_dec (f a) (f m)) as [L|L]; [exists a | exists m]; (split; [assumption|]); intros w [<-|Hw] Qw; try lra; specialize (Hm w Hw Qw); lra.
    + exists m. split; [exact Qm|]. intros w [<-|Hw] Qw; [contradiction | now apply Hm].
  - exists a. assert (z = a) as -> by (destruct Hz as [<-|Hz]; [reflexivity | elim NY; now exists z]). split; [exact HQ|]. intros w [<-|Hw] Qw; [lra | elim NY; now exists w].
Qed.
Lemma finite_inf (f : C -> R) (Q : C -> Prop) : (exists zs, forall z, Q z -> In z zs) -> (exists z, Q z) -> {m : R | (exists z, Q z /\ f z = m) /\ forall z, Q z -> (m <= f z)%R}.
Proof.
  intros HF HE. assert (HM : exists z, Q z /\ forall w, Q w -> (f z <= f w)%R).
  { destruct HF as (zs & HF), HE as (z & Hz). destruct (finite_min f Q zs) as (m & Qm & Hm); [exists z; auto|]. exists m. split; [exact Qm|]. intros w Hw. apply Hm; auto. }
  destruct (completeness (fun r => exists z, Q z /\ r = (- f z)%R)) as (m & U & L).
  - destruct HM as (z & _ & H). exists (- f z)%R. intros r (w & Hw & ->). specialize (H w Hw). lra.
  - destruct HE as (z & Hz). now exists (- f z)%R, z.
  - exists (- m)%R. split.
    + destruct HM as (z & Hz & H). exists z. split; [exact Hz|]. assert (- f z <= m)%R by (apply U; now exists z). assert (m <= - f z)%R; [|lra]. apply L. intros r (w & Hw & ->). specialize (H w Hw). lra.
    + intros z Hz. assert (- f z <= m)%R by (apply U; now exists z). lra.
Qed.
Lemma pick (Q : C -> Prop) : (exists zs, forall z, Q z -> In z zs) -> (exists z, Q z) -> {z | Q z}.
Proof.
  intros HF HE. destruct (finite_inf Re Q HF HE) as (x & X1 & X2).
  destruct (finite_inf Im (fun z => Q z /\ Re z = x)) as (y & Y1 & _).
  - destruct HF as (zs & HF). exists zs. intros z (Hz & _). auto.
  - destruct X1 as (z & Hz). now exists z.
  - exists (x, y). destruct Y1 as ((a, b) & (Hz & E1) & E2). cbn in E1, E2. now subst.
Qed.
Lemma root_of l : nonconst l -> {z | pe l z = RtoC 0}.
Proof. intros N. apply pick; [|now apply fta]. apply (roots_finite (List.length l)); [lia|]. destruct N as (i & _ & N). now exists i. Qed.

(** *** factorisation *)
Fixpoint lin_prod (zs : list C) (z : C) : C := match zs with [] => RtoC 1 | a :: zs' => (z - a) * lin_prod zs' z end.
Lemma factor_aux n : forall l, (List.length l <= n)%nat -> nonzero l -> {c & {zs | c <> RtoC 0 /\ forall z, pe l z = c * lin_prod zs z}}.
Proof.
  induction n as [|n IH]; intros l Hl NZ; [exfalso; destruct l; [destruct NZ as ([|i] & N); elim N; reflexivity | cbn in Hl; lia]|].
  destruct (nonconst_dec l) as [N|N].
  - destruct (root_of l N) as (a & Ha). destruct (IH (quot l a)) as (c & zs & Nc & H); [rewrite quot_length; lia | now apply quot_nonzero|]. exists c, (a :: zs). split; [exact Nc|]. intros z. rewrite (quot_spec l a z), Ha, H. cbn [lin_prod]. ring.
  - exists (nth 0 l (RtoC 0)), []. destruct (nonzero_cases l NZ) as [Y|(Y & E)]; [contradiction|]. split; [exact Y|]. intros z. rewrite E. cbn. ring.
Qed.
Lemma factor l : nonzero l -> {c & {zs | c <> RtoC 0 /\ forall z, pe l z = c * lin_prod zs z}}.
Proof. now apply (factor_aux (List.length l)). Qed.
Lemma lin_prod_0 zs z : lin_prod zs z = RtoC 0 <-> In z zs.
Proof.
  induction zs as [|a zs IH]; cbn [lin_prod In]; [split; [intros E; exfalso; apply (RtoC_neq_0 1); [lra | exact E] | tauto]|]. rewrite <- IH. split.
  - intros E. destruct (C_eq_dec (z - a) (RtoC 0)) as [X|X]; [left; replace z with (z - a + a) by ring; rewrite X; ring|]. right. apply (f_equal (fun x => / (z - a) * x)) in E. rewrite Cmult_assoc, Cinv_l, Cmult_1_l in E by exact X. rewrite E. ring.
  - intros [->| ->]; ring.
Qed.

Lemma csum_delta' n i (c : C) : (i < n)%nat -> csum n (fun j => if Nat.eqb j i then c else RtoC 0) = c.
Proof. intros H. rewrite (csum_single n _ i H); [now rewrite Nat.eqb_refl|]. intros j _ N. now destruct (Nat.eqb_spec j i). Qed.
(** *** eigenvalues *)
Section Eig.
  Context (A : cmat) (n : nat).
  Hypothesis An : nr A = n.
  Hypothesis Ac : nc A = n.
  Fixpoint iter (k : nat) (v : nat -> C) : nat -> C := match k with O => v | S k' => mvec A (iter k' v) end.
  Fixpoint op (l : list C) (v : nat -> C) : nat -> C := match l with [] => fun _ => RtoC 0 | a :: l' => fun i => a * v i + mvec A (op l' v) i end.
  Lemma mvec_ext' x y : (forall i, (i < n)%nat -> x i = y i) -> forall i, mvec A x i = mvec A y i.
  Proof. intros H i. unfold mvec. apply csum_ext. intros j Hj. rewrite H by (rewrite <- Ac; exact Hj). reflexivity. Qed.
  Lemma mvec_lin (a b : C) x y i : mvec A (fun i => a * x i + b * y i) i = a * mvec A x i + b * mvec A y i.
  Proof. unfold mvec. rewrite <- !csum_scal, <- csum_plus. apply csum_ext. intros j _. ring. Qed.
  Lemma op_quot l a v i : op l v i = pe l a * v i + (mvec A (op (quot l a) v) i - a * op (quot l a) v i).
  Proof.
    revert i. induction l as [|b l IH]; intros i.
    - cbn. unfold mvec. rewrite csum_0 by (intros; ring). ring.
    - destruct l as [|c l].
      + cbn. unfold mvec. rewrite !csum_0 by (intros; ring). ring.
      + rewrite quot_cons. remember (c :: l) as l' eqn:El. cbn [op pe].
        assert (E : forall j, mvec A (op l' v) j = mvec A (fun i => pe l' a * v i + RtoC 1 * (mvec A (op (quot l' a) v) i - a * op (quot l' a) v i)) j) by (intros j; apply mvec_ext'; intros q _; rewrite IH; ring).
        assert (E2 : forall j, mvec A (fun i => pe l' a * v i + mvec A (op (quot l' a) v) i) j = mvec A (fun i => pe l' a * v i + RtoC 1 * mvec A (op (quot l' a) v) i) j) by (intros j; apply mvec_ext'; intros q _; ring).
        assert (E3 : forall j, mvec A (fun i => mvec A (op (quot l' a) v) i - a * op (quot l' a) v i) j = mvec A (fun i => RtoC 1 * mvec A (op (quot l' a) v) i + - a * op (quot l' a) v i) j) by (intros j; apply mvec_ext'; intros q _; ring).
        rewrite E, mvec_lin, E2, mvec_lin, E3, mvec_lin. ring.
  Qed.
  Lemma eig_of_annihilator m : forall l v, (List.length l <= m)%nat -> nonzero l -> (exists i, (i < n)%nat /\ v i <> RtoC 0) -> (forall i, (i < n)%nat -> op l v i = RtoC 0) -> exists z, eigenvalue A z.
  Proof.
    induction m as [|m IH]; intros l v Hl NZ Nv H; [destruct l; [destruct NZ as ([|i] & N); elim N; reflexivity | cbn in Hl; lia]|].
    destruct (nonconst_dec l) as [N|N].
    - destruct (fta l N) as (a & Ha). set (u := op (quot l a) v). destruct (pivot_dec n u) as [(i & Hi & Ni)|Z].
      + exists a, u. rewrite An. split; [now exists i|]. intros j Hj. specialize (H j Hj). rewrite (op_quot l a v j), Ha in H. fold u in H. replace (mvec A u j) with (RtoC 0 * v j + (mvec A u j - a * u j) + a * u j) by ring. rewrite H. ring.
      + apply (IH (quot l a) v); [rewrite quot_length; lia | now apply quot_nonzero | exact Nv | exact Z].
    - exfalso. destruct (nonzero_cases l NZ) as [Y|(Y & E)]; [contradiction|]. destruct Nv as (i & Hi & Ni). apply Ni. specialize (H i Hi). destruct l as [|c l]; [elim Y; reflexivity|]. cbn in Y.
      assert (Z : forall j, op l v j = RtoC 0).
      { assert (ZL : forall j, nth j l (RtoC 0) = RtoC 0) by (intros j; destruct (C_eq_dec (nth j l (RtoC 0)) (RtoC 0)) as [e|e]; [exact e|]; elim N; exists (S j); split; [lia | exact e]).
        clear - ZL Ac. induction l as [|d l IHl]; intros j; [reflexivity|]. cbn [op]. pose proof (ZL O) as Z0. cbn in Z0. rewrite Z0. rewrite (mvec_ext' (op l v) (fun _ => RtoC 0)); [|intros q _; apply IHl; intros p; apply (ZL (S p))]. unfold mvec. rewrite csum_0 by (intros; ring). ring. }
      cbn [op] in H. rewrite (mvec_ext' (op l v) (fun _ => RtoC 0)) in H by (intros; apply Z). unfold mvec in H. rewrite csum_0 in H by (intros; ring).
      apply (f_equal (fun x => / c * x)) in H. replace (/ c * (c * v i + RtoC 0)) with (/ c * c * v i) in H by ring. rewrite Cinv_l in H by exact Y. rewrite Cmult_1_l in H. rewrite H. ring.
  Qed.
  Lemma op_sum l v i : op l v i = csum (List.length l) (fun k => nth k l (RtoC 0) * iter k v i).
  Proof.
    revert i. induction l as [|a l IH]; intros i; [reflexivity|]. cbn [op List.length]. rewrite csum_S_l. cbn [nth iter]. f_equal. rewrite (mvec_ext' _ _ (fun j _ => IH j)). unfold mvec at 1.
    rewrite (csum_ext _ _ (fun j => csum (List.length l) (fun k => ent A i j * (nth k l (RtoC 0) * iter k v j)))) by (intros j _; now rewrite <- csum_scal). rewrite csum_swap. apply csum_ext. intros k _. rewrite (csum_ext _ _ (fun j => nth k l (RtoC 0) * (ent A i j * iter k v j))) by (intros; ring). now rewrite csum_scal.
  Qed.
  Definition basis (j : nat) : nat -> C := fun i => if Nat.eqb i j then RtoC 1 else RtoC 0.
  Lemma iter_expand k : forall v i, (i < n)%nat -> iter k v i = csum n (fun j => v j * iter k (basis j) i).
  Proof.
    induction k as [|k IH]; intros v i Hi; cbn [iter].
    - unfold basis. rewrite (csum_ext _ _ (fun j => if Nat.eqb j i then v i else RtoC 0)); [now rewrite csum_delta'|]. intros j Hj. rewrite (Nat.eqb_sym i j). destruct (Nat.eqb_spec j i) as [->|]; ring.
    - rewrite (mvec_ext' _ _ (fun q Hq => IH v q Hq)). unfold mvec. rewrite Ac.
      rewrite (csum_ext _ _ (fun q => csum n (fun j => ent A i q * (v j * iter k (basis j) q)))) by (intros q _; now rewrite <- csum_scal). rewrite csum_swap. apply csum_ext. intros j _. rewrite <- csum_scal. apply csum_ext. intros q _. ring.
  Qed.
  Lemma annihilator : {l | nonzero l /\ forall v i, (i < n)%nat -> op l v i = RtoC 0}.
  Proof.
    set (N := (n * n)%nat). destruct (kernel_dec (S N) N (fun e k => iter k (basis (e mod n)) (e / n))) as [(x & HX)|Inj].
    - exists (map x (seq 0 (S N))). destruct HX as ((j & Hj & Nj) & H). assert (NT : forall k, (k < S N)%nat -> nth k (map x (seq 0 (S N))) (RtoC 0) = x k) by (intros k Hk; now rewrite nth_map_seq).
      split; [exists j; rewrite NT; [exact Nj | exact Hj]|]. intros v i Hi. rewrite op_sum, map_length, seq_length. rewrite (csum_ext _ _ (fun k => csum n (fun q => v q * (x k * iter k (basis q) i)))).
      2:{ intros k Hk. rewrite NT by exact Hk. rewrite (iter_expand k v i Hi), <- csum_scal. apply csum_ext. intros q _. ring. }
      rewrite csum_swap. apply csum_0. intros q Hq. rewrite csum_scal. assert (E : csum (S N) (fun k => x k * iter k (basis q) i) = RtoC 0); [|rewrite E; ring].
      specialize (H (i * n + q)%nat ltac:(unfold N; nia)). assert (E1 : ((i * n + q) mod n = q)%nat) by (rewrite Nat.add_comm, Nat.mod_add by lia; now apply Nat.mod_small). assert (E2 : ((i * n + q) / n = i)%nat) by (rewrite Nat.add_comm, Nat.div_add by lia; rewrite Nat.div_small by lia; lia).
      rewrite E1, E2 in H. rewrite <- H. apply csum_ext. intros k _. ring.
    - exfalso. destruct (kernel_exists N (S N) (fun e k => iter k (basis (e mod n)) (e / n)) ltac:(lia)) as (x & (j & Hj & Nj) & H). apply Nj. now apply (Inj x H).
  Qed.
  Lemma iter_eig z v : (forall i, (i < n)%nat -> mvec A v i = z * v i) -> forall k i, (i < n)%nat -> iter k v i = cpow z k * v i.
  Proof.
    intros H. induction k as [|k IH]; intros i Hi; cbn [iter cpow]; [ring|]. rewrite (mvec_ext' _ (fun q => cpow z k * v q + RtoC 0 * v q)) by (intros q Hq; rewrite IH by exact Hq; ring). rewrite mvec_lin, H by exact Hi. ring.
  Qed.
  Lemma eig_root l z : (forall v i, (i < n)%nat -> op l v i = RtoC 0) -> eigenvalue A z -> pe l z = RtoC 0.
  Proof.
    intros H (v & (i & Hi & Ni) & Hv). rewrite An in Hi, Hv. specialize (H v i Hi). assert (E : op l v i = pe l z * v i).
    { rewrite op_sum. assert (S : pe l z = csum (List.length l) (fun k => nth k l (RtoC 0) * cpow z k)).
      { clear. induction l as [|a l IH]; [reflexivity|]. cbn [pe List.length]. rewrite csum_S_l. cbn [nth cpow]. rewrite IH, <- csum_scal. f_equal; [ring|]. apply csum_ext. intros k _. ring. }
      rewrite S. rewrite Cmult_comm, <- csum_scal. apply csum_ext. intros k _. rewrite (iter_eig z v Hv k i Hi). ring. }
    rewrite H in E. apply (f_equal (fun x => x * / v i)) in E. rewrite <- Cmult_assoc, Cinv_r in E by exact Ni. rewrite Cmult_1_r in E. rewrite <- E. ring.
  Qed.
  Lemma eig_dec z : {eigenvalue A z} + {~ eigenvalue A z}.
  Proof.
    assert (E : forall x i, (i < n)%nat -> csum n (fun j => (ent A i j - z * (if Nat.eqb i j then RtoC 1 else RtoC 0)) * x j) = mvec A x i - z * x i).
    { intros x i Hi. unfold mvec. rewrite Ac. rewrite (csum_ext _ _ (fun j => ent A i j * x j + (- z) * (if Nat.eqb j i then x i else RtoC 0))); [rewrite csum_plus, csum_scal, csum_delta' by exact Hi; ring|].
      intros j _. rewrite (Nat.eqb_sym i j). destruct (Nat.eqb_spec j i) as [->|]; ring. }
    destruct (kernel_dec n n (fun i j => ent A i j - z * (if Nat.eqb i j then RtoC 1 else RtoC 0))) as [(x & Nx & H)|Inj].
    - left. exists x. rewrite An. split; [exact Nx|]. intros i Hi. specialize (H i Hi). rewrite E in H by exact Hi. replace (mvec A x i) with (mvec A x i - z * x i + z * x i) by ring. rewrite H. ring.
    - right. intros (v & (i & Hi & Ni) & Hv). rewrite An in *. apply Ni. apply (Inj v); [|exact Hi]. intros j Hj. rewrite E by exact Hj. rewrite Hv by exact Hj. ring.
  Qed.
  Lemma eig_count zs : NoDup zs -> (forall z, In z zs -> eigenvalue A z) -> (List.length zs <= n)%nat.
  Proof.
    intros ND H. destruct (Nat.le_gt_cases (List.length zs) n) as [L|L]; [exact L|]. exfalso. set (K := List.length zs) in *.
    assert (HV : exists vs : nat -> nat -> C, forall k, (k < K)%nat -> (exists i, (i < n)%nat /\ vs k i <> RtoC 0) /\ forall i, (i < n)%nat -> mvec A (vs k) i = nth k zs (RtoC 0) * vs k i).
    { assert (X : forall m, (m <= K)%nat -> exists vs : nat -> nat -> C, forall k, (k < m)%nat -> (exists i, (i < n)%nat /\ vs k i <> RtoC 0) /\ forall i, (i < n)%nat -> mvec A (vs k) i = nth k zs (RtoC 0) * vs k i); [|apply (X K); lia].
      induction m as [|m IH]; intros Hm; [exists (fun _ _ => RtoC 0); lia|]. destruct (IH ltac:(lia)) as (vs & Hvs). destruct (H (nth m zs (RtoC 0))) as (v & V1 & V2); [apply nth_In; fold K; lia|]. rewrite An in V1, V2.
      exists (fun k => if Nat.eqb k m then v else vs k). intros k Hk. destruct (Nat.eqb_spec k m) as [->|Nk]; [split; assumption | apply Hvs; lia]. }
    destruct HV as (vs & HV). destruct (kernel_exists n K (fun i k => vs k i) L) as (c & (k0 & Hk0 & Nc) & HC).
    assert (Z : forall q i, (i < n)%nat -> csum K (fun k => cpow (nth k zs (RtoC 0)) q * (c k * vs k i)) = RtoC 0).
    { intros q i Hi. induction q as [|q IH] in i, Hi |- *.
      - rewrite <- (HC i Hi). apply csum_ext. intros k _. cbn [cpow]. ring.
      - assert (E : mvec A (fun i => csum K (fun k => cpow (nth k zs (RtoC 0)) q * (c k * vs k i))) i = RtoC 0).
        { rewrite (mvec_ext' _ (fun _ => RtoC 0)) by (intros; now apply IH). unfold mvec. apply csum_0. intros; ring. }
        etransitivity; [|exact E]. unfold mvec. rewrite (csum_ext (nc A) _ (fun j => csum K (fun k => ent A i j * (cpow (nth k zs (RtoC 0)) q * (c k * vs k j))))) by (intros j _; now rewrite <- csum_scal). rewrite csum_swap. apply csum_ext. intros k Hk.
        destruct (HV k Hk) as (_ & HE). specialize (HE i Hi). unfold mvec in HE. cbn [cpow]. transitivity (cpow (nth k zs (RtoC 0)) q * c k * (nth k zs (RtoC 0) * vs k i)); [ring|]. rewrite <- HE, <- csum_scal. apply csum_ext. intros j _. ring. }
    destruct (HV k0 Hk0) as ((i & Hi & Ni) & _). pose proof (ula_inj K zs ND (Nat.le_refl _)) as IJ. specialize (IJ (fun k => c k * vs k i)).
    assert (X : c k0 * vs k0 i = RtoC 0). { apply IJ; [|cbn; exact Hk0]. intros q Hq. unfold mvec. cbn [ula_matrix nc ent]. now apply Z. }
    apply Nc. apply (f_equal (fun x => x * / vs k0 i)) in X. rewrite <- Cmult_assoc, Cinv_r in X by exact Ni. rewrite Cmult_1_r in X. rewrite X. ring.
  Qed.
  Lemma eig_list : {l | List.length l = n /\ forall z, In z l <-> eigenvalue A z}.
  Proof.
    destruct annihilator as (l & NZ & H). destruct (factor l NZ) as (c & zs & Nc & HF). set (es := nodup C_eq_dec (filter (fun z => if eig_dec z then true else false) zs)).
    assert (HE : forall z, In z es <-> eigenvalue A z).
    { intros z. unfold es. rewrite nodup_In, filter_In. split; [intros (_ & X); destruct (eig_dec z); [assumption | discriminate]|]. intros X. split; [|destruct (eig_dec z); [reflexivity | contradiction]].
      apply lin_prod_0. pose proof (eig_root l z H X) as E. rewrite HF in E. destruct (C_eq_dec (lin_prod zs z) (RtoC 0)) as [e|e]; [exact e|]. exfalso. revert E. now apply Cmult_neq_0. }
    assert (LE : (List.length es <= n)%nat) by (apply eig_count; [apply NoDup_nodup | intros z Hz; now apply HE]).
    destruct es as [|e0 es'] eqn:Ees.
    - exists []. split; [|exact HE]. destruct (Nat.eq_dec n 0) as [N0|N0]; [now rewrite N0|]. exfalso. destruct (eig_of_annihilator (List.length l) l (fun _ => RtoC 1) (Nat.le_refl _) NZ) as (z & Hz); [exists O; split; [lia | apply RtoC_neq_0; lra] | intros i Hi; now apply H | now apply HE in Hz].
    - rewrite <- Ees in *. exists (es ++ repeat e0 (n - List.length es)). split; [rewrite app_length, repeat_length; lia|]. intros z. rewrite in_app_iff, <- HE. split; [|tauto]. intros [X|X]; [exact X|]. apply repeat_spec in X. subst z. rewrite Ees. now left.
  Qed.
End Eig.
Definition eigvals_ref (A : cmat) : res (list C) :=
  match Nat.eq_dec (nc A) (nr A) with left E => Ok (proj1_sig (eig_list A (nr A) eq_refl E)) | right _ => Raise ValueError end.
Lemma eigvals_ref_contract n : eigvals_contract n eigvals_ref.
Proof.
  intros A E _. unfold eigvals_ref. destruct (Nat.eq_dec (nc A) (nr A)) as [e|N]; [|congruence]. destruct (eig_list A (nr A) eq_refl e) as (l & L & H). exists l. auto.
Qed.
Lemma solve0_contract n : solve_contract n solve0.
Proof. intros G B E _ HI EB. destruct (proj2 solve0_exact G B E EB HI) as (X & HX). exists X. split; [exact HX|]. destruct (proj1 solve0_exact G B X HX) as (? & ? & ? & ?). auto. Qed.
