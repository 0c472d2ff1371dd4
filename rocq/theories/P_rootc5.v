(** Roots of self-reciprocal polynomials: half of them are inside the unit circle. *)
From Coq Require Import Sorting.Sorted Sorting.Permutation.
From Verif Require Import Base_Np Base_Lin Base_Trig S_subspace P_subspace P_subspace2 P_subspace5 M_subspace P_spectral P_fta P_fta2 P_rootc P_rootc2 P_rootc3.
Open Scope C_scope.

Fixpoint rv (l : list C) (x : C) : C := match l with [] => RtoC 1 | w :: l' => (RtoC 1 - Cconj w * x) * rv l' x end.
Lemma rv_perm l l' x : Permutation l l' -> rv l x = rv l' x.
Proof. induction 1; cbn [rv]; [reflexivity|congruence|ring|congruence]. Qed.
Lemma rv_pe l : exists d, forall x, pe d x = rv l x.
Proof.
  induction l as [|w l (d & H)]; [exists [RtoC 1]; intros x; cbn [pe rv]; ring|]. exists (padd d (RtoC 0 :: map (fun b => (- Cconj w) * b) d)). intros x. rewrite pe_padd. cbn [pe rv]. rewrite pe_scal, H. ring.
Qed.
Lemma rv_reflect l x : x <> RtoC 0 -> cpow x (List.length l) * Cconj (lin_prod l (/ Cconj x)) = rv l x.
Proof.
  intros Nx. assert (Nc : Cconj x <> RtoC 0) by (intros E; apply Nx; rewrite <- (Cconj_conj x), E; apply Cconj_0). induction l as [|w l IH]; cbn [List.length cpow lin_prod rv]; [rewrite Cconj_RtoC; ring|].
  rewrite Cmult_conj, Cminus_conj, <- IH. assert (E : Cconj (/ Cconj x) = / x). { apply (Ccancel x); [exact Nx|]. rewrite Cinv_r by exact Nx. rewrite <- (Cconj_conj x) at 1. rewrite <- Cmult_conj, Cinv_r by exact Nc. apply Cconj_RtoC. } rewrite E. field. exact Nx.
Qed.
Lemma rv_0 l x : rv l x = RtoC 0 -> exists w, In w l /\ Cconj w * x = RtoC 1.
Proof.
  induction l as [|w l IH]; cbn [rv]; intros E; [exfalso; apply (RtoC_neq_0 1); [lra|exact E]|]. destruct (Cmult_0 _ _ E) as [X|X].
  - exists w. split; [now left|]. replace (Cconj w * x) with (RtoC 1 - (RtoC 1 - Cconj w * x)) by ring. rewrite X. ring.
  - destruct (IH X) as (v & Iv & Ev). exists v. split; [now right|exact Ev].
Qed.
Lemma shift_pe n d : exists d', forall x, pe d' x = cpow x n * pe d x.
Proof. induction n as [|n (d' & H)]; [exists d; intros x; cbn [cpow]; ring|]. exists (RtoC 0 :: d'). intros x. cbn [pe cpow]. rewrite H. ring. Qed.
Definition is_pe (F : C -> C) : Prop := exists d, forall x, pe d x = F x.
Lemma is_pe_lin w F : is_pe F -> is_pe (fun x => (x - w) * F x).
Proof. intros (d & H). exists (padd (RtoC 0 :: d) (map (fun b => (- w) * b) d)). intros x. rewrite pe_padd, pe_scal. cbn [pe]. rewrite H. ring. Qed.
Lemma is_pe_scal (a : C) n F : is_pe F -> is_pe (fun x => a * cpow x n * F x).
Proof. intros (d & H). destruct (shift_pe n d) as (d2 & H2). exists (map (fun c => a * c) d2). intros x. rewrite pe_scal, H2, H. ring. Qed.
Lemma cancel_pe z F G : is_pe F -> is_pe G -> (forall x, (x - z) * F x = (x - z) * G x) -> forall x, F x = G x.
Proof.
  intros (d & HF) (f & HG) H x. rewrite <- HF, <- HG. apply (pe_agree _ _ z). intros y Ny. rewrite HF, HG. apply (Ccancel (y - z)); [now apply Cdiff_0|apply H].
Qed.
Lemma zeros l : (forall w, In w l -> w = RtoC 0) -> (forall x, lin_prod l x = cpow x (List.length l) /\ rv l x = RtoC 1) /\ filter inside l = l.
Proof.
  intros H. split.
  - intros x. induction l as [|w l IH]; cbn [lin_prod rv List.length cpow]; [split; reflexivity|]. destruct (IH (fun v Iv => H v (or_intror Iv))) as (-> & ->). rewrite (H w (or_introl eq_refl)), Cconj_0. split; ring.
  - apply filter_all. intros w Iw. rewrite (H w Iw). unfold inside. rewrite Cmod_0. destruct (Rlt_dec 0 1); [reflexivity|lra].
Qed.
Lemma half_count n : forall l a b M N, (List.length l <= n)%nat -> a <> RtoC 0 -> b <> RtoC 0 -> (forall w, In w l -> Cmod w <> 1%R) ->
  (forall x, a * cpow x (M + List.length l) * lin_prod l x = b * cpow x N * rv l x) -> (2 * List.length (filter inside l) + M = N)%nat.
Proof.
  induction n as [|n IH]; intros l a b M N Ln Na Nb Off H.
  - destruct l as [|? ?]; [|cbn in Ln; lia]. cbn [filter List.length lin_prod rv] in *.
    assert (E1 : a = b). { specialize (H (RtoC 1)). assert (P1 : forall j, cpow (RtoC 1) j = RtoC 1) by (induction j as [|j IHj]; cbn [cpow]; [reflexivity|rewrite IHj; ring]). rewrite !P1 in H. rewrite !Cmult_1_r in H. exact H. }
    specialize (H (RtoC 2)). rewrite E1 in H. rewrite !Cmult_1_r in H. apply (Ccancel b) in H; [|exact Nb]. rewrite !cpow_RtoC in H. injection H as H. assert (Q : (M + 0 = N)%nat); [|lia]. destruct (Nat.lt_trichotomy (M + 0) N) as [L|[L|L]]; [|exact L|]; exfalso; pose proof (Rlt_pow 2 _ _ ltac:(lra) L); lra.
  - destruct (Classical_Prop.classic (forall w, In w l -> w = RtoC 0)) as [Z|NZ].
    + destruct (zeros l Z) as (Z1 & Z2). rewrite Z2.
      assert (H' : forall x, a * cpow x (M + List.length l + List.length l) = b * cpow x N). { intros x. specialize (H x). destruct (Z1 x) as (E1 & E2). rewrite E1, E2 in H. rewrite (cpow_add x (M + List.length l)). rewrite Cmult_assoc, H. ring. }
      pose proof (H' (RtoC 1)) as E1. assert (P1 : forall j, cpow (RtoC 1) j = RtoC 1) by (induction j as [|j IHj]; cbn [cpow]; [reflexivity|rewrite IHj; ring]). rewrite !P1, !Cmult_1_r in E1. 
      specialize (H' (RtoC 2)). rewrite E1 in H'. apply (Ccancel b) in H'; [|exact Nb]. rewrite !cpow_RtoC in H'. injection H' as H'. destruct (Nat.lt_trichotomy (M + List.length l + List.length l) N) as [L|[L|L]]; [|lia|]; exfalso; pose proof (Rlt_pow 2 _ _ ltac:(lra) L); lra.
    + assert (X : exists z, In z l /\ z <> RtoC 0). { destruct (Classical_Prop.classic (exists z, In z l /\ z <> RtoC 0)) as [Y|Y]; [exact Y|]. exfalso. apply NZ. intros w Iw. destruct (C_eq_dec w (RtoC 0)) as [E|E]; [exact E|]. exfalso. apply Y. now exists w. }
      destruct X as (z & Iz & Nz). assert (Ncz : Cconj z <> RtoC 0) by (intros E; apply Nz; rewrite <- (Cconj_conj z), E; apply Cconj_0).
      assert (Zr : rv l z = RtoC 0). { pose proof (H z) as E. rewrite (proj2 (lin_prod_0 l z) Iz), Cmult_0_r in E. symmetry in E. destruct (Cmult_0 _ _ E) as [Y|Y]; [|exact Y]. exfalso. destruct (Cmult_0 _ _ Y) as [Y'|Y']; [contradiction|]. exact (cpow_neq_0 _ _ Nz Y'). }
      destruct (rv_0 l z Zr) as (w & Iw & Ew).
      assert (Nw : w <> RtoC 0) by (intros ->; rewrite Cconj_0, Cmult_0_l in Ew; apply (RtoC_neq_0 1); [lra|now symmetry]). assert (Ncw : Cconj w <> RtoC 0) by (intros E; apply Nw; rewrite <- (Cconj_conj w), E; apply Cconj_0).
      assert (MM : (Cmod w * Cmod z)%R = 1%R) by (rewrite <- (Cmod_conj w), <- Cmod_mult, Ew; apply Cmod_1).
      assert (Nwz : w <> z). { intros ->. apply (Off z Iz). pose proof (Cmod_ge_0 z). nra. }
      apply in_split in Iz as (s1 & s2 & E1). assert (P1 : Permutation l (z :: (s1 ++ s2))) by (rewrite E1; symmetry; apply Permutation_middle).
      assert (Iw' : In w (s1 ++ s2)). { apply (Permutation_in _ P1) in Iw. destruct Iw as [E|Y]; [congruence|exact Y]. }
      set (l1 := s1 ++ s2) in *. clearbody l1. clear s1 s2 E1. apply in_split in Iw' as (s1 & s2 & E1). assert (P2 : Permutation l1 (w :: (s1 ++ s2))) by (rewrite E1; symmetry; apply Permutation_middle).
      set (l2 := s1 ++ s2) in *. clearbody l2. clear s1 s2 E1. assert (P : Permutation l (z :: w :: l2)) by (rewrite P1; now constructor).
      assert (LL : List.length l = S (S (List.length l2))) by (rewrite (Permutation_length P); reflexivity).
      assert (Q : (2 * List.length (filter inside l2) + (M + 2) = N)%nat).
      { apply (IH l2 a (b * (Cconj z * Cconj w))).
        - lia.
        - exact Na.
        - apply Cmult_neq_0; [exact Nb|]. now apply Cmult_neq_0.
        - intros v Iv. apply Off. eapply Permutation_in; [symmetry; exact P|]. now do 2 right.
        - assert (PL : is_pe (lin_prod l2)) by apply lin_prod_pe. assert (PR : is_pe (rv l2)) by apply rv_pe.
          apply (cancel_pe w); [now apply is_pe_scal|now apply is_pe_scal|]. apply (cancel_pe z); [now apply is_pe_lin, is_pe_scal|now apply is_pe_lin, is_pe_scal|].
          intros x. pose proof (H x) as E. rewrite (lin_prod_perm _ _ x P), (rv_perm _ _ x P), LL in E. cbn [lin_prod rv] in E.
          replace (M + S (S (List.length l2)))%nat with (M + 2 + List.length l2)%nat in E by lia.
          assert (Ew' : Cconj z * w = RtoC 1) by (rewrite <- (Cconj_conj w), <- Cmult_conj, Cmult_comm, Ew; apply Cconj_RtoC).
          assert (E2 : RtoC 1 - Cconj z * x = (- Cconj z) * (x - w)) by (rewrite <- Ew'; ring).
          assert (E3 : RtoC 1 - Cconj w * x = (- Cconj w) * (x - z)) by (rewrite <- Ew; ring).
          rewrite E2, E3 in E. transitivity (a * cpow x (M + 2 + List.length l2) * ((x - z) * ((x - w) * lin_prod l2 x))); [ring|]. rewrite E. ring. }
      pose proof (Permutation_length (filter_perm inside _ _ P)) as LF. cbn [filter] in LF. assert (IN : forall v, inside v = if Rlt_dec (Cmod v) 1 then true else false) by reflexivity. rewrite (IN z), (IN w) in LF.
      pose proof (Cmod_ge_0 z). pose proof (Cmod_ge_0 w). assert (Oz : Cmod z <> 1%R) by (apply Off; eapply Permutation_in; [symmetry; exact P|now left]).
      destruct (Rlt_dec (Cmod z) 1) as [Lz|Lz]; (destruct (Rlt_dec (Cmod w) 1) as [Lw|Lw]); cbn [List.length] in LF; try lia; exfalso.
      + pose proof (Rmult_le_compat_l (Cmod w) (Cmod z) 1 ltac:(lra) ltac:(lra)). lra.
      + assert (Z1 : (1 < Cmod z)%R) by (destruct (Rtotal_order (Cmod z) 1) as [?|[?|?]]; [lra|contradiction|lra]).
        pose proof (Rmult_le_compat_r (Cmod z) 1 (Cmod w) ltac:(lra) ltac:(lra)).
        lra.
Qed.

(** the kept roots of any noise polynomial *)
Lemma kept_count Cm m (l : list C) a : hermitian Cm -> nr Cm = m -> (1 <= m)%nat -> a <> RtoC 0 -> (forall x, poly (root_coeffs Cm) x = a * lin_prod l x) -> (forall w, In w l -> Cmod w <> 1%R) -> List.length (filter inside l) = (m - 1)%nat.
Proof.
  intros HH Hm H0 Na H Off. assert (Q : (2 * List.length (filter inside l) + 0 = 2 * m - 2)%nat); [|lia].
  apply (half_count (List.length l) l a (Cconj a) 0 (2 * m - 2)); auto; [intros E; apply Na; rewrite <- (Cconj_conj a), E; apply Cconj_0|].
  assert (PL : is_pe (lin_prod l)) by apply lin_prod_pe. assert (PR : is_pe (rv l)) by apply rv_pe.
  apply (cancel_pe (RtoC 0)); [now apply is_pe_scal|now apply is_pe_scal|]. intros x. destruct (C_eq_dec x (RtoC 0)) as [->|Nx]; [ring|]. f_equal. cbn [Nat.add].
  rewrite <- rv_reflect by exact Nx. pose proof (poly_reflect Cm x HH ltac:(lia) Nx) as E. rewrite !H, Hm, Cmult_conj in E.
  transitivity (cpow x (List.length l) * (a * lin_prod l x)); [ring|]. rewrite E. ring.
Qed.
