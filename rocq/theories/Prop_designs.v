(** Properties C10-C17 (array designs). *)
From Coq Require Import Sorting.Sorted Sorting.Permutation Lra.
From Verif Require Import Base_Np Base_Trig M_utils S_utils P_utils M_sources M_array M_designs S_designs P_designs P_designs2 M_coarray S_coarray P_coarray.
Open Scope nat_scope.

(** C10 *)
Theorem C10_ULA : forall n d name kw g, mk_ULA n (D0Scalar d) name kw = Ok g ->
  exists l, places_1d g l d /\ List.length l = Z.to_nat n /\ forall i, i < Z.to_nat n -> nth i l 0%Z = Z.of_nat i.
Proof.
  intros n d name kw g H. exists (ULA_indices n). split; [exact (ULA_spec _ _ _ _ _ H)|].
  split; [apply ULA_indices_length | apply ULA_indices_nth].
Qed.
Theorem C10_Nested : forall n1 n2 d name kw g, (0 <= n1)%Z -> (0 <= n2)%Z ->
  mk_Nested n1 n2 (D0Scalar d) name kw = Ok g ->
  exists l, places_1d g l d /\ List.length l = Z.to_nat (n1 + n2) /\ strictly_increasing l /\
    (forall i, i < Z.to_nat n1 -> nth i l 0%Z = Z.of_nat i) /\
    (forall k, k < Z.to_nat n2 -> nth (Z.to_nat n1 + k) l 0%Z = ((Z.of_nat k + 1) * (n1 + 1) - 1)%Z) /\
    ((1 <= n2)%Z -> last l 0%Z = (n2 * (n1 + 1) - 1)%Z).
Proof.
  intros n1 n2 d name kw g H1 H2 H. exists (nested_indices n1 n2). split; [exact (places_column _ _ _ _ _ H)|].
  pose proof (nested_length n1 n2 H1 H2) as L. split; [exact L|].
  split; [now apply nested_increasing|]. split; [apply nested_nth1|]. split; [intros; now apply nested_nth2|].
  intros H3. assert (NL : forall q : list Z, last q 0%Z = nth (Nat.pred (List.length q)) q 0%Z).
  { induction q as [|x [|y q] IH]; [reflexivity|reflexivity|]. change (last (x :: y :: q) 0%Z) with (last (y :: q) 0%Z). rewrite IH. reflexivity. }
  rewrite NL, L. replace (Nat.pred (Z.to_nat (n1 + n2))) with (Z.to_nat n1 + Z.to_nat (n2 - 1)) by lia.
  rewrite nested_nth2 by lia. rewrite Z2Nat.id by lia. ring.
Qed.
(** CoPrimeArray for positive m, n: first the n multiples of the smaller, then the multiples of the larger *)
Theorem C10_CoPrime : forall m n d mode name kw c, (1 <= m)%Z -> (1 <= n)%Z ->
  mk_CoPrime m n (D0Scalar d) mode name kw = Ok c ->
  let a := Z.min m n in let b := Z.max m n in
  exists l, places_1d (cp_design c) l d /\ NoDup l /\
    (forall i, i < Z.to_nat b -> nth i l 0%Z = (Z.of_nat i * a)%Z) /\
    (forall k, Z.to_nat b + k < List.length l -> nth (Z.to_nat b + k) l 0%Z = ((Z.of_nat k + 1) * b)%Z) /\
    (lower mode = "2m"%string /\ List.length l = Z.to_nat (b + 2 * a - 1) \/
     lower mode = "m"%string /\ List.length l = Z.to_nat (b + a - 1)).
Proof.
  intros m n d mode name kw c Hm Hn H a b. apply mk_CoPrime_ok in H as (Hg & _ & _ & H).
  assert (Hg' : Z.gcd a b = 1%Z).
  { unfold a, b. destruct (Z.le_ge_cases m n); [rewrite Z.min_l, Z.max_r by lia; exact Hg | rewrite Z.min_r, Z.max_l, Z.gcd_comm by lia; exact Hg]. }
  assert (Ha : (1 <= a)%Z) by (unfold a; lia). assert (Hb : (1 <= b)%Z) by (unfold b; lia).
  destruct H as [(M & _ & P)|(M & _ & P)].
  - exists (coprime_list a b (2 * a)). split; [exact P|]. split; [now apply coprime_NoDup|].
    split; [apply coprime_nth1|]. pose proof (coprime_length a b (2 * a)) as L. rewrite L by lia. split.
    + intros k Hk. apply coprime_nth2; lia.
    + left. split; [now apply lower_2m | f_equal; lia].
  - exists (coprime_list a b a). split; [exact P|]. split; [now apply coprime_NoDup|].
    split; [apply coprime_nth1|]. pose proof (coprime_length a b a) as L. rewrite L by lia. split.
    + intros k Hk. apply coprime_nth2; lia.
    + right. split; [now apply lower_m | f_equal; lia].
Qed.
(** construction succeeds, so the three theorems are not vacuous *)
Theorem C10_constructible : forall n n1 n2 d name,
  (exists g, mk_ULA n (D0Scalar d) name no_kwargs = Ok g) /\
  (exists g, mk_Nested n1 n2 (D0Scalar d) name no_kwargs = Ok g) /\
  (forall m, Z.gcd m n = 1%Z -> exists c, mk_CoPrime m n (D0Scalar d) "2M" name no_kwargs = Ok c) /\
  (forall m, Z.gcd m n = 1%Z -> exists c, mk_CoPrime m n (D0Scalar d) "m" name no_kwargs = Ok c).
Proof.
  intros. split; [apply column_ok|]. split; [apply column_ok|].
  split; intros m Hg.
  - destruct (mk_CoPrime m n (D0Scalar d) "2M" name no_kwargs) eqn:E; [eauto|].
    assert (e = ValueError).
    { rewrite mk_CoPrime_swap in E. cbv zeta in E. rewrite Hg in E. change (negb (1 =? 1)%Z) with false in E. cbv iota in E.
      change (lower "2M") with "2m"%string in E. rewrite coprime_indices_2m in E. cbn [bind] in E.
      destruct (column_ok (coprime_list (Z.min m n) (Z.max m n) (2 * Z.min m n)) d (name_or name ("Co-prime (" ++ strZ m ++ "," ++ strZ n ++ ")"))) as (g & Eg).
      unfold coprime_list in *. simpl fst in E. simpl snd in E. rewrite Eg in E. discriminate. }
    subst. apply mk_CoPrime_error in E as [E|[E _]]; [contradiction|]. exfalso. apply E. right. reflexivity.
  - destruct (mk_CoPrime m n (D0Scalar d) "m" name no_kwargs) eqn:E; [eauto|].
    assert (e = ValueError).
    { rewrite mk_CoPrime_swap in E. cbv zeta in E. rewrite Hg in E. change (negb (1 =? 1)%Z) with false in E. cbv iota in E.
      change (lower "m") with "m"%string in E. rewrite coprime_indices_m in E. cbn [bind] in E.
      destruct (column_ok (coprime_list (Z.min m n) (Z.max m n) (Z.min m n)) d (name_or name ("Co-prime (" ++ strZ m ++ "," ++ strZ n ++ ")"))) as (g & Eg).
      unfold coprime_list in *. simpl fst in E. simpl snd in E. rewrite Eg in E. discriminate. }
    subst. apply mk_CoPrime_error in E as [E|[_ E]]; [contradiction|]. exfalso. apply E. left. reflexivity.
Qed.
Example C10_example : nested_indices 2 3 = [0; 1; 2; 5; 8]%Z /\
  coprime_indices 2 3 "2m" = Ok [0; 2; 4; 3; 6; 9]%Z.
Proof. split; reflexivity. Qed.
Print Assumptions C10_CoPrime.

(** C11 *)
Theorem C11_decision : forall m n d mode name,
  (mk_CoPrime m n (D0Scalar d) mode name no_kwargs = Raise ValueError <->
     Z.gcd m n <> 1%Z \/ (lower mode <> "2m"%string /\ lower mode <> "m"%string)) /\
  (forall e, mk_CoPrime m n (D0Scalar d) mode name no_kwargs = Raise e -> e = ValueError).
Proof.
  intros. split.
  - rewrite mk_CoPrime_error. rewrite lower_2m, lower_m. unfold mode_2m, mode_m. tauto.
  - intros e E. rewrite mk_CoPrime_swap in E. cbv zeta in E. destruct (negb _); [congruence|].
    cbn [fst snd] in E. destruct (coprime_indices _ _ _) as [l|e'] eqn:E1; cbn [bind] in E.
    + destruct (column_ok l d (name_or name ("Co-prime (" ++ strZ m ++ "," ++ strZ n ++ ")"))) as (g & Eg).
      rewrite Eg in E. discriminate.
    + unfold coprime_indices in E1. destruct (String.eqb _ _); [discriminate|]. destruct (String.eqb _ _); [discriminate|]. congruence.
Qed.
Theorem C11_records : forall m n d mode name kw c, mk_CoPrime m n (D0Scalar d) mode name kw = Ok c ->
  cp_pair c = (Z.min m n, Z.max m n) /\ cp_mode c = lower mode /\ (cp_warned c = true <-> (m > n)%Z).
Proof.
  intros m n d mode name kw c H. apply mk_CoPrime_ok in H as (_ & P & W & [(M & E & _)|(M & E & _)]).
  - split; [exact P|]. split; [|exact W]. rewrite E. symmetry. now apply lower_2m.
  - split; [exact P|]. split; [|exact W]. rewrite E. symmetry. now apply lower_m.
Qed.
(** order independence (with an explicit name; the default name prints the arguments as given) *)
Theorem C11_symmetric : forall m n d0 mode name kw,
  match mk_CoPrime m n d0 mode (Some name) kw, mk_CoPrime n m d0 mode (Some name) kw with
  | Ok c, Ok c' => cp_design c = cp_design c' /\ cp_pair c = cp_pair c' /\ cp_mode c = cp_mode c'
  | Raise e, Raise e' => e = e'
  | _, _ => False
  end.
Proof. exact mk_CoPrime_sym. Qed.
Theorem C11_default_name_defect : exists c c',
  mk_CoPrime 2 3 (D0Scalar 1) "m" None no_kwargs = Ok c /\ mk_CoPrime 3 2 (D0Scalar 1) "m" None no_kwargs = Ok c' /\
  ar_name (gd_array (cp_design c)) <> ar_name (gd_array (cp_design c')).
Proof. eexists _, _. split; [reflexivity|]. split; [reflexivity|]. simpl. discriminate. Qed.
Print Assumptions C11_decision.

(** C12 *)
Theorem C12_UCA : forall n r name kw, (1 <= n)%Z ->
  exists a, mk_UCA n r name kw = Ok a /\ ar_size a = Z.to_nat n /\ ar_ndim a = 2 /\
   (let x i := ent (la_m (ar_loc a)) i 0 in let y i := ent (la_m (ar_loc a)) i 1 in
    (forall i, i < Z.to_nat n -> x i = (r * cos (2 * PI * INR i / IZR n))%R /\ y i = (r * sin (2 * PI * INR i / IZR n))%R) /\
    (forall i, i < Z.to_nat n -> sqrt (x i * x i + y i * y i) = Rabs r) /\
    (r <> 0%R -> forall i j, i < Z.to_nat n -> j < Z.to_nat n -> x i = x j -> y i = y j -> i = j) /\
    ((2 <= n)%Z -> rsum (Z.to_nat n) x = 0%R /\ rsum (Z.to_nat n) y = 0%R)).
Proof.
  intros n r name kw Hn. destruct (mk_UCA_ok n r name kw Hn) as (a & E & L & _ & _).
  exists a. split; [exact E|]. unfold ar_size, ar_ndim. rewrite L. cbn [la_m]. split; [reflexivity|]. split; [reflexivity|].
  assert (EN : IZR n = INR (Z.to_nat n)) by (rewrite INR_IZR_INZ, Z2Nat.id by lia; reflexivity). rewrite EN.
  cbv zeta. split; [intros; now apply UCA_loc|]. split; [intros; now apply UCA_radius|]. split.
  - intros Hr i j Hi Hj Ex Ey. destruct (Nat.lt_trichotomy i j) as [Hlt|[?|Hlt]]; [|assumption|]; exfalso.
    + exact (UCA_distinct _ r i j Hr Hlt Hj (conj Ex Ey)).
    + exact (UCA_distinct _ r j i Hr Hlt Hi (conj (eq_sym Ex) (eq_sym Ey))).
  - intros H2. apply UCA_centroid. lia.
Qed.
Theorem C12_rejects : forall n r name kw, (n < 1)%Z -> mk_UCA n r name kw = Raise (if Z.eqb n 0 then ZeroDivisionError else ValueError).
Proof.
  intros n r name kw H. unfold mk_UCA. destruct (Z.eqb_spec n 0); [reflexivity|]. destruct (Z.ltb_spec n 0); [reflexivity | lia].
Qed.
Print Assumptions C12_UCA.

(** C13 *)
Theorem C13_URA : forall m n dx dy name kw g, mk_URA m n (D0List [dx; dy]) name kw = Ok g ->
  ar_size (gd_array g) = Z.to_nat m * Z.to_nat n /\ ar_ndim (gd_array g) = 2 /\ gd_nan g = false /\
  forall i j, i < Z.to_nat m -> j < Z.to_nat n ->
    ent (gd_indices g) (i * Z.to_nat n + j) 0 = Z.of_nat i /\ ent (gd_indices g) (i * Z.to_nat n + j) 1 = Z.of_nat j /\
    ent (la_m (ar_loc (gd_array g))) (i * Z.to_nat n + j) 0 = (INR i * dx)%R /\
    ent (la_m (ar_loc (gd_array g))) (i * Z.to_nat n + j) 1 = (INR j * dy)%R.
Proof. intros m n dx dy name kw g H. exact (mk_URA_spec m n [dx; dy] name kw g eq_refl H). Qed.
Theorem C13_URA_scalar : forall m n d name kw, mk_URA m n (D0Scalar d) name kw = mk_URA m n (D0List [d; d]) name kw.
Proof. exact mk_URA_scalar. Qed.
Theorem C13_distinct : forall m n dx dy name kw g, dx <> 0%R -> dy <> 0%R -> mk_URA m n (D0List [dx; dy]) name kw = Ok g ->
  forall e e', e < ar_size (gd_array g) -> e' < ar_size (gd_array g) ->
    (forall c, c < 2 -> ent (la_m (ar_loc (gd_array g))) e c = ent (la_m (ar_loc (gd_array g))) e' c) -> e = e'.
Proof.
  intros m n dx dy name kw g Hx Hy H. destruct (C13_URA m n dx dy name kw g H) as (S & _ & _ & P). rewrite S.
  set (M := Z.to_nat m) in *. set (N := Z.to_nat n) in *. intros e e' He He' Q.
  assert (HN : N <> 0) by (intros ->; lia).
  pose proof (Nat.div_mod e N HN) as D1. pose proof (Nat.div_mod e' N HN) as D2.
  pose proof (Nat.mod_upper_bound e N HN) as U1. pose proof (Nat.mod_upper_bound e' N HN) as U2.
  assert (V1 : e / N < M) by (apply Nat.div_lt_upper_bound; lia). assert (V2 : e' / N < M) by (apply Nat.div_lt_upper_bound; lia).
  pose proof (Q 0 ltac:(lia)) as Q0. pose proof (Q 1 ltac:(lia)) as Q1.
  rewrite (Nat.mul_comm N) in D1, D2. rewrite D1, D2 in Q0, Q1.
  destruct (P _ _ V1 U1) as (_ & _ & X1 & Y1). destruct (P _ _ V2 U2) as (_ & _ & X2 & Y2).
  rewrite X1, X2 in Q0. rewrite Y1, Y2 in Q1.
  apply Rmult_eq_reg_r in Q0; [|exact Hx]. apply Rmult_eq_reg_r in Q1; [|exact Hy].
  apply INR_eq in Q0, Q1. rewrite D1, D2, Q0, Q1. reflexivity.
Qed.
Theorem C13_constructible : forall m n dx dy name, exists g, mk_URA m n (D0List [dx; dy]) name no_kwargs = Ok g.
Proof. intros. now apply mk_URA_ok. Qed.
Print Assumptions C13_distinct.

(** C14 *)
Theorem C14_nested_hole_free : forall n1 n2 d name kw g, (0 <= n1)%Z -> (1 <= n2)%Z ->
  mk_Nested n1 n2 (D0Scalar d) name kw = Ok g ->
  exists l, places_1d g l d /\ hole_free l (n2 * (n1 + 1) - 1).
Proof.
  intros n1 n2 d name kw g H1 H2 H. exists (nested_indices n1 n2). split; [exact (places_column _ _ _ _ _ H) | now apply nested_hole_free].
Qed.
Theorem C14_nested_central_ula : forall n1 n2 d name kw g w calls, (0 <= n1)%Z -> (1 <= n2)%Z ->
  mk_Nested n1 n2 (D0Scalar d) name kw = Ok g -> mk_WeightFunction1D g = Ok w ->
  fst (get_central_ula_size (after w calls) true) = (n2 * (n1 + 1))%Z /\
  fst (get_central_ula_size (after w calls) false) = (2 * (n2 * (n1 + 1)) - 1)%Z.
Proof.
  intros n1 n2 d name kw g w calls H1 H2 H Hw. destruct (C14_nested_hole_free n1 n2 d name kw g H1 H2 H) as (l & P & F).
  pose proof (places_grid_1d g l d P) as Hg.
  assert (h : first_hole l (n2 * (n1 + 1))). { split; [nia|]. split; [rewrite (F _); lia | intros x Hx; apply F; lia]. }
  pose proof (central_ula_hole g l Hg w Hw calls _ h) as E. split; [exact E|].
  pose proof (central_ula g l Hg w Hw calls true) as E1. pose proof (central_ula g l Hg w Hw calls false) as E2. cbv iota in E1, E2.
  rewrite E2. rewrite E1 in E. rewrite E. reflexivity.
Qed.
Example C14_example : exists g w, mk_Nested 2 3 (D0Scalar 1) None no_kwargs = Ok g /\ mk_WeightFunction1D g = Ok w /\
  differences w = zrange (-8) 9.
Proof. eexists _, _. split; [reflexivity|]. split; [reflexivity|]. reflexivity. Qed.
Print Assumptions C14_nested_central_ula.

(** C15 *)
Theorem C15_coprime : forall m n d mode name kw c w calls, (1 <= m)%Z -> (m < n)%Z ->
  mk_CoPrime m n (D0Scalar d) mode name kw = Ok c -> mk_WeightFunction1D (cp_design c) = Ok w ->
  (lower mode = "2m"%string -> fst (get_central_ula_size (after w calls) true) = (m * n + m)%Z) /\
  (lower mode = "m"%string -> (2 <= m)%Z -> fst (get_central_ula_size (after w calls) true) = (m + n)%Z).
Proof.
  intros m n d mode name kw c w calls Hm Hmn H Hw. apply mk_CoPrime_ok in H as (Hg & _ & _ & H).
  rewrite Z.min_l, Z.max_r in H by lia. split.
  - intros E. destruct H as [(_ & _ & P)|(M & _ & _)].
    + exact (central_ula_hole _ _ (places_grid_1d _ _ _ P) w Hw calls _ (coprime_2m_hole m n Hm Hmn Hg)).
    + apply lower_m in M. congruence.
  - intros E Hm2. destruct H as [(M & _ & _)|(_ & _ & P)].
    + apply lower_2m in M. congruence.
    + exact (central_ula_hole _ _ (places_grid_1d _ _ _ P) w Hw calls _ (coprime_m_hole m n Hm2 Hmn Hg)).
Qed.
(** the sensor positions themselves: the first hole *)
Theorem C15_first_hole : forall m n d mode name kw c, (1 <= m)%Z -> (m < n)%Z ->
  mk_CoPrime m n (D0Scalar d) mode name kw = Ok c ->
  exists l, places_1d (cp_design c) l d /\
   (lower mode = "2m"%string -> first_hole l (m * n + m)) /\
   (lower mode = "m"%string -> (2 <= m)%Z -> first_hole l (m + n)).
Proof.
  intros m n d mode name kw c Hm Hmn H. apply mk_CoPrime_ok in H as (Hg & _ & _ & H).
  rewrite Z.min_l, Z.max_r in H by lia. destruct H as [(M & _ & P)|(M & _ & P)]; eexists; (split; [exact P|]); split.
  - intros _. now apply coprime_2m_hole.
  - intros E. apply lower_2m in M. congruence.
  - intros E. apply lower_m in M. congruence.
  - intros _ H2. now apply coprime_m_hole.
Qed.
Example C15_example : exists c w, mk_CoPrime 2 3 (D0Scalar 1) "2m" None no_kwargs = Ok c /\
  mk_WeightFunction1D (cp_design c) = Ok w /\ fst (get_central_ula_size w true) = 8%Z.
Proof. eexists _, _. split; [reflexivity|]. split; reflexivity. Qed.
Print Assumptions C15_coprime.

(** C16 *)
Theorem C16_accepted : forall n d name kw g, mk_MRLA n (D0Scalar d) name kw = Ok g ->
  (1 <= n <= 19)%Z /\ exists l, places_1d g l d /\ List.length l = Z.to_nat n /\ nth 0 l 0%Z = 0%Z /\
    strictly_increasing l /\ hole_free l (last l 0%Z).
Proof.
  intros n d name kw g H.
  assert (Hn : (1 <= n <= 19)%Z).
  { destruct (Z_le_dec 1 n); destruct (Z_le_dec n 19); try lia; rewrite mk_MRLA_rejects in H by lia; discriminate. }
  split; [exact Hn|]. eexists. split; [exact (mk_MRLA_places n d name kw g H)|]. apply MRLA_preset. lia.
Qed.
Theorem C16_range : forall n d name, (exists g, mk_MRLA n (D0Scalar d) name no_kwargs = Ok g) <-> (1 <= n <= 19)%Z.
Proof. exact mk_MRLA_range. Qed.
Theorem C16_rejected : forall n d name kw, ~ (1 <= n <= 19)%Z -> mk_MRLA n d name kw = Raise ValueError.
Proof. exact mk_MRLA_rejects. Qed.
(** documented: "n must be between 1 and 20"; 20 is rejected *)
Theorem C16_n20_defect : forall d name kw, mk_MRLA 20 d name kw = Raise ValueError.
Proof. intros. apply mk_MRLA_rejects. lia. Qed.
Print Assumptions C16_accepted.

(** C17 *)
Theorem C17_d0_list : forall idx l name kw g, List.length l = nc idx -> mk_Grid idx (D0List l) name None kw = Ok g ->
  gd_indices g = idx /\ gd_d0 g = l /\ gd_nan g = false /\
  nr (la_m (ar_loc (gd_array g))) = nr idx /\ nc (la_m (ar_loc (gd_array g))) = nc idx /\
  forall i j, i < nr idx -> j < nc idx -> ent (la_m (ar_loc (gd_array g))) i j = (IZR (ent idx i j) * nth j l 0)%R.
Proof. exact mk_Grid_list. Qed.
Theorem C17_d0_scalar : forall idx d name kw,
  mk_Grid idx (D0Scalar d) name None kw = mk_Grid idx (D0List (repeat d (nc idx))) name None kw.
Proof. exact mk_Grid_scalar_eq. Qed.
Theorem C17_bases : forall idx d0 B name kw g, mk_Grid idx d0 name (Some B) kw = Ok g ->
  nc idx = nr B /\ gd_indices g = idx /\ gd_bases g = B /\ gd_nan g = false /\
  List.length (gd_d0 g) = nr B /\
  (forall k, k < nr B -> nth k (gd_d0 g) 0%R = sqrt (rsum (nc B) (fun j => ent B k j * ent B k j)%R)) /\
  nr (la_m (ar_loc (gd_array g))) = nr idx /\ nc (la_m (ar_loc (gd_array g))) = nc B /\
  forall i j, i < nr idx -> j < nc B ->
    ent (la_m (ar_loc (gd_array g))) i j = rsum (nr B) (fun k => IZR (ent idx i k) * ent B k j)%R.
Proof. exact mk_Grid_bases. Qed.
Theorem C17_errors : forall idx name kw,
  (forall l, List.length l <> nc idx -> mk_Grid idx (D0List l) name None kw = Raise ValueError) /\
  (forall d0 B, nc idx <> nr B -> mk_Grid idx d0 name (Some B) kw = Raise ValueError) /\
  mk_Grid idx D0Nested name None kw = Raise ValueError.
Proof.
  intros. split; [intros; now apply mk_Grid_list_bad|]. split; [intros; now apply mk_Grid_bases_bad | apply mk_Grid_nested].
Qed.
Theorem C17_constructible : forall idx name,
  (forall l, List.length l = nc idx -> nc idx <= 3 -> exists g, mk_Grid idx (D0List l) name None no_kwargs = Ok g) /\
  (forall d0 B, nc idx = nr B -> nc B <= 3 -> exists g, mk_Grid idx d0 name (Some B) no_kwargs = Ok g).
Proof. intros. split; intros; [now apply mk_Grid_list_ok | now apply mk_Grid_bases_ok]. Qed.
(** leaving both d0 and bases out is silently accepted for one-column indices and gives NaN locations *)
Theorem C17_no_spacing_defect : forall idx name, nc idx = 1 ->
  exists g, mk_Grid idx D0None name None no_kwargs = Ok g /\ gd_nan g = true.
Proof. exact mk_Grid_none. Qed.
Print Assumptions C17_bases.
