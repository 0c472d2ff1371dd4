(** Names of the array designs (C91). *)
From Coq Require Import DecimalString DecimalZ String Ascii.
From Verif Require Import Base_Np M_utils M_array M_designs P_designs.
Local Open Scope string_scope.

(** a design: its class and its integer arguments *)
Inductive design := KULA (n : Z) | KNested (n1 n2 : Z) | KCoprime (m n : Z) | KMRLA (n : Z) | KUCA (n : Z) | KURA (m n : Z).
(** the remaining arguments: spacing, radius and mode where the class has them, the name, the keyword arguments *)
Definition build (k : design) (d0 : d0arg) (r : R) (mode : string) (name : option string) (kw : kwargs) : res array :=
  match k with
  | KULA n => let! g := mk_ULA n d0 name kw in Ok (gd_array g)
  | KNested n1 n2 => let! g := mk_Nested n1 n2 d0 name kw in Ok (gd_array g)
  | KCoprime m n => let! c := mk_CoPrime m n d0 mode name kw in Ok (gd_array (cp_design c))
  | KMRLA n => let! g := mk_MRLA n d0 name kw in Ok (gd_array g)
  | KUCA n => mk_UCA n r name kw
  | KURA m n => let! g := mk_URA m n d0 name kw in Ok (gd_array g)
  end.
Definition default_name (k : design) : string :=
  match k with
  | KULA n => "ULA " ++ strZ n
  | KNested n1 n2 => "Nested (" ++ strZ n1 ++ "," ++ strZ n2 ++ ")"
  | KCoprime m n => "Co-prime (" ++ strZ m ++ "," ++ strZ n ++ ")"
  | KMRLA n => "MRLA " ++ strZ n
  | KUCA n => "UCA " ++ strZ n
  | KURA m n => "URA " ++ strZ m ++ "x" ++ strZ n
  end.

Lemma init_name m name kw a : init_with_matrix m name kw = Ok a -> ar_name a = name.
Proof. intros H. apply init_with_matrix_inv in H. tauto. Qed.
Lemma grid_name idx d0 name B kw g : mk_Grid idx d0 name B kw = Ok g -> ar_name (gd_array g) = name.
Proof.
  intros H. unfold mk_Grid in H. destruct B as [B|].
  - destruct (negb _); [discriminate|]. apply bind_Ok_inv in H as (a & Ha & H). injection H as <-. exact (init_name _ _ _ _ Ha).
  - apply bind_Ok_inv in H as ((v, nan) & _ & H). destruct (Nat.ltb _ _); [discriminate|]. destruct (negb _); [discriminate|]. apply bind_Ok_inv in H as (a & Ha & H). injection H as <-. exact (init_name _ _ _ _ Ha).
Qed.
Lemma build_name k d0 r mode name kw a : build k d0 r mode name kw = Ok a -> ar_name a = name_or name (default_name k).
Proof.
  destruct k; cbn [build default_name]; intros H; try (apply bind_Ok_inv in H as (g & Hg & H); injection H as <-).
  - exact (grid_name _ _ _ _ _ _ Hg).
  - unfold mk_Nested in Hg. exact (grid_name _ _ _ _ _ _ Hg).
  - unfold mk_CoPrime in Hg. destruct (m >? n)%Z; (destruct (negb _); [discriminate|]; apply bind_Ok_inv in Hg as (l & _ & Hg); apply bind_Ok_inv in Hg as (g' & Hg' & Hg); injection Hg as <-; exact (grid_name _ _ _ _ _ _ Hg')).
  - unfold mk_MRLA in Hg. repeat (match type of Hg with (if ?b then _ else _) = _ => destruct b; [discriminate|] end). exact (grid_name _ _ _ _ _ _ Hg).
  - unfold mk_UCA in H. destruct (Z.eqb n 0); [discriminate|]. destruct (n <? 0)%Z; [discriminate|]. exact (init_name _ _ _ _ H).
  - unfold mk_URA in Hg. apply bind_Ok_inv in Hg as (rows & _ & Hg). exact (grid_name _ _ _ _ _ _ Hg).
Qed.

(** decimal strings *)
Lemma strZ_back z : option_map Z.of_int (NilZero.int_of_string (strZ z)) = Some z.
Proof.
  unfold strZ. assert (H : forall d, option_map Z.of_int (NilZero.int_of_string (NilZero.string_of_int d)) = Some (Z.of_int d)).
  { intros d. destruct (Decimal.int_eq_dec d (Decimal.Pos Decimal.Nil)) as [->|N1]; [reflexivity|]. destruct (Decimal.int_eq_dec d (Decimal.Neg Decimal.Nil)) as [->|N2]; [reflexivity|]. now rewrite NilZero.isi. }
  rewrite H. f_equal. apply DecimalZ.of_to.
Qed.
Lemma strZ_inj a b : strZ a = strZ b -> a = b.
Proof. intros E. pose proof (strZ_back a) as H. rewrite E, strZ_back in H. now injection H. Qed.
Definition digit (c : ascii) : bool := existsb (Ascii.eqb c) ["0"; "1"; "2"; "3"; "4"; "5"; "6"; "7"; "8"; "9"; "-"]%char.
Fixpoint all_digits (s : string) : bool := match s with EmptyString => true | String c s => digit c && all_digits s end.
Lemma digits_uint d : all_digits (NilEmpty.string_of_uint d) = true. Proof. induction d; cbn in *; try reflexivity; assumption. Qed.
Lemma digits_Z z : all_digits (strZ z) = true.
Proof. unfold strZ. destruct (Z.to_int z) as [d|d]; cbn; destruct d; cbn; try reflexivity; apply digits_uint. Qed.
Lemma split_digits c s1 s2 t1 t2 : digit c = false -> all_digits s1 = true -> all_digits s2 = true -> s1 ++ String c t1 = s2 ++ String c t2 -> s1 = s2 /\ t1 = t2.
Proof.
  intros Hc. revert s2. induction s1 as [|x s1 IH]; intros [|y s2] H1 H2 E; cbn in *.
  - injection E as <-. auto.
  - injection E as <- E. rewrite Hc in H2. discriminate.
  - injection E as -> E. rewrite Hc in H1. discriminate.
  - injection E as <- E. apply andb_prop in H1 as (_ & H1), H2 as (_ & H2). destruct (IH s2 H1 H2 E) as (-> & ->). auto.
Qed.
Lemma pair_inj c t a b a' b' : digit c = false -> strZ a ++ String c (strZ b ++ t) = strZ a' ++ String c (strZ b' ++ t) -> t = "" \/ (exists c', digit c' = false /\ t = String c' "") -> a = a' /\ b = b'.
Proof.
  intros Hc E Ht. apply split_digits in E as (E1 & E2); try apply digits_Z; [|exact Hc]. apply strZ_inj in E1. split; [exact E1|]. destruct Ht as [->|(c' & Hc' & ->)].
  - assert (X : forall s, s ++ "" = s) by (induction s as [|x s IH]; cbn; congruence). rewrite !X in E2. now apply strZ_inj.
  - apply split_digits in E2 as (E2 & _); try apply digits_Z; [|exact Hc']. now apply strZ_inj.
Qed.

Theorem C91_given_name : forall k d0 r mode name kw a, build k d0 r mode (Some name) kw = Ok a -> ar_name a = name.
Proof. intros. exact (build_name _ _ _ _ _ _ _ H). Qed.
Theorem C91_default_name : forall k d0 r mode kw a, build k d0 r mode None kw = Ok a -> ar_name a = default_name k.
Proof. intros. exact (build_name _ _ _ _ _ _ _ H). Qed.
(** the default name tells the class of the design and its integer arguments *)
Theorem C91_distinct : forall k d0 r mode kw a k' d0' r' mode' kw' a', build k d0 r mode None kw = Ok a -> build k' d0' r' mode' None kw' = Ok a' -> ar_name a = ar_name a' -> k = k'.
Proof.
  intros k d0 r mode kw a k' d0' r' mode' kw' a' H H' E. rewrite (build_name _ _ _ _ _ _ _ H), (build_name _ _ _ _ _ _ _ H') in E. cbn [name_or] in E. clear -E.
  destruct k, k'; try discriminate; cbn in E; injection E; intros X; try (apply strZ_inj in X; congruence); try (apply (pair_inj "," ")" ) in X as (-> & ->); [reflexivity | reflexivity | right; exists ")"%char; auto]).
  assert (Y : forall s, s ++ "" = s) by (induction s as [|x s IH]; cbn; congruence). rewrite <- (Y (strZ n)), <- (Y (strZ n0)) in X. apply (pair_inj "x" "") in X as (-> & ->); [reflexivity | reflexivity | now left].
Qed.
Example C91_example : exists a a', build (KURA 2 3) (D0Scalar 1) 0 "m" None no_kwargs = Ok a /\ build (KCoprime 3 2) (D0Scalar 1) 0 "m" None no_kwargs = Ok a' /\ ar_name a = "URA 2x3" /\ ar_name a' = "Co-prime (3,2)".
Proof. eexists _, _. split; [reflexivity|]. split; [reflexivity|]. split; reflexivity. Qed.
Print Assumptions C91_given_name. Print Assumptions C91_default_name. Print Assumptions C91_distinct.
