From Verif Require Import Base_Np Base_Trig M_utils P_utils M_sources M_array M_designs S_designs.
Open Scope nat_scope.

(** *** ranges *)
Lemma zrange_length a b : List.length (zrange a b) = Z.to_nat (b - a).
Proof. unfold zrange. now rewrite map_length, seq_length. Qed.
Lemma zrange_nth a b i d : (i < Z.to_nat (b - a)) -> nth i (zrange a b) d = (a + Z.of_nat i)%Z.
Proof. intros H. unfold zrange. rewrite nth_map_seq by exact H. reflexivity. Qed.
Lemma zrange_In a b x : In x (zrange a b) <-> (a <= x < b)%Z.
Proof.
  unfold zrange. rewrite in_map_iff. split.
  - intros (k & <- & Hk). apply in_seq in Hk. lia.
  - intros H. exists (Z.to_nat (x - a)). split; [lia|]. apply in_seq. lia.
Qed.
Lemma nth_map_in {A B} (f : A -> B) l i da db : i < List.length l -> nth i (map f l) db = f (nth i l da).
Proof. intros H. rewrite (nth_indep _ db (f da)) by now rewrite map_length. apply map_nth. Qed.

(** *** construction *)
Lemma init_no_kwargs m name : nc m <= 3 -> init_with_matrix m name no_kwargs = Ok (Array (LArr DFloat m) name ISOTROPIC_SCALAR_SENSOR []).
Proof. intros H. unfold init_with_matrix. destruct (Nat.ltb_spec 3 (nc m)); [lia|]. reflexivity. Qed.
Lemma add_pert_inv ps : forall a b ro, add_perturbation_from_list a ps ro = Ok b ->
  ar_loc b = ar_loc a /\ ar_name b = ar_name a /\ ar_elem b = ar_elem a.
Proof.
  induction ps as [|p ps IH]; intros a b ro H; simpl in H.
  - injection H as <-. auto.
  - apply bind_Ok_inv in H as (ap & _ & H). destruct ap; [|discriminate]. simpl in H.
    destruct (dmem _ _ _ && ro); [discriminate|].
    apply IH in H. destruct H as (H1 & H2 & H3). now rewrite H1, H2, H3.
Qed.
Lemma init_with_matrix_inv m name kw a : init_with_matrix m name kw = Ok a ->
  nc m <= 3 /\ ar_loc a = LArr DFloat m /\ ar_name a = name /\ ar_elem a = kw_elem kw.
Proof.
  unfold init_with_matrix. destruct (Nat.ltb_spec 3 (nc m)); [discriminate|]. intros H0.
  apply bind_Ok_inv in H0 as (l & _ & H0). apply add_pert_inv in H0. simpl in H0. intuition.
Qed.

Lemma mk_Grid_scalar_inv idx d name kw g : mk_Grid idx (D0Scalar d) name None kw = Ok g ->
  exists a, g = GDesign a idx (Mat (nc idx) (nc idx) (fun i j => (if Nat.eqb i j then 1 else 0) * nth j (repeat d (nc idx)) 0)%R) (repeat d (nc idx)) false /\
  init_with_matrix (Mat (nr idx) (nc idx) (fun i j => rsum (nc idx) (fun l => IZR (ent idx i l) * ((if Nat.eqb l j then 1 else 0) * nth j (repeat d (nc idx)) 0))%R)) name kw = Ok a.
Proof.
  unfold mk_Grid. simpl. rewrite repeat_length. rewrite Nat.ltb_irrefl. simpl. rewrite Nat.eqb_refl. simpl.
  intros H. apply bind_Ok_inv in H as (a & Ha & H). injection H as <-. exists a. split; [reflexivity | exact Ha].
Qed.
Lemma grid_sum n (f : nat -> R) j d : j < n ->
  rsum n (fun l => f l * ((if Nat.eqb l j then 1 else 0) * d))%R = (f j * d)%R.
Proof.
  intros H. rewrite (rsum_single n _ j H).
  - rewrite Nat.eqb_refl. ring.
  - intros i Hi Hne. apply Nat.eqb_neq in Hne. rewrite Hne. ring.
Qed.
Lemma nth_repeat_lt (d x : R) n j : j < n -> nth j (repeat d n) x = d.
Proof. revert j. induction n; intros j H; [lia|]. destruct j; simpl; [reflexivity | apply IHn; lia]. Qed.

Lemma places_column l d name kw g : mk_Grid (column l) (D0Scalar d) name None kw = Ok g -> places_1d g l d.
Proof.
  intros H. apply mk_Grid_scalar_inv in H as (a & -> & Ha).
  apply init_with_matrix_inv in Ha as (_ & Hl & _ & _).
  constructor; simpl; unfold ar_size, ar_ndim; rewrite ?Hl; simpl; auto.
  intros i Hi. ring.
Qed.
Lemma column_ok l d name : exists g, mk_Grid (column l) (D0Scalar d) name None no_kwargs = Ok g.
Proof. unfold mk_Grid. simpl. eexists. reflexivity. Qed.
Lemma column_places l d name : exists g, mk_Grid (column l) (D0Scalar d) name None no_kwargs = Ok g /\ places_1d g l d.
Proof. destruct (column_ok l d name) as (g & E). exists g. split; [exact E | eapply places_column, E]. Qed.

(** *** ULA *)
Lemma ULA_spec n d name kw g : mk_ULA n (D0Scalar d) name kw = Ok g -> places_1d g (ULA_indices n) d.
Proof. unfold mk_ULA. apply places_column. Qed.
Lemma ULA_indices_length n : List.length (ULA_indices n) = Z.to_nat n.
Proof. unfold ULA_indices, arange. rewrite zrange_length. f_equal; lia. Qed.
Lemma ULA_indices_nth n i : i < Z.to_nat n -> nth i (ULA_indices n) 0%Z = Z.of_nat i.
Proof. intros H. unfold ULA_indices, arange. rewrite zrange_nth; [lia | now replace (n - 0)%Z with n by lia]. Qed.

(** *** nested *)
Lemma nested_length n1 n2 : (0 <= n1)%Z -> (0 <= n2)%Z ->
  List.length (nested_indices n1 n2) = Z.to_nat (n1 + n2).
Proof. intros. unfold nested_indices, arange. rewrite app_length, map_length, !zrange_length. lia. Qed.
Lemma nested_nth1 n1 n2 i : i < Z.to_nat n1 -> nth i (nested_indices n1 n2) 0%Z = Z.of_nat i.
Proof.
  intros H. unfold nested_indices, arange. rewrite app_nth1; [|rewrite zrange_length; lia].
  rewrite zrange_nth; lia.
Qed.
Lemma nested_nth2 n1 n2 k : (0 <= n1)%Z -> k < Z.to_nat n2 ->
  nth (Z.to_nat n1 + k) (nested_indices n1 n2) 0%Z = ((Z.of_nat k + 1) * (n1 + 1) - 1)%Z.
Proof.
  intros H1 H. unfold nested_indices, arange. rewrite app_nth2; [|rewrite zrange_length; lia].
  rewrite zrange_length. replace (Z.to_nat n1 + k - Z.to_nat (n1 - 0)) with k by lia.
  rewrite (nth_map_in _ _ _ 0%Z) by (rewrite zrange_length; lia).
  rewrite zrange_nth by lia. lia.
Qed.
Lemma nested_increasing n1 n2 : (0 <= n1)%Z -> (0 <= n2)%Z -> strictly_increasing (nested_indices n1 n2).
Proof.
  intros H1 H2 i j Hij Hj. rewrite nested_length in Hj by assumption.
  destruct (Nat.lt_ge_cases i (Z.to_nat n1)) as [Hi|Hi].
  - rewrite nested_nth1 by exact Hi. destruct (Nat.lt_ge_cases j (Z.to_nat n1)).
    + rewrite nested_nth1 by assumption. lia.
    + replace j with (Z.to_nat n1 + (j - Z.to_nat n1)) by lia. rewrite nested_nth2 by lia. nia.
  - replace i with (Z.to_nat n1 + (i - Z.to_nat n1)) by lia.
    replace j with (Z.to_nat n1 + (j - Z.to_nat n1)) by lia.
    rewrite !nested_nth2 by lia. nia.
Qed.
Lemma nested_In n1 n2 x : In x (nested_indices n1 n2) <->
  (0 <= x < n1)%Z \/ exists k, (1 <= k <= n2)%Z /\ x = (k * (n1 + 1) - 1)%Z.
Proof.
  unfold nested_indices, arange. rewrite in_app_iff, zrange_In, in_map_iff.
  split; (intros [H|H]; [now left|right]).
  - destruct H as (k & E & Hk). apply zrange_In in Hk. exists k; lia.
  - destruct H as (k & Hk & E). exists k. rewrite zrange_In. lia.
Qed.
Lemma nested_hole_free n1 n2 : (0 <= n1)%Z -> (1 <= n2)%Z -> hole_free (nested_indices n1 n2) (n2 * (n1 + 1) - 1).
Proof.
  intros H1 H2 d. split.
  - intros (a & b & Ha & Hb & <-). apply nested_In in Ha, Hb.
    assert (B : forall x, ((0 <= x < n1)%Z \/ (exists k, (1 <= k <= n2)%Z /\ x = (k * (n1 + 1) - 1)%Z)) -> (0 <= x <= n2 * (n1 + 1) - 1)%Z).
    { intros x [Hx | (k & Hk & ->)]; nia. }
    apply B in Ha. apply B in Hb. lia.
  - assert (P : forall e, (0 <= e <= n2 * (n1 + 1) - 1)%Z -> is_lag (nested_indices n1 n2) e).
    { intros e He. pose (q := (e / (n1 + 1))%Z). pose (r := (e mod (n1 + 1))%Z).
      assert (E : (e = (n1 + 1) * q + r)%Z) by (apply Z.div_mod; lia).
      assert (Hr : (0 <= r < n1 + 1)%Z) by (apply Z.mod_pos_bound; lia).
      assert (Hq : (0 <= q < n2)%Z) by nia.
      exists ((q + 1) * (n1 + 1) - 1)%Z.
      destruct (Z.eq_dec r 0) as [Hr0|Hr0].
      - exists (1 * (n1 + 1) - 1)%Z. rewrite !nested_In. split; [|split].
        + right. exists (q + 1)%Z. lia.
        + right. exists 1%Z. lia.
        + nia.
      - exists (n1 - r)%Z. rewrite !nested_In. split; [|split].
        + right. exists (q + 1)%Z. lia.
        + left. lia.
        + nia. }
    intros Hd. destruct (Z.le_ge_cases 0 d) as [Hp|Hp].
    + apply P; lia.
    + destruct (P (- d)%Z) as (a & b & Ha & Hb & E); [lia|]. exists b, a. repeat split; auto; lia.
Qed.
Lemma nested_empty_n2 n1 : (1 <= n1)%Z -> hole_free (nested_indices n1 0) (n1 - 1).
Proof.
  intros H1 d. split.
  - intros (a & b & Ha & Hb & <-). apply nested_In in Ha, Hb.
    destruct Ha as [Ha|(k & Hk & _)]; [|lia]. destruct Hb as [Hb|(k & Hk & _)]; lia.
  - intros Hd. destruct (Z.le_ge_cases 0 d).
    + exists d, 0%Z. rewrite !nested_In. repeat split; try (left; lia); lia.
    + exists 0%Z, (- d)%Z. rewrite !nested_In. repeat split; try (left; lia); lia.
Qed.

(** *** co-prime *)
Definition coprime_list (m n k : Z) : list Z :=
  (map (fun k => k * m)%Z (arange 0 n) ++ map (fun k => k * n)%Z (arange 1 k))%list.
Lemma coprime_In m n c x : In x (coprime_list m n c) <->
  (exists j, (0 <= j < n)%Z /\ x = (j * m)%Z) \/ (exists k, (1 <= k < c)%Z /\ x = (k * n)%Z).
Proof.
  unfold coprime_list, arange. rewrite in_app_iff, !in_map_iff.
  split; (intros [(k & H1 & H2)|(k & H1 & H2)]; [left|right]; exists k).
  - apply zrange_In in H2. lia.
  - apply zrange_In in H2. lia.
  - rewrite zrange_In. lia.
  - rewrite zrange_In. lia.
Qed.
Lemma coprime_length m n c : (0 <= n)%Z -> (1 <= c)%Z -> List.length (coprime_list m n c) = Z.to_nat (n + c - 1).
Proof. intros. unfold coprime_list, arange. rewrite app_length, !map_length, !zrange_length. lia. Qed.
Lemma coprime_nth1 m n c i : i < Z.to_nat n -> nth i (coprime_list m n c) 0%Z = (Z.of_nat i * m)%Z.
Proof.
  intros H. unfold coprime_list, arange. rewrite app_nth1; [|rewrite map_length, zrange_length; lia].
  rewrite (nth_map_in _ _ _ 0%Z) by (rewrite zrange_length; lia). rewrite zrange_nth by lia. lia.
Qed.
Lemma coprime_nth2 m n c k : (0 <= n)%Z -> k < Z.to_nat (c - 1) ->
  nth (Z.to_nat n + k) (coprime_list m n c) 0%Z = ((Z.of_nat k + 1) * n)%Z.
Proof.
  intros Hn H. unfold coprime_list, arange. rewrite app_nth2; [|rewrite map_length, zrange_length; lia].
  rewrite map_length, zrange_length. replace (Z.to_nat n + k - Z.to_nat (n - 0)) with k by lia.
  rewrite (nth_map_in _ _ _ 0%Z) by (rewrite zrange_length; lia). rewrite zrange_nth by lia. lia.
Qed.
Lemma NoDup_app_disj {A} (l1 l2 : list A) : NoDup l1 -> NoDup l2 -> (forall x, In x l1 -> ~ In x l2) -> NoDup (l1 ++ l2).
Proof.
  induction l1 as [|a l1 IH]; simpl; intros H1 H2 H; [exact H2|]. inversion H1; subst. constructor.
  - rewrite in_app_iff. intros [?|?]; [contradiction | apply (H a); auto].
  - apply IH; auto.
Qed.
Lemma NoDup_zrange a b : NoDup (zrange a b).
Proof. unfold zrange. apply FinFun.Injective_map_NoDup; [intros x y; lia | apply seq_NoDup]. Qed.
Lemma gauss_mul m n j k : Z.gcd m n = 1%Z -> (j * m = k * n)%Z -> (n | j)%Z.
Proof.
  intros Hg E. apply (Z.gauss n m j).
  - rewrite Z.mul_comm, E. exists k. ring.
  - now rewrite Z.gcd_comm.
Qed.
Lemma coprime_NoDup m n c : (1 <= m)%Z -> (1 <= n)%Z -> Z.gcd m n = 1%Z -> NoDup (coprime_list m n c).
Proof.
  intros Hm Hn Hg. unfold coprime_list, arange. apply NoDup_app_disj.
  - apply FinFun.Injective_map_NoDup; [intros x y; nia | apply NoDup_zrange].
  - apply FinFun.Injective_map_NoDup; [intros x y; nia | apply NoDup_zrange].
  - intros x H1 H2. apply in_map_iff in H1 as (j & E1 & Hj). apply in_map_iff in H2 as (k & E2 & Hk).
    apply zrange_In in Hj, Hk. subst x.
    assert (D : (n | j)%Z) by (apply (gauss_mul m n j k Hg); lia).
    destruct D as [q D]. assert (q = 0 \/ q <> 0)%Z as [->|Hq] by lia; nia.
Qed.
(** Bezout: for every d there is 0 <= j < n with n | d + m j *)
Lemma solve_congruence m n d : (1 <= n)%Z -> Z.gcd m n = 1%Z -> exists j k, (0 <= j < n)%Z /\ (k * n = d + m * j)%Z.
Proof.
  intros Hn Hg. destruct (Z.gcd_bezout m n 1) as (a & b & E); [exact Hg|].
  (* a*m + b*n = 1;  j = (-d*a) mod n *)
  exists ((- d * a) mod n)%Z. pose (t := (- d * a / n)%Z).
  assert (T : (- d * a = n * t + (- d * a) mod n)%Z) by (apply Z.div_mod; lia).
  exists (d * b - m * t)%Z. split; [apply Z.mod_pos_bound; lia|].
  assert (E2 : (m * ((- d * a) mod n) = m * (- d * a) - m * n * t)%Z) by nia.
  rewrite E2. assert (E3 : (d * (a * m + b * n) = d)%Z) by (rewrite E; ring).
  rewrite <- E3 at 2. ring.
Qed.
Lemma coprime_2m_hole m n : (1 <= m)%Z -> (m < n)%Z -> Z.gcd m n = 1%Z ->
  first_hole (coprime_list m n (2 * m)) (m * n + m).
Proof.
  intros Hm Hmn Hg. split; [nia|]. split.
  - intros (a & b & Ha & Hb & E). apply coprime_In in Ha, Hb.
    destruct Ha as [(j & Hj & ->)|(k & Hk & ->)]; destruct Hb as [(j' & Hj' & ->)|(k' & Hk' & ->)].
    + assert (j - j' = n + 1)%Z by (apply Z.mul_reg_r with m; lia). lia.
    + assert (j * m <= n * m)%Z by (apply Z.mul_le_mono_nonneg_r; lia). nia.
    + (* k n - j' m = m n + m  -> (k - m) n = m (j'+1) -> n | j'+1 -> j' = n-1 -> k n = 2 m n -> k = 2m *)
      assert (D : (n | j' + 1)%Z) by (apply (gauss_mul m n (j' + 1) (k - m) Hg); nia).
      destruct D as [q D]. assert (q = 1)%Z by nia. subst q.
      assert (k * n = 2 * m * n)%Z by nia. nia.
    + (* (k - k') n = m (n + 1) -> n | n+1 -> n = 1 *)
      assert (D : (n | n + 1)%Z) by (apply (gauss_mul m n (n + 1) (k - k') Hg); nia).
      destruct D as [q D]. assert (q <= 1 \/ 2 <= q)%Z as [Hq|Hq] by lia; nia.
  - intros d Hd. destruct (solve_congruence m n d) as (j & k & Hj & E); [lia | exact Hg |].
    exists (k * n)%Z, (j * m)%Z. rewrite !coprime_In. split; [|split; [left; exists j; lia | nia]].
    assert (0 <= k)%Z by nia.
    destruct (Z.eq_dec k 0) as [->|Hk0].
    + left. exists 0%Z. nia.
    + right. exists k. split; [|reflexivity]. nia.
Qed.
Lemma coprime_m_hole m n : (2 <= m)%Z -> (m < n)%Z -> Z.gcd m n = 1%Z -> first_hole (coprime_list m n m) (m + n).
Proof.
  intros Hm Hmn Hg. split; [nia|]. split.
  - intros (a & b & Ha & Hb & E). apply coprime_In in Ha, Hb.
    destruct Ha as [(j & Hj & ->)|(k & Hk & ->)]; destruct Hb as [(j' & Hj' & ->)|(k' & Hk' & ->)].
    + (* m (j - j' - 1) = n -> m | n -> m = 1 *)
      assert (D : (m | n)%Z) by (exists (j - j' - 1)%Z; nia).
      assert (m | 1)%Z by (rewrite <- Hg; apply Z.gcd_greatest; [exists 1%Z; ring | exact D]).
      apply Z.divide_1_r_nonneg in H; lia.
    + (* j m - k' n = m + n -> (j-1) m = (k'+1) n -> n | j - 1 -> j = 1 -> k' = -1 *)
      assert (D : (n | j - 1)%Z) by (apply (gauss_mul m n (j - 1) (k' + 1) Hg); nia).
      destruct D as [q D]. assert (q = 0 \/ q <> 0)%Z as [->|Hq] by lia; nia.
    + (* k n - j' m = m + n -> (k - 1) n = (j'+1) m -> n | j'+1 -> j' = n-1 -> k - 1 = m *)
      assert (D : (n | j' + 1)%Z) by (apply (gauss_mul m n (j' + 1) (k - 1) Hg); nia).
      destruct D as [q D]. assert (q = 1)%Z by nia. subst q. nia.
    + (* (k - k' - 1) n = m, |..|: n | m, n > m *)
      assert (k - k' - 1 = 0 \/ k - k' - 1 <> 0)%Z as [H|H] by lia; nia.
  - intros d Hd. destruct (solve_congruence m n d) as (j & k & Hj & E); [lia | exact Hg |].
    assert (0 <= k)%Z by nia. assert (k <= m)%Z by nia.
    destruct (Z.eq_dec k m) as [->|Hkm].
    + (* m n = d + m j: d = m (n - j) *)
      assert (n - j < n \/ j = 0)%Z as [Hlt|Hj0] by lia.
      * exists ((n - j) * m)%Z, (0 * m)%Z. rewrite !coprime_In. repeat split; [left; exists (n - j)%Z; lia | left; exists 0%Z; lia | nia].
      * (* d = m n < m + n impossible for m >= 2, n > m *) subst j. nia.
    + destruct (Z.eq_dec k 0) as [->|Hk0].
      * exists (0 * m)%Z, (j * m)%Z. rewrite !coprime_In. repeat split; [left; exists 0%Z; lia | left; exists j; lia | nia].
      * exists (k * n)%Z, (j * m)%Z. rewrite !coprime_In. repeat split; [right; exists k; lia | left; exists j; lia | nia].
Qed.

(** *** the constructor decision of CoPrimeArray *)
From Coq Require Import Ascii.
Lemma lower_ascii_m c : lower_ascii c = "m"%char <-> c = "m"%char \/ c = "M"%char.
Proof. destruct c as [[] [] [] [] [] [] [] []]; vm_compute; split; intros H; try discriminate; auto; destruct H; discriminate. Qed.
Lemma lower_ascii_2 c : lower_ascii c = "2"%char <-> c = "2"%char.
Proof. destruct c as [[] [] [] [] [] [] [] []]; vm_compute; split; intros H; try discriminate; auto; destruct H; discriminate. Qed.
Lemma lower_2m s : lower s = "2m"%string <-> s = "2m"%string \/ s = "2M"%string.
Proof.
  split; [|intros [->| ->]; reflexivity].
  destruct s as [|a [|b [|c s]]]; simpl; intros H; try discriminate; injection H as H1 H2; try discriminate.
  apply (proj1 (lower_ascii_2 _)) in H1. apply (proj1 (lower_ascii_m _)) in H2 as [->| ->]; subst; auto.
Qed.
Lemma lower_m s : lower s = "m"%string <-> s = "m"%string \/ s = "M"%string.
Proof.
  split; [|intros [->| ->]; reflexivity].
  destruct s as [|a [|b s]]; simpl; intros H; try discriminate; injection H as H1; try discriminate.
  apply (proj1 (lower_ascii_m _)) in H1 as [->| ->]; auto.
Qed.
Definition mode_2m (s : string) := s = "2m"%string \/ s = "2M"%string.
Definition mode_m (s : string) := s = "m"%string \/ s = "M"%string.

Lemma coprime_indices_2m m n : coprime_indices m n "2m" = Ok (coprime_list m n (2 * m)).
Proof. reflexivity. Qed.
Lemma coprime_indices_m m n : coprime_indices m n "m" = Ok (coprime_list m n m).
Proof. reflexivity. Qed.
Lemma coprime_indices_other m n s : s <> "2m"%string -> s <> "m"%string -> coprime_indices m n s = Raise ValueError.
Proof.
  intros H1 H2. unfold coprime_indices. apply String.eqb_neq in H1, H2. now rewrite H1, H2.
Qed.
Lemma mk_CoPrime_swap m n d0 mode name kw :
  mk_CoPrime m n d0 mode name kw =
  (let p := (Z.min m n, Z.max m n) in
   raise_if (negb (Z.eqb (Z.gcd m n) 1)) as ValueError ;;
   let! indices := coprime_indices (fst p) (snd p) (lower mode) in
   let! g := mk_Grid (column indices) d0 (name_or name ("Co-prime (" ++ strZ m ++ "," ++ strZ n ++ ")")) None kw in
   Ok (Coprime g p (lower mode) (m >? n)%Z)).
Proof.
  unfold mk_CoPrime. destruct (m >? n)%Z eqn:E.
  - apply Z.gtb_lt in E. rewrite Z.min_r, Z.max_l by lia. simpl. now rewrite Z.gcd_comm.
  - assert (m <= n)%Z by (rewrite Z.gtb_ltb in E; apply Z.ltb_ge in E; lia). rewrite Z.min_l, Z.max_r by lia. reflexivity.
Qed.
Lemma mk_CoPrime_error m n d mode name :
  mk_CoPrime m n (D0Scalar d) mode name no_kwargs = Raise ValueError <->
  Z.gcd m n <> 1%Z \/ (~ mode_2m mode /\ ~ mode_m mode).
Proof.
  rewrite mk_CoPrime_swap. cbv zeta.
  destruct (Z.eqb_spec (Z.gcd m n) 1) as [Hg|Hg]; cbn [negb fst snd]; [|split; auto].
  destruct (String.eqb_spec (lower mode) "2m") as [E|E].
  - rewrite E, coprime_indices_2m. cbn [bind]. destruct (column_ok (coprime_list (Z.min m n) (Z.max m n) (2 * Z.min m n)) d (name_or name ("Co-prime (" ++ strZ m ++ "," ++ strZ n ++ ")"))) as (g & Eg).
    rewrite Eg. cbn [bind]. split; [discriminate|]. intros [H|[H _]]; [tauto|]. exfalso. apply H. now apply lower_2m.
  - destruct (String.eqb_spec (lower mode) "m") as [E'|E'].
    + rewrite E', coprime_indices_m. cbn [bind]. destruct (column_ok (coprime_list (Z.min m n) (Z.max m n) (Z.min m n)) d (name_or name ("Co-prime (" ++ strZ m ++ "," ++ strZ n ++ ")"))) as (g & Eg).
      rewrite Eg. cbn [bind]. split; [discriminate|]. intros [H|[_ H]]; [tauto|]. exfalso. apply H. now apply lower_m.
    + rewrite coprime_indices_other by assumption. cbn [bind]. split; [|auto]. intros _. right.
      unfold mode_2m, mode_m. rewrite <- lower_2m, <- lower_m. auto.
Qed.
Lemma mk_CoPrime_ok m n d mode name kw c : mk_CoPrime m n (D0Scalar d) mode name kw = Ok c ->
  Z.gcd m n = 1%Z /\ cp_pair c = (Z.min m n, Z.max m n) /\ (cp_warned c = true <-> (m > n)%Z) /\
  ((mode_2m mode /\ cp_mode c = "2m"%string /\ places_1d (cp_design c) (coprime_list (Z.min m n) (Z.max m n) (2 * Z.min m n)) d) \/
   (mode_m mode /\ cp_mode c = "m"%string /\ places_1d (cp_design c) (coprime_list (Z.min m n) (Z.max m n) (Z.min m n)) d)).
Proof.
  rewrite mk_CoPrime_swap. cbv zeta.
  destruct (Z.eqb_spec (Z.gcd m n) 1) as [Hg|Hg]; cbn [negb fst snd]; [|discriminate]. intros H.
  apply bind_Ok_inv in H as (l & El & H). apply bind_Ok_inv in H as (g & Eg & H). injection H as <-. cbn [cp_pair cp_warned cp_mode cp_design].
  apply places_column in Eg.
  split; [exact Hg|]. split; [reflexivity|]. split; [rewrite Z.gtb_lt; lia|].
  destruct (String.eqb_spec (lower mode) "2m") as [E|E].
  - rewrite E in El. injection El as <-. left. repeat split; auto; try apply Eg. now apply lower_2m.
  - destruct (String.eqb_spec (lower mode) "m") as [E'|E'].
    + rewrite E' in El. injection El as <-. right. repeat split; auto; try apply Eg. now apply lower_m.
    + rewrite coprime_indices_other in El by assumption. discriminate.
Qed.
Lemma mk_CoPrime_sym m n d0 mode name kw :
  match mk_CoPrime m n d0 mode (Some name) kw, mk_CoPrime n m d0 mode (Some name) kw with
  | Ok c, Ok c' => cp_design c = cp_design c' /\ cp_pair c = cp_pair c' /\ cp_mode c = cp_mode c'
  | Raise e, Raise e' => e = e'
  | _, _ => False
  end.
Proof.
  rewrite !mk_CoPrime_swap. cbv zeta. rewrite (Z.gcd_comm n m), (Z.min_comm n m), (Z.max_comm n m).
  destruct (negb (Z.gcd m n =? 1)%Z); [reflexivity|].
  destruct (coprime_indices _ _ _) as [l|]; cbn [bind name_or]; [|reflexivity].
  destruct (mk_Grid (column l) d0 name None kw); cbn [bind cp_design cp_pair cp_mode]; auto.
Qed.

(** *** MRLA *)
Lemma mk_MRLA_range n d name : (exists g, mk_MRLA n (D0Scalar d) name no_kwargs = Ok g) <-> (1 <= n <= 19)%Z.
Proof.
  unfold mk_MRLA. change (Z.of_nat (List.length MRLA_PRESETS)) with 20%Z.
  destruct (n <? 1)%Z eqn:E1; simpl.
  - apply Z.ltb_lt in E1. split; [intros (g & H); discriminate | lia].
  - apply Z.ltb_ge in E1. destruct (n >=? 20)%Z eqn:E2; simpl.
    + apply Z.geb_le in E2. split; [intros (g & H); discriminate | lia].
    + rewrite Z.geb_leb in E2. apply Z.leb_gt in E2. split; [lia|]. intros _. apply column_ok.
Qed.
Lemma mk_MRLA_rejects n d name kw : ~ (1 <= n <= 19)%Z -> mk_MRLA n d name kw = Raise ValueError.
Proof.
  intros H. unfold mk_MRLA. change (Z.of_nat (List.length MRLA_PRESETS)) with 20%Z.
  destruct (n <? 1)%Z eqn:E1; [reflexivity|]. apply Z.ltb_ge in E1.
  destruct (n >=? 20)%Z eqn:E2; [reflexivity|]. rewrite Z.geb_leb in E2. apply Z.leb_gt in E2. lia.
Qed.
Lemma mk_MRLA_places n d name kw g : mk_MRLA n (D0Scalar d) name kw = Ok g ->
  places_1d g (nth (Z.to_nat (n - 1)) MRLA_PRESETS []) d.
Proof.
  unfold mk_MRLA. destruct (_ || _); [discriminate|]. apply places_column.
Qed.
(** a checker for one preset *)
Fixpoint incr_from (a : Z) (l : list Z) : bool :=
  match l with [] => true | b :: l' => (a <? b)%Z && incr_from b l' end.
Definition lagb (l : list Z) (d : Z) : bool := existsb (fun a => existsb (fun b => Z.eqb (a - b) d) l) l.
Definition preset_ok (n : nat) (l : list Z) : bool :=
  Nat.eqb (List.length l) n &&
  match l with
  | [] => false
  | a :: l' => Z.eqb a 0 && incr_from a l' && forallb (lagb l) (zrange 0 (last l 0 + 1)%Z)
  end.
Lemma presets_checked : forallb (fun n => preset_ok n (nth (n - 1) MRLA_PRESETS [])) (seq 1 20) = true.
Proof. vm_compute. reflexivity. Qed.
Lemma lagb_spec l d : lagb l d = true -> is_lag l d.
Proof.
  intros H. apply existsb_exists in H as (a & Ha & H). apply existsb_exists in H as (b & Hb & H).
  apply Z.eqb_eq in H. exists a, b; auto.
Qed.
Lemma is_lag_sym l d : is_lag l d -> is_lag l (- d).
Proof. intros (a & b & Ha & Hb & E). exists b, a. repeat split; auto. lia. Qed.
Lemma incr_from_spec l : forall a, incr_from a l = true -> strictly_increasing (a :: l) /\ (forall x, In x l -> (a < x <= last (a :: l) 0)%Z).
Proof.
  induction l as [|b l IH]; intros a H; simpl in H.
  - split; [|simpl; tauto]. intros i j Hij Hj. simpl in Hj. lia.
  - apply andb_true_iff in H as [H1 H2]. apply Z.ltb_lt in H1. destruct (IH b H2) as (S1 & S2). split.
    + intros i j Hij Hj. destruct j as [|j]; [lia|]. destruct i as [|i].
      * simpl (nth 0 _ _). simpl in Hj. destruct j as [|j]; [exact H1|].
        assert (nth j l 0%Z < nth j l 0 + 1)%Z by lia.
        specialize (S1 0 (S j)). simpl in S1. simpl. assert (b < nth j l 0)%Z by (apply S1; [lia|simpl; lia]). lia.
      * change (nth (S i) (a :: b :: l) 0%Z) with (nth i (b :: l) 0%Z).
        change (nth (S j) (a :: b :: l) 0%Z) with (nth j (b :: l) 0%Z). apply S1; simpl in *; lia.
    + intros x [->|Hx]; [|specialize (S2 x Hx); change (last (a :: b :: l) 0%Z) with (last (b :: l) 0%Z); lia].
      change (last (a :: x :: l) 0%Z) with (last (x :: l) 0%Z). split; [exact H1|].
      destruct l as [|c l]; [simpl; lia|]. pose proof (S2 c (or_introl eq_refl)). lia.
Qed.
Lemma preset_ok_spec n l : preset_ok n l = true ->
  List.length l = n /\ nth 0 l 0%Z = 0%Z /\ strictly_increasing l /\ hole_free l (last l 0%Z).
Proof.
  unfold preset_ok. intros H. apply andb_true_iff in H as [H1 H]. apply Nat.eqb_eq in H1.
  destruct l as [|a l]; [discriminate|]. apply andb_true_iff in H as [H H3]. apply andb_true_iff in H as [Ha H2].
  apply Z.eqb_eq in Ha; subst a. destruct (incr_from_spec l 0%Z H2) as (S1 & S2).
  repeat split; auto.
  - destruct H as (x & y & Hx & Hy & <-).
    assert (B : forall z, In z (0%Z :: l) -> (0 <= z <= last (0%Z :: l) 0)%Z).
    { intros z [<-|Hz]; [|specialize (S2 z Hz); lia]. destruct l as [|c l]; [simpl; lia|]. pose proof (S2 c (or_introl eq_refl)). lia. }
    apply B in Hx, Hy. lia.
  - destruct H as (x & y & Hx & Hy & <-).
    assert (B : forall z, In z (0%Z :: l) -> (0 <= z <= last (0%Z :: l) 0)%Z).
    { intros z [<-|Hz]; [|specialize (S2 z Hz); lia]. destruct l as [|c l]; [simpl; lia|]. pose proof (S2 c (or_introl eq_refl)). lia. }
    apply B in Hx, Hy. lia.
  - intros Hd. rewrite forallb_forall in H3.
    destruct (Z.le_ge_cases 0 d).
    + apply lagb_spec, H3, zrange_In. lia.
    + replace d with (- - d)%Z by lia. apply is_lag_sym, lagb_spec, H3, zrange_In. lia.
Qed.
Lemma MRLA_preset n : (1 <= n <= 20)%Z ->
  let l := nth (Z.to_nat (n - 1)) MRLA_PRESETS [] in
  List.length l = Z.to_nat n /\ nth 0 l 0%Z = 0%Z /\ strictly_increasing l /\ hole_free l (last l 0%Z).
Proof.
  intros H l. apply preset_ok_spec. pose proof presets_checked as P. rewrite forallb_forall in P.
  unfold l. replace (Z.to_nat (n - 1)) with (Z.to_nat n - 1) by lia. apply P. apply in_seq. lia.
Qed.
