(** Properties C01, C02, C04, C05, C06, C07, C08 (utils). *)
From Coq Require Import Sorting.Sorted Sorting.Permutation.
From Verif Require Import Base_Np Base_Trig M_utils S_utils P_utils.
Open Scope nat_scope.

(** C01: vec is (m*n) x 1, entry i + j*m is x[i,j], and (i,j) -> i + j*m is a bijection onto the rows. *)
Theorem C01_vec_shape : forall (T : Type) (d : T) (x : mat T),
  nr (vec d x) = nr x * nc x /\ nc (vec d x) = 1.
Proof. exact @vec_shape. Qed.
Theorem C01_vec_entry : forall (T : Type) (d : T) (x : mat T) i j,
  i < nr x -> j < nc x -> ent (vec d x) (i + j * nr x) 0 = ent x i j.
Proof. exact @vec_entry. Qed.
Theorem C01_vec_positions : forall m n,
  (forall k, k < m * n -> exists i j, i < m /\ j < n /\ k = i + j * m) /\
  (forall i j i' j', i < m -> i' < m -> i + j * m = i' + j' * m -> i = i' /\ j = j').
Proof. intros m n. split; [exact (vec_index_surj m n) | exact (vec_index_inj m)]. Qed.
Example C01_example :
  map (fun k => ent (vec 0 (mat_of_rows 0 [[1; 2; 3]; [4; 5; 6]])) k 0) (seq 0 6) = [1; 4; 2; 5; 3; 6].
Proof. reflexivity. Qed.
Print Assumptions C01_vec_entry.

(** C02 *)
Theorem C02_khatri_rao : forall a b : cmat,
  (nc a <> nc b -> khatri_rao a b = Raise ValueError) /\
  (nc a = nc b -> exists c, khatri_rao a b = Ok c /\ nr c = nr a * nr b /\ nc c = nc a /\
     forall i j k, i < nr a -> j < nr b -> k < nc a ->
       ent c (i * nr b + j) k = (ent a i k * ent b j k)%C).
Proof. intros a b. split; [exact (khatri_rao_raise a b) | exact (khatri_rao_ok a b)]. Qed.
Example C02_example : exists a b : cmat, nc a = nc b /\ nr a = 2 /\ nr b = 3 /\ 0 < nc a.
Proof. exists (Mat 2 2 (fun _ _ => RtoC 1)), (Mat 3 2 (fun _ _ => Ci)). simpl. repeat split; lia. Qed.
Print Assumptions C02_khatri_rao.

(** C04: row r of cartesian(x1..xd) is (x1[i1],...,xd[id]) with (i1..id) the row-major multi-index of r;
    unravel is a bijection between row numbers and index tuples. *)
Theorem C04_cartesian : forall (T : Type) (d : T) (xi : list (list T)),
  (xi = [] -> cartesian d xi = Raise ValueError) /\
  (xi <> [] -> exists rows, cartesian d xi = Ok rows /\
    List.length rows = prod_list (map (@List.length T) xi) /\
    (forall r, r < prod_list (map (@List.length T) xi) ->
      List.length (nth r rows []) = List.length xi /\
      forall a, a < List.length xi ->
        nth a (nth r rows []) d = nth (nth a (unravel (map (@List.length T) xi) r) 0) (nth a xi []) d)).
Proof.
  intros T d xi. split; [intros ->; reflexivity|]. intros H.
  destruct (proj2 (cartesian_total d xi) H) as (rows & E). exists rows. split; [exact E|]. exact (cartesian_spec d xi rows E).
Qed.
Theorem C04_rows_are_all_index_tuples : forall shape,
  (forall r, r < prod_list shape -> in_shape shape (unravel shape r) /\ ravel shape (unravel shape r) = r) /\
  (forall idx, in_shape shape idx -> ravel shape idx < prod_list shape /\ unravel shape (ravel shape idx) = idx).
Proof.
  intros shape. split.
  - intros r H. split; [now apply unravel_in_shape | now apply ravel_unravel].
  - intros idx H. split; [now apply ravel_lt | now apply unravel_ravel].
Qed.
Example C04_example : cartesian 0 [[1; 2]; [3; 4; 5]] = Ok [[1; 3]; [1; 4]; [1; 5]; [2; 3]; [2; 4]; [2; 5]].
Proof. reflexivity. Qed.
Print Assumptions C04_cartesian.

(** C05: unsorted, sorted, and without return_index; the empty input violates the documented shape. *)
Theorem C05_unique_rows : forall x atol rtol M, 0 < nr x -> is_max_abs x M ->
  exists y idx, unique_rows x atol rtol true false = Ok (y, Some (IdxArr [List.length idx] idx true)) /\
    rows_of x y idx /\ separated_cover x (atol + rtol * M)%R idx.
Proof. exact unique_rows_unsorted. Qed.
Theorem C05_unique_rows_sorted : forall x atol rtol M, 0 < nr x -> is_max_abs x M ->
  exists y idx idx0, unique_rows x atol rtol true true = Ok (y, Some (IdxArr [List.length idx] idx true)) /\
    rows_of x y idx /\ Permutation idx idx0 /\ separated_cover x (atol + rtol * M)%R idx0 /\
    (forall p q, p < q -> q < nr y -> row_lex_le y p q).
Proof. exact unique_rows_sorted. Qed.
Theorem C05_unique_rows_sorted_same_rows : forall x atol rtol M y idx y' idx' , 0 < nr x -> is_max_abs x M ->
  unique_rows x atol rtol true false = Ok (y, Some (IdxArr [List.length idx] idx true)) ->
  unique_rows x atol rtol true true = Ok (y', Some (IdxArr [List.length idx'] idx' true)) -> Permutation idx' idx.
Proof.
  intros x atol rtol M y idx y' idx' Hn HM H1 H2. unfold unique_rows in *.
  destruct (Nat.eqb (nr x) 0); [discriminate|]. destruct (Nat.eqb (nc x) 0); [discriminate|].
  destruct (ur_while _ _ _ _ _ _); [|discriminate]. injection H1 as _ _ E1. injection H2 as _ _ E2. subst.
  apply map_nth_perm. exact (proj1 (lexsort_rows_spec (take_rows x idx))).
Qed.
Theorem C05_without_index : forall x atol rtol sort y oi,
  unique_rows x atol rtol true sort = Ok (y, oi) -> unique_rows x atol rtol false sort = Ok (y, None).
Proof. exact unique_rows_noindex. Qed.
(** rows without columns have no largest magnitude to scale the tolerance with: ValueError *)
Theorem C05_no_columns : forall x atol rtol ri sort, 0 < nr x -> nc x = 0 -> unique_rows x atol rtol ri sort = Raise ValueError.
Proof. intros x atol rtol ri sort H E. unfold unique_rows. destruct (Nat.eqb_spec (nr x) 0); [lia|]. rewrite E. reflexivity. Qed.
(** The documentation promises an array of indices (shape (0,)) for an empty input; the code returns a
    float array of shape (0, m). *)
Theorem C05_empty_index_shape_defect : exists x y ia, nr x = 0 /\
  unique_rows x 0 0 true false = Ok (y, Some ia) /\ ia_shape ia <> [0] /\ ia_int ia = false.
Proof.
  exists (Mat 0 2 (fun _ _ => 0%R)). eexists. eexists. split; [reflexivity|].
  split; [apply unique_rows_empty; reflexivity|]. split; [discriminate | reflexivity].
Qed.
Example C05_example : exists x M, 0 < nr x /\ is_max_abs x M /\ nr x = 3.
Proof.
  exists (Mat 3 1 (fun i _ => INR i)), 2%R. split; [simpl; lia|]. split; [|reflexivity].
  split.
  - intros i j Hi Hj; cbn [nr ent] in *. rewrite Rabs_right by (apply Rle_ge, pos_INR).
    replace 2%R with (INR 2) by (simpl; lra). apply le_INR. lia.
  - exists 2, 0. cbn [nr nc ent]. repeat split; try lia. rewrite Rabs_right; simpl; lra.
Qed.
Print Assumptions C05_unique_rows_sorted.

(** C06 *)
Theorem C06_projm : forall solve pinv use_pinv iscomplex A P,
  solve_ok solve -> pinv_ok pinv -> (iscomplex = false -> real_mat A) ->
  projm solve pinv use_pinv iscomplex A = Ok P -> orth_projector_onto A P.
Proof. exact projm_correct. Qed.
Theorem C06_projm_complement : forall solve pinv use_pinv iscomplex A P,
  solve_ok solve -> pinv_ok pinv -> (iscomplex = false -> real_mat A) ->
  projm solve pinv use_pinv iscomplex A = Ok P ->
  (mid (nr A) -m P) *m A ==m Mat (nr A) (nc A) (fun _ _ => RtoC 0).
Proof. exact projm_complement. Qed.
(** the contracts are met e.g. by the solver of 1 x 1 systems, and projm then succeeds *)
Definition solve_1x1 (M B : cmat) : res cmat :=
  if Nat.eqb (nr M) 1 && Nat.eqb (nc M) 1 && Nat.eqb (nr B) 1 then
    if Ceq_dec (ent M 0 0) (RtoC 0) then Raise LinAlgError
    else Ok (Mat 1 (nc B) (fun _ j => ent B 0 j / ent M 0 0)%C)
  else Raise LinAlgError.
Example C06_example : solve_ok solve_1x1 /\
  exists A P, nr A = 2 /\ nc A = 1 /\ projm solve_1x1 (fun _ => Raise LinAlgError) false true A = Ok P.
Proof.
  split.
  - intros M B X. unfold solve_1x1.
    destruct (Nat.eqb (nr M) 1 && Nat.eqb (nc M) 1 && Nat.eqb (nr B) 1) eqn:E; [|discriminate].
    apply andb_true_iff in E. destruct E as (E & E3). apply andb_true_iff in E. destruct E as (E1 & E2).
    apply Nat.eqb_eq in E1, E2, E3.
    destruct (Ceq_dec _ _) as [|Hn]; [discriminate|]. intros H. injection H as <-. cbn [nr nc].
    split; [lia|]. split; [reflexivity|]. split; [cbn; lia|]. split; [reflexivity|].
    cbn [nr nc ent mmul]. intros i j Hi Hj. rewrite E2. simpl csum. replace i with 0 by lia. field. exact Hn.
  - exists (Mat 2 1 (fun _ _ => RtoC 1)). eexists. split; [reflexivity|]. split; [reflexivity|].
    unfold projm, matmul, solve_1x1. cbn -[Ceq_dec].
    match goal with |- context [Ceq_dec ?a ?b] => destruct (Ceq_dec a b) as [E|E] end.
    + exfalso. apply (f_equal fst) in E. simpl in E. lra.
    + cbn. reflexivity.
Qed.
Print Assumptions C06_projm.

(** C07 *)
Theorem C07_range : forall xs u v ys, known_unit u -> known_unit v -> Forall (valid_angle u) xs ->
  convert_angles xs u v = Ok ys -> Forall (valid_angle v) ys /\ List.length ys = List.length xs.
Proof. exact convert_angles_range. Qed.
Theorem C07_succeeds_via_radians : forall xs u v, known_unit u -> known_unit v ->
  Forall (valid_angle u) xs -> convert_angles xs u v = Ok (map (fun x => of_rad v (to_rad u x)) xs).
Proof. exact convert_angles_via_rad. Qed.
Theorem C07_roundtrip : forall xs u v ys, known_unit u -> known_unit v ->
  Forall (valid_angle u) xs -> convert_angles xs u v = Ok ys -> convert_angles ys v u = Ok xs.
Proof. exact convert_angles_roundtrip. Qed.
Theorem C07_compose : forall xs u v w ys, known_unit u -> known_unit v -> known_unit w ->
  Forall (valid_angle u) xs -> convert_angles xs u v = Ok ys -> convert_angles ys v w = convert_angles xs u w.
Proof. exact convert_angles_compose. Qed.
Theorem C07_unknown_unit : forall xs u v, u <> v -> ~ (known_unit u /\ known_unit v) ->
  convert_angles xs u v = Raise KeyError.
Proof. exact convert_angles_keyerror. Qed.
(** "an unknown unit raises KeyError" fails when both units are the same unknown string *)
Theorem C07_unknown_unit_defect : exists xs u, ~ known_unit u /\ convert_angles xs u u = Ok xs.
Proof. exists [1%R], "grad"%string. split; [intros [H|[H|H]]; discriminate H | reflexivity]. Qed.
Example C07_example : Forall (valid_angle "deg") [30%R; (-45)%R] /\ known_unit "deg" /\ known_unit "sin".
Proof.
  split; [|split; unfold known_unit; auto].
  constructor; [|constructor; [|constructor]]; right; left; split; try reflexivity; lra.
Qed.
Print Assumptions C07_roundtrip.

(** C08 *)
Theorem C08_cart2spherical : forall coords, 1 <= nc coords <= 3 ->
  exists s, cart2spherical coords = Ok s /\ nr s = nr coords /\ nc s = 3 /\
    forall i, i < nr coords ->
      spherical_of (ent coords i 0) (if Nat.ltb 1 (nc coords) then ent coords i 1 else 0%R)
                   (if Nat.ltb 2 (nc coords) then ent coords i 2 else 0%R)
                   (ent s i 0) (ent s i 1) (ent s i 2).
Proof.
  intros coords H. assert (nc coords = 1 \/ nc coords = 2 \/ nc coords = 3) as [E|[E|E]] by lia; rewrite E; simpl.
  - exact (cart2spherical_1d coords E).
  - exact (cart2spherical_2d coords E).
  - exact (cart2spherical_3d coords E).
Qed.
Theorem C08_no_columns : forall coords, nc coords = 0 -> cart2spherical coords = Raise IndexError.
Proof. intros coords E. unfold cart2spherical. rewrite E. reflexivity. Qed.
Theorem C08_more_than_3_columns_defect : exists coords s, 3 < nc coords /\
  cart2spherical coords = Ok s /\ ent coords 0 0 = 1%R /\ ent s 0 0 = 0%R.
Proof.
  exists (Mat 1 4 (fun _ _ => 1%R)). destruct (cart2spherical_many (Mat 1 4 (fun _ _ => 1%R))) as (s & E & Z); [simpl; lia|].
  exists s. split; [simpl; lia|]. split; [exact E|]. split; [reflexivity | apply Z].
Qed.
Example C08_example : 1 <= nc (Mat 2 3 (fun i j => INR (i + j))) <= 3.
Proof. simpl; lia. Qed.
Print Assumptions C08_cart2spherical.
