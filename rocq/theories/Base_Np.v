(** NumPy array layout: row-major and column-major enumeration of entries,
    multi-indices of n-dimensional arrays. *)
From Verif Require Export Base_Mat.
Open Scope nat_scope.

(** x.flatten(): entries of a 2-D array, last index fastest *)
Definition flatC {T} (x : mat T) : list T :=
  flat_map (fun i => map (fun j => ent x i j) (seq 0 (nc x))) (seq 0 (nr x)).
(** x.flatten('F'): first index fastest *)
Definition flatF {T} (x : mat T) : list T :=
  flat_map (fun j => map (fun i => ent x i j) (seq 0 (nr x))) (seq 0 (nc x)).
(** l.reshape((-1, 1)) of a 1-D array; [d] is never read inside the shape *)
Definition as_column {T} (d : T) (l : list T) : mat T := Mat (List.length l) 1 (fun i _ => nth i l d).
(** c[:, k] = l (l has exactly nr c entries) *)
Definition set_col {T} (d : T) (c : mat T) (k : nat) (l : list T) : mat T :=
  Mat (nr c) (nc c) (fun i j => if Nat.eqb j k then nth i l d else ent c i j).
(** np.outer of two columns *)
Definition outer {T} (mul : T -> T -> T) (n1 n2 : nat) (u v : nat -> T) : mat T :=
  Mat n1 n2 (fun i j => mul (u i) (v j)).

Lemma length_flat_map_const {A B} (f : A -> list B) n l :
  (forall a, In a l -> List.length (f a) = n) -> List.length (flat_map f l) = List.length l * n.
Proof.
  induction l as [|a l IH]; simpl; intros H; [reflexivity|].
  rewrite app_length, IH by auto. rewrite H by auto. lia.
Qed.
Lemma nth_flat_map_const {A B} (f : A -> list B) n l (da : A) (d : B) i j :
  (forall a, In a l -> List.length (f a) = n) -> i < List.length l -> j < n ->
  nth (i * n + j) (flat_map f l) d = nth j (f (nth i l da)) d.
Proof.
  revert i. induction l as [|a l IH]; simpl; intros i H Hi Hj; [lia|].
  destruct i as [|i].
  - simpl. rewrite app_nth1; [reflexivity|]. rewrite H by auto. exact Hj.
  - rewrite app_nth2 by (rewrite H by auto; lia). rewrite H by auto.
    replace (S i * n + j - n) with (i * n + j) by lia. apply IH; [auto | lia | exact Hj].
Qed.
Lemma length_flatC {T} (x : mat T) : List.length (flatC x) = nr x * nc x.
Proof.
  unfold flatC. rewrite (length_flat_map_const _ (nc x)); [now rewrite seq_length|].
  intros; now rewrite map_length, seq_length.
Qed.
Lemma length_flatF {T} (x : mat T) : List.length (flatF x) = nc x * nr x.
Proof.
  unfold flatF. rewrite (length_flat_map_const _ (nr x)); [now rewrite seq_length|].
  intros; now rewrite map_length, seq_length.
Qed.
Lemma nth_map_seq {T} (f : nat -> T) n i d : i < n -> nth i (map f (seq 0 n)) d = f i.
Proof.
  intros H. rewrite nth_indep with (d' := f 0) by (rewrite map_length, seq_length; exact H).
  rewrite map_nth, seq_nth by exact H. reflexivity.
Qed.
Lemma nth_flatC {T} (x : mat T) i j d : i < nr x -> j < nc x ->
  nth (i * nc x + j) (flatC x) d = ent x i j.
Proof.
  intros Hi Hj. unfold flatC. rewrite (nth_flat_map_const _ (nc x) _ 0).
  - rewrite seq_nth by exact Hi. simpl. now rewrite nth_map_seq.
  - intros; now rewrite map_length, seq_length.
  - now rewrite seq_length.
  - exact Hj.
Qed.
Lemma nth_flatF {T} (x : mat T) i j d : i < nr x -> j < nc x ->
  nth (i + j * nr x) (flatF x) d = ent x i j.
Proof.
  intros Hi Hj. rewrite Nat.add_comm. unfold flatF. rewrite (nth_flat_map_const _ (nr x) _ 0).
  - rewrite seq_nth by exact Hj. simpl. now rewrite nth_map_seq.
  - intros; now rewrite map_length, seq_length.
  - now rewrite seq_length.
  - exact Hi.
Qed.

(** *** n-dimensional arrays *)
Fixpoint prod_list (l : list nat) : nat := match l with [] => 1 | a :: l' => a * prod_list l' end.
(** all multi-indices of a shape in C order (last index fastest) *)
Fixpoint all_indices (shape : list nat) : list (list nat) :=
  match shape with
  | [] => [[]]
  | n :: s => flat_map (fun i => map (cons i) (all_indices s)) (seq 0 n)
  end.
(** np.unravel_index / np.ravel_multi_index, C order *)
Fixpoint unravel (shape : list nat) (r : nat) : list nat :=
  match shape with
  | [] => []
  | n :: s => (r / prod_list s) :: unravel s (r mod prod_list s)
  end.
Fixpoint ravel (shape : list nat) (idx : list nat) : nat :=
  match shape, idx with
  | n :: s, i :: idx' => i * prod_list s + ravel s idx'
  | _, _ => 0
  end.
(** idx is a valid multi-index of shape *)
Fixpoint in_shape (shape idx : list nat) : Prop :=
  match shape, idx with
  | [], [] => True
  | n :: s, i :: idx' => i < n /\ in_shape s idx'
  | _, _ => False
  end.

Lemma length_all_indices s : List.length (all_indices s) = prod_list s.
Proof.
  induction s as [|n s IH]; simpl; [reflexivity|].
  rewrite (length_flat_map_const _ (prod_list s)); [now rewrite seq_length|].
  intros; now rewrite map_length.
Qed.
Lemma ravel_lt s idx : in_shape s idx -> ravel s idx < prod_list s.
Proof.
  revert idx; induction s as [|n s IH]; intros [|i idx]; simpl; try tauto; [lia|].
  intros (H1 & H2). specialize (IH _ H2). nia.
Qed.
Lemma prod_list_pos s idx : in_shape s idx -> 0 < prod_list s.
Proof. intros H. pose proof (ravel_lt s idx H). lia. Qed.
Lemma unravel_ravel s idx : in_shape s idx -> unravel s (ravel s idx) = idx.
Proof.
  revert idx; induction s as [|n s IH]; intros [|i idx]; simpl; try tauto.
  intros (H1 & H2). pose proof (ravel_lt _ _ H2) as L.
  rewrite Nat.div_add_l by lia. rewrite Nat.div_small by exact L.
  rewrite (Nat.add_comm (i * _)), Nat.mod_add by lia. rewrite Nat.mod_small by exact L.
  rewrite Nat.add_0_r, IH by exact H2. reflexivity.
Qed.
Lemma unravel_in_shape s r : r < prod_list s -> in_shape s (unravel s r).
Proof.
  revert r; induction s as [|n s IH]; simpl; intros r H; [exact I|].
  assert (prod_list s <> 0) by (intros E; rewrite E in H; lia).
  split; [apply Nat.div_lt_upper_bound; lia|]. apply IH. now apply Nat.mod_upper_bound.
Qed.
Lemma ravel_unravel s r : r < prod_list s -> ravel s (unravel s r) = r.
Proof.
  revert r; induction s as [|n s IH]; simpl; intros r H; [lia|].
  assert (prod_list s <> 0) by (intros E; rewrite E in H; lia).
  rewrite IH by now apply Nat.mod_upper_bound.
  pose proof (Nat.div_mod r (prod_list s) H0). lia.
Qed.
Lemma nth_all_indices s r : r < prod_list s -> nth r (all_indices s) [] = unravel s r.
Proof.
  revert r; induction s as [|n s IH]; simpl; intros r H; [destruct r; [reflexivity|lia]|].
  assert (Hp : prod_list s <> 0) by (intros E; rewrite E in H; lia).
  pose proof (Nat.mod_upper_bound r _ Hp) as Hm.
  assert (Hd : r / prod_list s < n) by (apply Nat.div_lt_upper_bound; lia).
  rewrite (Nat.div_mod r (prod_list s) Hp) at 1. rewrite (Nat.mul_comm (prod_list s)).
  rewrite (nth_flat_map_const _ (prod_list s) _ 0).
  - rewrite seq_nth by exact Hd. simpl.
    rewrite nth_indep with (d' := (r / prod_list s) :: []) by (rewrite map_length, length_all_indices; exact Hm).
    rewrite (map_nth (cons (r / prod_list s)) (all_indices s) []). rewrite IH by exact Hm. reflexivity.
  - intros; now rewrite map_length, length_all_indices.
  - now rewrite seq_length.
  - exact Hm.
Qed.
Lemma in_all_indices s idx : In idx (all_indices s) <-> in_shape s idx.
Proof.
  split.
  - intros H. apply In_nth with (d := []) in H. destruct H as (r & Hr & E).
    rewrite length_all_indices in Hr. rewrite nth_all_indices in E by exact Hr. subst. now apply unravel_in_shape.
  - intros H. rewrite <- (unravel_ravel s idx H). rewrite <- nth_all_indices by now apply ravel_lt.
    apply nth_In. rewrite length_all_indices. now apply ravel_lt.
Qed.

(** *** General n-dimensional arrays given by users: shape and C-order data *)
Record ndarr (T : Type) := Nd { nd_shape : list nat; nd_data : list T }.
Arguments Nd {T}. Arguments nd_shape {T}. Arguments nd_data {T}.
Definition nd_ndim {T} (a : ndarr T) : nat := List.length (nd_shape a).
(** the 2-D array as a matrix (for shape [m; n]) *)
Definition nd_mat {T} (d : T) (a : ndarr T) : mat T :=
  let m := nth 0 (nd_shape a) 0 in let n := nth 1 (nd_shape a) 0 in
  Mat m n (fun i j => nth (i * n + j) (nd_data a) d).
Definition nd_wf {T} (a : ndarr T) : Prop := List.length (nd_data a) = prod_list (nd_shape a).
(** an array-like argument: a Python list or an ndarray *)
Inductive arglike (T : Type) := PyList (a : ndarr T) | NdArray (a : ndarr T).
Arguments PyList {T}. Arguments NdArray {T}.
Definition arg_arr {T} (x : arglike T) : ndarr T := match x with PyList a | NdArray a => a end.
Definition is_ndarray {T} (x : arglike T) : bool := match x with NdArray _ => true | PyList _ => false end.
