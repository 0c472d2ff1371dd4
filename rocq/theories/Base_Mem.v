(** numpy memory for the places where buffers are shared between 2-D arrays and updated in place: numbered buffers of
    complex cells, and arrays that are C-ordered windows (base, row stride) into them, as produced by basic slicing.
    In-place operations compute all values first (numpy copies overlapping operands), then store them. *)
From Verif Require Export Base_Np.
Open Scope nat_scope.

Record mem := Mem { m_next : nat; m_cell : nat -> nat -> C }.
Record view := View { v_buf : nat; v_base : nat; v_stride : nat; v_nr : nat; v_nc : nat }.

Definition v_off (v : view) (i j : nat) : nat := v_base v + i * v_stride v + j.
(** the values an array shows *)
Definition v_read (m : mem) (v : view) : cmat := Mat (v_nr v) (v_nc v) (fun i j => m_cell m (v_buf v) (v_off v i j)).
(** a new C-contiguous array with the given values (np.copy, results of expressions) *)
Definition m_alloc (m : mem) (A : cmat) : mem * view :=
  (Mem (S (m_next m)) (fun b o => if Nat.eqb b (m_next m) then ent A (o / nc A) (o mod nc A) else m_cell m b o),
   View (m_next m) 0 (nc A) (nr A) (nc A)).
(** x[r0:r0+r, c0:c0+c] for bounds inside the array: a window into the same buffer *)
Definition v_window (v : view) (r0 r c0 c : nat) : view := View (v_buf v) (v_off v r0 c0) (v_stride v) r c.
(** store the values A into the array v (x[...] = A, x += ..., x *= ...) *)
Definition v_in (v : view) (o : nat) : bool :=
  Nat.leb (v_base v) o && Nat.ltb ((o - v_base v) / v_stride v) (v_nr v) && Nat.ltb ((o - v_base v) mod v_stride v) (v_nc v).
Definition m_store (m : mem) (v : view) (A : cmat) : mem :=
  Mem (m_next m) (fun b o => if Nat.eqb b (v_buf v) && v_in v o
                             then ent A ((o - v_base v) / v_stride v) ((o - v_base v) mod v_stride v) else m_cell m b o).

(** arrays that exist in a memory *)
Definition v_ok (m : mem) (v : view) : Prop := v_buf v < m_next m /\ v_nc v <= v_stride v.

Lemma v_divmod v i j : j < v_stride v -> (v_off v i j - v_base v) / v_stride v = i /\ (v_off v i j - v_base v) mod v_stride v = j.
Proof.
  intros H. unfold v_off. replace (v_base v + i * v_stride v + j - v_base v) with (j + i * v_stride v) by lia.
  split; [rewrite Nat.div_add by lia; rewrite Nat.div_small by lia; lia | rewrite Nat.mod_add by lia; now apply Nat.mod_small].
Qed.
Lemma v_in_off v i j : v_nc v <= v_stride v -> i < v_nr v -> j < v_nc v -> v_in v (v_off v i j) = true.
Proof.
  intros H Hi Hj. unfold v_in. destruct (v_divmod v i j ltac:(lia)) as (E1 & E2). rewrite E1, E2.
  rewrite (proj2 (Nat.ltb_lt _ _) Hi), (proj2 (Nat.ltb_lt _ _) Hj), !andb_true_r. apply Nat.leb_le. unfold v_off. lia.
Qed.
Lemma read_alloc m A : v_read (fst (m_alloc m A)) (snd (m_alloc m A)) ==m A.
Proof.
  split; [reflexivity|]. split; [reflexivity|]. cbn [m_alloc fst snd v_read nr nc ent v_nr v_nc v_buf m_cell]. intros i j Hi Hj. rewrite Nat.eqb_refl.
  unfold v_off. cbn [v_base v_stride]. rewrite Nat.add_0_l. rewrite Nat.div_add_l by lia. rewrite Nat.div_small by lia. rewrite (Nat.add_comm (i * nc A) j), Nat.mod_add by lia.
  rewrite Nat.mod_small by lia. f_equal. lia.
Qed.
Lemma read_alloc_old m A v : v_buf v < m_next m -> v_read (fst (m_alloc m A)) v = v_read m v.
Proof. intros H. unfold v_read, m_alloc. cbn [fst m_cell]. destruct (Nat.eqb_spec (v_buf v) (m_next m)); [lia | reflexivity]. Qed.
Lemma read_store m v A : v_nc v <= v_stride v -> nr A = v_nr v -> nc A = v_nc v -> v_read (m_store m v A) v ==m A.
Proof.
  intros Hs H1 H2. split; [now cbn|]. split; [now cbn|]. cbn [v_read nr nc ent m_store m_cell]. intros i j Hi Hj. rewrite Nat.eqb_refl, v_in_off by lia. cbn [andb].
  destruct (v_divmod v i j ltac:(lia)) as (E1 & E2). now rewrite E1, E2.
Qed.
Lemma read_store_other m v A w : v_buf w <> v_buf v -> v_read (m_store m v A) w = v_read m w.
Proof. intros H. unfold v_read, m_store. cbn [m_cell]. destruct (Nat.eqb_spec (v_buf w) (v_buf v)); [congruence | reflexivity]. Qed.
Lemma read_window m v r0 r c0 c i j : ent (v_read m (v_window v r0 r c0 c)) i j = ent (v_read m v) (r0 + i) (c0 + j).
Proof. cbn [v_read ent v_window v_buf]. f_equal. unfold v_off, v_window, v_off; cbn [v_base v_stride]. lia. Qed.
Lemma alloc_ok m A : v_ok (fst (m_alloc m A)) (snd (m_alloc m A)).
Proof. split; cbn; lia. Qed.
Lemma v_ok_window m v r0 r c0 c : v_ok m v -> c <= v_nc v -> v_ok m (v_window v r0 r c0 c).
Proof. intros [H1 H2] H. split; cbn; lia. Qed.
(** every buffer of [m] is unchanged in [m'] *)
Definition m_frame (m m' : mem) : Prop := m_next m <= m_next m' /\ forall b o, b < m_next m -> m_cell m' b o = m_cell m b o.
Lemma frame_refl m : m_frame m m. Proof. split; auto. Qed.
Lemma frame_trans m1 m2 m3 : m_frame m1 m2 -> m_frame m2 m3 -> m_frame m1 m3.
Proof. intros [A1 A2] [B1 B2]. split; [lia|]. intros b o Hb. rewrite B2 by lia. auto. Qed.
Lemma frame_alloc m A : m_frame m (fst (m_alloc m A)).
Proof. split; [cbn; lia|]. intros b o Hb. cbn [m_alloc fst m_cell]. destruct (Nat.eqb_spec b (m_next m)); [lia | reflexivity]. Qed.
Lemma frame_store m m' v A : m_frame m m' -> m_next m <= v_buf v -> m_frame m (m_store m' v A).
Proof. intros [H1 H2] Hv. split; [exact H1|]. intros b o Hb. cbn [m_store m_cell]. destruct (Nat.eqb_spec b (v_buf v)); [lia | cbn [andb]; auto]. Qed.
Lemma frame_read m m' v : m_frame m m' -> v_buf v < m_next m -> v_read m' v = v_read m v \/ v_read m' v ==m v_read m v.
Proof. intros [H1 H2] Hv. right. split; [reflexivity|]. split; [reflexivity|]. intros i j _ _. cbn. auto. Qed.
Lemma frame_read_eq m m' v : m_frame m m' -> v_buf v < m_next m -> v_read m' v ==m v_read m v.
Proof. intros F H. destruct (frame_read m m' v F H) as [->|E]; [reflexivity | exact E]. Qed.
