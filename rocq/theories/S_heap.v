(** Vocabulary of the aliasing properties of array designs. *)
From Verif Require Import Base_Np M_array M_heap.
Open Scope nat_scope.

(** a heap produced by Python: objects refer to existing arrays and own their dictionaries *)
Record wf_heap (h : heap) : Prop := {
  wh_loc : forall o, In o (h_objs h) -> o_loc o < List.length (h_bufs h);
  wh_idx : forall o i, In o (h_objs h) -> o_idx o = Some i -> i < List.length (h_bufs h);
  wh_dict : forall o, In o (h_objs h) -> o_dict o < List.length (h_dicts h);
  wh_own : NoDup (map o_dict (h_objs h))
}.
(** the actions write into the array [b] *)
Definition writes_to (acts : list action) (b : nat) : Prop := exists i j x, In (AWrite b i j x) acts.

Definition has_location_errors (h : heap) (n : nat) : Prop :=
  exists a e k, obs h n = Some a /\ In (LocErr e k) (perturbations a).
(** arrays received from property reads *)
Definition received (a : action) (r : result) (got : list nat) : list nat :=
  match a, r with
  | AReadLocations _, RBuf b | AReadActual _, RBuf b | AReadIndices _, RBuf b => b :: got
  | _, _ => got
  end.
(** Runs in which the program only writes into arrays it got from reading a property ([got]) and builds no array
    design on those; actual_element_locations is read only from arrays with location errors. *)
Fixpoint reads_and_writes (h : heap) (got : list nat) (acts : list action) : Prop :=
  match acts with
  | [] => True
  | a :: acts' =>
      match a with
      | AWrite b _ _ _ => In b got
      | AReadActual n => has_location_errors h n
      | ANew b i _ _ _ => ~ In b got /\ (forall k, i = Some k -> ~ In k got)
      | _ => True
      end /\
      reads_and_writes (snd (step h a))
        (received a (fst (step h a)) got) acts'
  end.

(** no array design refers to the arrays [got] *)
Definition private (h : heap) (got : list nat) : Prop :=
  (forall b, In b got -> b < List.length (h_bufs h)) /\
  forall b o, In b got -> In o (h_objs h) -> o_loc o <> b /\ o_idx o <> Some b.
