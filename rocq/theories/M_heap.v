(** Array objects with identity: which numpy buffers and dictionaries are shared between array designs
    (doatools/model/arrays.py).  Perturbation objects and elements are immutable values here. *)
From Verif Require Import Base_Np Base_Trig M_utils M_sources M_array.
Open Scope nat_scope.

Record aobj := AObj { o_name : string; o_loc : nat; o_idx : option nat; o_elem : element; o_dict : nat }.
(** [h_bufs]: numpy arrays; [h_dicts]: the dictionaries _perturbations; [h_objs]: array designs *)
Record heap := Heap { h_bufs : list larr; h_dicts : list (list (pclass * pert)); h_objs : list aobj }.

Definition nobuf : larr := LArr DFloat (Mat 0 0 (fun _ _ => 0%R)).
Definition get_buf (h : heap) (b : nat) : larr := nth b (h_bufs h) nobuf.
Definition get_dict (h : heap) (d : nat) := nth d (h_dicts h) [].
Fixpoint set_nth {A} (l : list A) (n : nat) (x : A) : list A :=
  match l, n with [], _ => [] | _ :: l', 0 => x :: l' | a :: l', S n' => a :: set_nth l' n' x end.

Definition new_buf (h : heap) (l : larr) : heap * nat := (Heap (h_bufs h ++ [l]) (h_dicts h) (h_objs h), List.length (h_bufs h)).
Definition new_dict (h : heap) d : heap * nat := (Heap (h_bufs h) (h_dicts h ++ [d]) (h_objs h), List.length (h_dicts h)).
Definition new_obj (h : heap) o : heap * nat := (Heap (h_bufs h) (h_dicts h) (h_objs h ++ [o]), List.length (h_objs h)).
Definition set_dict (h : heap) (d : nat) v : heap := Heap (h_bufs h) (set_nth (h_dicts h) d v) (h_objs h).
Definition set_obj (h : heap) (o : nat) v : heap := Heap (h_bufs h) (h_dicts h) (set_nth (h_objs h) o v).

(** what the array design at [o] reports through its properties *)
Definition obs_of (h : heap) (o : aobj) : array := Array (get_buf h (o_loc o)) (o_name o) (o_elem o) (get_dict h (o_dict o)).
Definition obs (h : heap) (n : nat) : option array := option_map (obs_of h) (nth_error (h_objs h) n).
Definition obs_indices (h : heap) (n : nat) : option larr :=
  match nth_error (h_objs h) n with Some o => option_map (get_buf h) (o_idx o) | None => None end.

(** arrays.py:184-204 _add_perturbation_from_list on the object [n]: assignments into its dictionary.
    An exception leaves the updates made so far behind. *)
Fixpoint h_add (h : heap) (n : nat) (ps : list pert) (raise_on_override : bool) : res unit * heap :=
  match ps with
  | [] => (Ok tt, h)
  | p :: ps' =>
      match nth_error (h_objs h) n with
      | None => (Raise TypeError, h)
      | Some o =>
          match is_applicable_to p (obs_of h o) with
          | Raise e => (Raise e, h)
          | Ok false => (Raise RuntimeError, h)
          | Ok true =>
              if dmem pclass_eqb (get_dict h (o_dict o)) (class_of p) && raise_on_override then (Raise RuntimeError, h)
              else h_add (set_dict h (o_dict o) (dset pclass_eqb (get_dict h (o_dict o)) (class_of p) p)) n ps' raise_on_override
          end
      end
  end.

(** The actions of a program *)
Inductive action :=
  | ANew (buffer : nat) (indices : option nat) (name : string) (ps : list pert) (e : element)  (* ArrayDesign(...) on an existing 2-D ndarray *)
  | AFreeCopy (n : nat) (new_name : option string)                 (* arrays.py:258-276 *)
  | APerturbedCopy (n : nat) (ps : list pert) (new_name : option string)     (* arrays.py:217-256 *)
  | AReadLocations (n : nat)                                       (* arrays.py:110-118 *)
  | AReadActual (n : nat)                                          (* arrays.py:120-134 *)
  | AReadIndices (n : nat)                                         (* arrays.py:527-533 *)
  | AAlloc (l : larr)                                              (* the program creates an ndarray *)
  | AWrite (b i j : nat) (x : R).                                  (* buf[i, j] = x *)
Inductive result := RDone | RObj (n : nat) | RBuf (b : nat) | RErr (e : exn).

(** arrays.py:258-276: copy.copy shares every field; then the dictionary and the name are replaced *)
Definition h_free_copy (h : heap) (o : aobj) (new_name : option string) : heap * nat :=
  let '(h1, n') := new_obj h o in
  let '(h2, d) := new_dict h1 [] in
  (set_obj h2 n' (AObj (match new_name with None => o_name o | Some s => s end) (o_loc o) (o_idx o) (o_elem o) d), n').

(** perturbations.py:46-60, 151-165 on buffers: only location errors make a new array *)
Fixpoint h_actual (h : heap) (b : nat) (ps : list pert) : res nat * heap :=
  match ps with
  | [] => (Ok b, h)
  | LocErr e k :: ps' =>
      match perturb_sensor_locations (LocErr e k) (get_buf h b) with
      | Raise x => (Raise x, h)
      | Ok l => let '(h', b') := new_buf h l in h_actual h' b' ps'
      end
  | _ :: ps' => h_actual h b ps'
  end.

Definition set_entry (l : larr) (i j : nat) (x : R) : larr :=
  LArr (la_dt l) (Mat (nr (la_m l)) (nc (la_m l))
                    (fun r c => if Nat.eqb r i && Nat.eqb c j then x else ent (la_m l) r c)).

Definition step (h : heap) (a : action) : result * heap :=
  match a with
  | ANew b idx name ps e =>
      if negb (Nat.ltb b (List.length (h_bufs h))) || negb (match idx with Some i => Nat.ltb i (List.length (h_bufs h)) | None => true end)
      then (RErr TypeError, h) (* not a program: no such array *) else
      let '(h1, n) := new_obj h (AObj name b idx e (List.length (h_dicts h))) in
      let '(h2, _) := new_dict h1 [] in
      match h_add h2 n ps true with (Ok _, h3) => (RObj n, h3) | (Raise x, h3) => (RErr x, h3) end
  | AFreeCopy n nm =>
      match nth_error (h_objs h) n with
      | None => (RErr TypeError, h)
      | Some o => let '(h', n') := h_free_copy h o nm in (RObj n', h')
      end
  | APerturbedCopy n ps nm =>
      match nth_error (h_objs h) n with
      | None => (RErr TypeError, h)
      | Some o =>
          let '(h1, n') := h_free_copy h o nm in
          (* array._perturbations = self._perturbations.copy() *)
          let '(h2, d) := new_dict h1 (get_dict h1 (o_dict o)) in
          let h3 := set_obj h2 n' (AObj (match nm with None => o_name o | Some s => s end) (o_loc o) (o_idx o) (o_elem o) d) in
          match h_add h3 n' ps false with (Ok _, h4) => (RObj n', h4) | (Raise x, h4) => (RErr x, h4) end
      end
  | AReadLocations n =>
      match nth_error (h_objs h) n with
      | None => (RErr TypeError, h)
      | Some o => let '(h', b) := new_buf h (get_buf h (o_loc o)) in (RBuf b, h')
      end
  | AReadActual n =>
      match nth_error (h_objs h) n with
      | None => (RErr TypeError, h)
      | Some o => match h_actual h (o_loc o) (dvals (get_dict h (o_dict o))) with
                  | (Ok b, h') => (RBuf b, h') | (Raise x, h') => (RErr x, h') end
      end
  | AReadIndices n =>
      match nth_error (h_objs h) n with
      | Some o => match o_idx o with
                  | Some i => let '(h', b) := new_buf h (get_buf h i) in (RBuf b, h')
                  | None => (RErr AttributeError, h)
                  end
      | None => (RErr TypeError, h)
      end
  | AAlloc l => let '(h', b) := new_buf h l in (RBuf b, h')
  | AWrite b i j x => (RDone, Heap (set_nth (h_bufs h) b (set_entry (get_buf h b) i j x)) (h_dicts h) (h_objs h))
  end.
(** a program run: the results of its actions and the final heap *)
Fixpoint run (h : heap) (acts : list action) : list result * heap :=
  match acts with
  | [] => ([], h)
  | a :: acts' => let '(r, h1) := step h a in let '(rs, h2) := run h1 acts' in (r :: rs, h2)
  end.
