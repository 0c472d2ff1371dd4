(** The results of refinement and estimation without the estimator state, which refinement does not change. *)
From Verif Require Import Base_Np Base_Py Base_Trig M_utils M_sources M_array M_designs M_coarray M_grid M_heap M_core.
Open Scope nat_scope.

Definition refine_one {T} (e : estimator T) (f_sp : T -> res (list R)) (density : Z) (last : bool) (est : placement)
    (i : nat) (st : lheap * list sgrid) : res (lheap * list sgrid) :=
  let '(h, subgrids) := st in
  match nth_error subgrids i with
  | None => Raise IndexError
  | Some g =>
      let! A := fst (get_atom_matrix e (Some g)) in
      let! sp := f_sp A in
      let! i_max := argmax sp in
      let! s := create_source_placement g in
      match nth_error (src_rows s) i_max with
      | None => Raise IndexError
      | Some row =>
          let h' := set_location h est i (cast (sg_dt (e_grid e)) row) in
          if last then Ok (h', subgrids)
          else let! g' := create_refined_grid_at g (map Z.of_nat (unravel (sg_shape g) i_max)) density 1 in
               Ok (h', set_nth subgrids i g')
      end
  end.
Fixpoint foldM {S} (f : nat -> S -> res S) (l : list nat) (s : S) : res S :=
  match l with [] => Ok s | i :: l' => let! s' := f i s in foldM f l' s' end.
Definition refine_loop {T} (e : estimator T) f_sp (density : Z) (n_iters : nat) (est : placement) (st : lheap * list sgrid) :=
  foldM (fun r st => foldM (refine_one e f_sp density (Nat.eqb r (n_iters - 1)) est) (seq 0 (List.length (snd st))) st)
    (seq 0 n_iters) st.
Definition refine_estimates {T} (e : estimator T) f_sp (h : lheap) (est : placement) (flat : list nat) (density : Z) (n_iters : nat)
    : res lheap :=
  let coords := map (fun p => map Z.of_nat (unravel (sg_shape (e_grid e)) p)) flat in
  let! subgrids := create_refined_grids_at (e_grid e) coords density in
  let! st := refine_loop e f_sp density n_iters est (h, subgrids) in
  Ok (fst st).

Definition estimate_from {T} (e : estimator T) (A : T) (h : lheap) (f_sp : T -> res (list R)) (k : Z) (o : options)
    : res (outcome * lheap) :=
  let shape := sg_shape (e_grid e) in
  let! sp := f_sp A in
  raise_if (negb (Nat.eqb (List.length sp) (prod_list shape))) as ValueError ;;
  let peaks := e_pf e shape sp in
  let ret_sp := if o_spectrum o then Some sp else None in
  if (Z.of_nat (List.length peaks) <? k)%Z then Ok (Outcome false None ret_sp, h)
  else
    raise_if (negb (forallb (idx_ok shape) peaks)) as IndexError ;;
    let peak_values := map (at_idx shape sp) peaks in
    let top := pslice (e_argsort e peak_values) (Some (- k)%Z) None in
    let flat := sort_by Nat.leb (map (fun t => ravel shape (nth t peaks [])) top) in
    let! (it, h1) := getitem h (e_pl e) (KIndexList (map Z.of_nat flat)) in
    match it with
    | IPlacement est =>
        if o_refine o
        then let! h2 := refine_estimates e f_sp h1 est flat (o_density o) (o_iters o) in Ok (Outcome true (Some est) ret_sp, h2)
        else Ok (Outcome true (Some est) ret_sp, h1)
    | _ => Raise TypeError
    end.

Lemma efoldM_pure {T S} (f : nat -> S -> estimator T -> res S * estimator T) (g : nat -> S -> res S) e l :
  (forall i s, f i s e = (g i s, e)) -> forall s, efoldM f l s e = (foldM g l s, e).
Proof. intros H. induction l as [|i l IH]; intros s; cbn [efoldM foldM]; [reflexivity|]. rewrite H. destruct (g i s); cbn [bind]; [apply IH|reflexivity]. Qed.
Lemma do_refine_one_pure {T} (e : estimator T) f d last est i st : do_refine_one f d last est i st e = (refine_one e f d last est i st, e).
Proof. unfold do_refine_one, refine_one. destruct st as (h, gs). destruct (nth_error gs i); reflexivity. Qed.
Lemma do_refine_loop_pure {T} (e : estimator T) f d n est st : do_refine_loop f d n est st e = (refine_loop e f d n est st, e).
Proof.
  unfold do_refine_loop, refine_loop. apply efoldM_pure. intros r s. apply efoldM_pure. intros i s'. apply do_refine_one_pure.
Qed.
Lemma do_refine_estimates_pure {T} (e : estimator T) f h est flat d n : do_refine_estimates e f h est flat d n = (refine_estimates e f h est flat d n, e).
Proof. unfold do_refine_estimates, refine_estimates. destruct (create_refined_grids_at _ _ _); cbn [bind]; [|reflexivity]. now rewrite do_refine_loop_pure. Qed.
Lemma do_estimate_from_pure {T} (e : estimator T) A h f k o : do_estimate_from e A h f k o = (estimate_from e A h f k o, e).
Proof.
  unfold do_estimate_from, estimate_from. destruct (f A) as [sp|]; cbn [bind]; [|reflexivity]. destruct (negb _); [reflexivity|]. destruct (_ <? _)%Z; [reflexivity|].
  destruct (negb _); [reflexivity|]. destruct (getitem _ _ _) as [([|?|?], h1)|]; cbn [bind]; try reflexivity; destruct (o_refine o); try reflexivity; now rewrite do_refine_estimates_pure.
Qed.
Lemma estimate_eq {T} (e : estimator T) h f k o : estimate e h f k o =
  match get_atom_matrix e None with
  | (Raise x, e') => (Raise x, e', h)
  | (Ok A, e') => match estimate_from e' A h f k o with Raise x => (Raise x, e', h) | Ok (oc, h') => (Ok oc, e', h') end
  end.
Proof. unfold estimate. destruct (get_atom_matrix e None) as ([A|x], e1); [|reflexivity]. rewrite do_estimate_from_pure. destruct (estimate_from _ _ _ _ _ _) as [(?, ?)|]; reflexivity. Qed.
