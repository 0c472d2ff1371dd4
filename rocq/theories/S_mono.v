(** Vocabulary of the property that performance bounds respond correctly to a change of scenario. *)
From Verif Require Import Base_Np S_utils M_sources S_sources M_array S_array M_perf S_perf S_equiv.
Open Scope R_scope.

(** [a] consists of the sensors number [idx] of [a']: they stand at the same places in the xy plane, and each of them multiplies the
    incoming wave by the same factor (gain and phase errors) in both arrays; no mutual coupling. *)
Record part_of (a a' : array) (idx : list nat) : Prop := {
  po_sensors : List.length idx = ar_size a /\ NoDup idx /\ forall i, In i idx -> (i < ar_size a')%nat;
  po_places : exists L L', actual_element_locations a = Ok L /\ actual_element_locations a' = Ok L' /\
    forall i, (i < ar_size a)%nat -> coord (la_m L) i 0 = coord (la_m L') (nth i idx 0%nat) 0 /\ coord (la_m L) i 1 = coord (la_m L') (nth i idx 0%nat) 1;
  po_factors : exists g, perturbed (response_errors a) (mid (ar_size a)) ==m mdiag (ar_size a) (fun i => g (nth i idx 0%nat)) /\
    perturbed (response_errors a') (mid (ar_size a')) ==m mdiag (ar_size a') g
}.
(** the bound o' is at most the bound o, in the sense of its output mode: as quadratic forms (full covariance matrices), source by source
    (diagonals), or as numbers (means) *)
Definition no_worse (o' o : output) : Prop :=
  match o', o with
  | OFull V', OFull V => rloewner V' V
  | ODiag d', ODiag d => Forall2 Rle d' d
  | OMean (Some x'), OMean (Some x) => x' <= x
  | OMean None, OMean None => True
  | _, _ => False
  end.
(** the same for the first k sources only of the bound on the right-hand side *)
Definition no_worse_first (k : nat) (o o' : output) : Prop :=
  match o, o' with
  | OFull V, OFull V' => nr V = k /\ (k <= nr V')%nat /\ forall x, rform V x <= rform V' (fun i => if Nat.ltb i k then x i else 0)
  | ODiag d, ODiag d' => List.length d = k /\ Forall2 Rle d (firstn k d')
  | _, _ => False
  end.
(** the same bound: equal entries *)
Definition same_bound (o' o : output) : Prop :=
  match o', o with
  | OFull V', OFull V => meq V' V
  | ODiag d', ODiag d => d' = d
  | OMean x', OMean x => x' = x
  | _, _ => False
  end.
(** the source covariance matrix P' contains P as its leading block *)
Definition extends (k : nat) (P P' : nat -> nat -> C) : Prop := forall i j, (i < k)%nat -> (j < k)%nat -> P' i j = P i j.
(** and the additional ones of its n sources are uncorrelated with the first k ones *)
Definition uncorrelated_beyond (k n : nat) (P' : nat -> nat -> C) : Prop := forall i j, (i < k)%nat -> (k <= j < n)%nat -> P' i j = RtoC 0 /\ P' j i = RtoC 0.
