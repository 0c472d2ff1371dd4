(** Vocabulary of the property that performance bounds depend on the physical scene only. *)
From Coq Require Import Sorting.Permutation.
From Verif Require Import Base_Np Base_Trig S_utils M_utils M_sources S_sources M_array S_array.
Open Scope R_scope.

(** d(angle in radians) / d(angle in unit u) *)
Definition unit_step (u : string) (x : R) : R :=
  if String.eqb u "deg" then PI / 180 else if String.eqb u "sin" then / sqrt (1 - x * x) else 1.
(** sin(angle) is not differentiable in the angle's inverse at end-fire *)
Definition interior (u : string) (l : list R) : Prop := u = "sin"%string -> forall x, In x l -> -1 < x < 1.
(** the errors of an array that do not move sensors *)
Definition response_errors (a : array) : list pert :=
  filter (fun p => match p with LocErr _ _ => false | _ => true end) (perturbations a).

(** Two descriptions of the same scene: the sensors of the second one are those of the first, rotated by beta in the
    xy plane, scaled together with the wavelength by alpha, and moved by (vx, vy); source number j of the second is source number
    [nth j idx] of the first, turned by the same rotation, possibly written in another unit. *)
Record same_scene (a : array) (l : list R) (u : string) (lam : R) (a' : array) (l' : list R) (u' : string) (lam' : R)
    (idx : list nat) (vx vy : R) : Prop := {
  sc_valid : valid_sources (FF1 l u) /\ valid_sources (FF1 l' u');
  sc_interior : interior u l /\ interior u' l';
  sc_order : Permutation idx (seq 0 (List.length l)) /\ List.length l' = List.length l;
  sc_size : ar_size a' = ar_size a;
  sc_errors : response_errors a' = response_errors a;
  sc_geometry : exists L L' alpha beta,
    actual_element_locations a = Ok L /\ actual_element_locations a' = Ok L' /\
    alpha <> 0 /\ lam' = alpha * lam /\
    (forall i, (i < ar_size a)%nat ->
       coord (la_m L') i 0 = alpha * (coord (la_m L) i 0 * cos beta + coord (la_m L) i 1 * sin beta) + vx /\
       coord (la_m L') i 1 = alpha * (coord (la_m L) i 1 * cos beta - coord (la_m L) i 0 * sin beta) + vy) /\
    (forall j, (j < List.length l)%nat -> to_rad u' (nth j l' 0) = to_rad u (nth (nth j idx 0%nat) l 0) + beta)
}.
(** phase of source j at the new position of the origin *)
Definition shift_phase (l' : list R) (u' : string) (lam' vx vy : R) (j : nat) : R :=
  2 * PI / lam' * (vx * sin (to_rad u' (nth j l' 0)) + vy * cos (to_rad u' (nth j l' 0))).
(** the covariance matrix of the same waveforms, referred to the new origin and listed in the new order *)
Definition same_waveforms (k : nat) (idx : list nat) (phi : nat -> R) (P P' : nat -> nat -> C) : Prop :=
  forall i j, (i < k)%nat -> (j < k)%nat -> P' i j = (cis (phi j - phi i) * P (nth i idx 0%nat) (nth j idx 0%nat))%C.
(** error covariances that agree after conversion to radians *)
Definition same_in_radians (l : list R) (u : string) (V : rmat) (l' : list R) (u' : string) (V' : rmat) (idx : list nat) : Prop :=
  nr V' = List.length l' /\ nc V' = List.length l' /\
  forall i j, (i < List.length l')%nat -> (j < List.length l')%nat ->
    unit_step u' (nth i l' 0) * unit_step u' (nth j l' 0) * ent V' i j
    = unit_step u (nth (nth i idx 0%nat) l 0) * unit_step u (nth (nth j idx 0%nat) l 0) * ent V (nth i idx 0%nat) (nth j idx 0%nat).
(** all sources strictly between the two end-fire directions *)
Definition off_endfire (u : string) (l : list R) : Prop := forall x, In x l -> - (PI / 2) < to_rad u x < PI / 2.
(** the same matrix with rows and columns listed in another order *)
Definition reordered {T : Type} (k : nat) (idx : list nat) (M M' : nat -> nat -> T) : Prop :=
  forall i j, (i < k)%nat -> (j < k)%nat -> M' i j = M (nth i idx 0%nat) (nth j idx 0%nat).
