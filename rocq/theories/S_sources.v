(** Vocabulary of the properties about source placements. *)
From Coq Require Import Sorting.Sorted Sorting.Permutation.
From Coquelicot Require Import Hierarchy Derive.
From Verif Require Import Base_Np Base_Trig S_utils M_sources.
Open Scope R_scope.

(** azimuth / elevation ranges of the two supported units *)
Definition valid_ae (u : string) (p : R * R) : Prop :=
  (u = "rad"%string /\ - PI <= fst p <= PI /\ - (PI / 2) <= snd p <= PI / 2) \/
  (u = "deg"%string /\ -180 <= fst p <= 180 /\ -90 <= snd p <= 90).
(** what the constructors guarantee *)
Definition valid_sources (s : sources) : Prop :=
  match s with
  | FF1 l u => known_unit u /\ Forall (valid_angle u) l
  | FF2 l u => (u = "rad"%string \/ u = "deg"%string) /\ Forall (valid_ae u) l
  | NF2 _ => True
  end.

(** coordinate c of sensor i, missing axes being zero *)
Definition coord (m : rmat) (i c : nat) : R := if Nat.ltb c (nc m) then ent m i c else 0.

(** unit vector towards far-field source k: broadside angles are measured from the y axis in the xy plane,
    azimuths from the x axis, elevations from the xy plane *)
Definition direction (s : sources) (k : nat) : R * R * R :=
  match s with
  | FF1 l u => let t := to_rad u (nth k l 0) in (sin t, cos t, 0)
  | FF2 l u => let az := to_rad u (fst (nth k l (0, 0))) in let el := to_rad u (snd (nth k l (0, 0))) in
               (cos el * cos az, cos el * sin az, sin el)
  | NF2 _ => (0, 0, 0)
  end.
(** far-field phase of a plane wave from direction (x, y, z) at sensor i *)
Definition plane_phase (wavelength : R) (sensors : rmat) (i : nat) (d : R * R * R) : R :=
  let '(x, y, z) := d in
  2 * PI / wavelength * (coord sensors i 0 * x + coord sensors i 1 * y + coord sensors i 2 * z).

(** distance from sensor i to the near-field source at (x, y, 0) *)
Definition distance (sensors : rmat) (i : nat) (p : R * R) : R :=
  sqrt ((coord sensors i 0 - fst p) * (coord sensors i 0 - fst p)
        + (coord sensors i 1 - snd p) * (coord sensors i 1 - snd p)
        + coord sensors i 2 * coord sensors i 2).

(** the placement with the sources at the given positions *)
Definition select_sources (s : sources) (idx : list nat) : sources :=
  match s with
  | FF1 l u => FF1 (map (fun i => nth i l 0) idx) u
  | FF2 l u => FF2 (map (fun i => nth i l (0, 0)) idx) u
  | NF2 l => NF2 (map (fun i => nth i l (0, 0)) idx)
  end.

(** Python's slice bounds: negative positions count from the end, then both are clipped *)
Definition py_bound (n : nat) (step : Z) (dflt : Z) (o : option Z) : Z :=
  match o with
  | None => dflt
  | Some i => let j := (if i <? 0 then i + Z.of_nat n else i)%Z in
              (if 0 <? step then Z.max 0 (Z.min j (Z.of_nat n)) else Z.max (-1) (Z.min j (Z.of_nat n - 1)))%Z
  end.
Definition py_start n step o := py_bound n step (if (0 <? step)%Z then 0%Z else (Z.of_nat n - 1)%Z) o.
Definition py_stop n step o := py_bound n step (if (0 <? step)%Z then Z.of_nat n else (-1)%Z) o.

Definition ascending (l : list R) : Prop := StronglySorted Rle l.

(** phase of source k at sensor i *)
Definition source_phase (s : sources) (lam : R) (sensors : rmat) (i k : nat) : R :=
  match s with
  | NF2 l => - (2 * PI / lam) * (distance sensors i (nth k l (0, 0)) - distance sensors 0 (nth k l (0, 0)))
  | _ => plane_phase lam sensors i (direction s k)
  end.

(** the list with position k replaced *)
Fixpoint upd {A} (l : list A) (k : nat) (x : A) : list A :=
  match l, k with
  | [], _ => []
  | _ :: l', O => x :: l'
  | a :: l', S k' => a :: upd l' k' x
  end.
(** componentwise derivative of a complex-valued function of a real variable *)
Definition cderiv (f : R -> C) (x : R) (d : C) : Prop :=
  is_derive (fun t : R => Re (f t)) x (Re d) /\ is_derive (fun t : R => Im (f t)) x (Im d).
Definition unit2 (u : string) : Prop := u = "rad"%string \/ u = "deg"%string.
(** units a placement can be converted to *)
Definition supported (s : sources) (v : string) : Prop :=
  match s with FF1 _ _ => known_unit v | FF2 _ _ => unit2 v | NF2 _ => v = "m"%string end.
(** a sequence of assignments to rows of the locations of [p] *)
Definition writes {A} (h : list (list A)) (p : placement) (ws : list (nat * A)) : list (list A) :=
  fold_left (fun h w => set_location h p (fst w) (snd w)) ws h.
