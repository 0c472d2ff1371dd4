(** Vocabulary of the properties about doatools/utils. *)
From Verif Require Import Base_Np Base_Trig.
From Coq Require Import Sorting.Sorted Sorting.Permutation.
Open Scope nat_scope.

(** M is the largest absolute value among the entries of x *)
Definition is_max_abs (x : rmat) (M : R) : Prop :=
  (forall i j, i < nr x -> j < nc x -> (Rabs (ent x i j) <= M)%R) /\
  (exists i j, i < nr x /\ j < nc x /\ Rabs (ent x i j) = M).

(** rows i and k of x agree within tol in every column *)
Definition rows_within (x : rmat) (tol : R) (i k : nat) : Prop :=
  forall l, l < nc x -> (Rabs (ent x i l - ent x k l) <= tol)%R.

(** the index list [idx] is a greedy separated cover of the n rows *)
Record separated_cover (x : rmat) (tol : R) (idx : list nat) : Prop := {
  sc_first : exists rest, idx = 0 :: rest;
  sc_increasing : StronglySorted lt idx;
  sc_in_range : forall i, In i idx -> i < nr x;
  sc_separated : forall p q, p < q -> q < List.length idx ->
      ~ rows_within x tol (nth p idx 0) (nth q idx 0);
  sc_cover : forall k, k < nr x ->
      exists i, In i idx /\ i <= k /\ (i = k \/ rows_within x tol i k)
}.

(** lexicographic order of rows i and k of x, column 0 first *)
Definition row_lex_le (x : rmat) (i k : nat) : Prop :=
  (forall l, l < nc x -> ent x i l = ent x k l) \/
  (exists l, l < nc x /\ (forall l', l' < l -> ent x i l' = ent x k l') /\ (ent x i l < ent x k l)%R).

(** y consists of the rows idx of x *)
Definition rows_of (x y : rmat) (idx : list nat) : Prop :=
  nr y = List.length idx /\ nc y = nc x /\
  forall p j, p < List.length idx -> j < nc x -> ent y p j = ent x (nth p idx 0) j.

(** P is the orthogonal projector onto the column space of A *)
Record orth_projector_onto (A P : cmat) : Prop := {
  op_shape : nr P = nr A /\ nc P = nr A;
  op_idem : P *m P ==m P;
  op_herm : mher P ==m P;
  op_fix : P *m A ==m A;
  (* every P v is a combination of the columns of A *)
  op_range : exists X, nr X = nc A /\ nc X = nr A /\ P ==m A *m X
}.

(** spherical coordinates (r, az, el) of the point (x, y, z) *)
Definition spherical_of (x y z r az el : R) : Prop :=
  (x = r * cos el * cos az /\ y = r * cos el * sin az /\ z = r * sin el /\
   0 <= r /\ - PI < az <= PI /\ - (PI / 2) <= el <= PI / 2)%R.

(** closed valid range of an angle unit *)
Definition valid_angle (u : string) (x : R) : Prop :=
  (u = "rad"%string /\ (- (PI / 2) <= x <= PI / 2)%R) \/
  (u = "deg"%string /\ (-90 <= x <= 90)%R) \/
  (u = "sin"%string /\ (-1 <= x <= 1)%R).
Definition known_unit (u : string) : Prop :=
  u = "rad"%string \/ u = "deg"%string \/ u = "sin"%string.
(** the conversion of one unit to another goes through radians *)
Definition to_rad (u : string) (x : R) : R :=
  (if String.eqb u "rad" then x else if String.eqb u "deg" then x * (PI / 180) else asin x)%R.
Definition of_rad (u : string) (x : R) : R :=
  (if String.eqb u "rad" then x else if String.eqb u "deg" then x * (180 / PI) else sin x)%R.
