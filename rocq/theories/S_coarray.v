(** Vocabulary of the properties about difference coarrays. *)
From Verif Require Import Base_Np M_array M_designs S_designs.
Open Scope nat_scope.

(** a one-dimensional grid design whose sensors have the integer positions [l] *)
Record grid_1d (g : gdesign) (l : list Z) : Prop := {
  g1_rows : nr (gd_indices g) = List.length l;
  g1_cols : nc (gd_indices g) = 1;
  g1_index : forall i, i < List.length l -> ent (gd_indices g) i 0 = nth i l 0%Z;
  g1_size : ar_size (gd_array g) = List.length l;
  g1_ndim : ar_ndim (gd_array g) = 1
}.

(** [k] is the position in vec(R) of a sensor pair (i,j) whose index difference is d *)
Definition lag_position (l : list Z) (d : Z) (k : nat) : Prop :=
  exists i j, i < List.length l /\ j < List.length l /\ k = i + j * List.length l /\
              (nth i l 0 - nth j l 0)%Z = d.

(** the sum of the entries of R over the sensor pairs with index difference d, and their number *)
Definition lag_sum (l : list Z) (R : cmat) (d : Z) : C :=
  csum (List.length l) (fun i => csum (List.length l) (fun j =>
    if Z.eqb (nth i l 0 - nth j l 0)%Z d then ent R i j else RtoC 0)).
Definition lag_count (l : list Z) (d : Z) : nat :=
  List.length (filter (fun p => Z.eqb (nth (fst p) l 0 - nth (snd p) l 0)%Z d)
                 (list_prod (seq 0 (List.length l)) (seq 0 (List.length l)))).
(** redundancy averaging *)
Definition lag_mean (l : list Z) (R : cmat) (d : Z) : C := (lag_sum l R d / RtoC (INR (lag_count l d)))%C.
