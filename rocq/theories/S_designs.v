(** Vocabulary of the properties about array designs and difference coarrays. *)
From Verif Require Import Base_Np M_array M_designs.
Open Scope nat_scope.

(** the design [g] is one-dimensional, has exactly the grid indices [l] (in this order) and sensor i
    sits at l_i * d *)
Record places_1d (g : gdesign) (l : list Z) (d : R) : Prop := {
  pl_index_shape : nr (gd_indices g) = List.length l /\ nc (gd_indices g) = 1;
  pl_index : forall i, i < List.length l -> ent (gd_indices g) i 0 = nth i l 0%Z;
  pl_size : ar_size (gd_array g) = List.length l;
  pl_ndim : ar_ndim (gd_array g) = 1;
  pl_loc : forall i, i < List.length l ->
     ent (la_m (ar_loc (gd_array g))) i 0 = (IZR (nth i l 0%Z) * d)%R;
  pl_not_nan : gd_nan g = false
}.

Definition strictly_increasing (l : list Z) : Prop :=
  forall i j, i < j -> j < List.length l -> (nth i l 0 < nth j l 0)%Z.

(** [d] is a difference of two sensor positions *)
Definition is_lag (l : list Z) (d : Z) : Prop := exists a b, In a l /\ In b l /\ (a - b)%Z = d.
(** the coarray is exactly -A .. A *)
Definition hole_free (l : list Z) (A : Z) : Prop := forall d, is_lag l d <-> (- A <= d <= A)%Z.
(** [h] is the first non-negative integer that is not a difference *)
Definition first_hole (l : list Z) (h : Z) : Prop :=
  (0 <= h)%Z /\ ~ is_lag l h /\ forall d, (0 <= d < h)%Z -> is_lag l d.
