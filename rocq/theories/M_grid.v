(** Model of doatools/estimation/grid.py *)
From Verif Require Import Base_Np Base_Trig M_utils M_sources M_array M_designs.
Open Scope nat_scope.

(** The three grid classes *)
Inductive gclass := G1D | G2D | GNF.
(** Methods of the base class marked @abstractmethod (grid.py:101-109, 191-207) and the methods each class body
    defines (grid.py:209-292, 294-372, 374-433). *)
Definition abstract_methods : list string := ["_create_source_placement"; "create_refined_grid_at"]%string.
Definition defined_methods (c : gclass) : list string :=
  match c with
  | G1D => ["__init__"; "_create_source_placement"; "create_refined_grid_at"]%string
  | G2D => ["__init__"; "_create_source_placement"; "create_refined_grid_at"]%string
  | GNF => ["__init__"; "_create_source_placement"; "create_refined_grids_at"]%string
  end.
(** abc.ABCMeta: an instance can be created only if no abstract method is left *)
Definition instantiate {A} (c : gclass) (init : res A) : res A :=
  raise_if (negb (forallb (fun m => existsb (String.eqb m) (defined_methods c)) abstract_methods)) as TypeError ;;
  init.

(** A search grid.  An axis is an ndarray, one-dimensional except for multi-segment grids. [sg_dt] tells whether the
    axes have an integer dtype. The units of all axes are equal. *)
Record sgrid := SGrid { sg_class : gclass; sg_axes : list (ndarr R); sg_unit : string; sg_dt : dtype }.
Definition ax_len (a : ndarr R) : nat := hd 0 (nd_shape a).
(** grid.py:19-49 SearchGrid.__init__ (the tuple checks concern only subclasses, which pass tuples), ndim, size, shape, and the properties axes, units (80-94) *)
Definition sg_shape (g : sgrid) : list nat := map ax_len (sg_axes g).
Definition sg_ndim (g : sgrid) : nat := List.length (sg_axes g).
Definition sg_size (g : sgrid) : nat := prod_list (sg_shape g).
Definition axis (g : sgrid) (j : nat) : list R := nd_data (nth j (sg_axes g) (vec1 [])).

(** np.linspace(start, stop, n, endpoint=False) *)
Definition linspace_open (start stop : R) (n : Z) : res (list R) :=
  raise_if (n <? 0)%Z as ValueError ;;
  Ok (map (fun i => start + INR i * ((stop - start) / IZR n))%R (seq 0 (Z.to_nat n))).

(** grid.py:254-258 default_ranges *)
Definition default_ranges_1d : list (string * (R * R)) :=
  [ ("rad"%string, ((- PI / 2)%R, (PI / 2)%R)); ("deg"%string, ((- 90)%R, 90%R)); ("sin"%string, ((- 1)%R, 1%R)) ].
Definition or_default {A} (o : option A) (d : res A) : res A := match o with Some a => Ok a | None => d end.
Definition dict_get {V} (d : list (string * V)) (k : string) : res V :=
  match dget String.eqb d k with Some v => Ok v | None => Raise KeyError end.
(** grid.py:250-264, 271 FarField1DSearchGrid with scalar (or omitted) bounds *)
Definition mk_grid1d (start stop : option R) (size : Z) (unit : string) : res sgrid :=
  instantiate G1D (
    let! a := or_default start (let! r := dict_get default_ranges_1d unit in Ok (fst r)) in
    let! b := or_default stop (let! r := dict_get default_ranges_1d unit in Ok (snd r)) in
    let! l := linspace_open a b size in
    Ok (SGrid G1D [vec1 l] unit DFloat)).
(** grid.py:265-271: list bounds.  The column [locations] is n x 1 and [offset] stays 0.
    Sizes are non-negative here. *)
Definition seg_write (dst src : list R) : list R := src ++ skipn (List.length src) dst.
Fixpoint seg_loop (starts stops : list R) (sizes : list nat) (acc : list R) : res (list R) :=
  match starts with
  | [] => Ok acc
  | a :: starts' =>
      match stops, sizes with
      | b :: stops', n :: sizes' =>
          let! l := linspace_open a b (Z.of_nat n) in
          seg_loop starts' stops' sizes' (seg_write acc l)
      | _, _ => Raise IndexError
      end
  end.
Definition mk_grid1d_segments (starts stops : list R) (sizes : list nat) (unit : string) : res sgrid :=
  instantiate G1D (
    let n_points := fold_right Nat.add 0 sizes in
    let! l := seg_loop starts stops sizes (repeat 0%R n_points) in
    Ok (SGrid G1D [Nd [n_points; 1] l] unit DFloat)).
(** grid.py:251-252, 336-337, 405-406: given axes (1-D arrays) *)
Definition mk_grid_axes (c : gclass) (axes : list (list R)) (dt : dtype) (unit : string) : res sgrid :=
  instantiate c (Ok (SGrid c (map vec1 axes) unit dt)).
(** grid.py:339-342 default_ranges *)
Definition default_ranges_2d : list (string * ((R * R) * (R * R))) :=
  [ ("rad"%string, (((- PI)%R, 0%R), (PI, (PI / 2)%R))); ("deg"%string, (((- 180)%R, 0%R), (180%R, 90%R))) ].
(** grid.py:333-351 FarField2DSearchGrid; [size] after the scalar case has been expanded to a pair *)
Definition mk_grid2d (start stop : option (R * R)) (size : Z * Z) (unit : string) : res sgrid :=
  instantiate G2D (
    let! a := or_default start (let! r := dict_get default_ranges_2d unit in Ok (fst r)) in
    let! b := or_default stop (let! r := dict_get default_ranges_2d unit in Ok (snd r)) in
    let! az := linspace_open (fst a) (fst b) (fst size) in
    let! el := linspace_open (snd a) (snd b) (snd size) in
    Ok (SGrid G2D [vec1 az; vec1 el] unit DFloat)).
(** grid.py:403-412 NearField2DSearchGrid *)
Definition mk_gridnf (start stop : R * R) (size : Z * Z) : res sgrid :=
  instantiate GNF (
    let! x := linspace_open (fst start) (fst stop) (fst size) in
    let! y := linspace_open (snd start) (snd stop) (snd size) in
    Ok (SGrid GNF [vec1 x; vec1 y] "m" DFloat)).

(** grid.py:273-274, 353-354, 414-415 _create_source_placement *)
Definition create_source_placement (g : sgrid) : res sources :=
  match sg_class g with
  | G1D => match sg_axes g with a :: _ => mk_FF1 a (sg_unit g) | [] => Raise IndexError end
  | G2D => let! rows := cartesian 0%R (map nd_data (sg_axes g)) in
           mk_FF2 (Nd [List.length rows; sg_ndim g] (List.concat rows)) (sg_unit g)
  | GNF => let! rows := cartesian 0%R (map nd_data (sg_axes g)) in
           mk_NF2 (Nd [List.length rows; sg_ndim g] (List.concat rows))
  end.

(** x[i] with Python index semantics *)
Definition py_get (l : list R) (i : Z) : res R :=
  match norm_index (List.length l) i with Some p => Ok (nth p l 0%R) | None => Raise IndexError end.
(** np.linspace(a, b, n) *)
Definition linspace_z (a b : R) (n : Z) : res (list R) :=
  raise_if (n <? 0)%Z as ValueError ;; Ok (linspace a b (Z.to_nat n)).
(** grid.py:160-167 create_refined_axes_at, one axis *)
Definition refine_axis (l : list R) (c density span : Z) : res (list R) :=
  let i_lb := Z.max 0 (c - span) in
  let i_ub := Z.min (Z.of_nat (List.length l) - 1) (c + span) in
  let! lb := py_get l i_lb in
  let! ub := py_get l i_ub in
  linspace_z lb ub ((i_ub - i_lb) * density + 1).
(** grid.py:111-168 create_refined_axes_at *)
Definition create_refined_axes_at (g : sgrid) (coord : list Z) (density span : Z) : res (list (list R)) :=
  raise_if (density <? 1)%Z as ValueError ;;
  raise_if (span <? 1)%Z as ValueError ;;
  raise_if (negb (Nat.eqb (List.length coord) (sg_ndim g))) as ValueError ;;
  mapM (fun lc => refine_axis (nd_data (fst lc)) (snd lc) density span) (combine (sg_axes g) coord).
(** grid.py:276-292, 356-372 create_refined_grid_at (and 417-433, misnamed in the near-field class); np.linspace gives floats.
    Construction of the refined grid of a (necessarily concrete) grid object does not raise. *)
Definition create_refined_grid_at (g : sgrid) (coord : list Z) (density span : Z) : res sgrid :=
  let! axes := create_refined_axes_at g coord density span in
  Ok (SGrid (sg_class g) (map vec1 axes) (sg_unit g) DFloat).
(** grid.py:170-189 create_refined_grids_at; [coords] are the zipped coordinates; span is 1 by default *)
Definition create_refined_grids_at (g : sgrid) (coords : list (list Z)) (density : Z) : res (list sgrid) :=
  mapM (fun c => create_refined_grid_at g c density 1) coords.
