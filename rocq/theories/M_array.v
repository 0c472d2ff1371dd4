(** Model of doatools/model/array_elements.py, perturbations.py and the class ArrayDesign of arrays.py *)
From Verif Require Import Base_Np Base_Trig M_utils M_sources.
Open Scope nat_scope.

(** *** Array elements *)

(** A spatial response: a matrix (scalar outputs) or a tensor given by its L slices.
    Ranges are [option R], None being infinity. *)
Inductive resp := RMat (Sm : cmat) | RTen (Ss : list cmat).
Record element := Element {
  el_output_size : nat;
  el_isotropic : bool;
  el_polarized : bool;
  (* array_elements.py:79-85 _calc_spatial_response; the polarization argument is always None in steering_matrix *)
  el_response : mat (option R) -> rmat -> rmat -> res resp
}.
(** array_elements.py:17-20 *)
Definition is_scalar (e : element) : bool := Nat.eqb (el_output_size e) 1.
(** array_elements.py:87-109 IsotropicScalarSensor (array inputs) *)
Definition ISOTROPIC_SCALAR_SENSOR : element :=
  Element 1 true false (fun r _ _ => Ok (RMat (Mat (nr r) (nc r) (fun _ _ => RtoC 1)))).
(** array_elements.py:111-145 CustomNonisotropicSensor *)
Definition CustomNonisotropicSensor f_sr (output_size : nat) (polarized : bool) : element :=
  Element output_size false polarized f_sr.

(** array_elements.py:60-77 calc_spatial_response, input validation.  Shapes are those of np.shape; [pol] is
    the shape of the polarization array, if given; polarization.shape[-1] of a 0-d array raises IndexError.
    The result tells what the implementation is called with. *)
Definition calc_spatial_response_check (is_polarized : bool) (r az el : list nat) (pol : option (list nat))
    : res unit :=
  let shape_eqb := fun a b => if list_eq_dec Nat.eq_dec a b then true else false in
  raise_if (negb (shape_eqb az r) || negb (shape_eqb el r)) as ValueError ;;
  match pol with
  | None => Ok tt
  | Some p =>
      raise_if (negb is_polarized) as ValueError ;;
      raise_if (Nat.eqb (List.length p) 0) as IndexError ;;
      raise_if (negb (shape_eqb (r ++ [last p 0]) p)) as ValueError ;;
      Ok tt
  end.
(** array_elements.py:60-77: validation followed by the implementation on the unchanged inputs *)
Definition calc_spatial_response {A} (is_polarized : bool) (impl : ndarr R -> ndarr R -> ndarr R -> option (ndarr R) -> res A)
    (r az el : ndarr R) (pol : option (ndarr R)) : res A :=
  let! _ := calc_spatial_response_check is_polarized (nd_shape r) (nd_shape az) (nd_shape el)
              (option_map nd_shape pol) in
  impl r az el pol.

(** *** dtype-tagged location arrays *)
Inductive dtype := DInt | DFloat.
Record larr := LArr { la_dt : dtype; la_m : rmat }.

(** *** Perturbations *)

(** One constructor per class of perturbations.py; gain and phase errors are real vectors, a coupling keeps
    the shape it was given.  [BasePert] is a direct instance of ArrayPerturbation. *)
Inductive pert :=
  | LocErr (e : larr) (known : bool)
  | GainErr (g : list R) (known : bool)
  | PhaseErr (phi : list R) (known : bool)
  | Coupling (P : ndarr C) (known : bool)
  | BasePert (known : bool).
Inductive pclass := CLoc | CGain | CPhase | CCoup | CBase.
Definition pclass_eqb (a b : pclass) : bool :=
  match a, b with
  | CLoc, CLoc | CGain, CGain | CPhase, CPhase | CCoup, CCoup | CBase, CBase => true
  | _, _ => false
  end.
(** p.__class__ *)
Definition class_of (p : pert) : pclass :=
  match p with LocErr _ _ => CLoc | GainErr _ _ => CGain | PhaseErr _ _ => CPhase
             | Coupling _ _ => CCoup | BasePert _ => CBase end.
(** perturbations.py:27-30 is_known *)
Definition is_known (p : pert) : bool :=
  match p with LocErr _ k | GainErr _ k | PhaseErr _ k | Coupling _ k | BasePert k => k end.

(** perturbations.py:135-142; the dtype is carried along *)
Definition mk_LocationErrors (dt : dtype) (a : arglike R) (known : bool) : res pert :=
  let x := arg_arr a in
  raise_if (negb (Nat.eqb (nd_ndim x) 2)) as ValueError ;;
  raise_if (Nat.ltb (nth 1 (nd_shape x) 0) 1 || Nat.ltb 3 (nth 1 (nd_shape x) 0)) as ValueError ;;
  Ok (LocErr (LArr dt (nd_mat 0%R x)) known).
(** perturbations.py:177-182: the converted array is bound to a misspelt name, so a list argument
    reaches the attribute access [.ndim] *)
Definition mk_GainErrors (a : arglike R) (known : bool) : res pert :=
  raise_if (negb (is_ndarray a)) as AttributeError ;;
  raise_if (negb (Nat.eqb (nd_ndim (arg_arr a)) 1)) as ValueError ;;
  Ok (GainErr (nd_data (arg_arr a)) known).
(** perturbations.py:233-238, same slip *)
Definition mk_PhaseErrors (a : arglike R) (known : bool) : res pert :=
  raise_if (negb (is_ndarray a)) as AttributeError ;;
  raise_if (negb (Nat.eqb (nd_ndim (arg_arr a)) 1)) as ValueError ;;
  Ok (PhaseErr (nd_data (arg_arr a)) known).
(** perturbations.py:290-295: [ndim != 2 and shape[0] != shape[1]]; tuple indexing may raise IndexError *)
Definition mk_MutualCoupling (a : arglike C) (known : bool) : res pert :=
  let x := arg_arr a in
  if negb (Nat.eqb (nd_ndim x) 2)
  then match nd_shape x with
       | d0 :: d1 :: _ => if negb (Nat.eqb d0 d1) then Raise ValueError else Ok (Coupling x known)
       | _ => Raise IndexError
       end
  else Ok (Coupling x known).

(** *** ArrayDesign *)
Record array := Array {
  ar_loc : larr;
  ar_name : string;
  ar_elem : element;
  ar_perts : list (pclass * pert)      (* the dictionary _perturbations *)
}.
(** arrays.py:96-99 size, 146-159 ndim *)
Definition ar_size (a : array) : nat := nr (la_m (ar_loc a)).
Definition ar_ndim (a : array) : nat := nc (la_m (ar_loc a)).
(** arrays.py:101-108 output_size *)
Definition output_size (a : array) : nat := ar_size a.
(** arrays.py:178-182 perturbations *)
Definition perturbations (a : array) : list pert := dvals (ar_perts a).
(** arrays.py:141-144 *)
Definition is_perturbed (a : array) : bool := Nat.ltb 0 (List.length (ar_perts a)).

(** perturbations.py:32-44, 144-149, 184-191, 240-247, 297-304 is_applicable_to: the first component of the
    returned tuple.  The base class returns a bare bool, whose unpacking raises TypeError.
    self._params.shape[0] of a coupling exists by construction. *)
Definition is_applicable_to (p : pert) (a : array) : res bool :=
  match p with
  | LocErr e _ => Ok (Nat.eqb (ar_size a) (nr (la_m e)))
  | GainErr g _ => Ok (is_scalar (ar_elem a) && Nat.eqb (ar_size a) (List.length g))
  | PhaseErr f _ => Ok (is_scalar (ar_elem a) && Nat.eqb (ar_size a) (List.length f))
  | Coupling P _ => Ok (is_scalar (ar_elem a) && Nat.eqb (ar_size a) (nth 0 (nd_shape P) 0))
  | BasePert _ => Raise TypeError
  end.

Definition set_perts (a : array) d := Array (ar_loc a) (ar_name a) (ar_elem a) d.
(** arrays.py:184-204 _add_perturbation_from_list *)
Fixpoint add_perturbation_from_list (a : array) (ps : list pert) (raise_on_override : bool) : res array :=
  match ps with
  | [] => Ok a
  | p :: ps' =>
      let! applicable := is_applicable_to p a in
      raise_if (negb applicable) as RuntimeError ;;
      raise_if (dmem pclass_eqb (ar_perts a) (class_of p) && raise_on_override) as RuntimeError ;;
      add_perturbation_from_list (set_perts a (dset pclass_eqb (ar_perts a) (class_of p) p)) ps' raise_on_override
  end.

(** The [perturbations] argument: a list of objects, or a dictionary of (parameters, known) *)
Inductive pertarg :=
  | PList (l : list pert)
  | PDict (d : list (string * (dtype * arglike C * bool))).
Definition re_arg (a : arglike C) : arglike R :=
  match a with PyList x => PyList (Nd (nd_shape x) (map Re (nd_data x)))
             | NdArray x => NdArray (Nd (nd_shape x) (map Re (nd_data x))) end.
(** arrays.py:206-215 _parse_input_perturbations; real parameters are passed as complex numbers here *)
Definition parse_one (kv : string * (dtype * arglike C * bool)) : res pert :=
  let '(k, (dt, v, known)) := kv in
  if String.eqb k "location_errors" then mk_LocationErrors dt (re_arg v) known
  else if String.eqb k "gain_errors" then mk_GainErrors (re_arg v) known
  else if String.eqb k "phase_errors" then mk_PhaseErrors (re_arg v) known
  else if String.eqb k "mutual_coupling" then mk_MutualCoupling v known
  else Raise KeyError.
Definition parse_input_perturbations (p : pertarg) : res (list pert) :=
  match p with PList l => Ok l | PDict d => mapM parse_one d end.

(** arrays.py:74-89 __init__.  The location argument is an ndarray or list of any dimension. *)
Definition mk_ArrayDesign (dt : dtype) (locations : ndarr R) (name : string) (ps : pertarg) (el : element) : res array :=
  let! m := match nd_shape locations with
            | [] => Raise IndexError
            | [n] => Ok (Mat n 1 (fun i _ => nth i (nd_data locations) 0%R))
            | [n; d] => raise_if (Nat.ltb 3 d) as ValueError ;; Ok (nd_mat 0%R locations)
            | _ => Raise ValueError
            end in
  let! l := parse_input_perturbations ps in
  add_perturbation_from_list (Array (LArr dt m) name el []) l true.

(** arrays.py:258-276 *)
Definition get_perturbation_free_copy (a : array) (new_name : option string) : array :=
  Array (ar_loc a) (match new_name with None => ar_name a | Some n => n end) (ar_elem a) [].
(** arrays.py:217-256 *)
Definition get_perturbed_copy (a : array) (ps : pertarg) (new_name : option string) : res array :=
  let array := get_perturbation_free_copy a new_name in
  let! new_perturbations := parse_input_perturbations ps in
  add_perturbation_from_list (set_perts array (ar_perts a)) new_perturbations false.

(** arrays.py:166-172 has_perturbation, is_perturbation_known (class keys) *)
Definition has_perturbation (a : array) (c : pclass) : bool := dmem pclass_eqb (ar_perts a) c.
Definition is_perturbation_known (a : array) (c : pclass) : res bool :=
  match dget pclass_eqb (ar_perts a) c with Some p => Ok (is_known p) | None => Raise KeyError end.

(** *** Sensor locations *)
(** numpy in-place addition of [b] into the leading columns of a copy of [a]: adding floats into an integer
    array raises (UFuncTypeError, a TypeError) *)
Definition iadd_leading (a b : larr) : res larr :=
  raise_if (match la_dt a, la_dt b with DInt, DFloat => true | _, _ => false end) as TypeError ;;
  raise_if (negb (Nat.eqb (nr (la_m a)) (nr (la_m b)))) as ValueError ;;
  Ok (LArr (la_dt a)
        (Mat (nr (la_m a)) (nc (la_m a))
           (fun i j => if Nat.ltb j (nc (la_m b)) then (ent (la_m a) i j + ent (la_m b) i j)%R else ent (la_m a) i j))).
(** perturbations.py:46-60 and 151-165 perturb_sensor_locations *)
Definition perturb_sensor_locations (p : pert) (locations : larr) : res larr :=
  match p with
  | LocErr e _ =>
      if Nat.leb (nc (la_m e)) (nc (la_m locations))
      then iadd_leading locations e
      else iadd_leading e locations
  | _ => Ok locations
  end.
Fixpoint perturb_locations (ps : list pert) (l : larr) : res larr :=
  match ps with
  | [] => Ok l
  | p :: ps' => let! l' := perturb_sensor_locations p l in perturb_locations ps' l'
  end.
(** arrays.py:120-134 actual_element_locations *)
Definition actual_element_locations (a : array) : res larr := perturb_locations (perturbations a) (ar_loc a).

(** *** Steering matrix *)
(** M x K matrix or L x M x K tensor (list of L slices) *)
Inductive steer := Flat (A : cmat) | Stack (As : list cmat).
Definition steer_mapM (f : cmat -> res cmat) (s : steer) : res steer :=
  match s with
  | Flat A => let! B := f A in Ok (Flat B)
  | Stack As => let! Bs := mapM f As in Ok (Stack Bs)
  end.
(** broadcasting a length-m column over an M x K matrix *)
Definition scale_rows (m : nat) (g : nat -> C) (A : cmat) : res cmat :=
  if Nat.eqb m (nr A) || Nat.eqb m 1 || Nat.eqb (nr A) 1
  then Ok (Mat (if Nat.eqb m 1 then nr A else m) (nc A)
             (fun i j => (g (if Nat.eqb m 1 then 0 else i) * ent A (if Nat.eqb (nr A) 1 then 0 else i) j)%C))
  else Raise ValueError.
(** perturbations.py:62-124, 193-222, 249-280, 306-333 perturb_steering_matrix, on one matrix.
    Couplings that are not 2-D (accepted by the constructor when their first two dimensions agree) are not modelled. *)
Definition perturb_one (p : pert) (A : cmat) : res cmat :=
  match p with
  | GainErr g _ => scale_rows (List.length g) (fun i => RtoC (1 + nth i g 0)%R) A
  | PhaseErr f _ => scale_rows (List.length f) (fun i => cis (nth i f 0)%R) A
  | Coupling P _ =>
      raise_if (negb (Nat.eqb (nd_ndim P) 2)) as NotImplementedError ;;
      matmul (nd_mat (RtoC 0) P) A
  | _ => Ok A
  end.
Fixpoint perturb_steering (ps : list pert) (A : steer) (DA : list cmat) : res (steer * list cmat) :=
  match ps with
  | [] => Ok (A, DA)
  | p :: ps' =>
      let! A' := steer_mapM (perturb_one p) A in
      let! DA' := mapM (perturb_one p) DA in
      perturb_steering ps' A' DA'
  end.

(** arrays.py:394-401 *)
Definition select_perturbations (a : array) (sel : string) : res (list pert) :=
  if String.eqb sel "all" then Ok (perturbations a)
  else if String.eqb sel "known" then Ok (filter is_known (perturbations a))
  else if String.eqb sel "none" then Ok []
  else Raise ValueError.

(** S * A with broadcasting of S over the sensors (arrays.py:425-432) *)
Definition bc_mul (Sm A : cmat) : res cmat :=
  if (Nat.eqb (nr Sm) (nr A) || Nat.eqb (nr Sm) 1) && Nat.eqb (nc Sm) (nc A)
  then Ok (Mat (nr A) (nc A) (fun i j => (ent Sm (if Nat.eqb (nr Sm) 1 then 0 else i) j * ent A i j)%C))
  else Raise ValueError.
Definition apply_response (Sr : resp) (A : cmat) : res steer :=
  match Sr with
  | RMat Sm => let! B := bc_mul Sm A in Ok (Flat B)
  | RTen Ss => let! Bs := mapM (fun Sm => bc_mul Sm A) Ss in Ok (Stack Bs)
  end.

(** A.reshape((-1, K)) of an L x M x K tensor: slices stacked on top of each other (C order) *)
Definition flatten_stack (k : nat) (As : list cmat) : cmat :=
  let m := match As with [] => 0 | A :: _ => nr A end in
  Mat (List.length As * m) k (fun i j => ent (nth (Nat.div i m) As (Mat 0 0 (fun _ _ => RtoC 0))) (Nat.modulo i m) j).

(** arrays.py:394-442 steering_matrix: (A, DA) *)
Definition steering_matrix (a : array) (s : sources) (wavelength : R)
    (compute_derivatives : bool) (sel : string) (flatten : bool) : res (steer * list cmat) :=
  let! perturb_list := select_perturbations a sel in
  let require_spatial_response := negb (el_isotropic (ar_elem a)) || negb (is_scalar (ar_elem a)) in
  raise_if (require_spatial_response && compute_derivatives) as RuntimeError ;;
  let! actual := perturb_locations perturb_list (ar_loc a) in
  let! (T, DT) := phase_delay_matrix s (la_m actual) wavelength compute_derivatives in
  let A := mmap cis T in
  let DA := map (fun X => Mat (nr A) (nc A) (fun i j => (ent A i j * (Ci * RtoC (ent X i j)))%C)) DT in
  let! A1 :=
    if require_spatial_response
    then
      let! (r, az, el) :=
        if is_far_field s then calc_spherical_coords s (Mat 1 1 (fun _ _ => 0%R))
        else calc_spherical_coords s (la_m actual) in
      let! Sr := el_response (ar_elem a) r az el in
      apply_response Sr A
    else Ok (Flat A) in
  let! (A2, DA2) := perturb_steering perturb_list A1 DA in
  let A3 := match A2 with
            | Stack As => if flatten then Flat (flatten_stack (src_size s) As) else A2
            | Flat _ => A2
            end in
  Ok (A3, DA2).
