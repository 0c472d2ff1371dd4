(** Vocabulary of the properties about arrays and steering matrices. *)
From Verif Require Import Base_Np Base_Trig S_utils M_sources S_sources M_array.
Open Scope nat_scope.

(** every registered perturbation is stored under its own type, once, and applies to the array *)
Record wf_array (a : array) : Prop := {
  wf_keys : NoDup (dkeys (ar_perts a));
  wf_class : forall c p, In (c, p) (ar_perts a) -> class_of p = c;
  wf_applicable : forall c p, In (c, p) (ar_perts a) -> is_applicable_to p a = Ok true
}.

(** the m x m matrix by which a perturbation multiplies the steering matrix *)
Definition pert_matrix (m : nat) (p : pert) : cmat :=
  match p with
  | GainErr g _ => mdiag m (fun i => RtoC (1 + nth i g 0)%R)
  | PhaseErr f _ => mdiag m (fun i => cis (nth i f 0)%R)
  | Coupling P _ => nd_mat (RtoC 0) P
  | _ => mid m
  end.
(** P_n ... P_2 P_1 A for the perturbations P_1, ..., P_n in registration order *)
Definition perturbed (ps : list pert) (A : cmat) : cmat :=
  fold_left (fun B p => pert_matrix (nr A) p *m B) ps A.

(** [l'] is [l] moved by the location errors among [ps], on the leading axes *)
Fixpoint loc_offset (ps : list pert) (i c : nat) : R :=
  match ps with
  | [] => 0%R
  | LocErr e _ :: ps' => (coord (la_m e) i c + loc_offset ps' i c)%R
  | _ :: ps' => loc_offset ps' i c
  end.
Record moved (ps : list pert) (l l' : rmat) : Prop := {
  mv_rows : nr l' = nr l;
  mv_cols : nc l' = fold_left Nat.max (map (fun p => match p with LocErr e _ => nc (la_m e) | _ => 0 end) ps) (nc l);
  mv_coord : forall i c, i < nr l -> coord l' i c = (coord l i c + loc_offset ps i c)%R
}.
(** e^{j phase} for the sensor locations L *)
Definition response (s : sources) (lam : R) (L : rmat) : cmat :=
  Mat (nr L) (src_size s) (fun i k => cis (source_phase s lam L i k)).
(** scalar isotropic elements *)
Definition scalar_isotropic (a : array) : Prop := el_isotropic (ar_elem a) = true /\ el_output_size (ar_elem a) = 1.

(** the last perturbation of a given type in a list *)
Definition last_of (ps : list pert) (c : pclass) : option pert := find (fun p => pclass_eqb (class_of p) c) (rev ps).
(** no direct instance of the abstract class ArrayPerturbation *)
Definition no_base (ps : list pert) : Prop := forall k, ~ In (BasePert k) ps.
(** [M'] consists of the columns [idx] of [M] *)
Definition cols_of {T} (M M' : mat T) (idx : list nat) : Prop :=
  nr M' = nr M /\ nc M' = List.length idx /\ forall i k, i < nr M -> k < List.length idx -> ent M' i k = ent M i (nth k idx 0).
(** parameters of the right shape (and floating-point location errors) for an array of m sensors *)
Definition proper_pert (m : nat) (p : pert) : Prop :=
  match p with
  | LocErr e _ => nr (la_m e) = m /\ la_dt e = DFloat /\ nc (la_m e) <= 3
  | GainErr g _ => List.length g = m
  | PhaseErr f _ => List.length f = m
  | Coupling P _ => nd_shape P = [m; m]
  | BasePert _ => True
  end.
(** ranges and angles the element response is evaluated at: once for all sensors for far-field sources *)
Definition element_coords (s : sources) (L : rmat) := calc_spherical_coords s (if is_far_field s then Mat 1 1 (fun _ _ => 0%R) else L).
(** the perturbation can be applied: one parameter row per sensor, and scalar sensors unless it moves the sensors *)
Definition fits (p : pert) (a : array) : Prop :=
  match p with
  | LocErr e _ => nr (la_m e) = ar_size a
  | GainErr g _ => el_output_size (ar_elem a) = 1 /\ List.length g = ar_size a
  | PhaseErr f _ => el_output_size (ar_elem a) = 1 /\ List.length f = ar_size a
  | Coupling P _ => el_output_size (ar_elem a) = 1 /\ nth 0 (nd_shape P) 0 = ar_size a
  | BasePert _ => False
  end.
(** an array obtained from [a] by any chain of perturbed and perturbation-free copies *)
Inductive derived (a : array) : array -> Prop :=
  | der_self : derived a a
  | der_free b nm : derived a b -> derived a (get_perturbation_free_copy b nm)
  | der_pert b ps nm c : derived a b -> get_perturbed_copy b ps nm = Ok c -> derived a c.
