(** Models of doatools/plotting/plot_array.py and doatools/plotting/plot_spectrum.py.
    matplotlib is modelled by what it is told to do: every call on an Axes object is an event with the axes it acts on.  Rendering is not modelled. *)
From Verif Require Import Base_Np M_utils M_sources M_array M_designs M_grid M_coarray M_core.
Open Scope nat_scope.

(** labels of spectra: strings, or other dictionary keys (integers: len() of them raises TypeError) *)
Inductive plabel := LStr (s : string) | LInt (z : Z).
(** ax.stem(..., label) followed by plt.setp(color) is one DStem.  [DImage]: pixel at row r (from the bottom, origin='lower') and column c shows img r c;
    the image fills [x0, x1] x [y0, y1].  [DYLimFrom0 a]: set_ylim((0, top)) where top is the upper y-limit of the axes a. *)
Inductive draw :=
| DYScaleLog | DLine (x y : list R) (logy : bool) (lab : plabel) (color : string) | DStem (x y : list R) (fmt marker : string) (lab : plabel) (color : string)
| DScatter (cols : list (list R)) (marker : string) (lab : string)
| DImage (rows cols : nat) (img : nat -> nat -> R) (x0 x1 y0 y1 : R) (cmap : string) (lognorm : bool)
| DColorbar | DXLabel (s : string) | DYLabel (s : string) | DZLabel (s : string) | DMarginsX0 | DYLimFrom0 (top_of : nat) | DAspectEqual | DGridOn | DAxisBelow
| DLimits (l : list (R * R)) | DLegend.
Inductive event := EDraw (ax : nat) (d : draw) | ENewAxes (ax : nat) (proj3d : bool) | EShow | EWarn.
(** pyplot: the current axes, the next unused axes, the events so far *)
Record pst := PSt { ps_cur : option nat; ps_next : nat; ps_trace : list event }.
Definition act (A : Type) := pst -> res A * pst.
Definition aret {A} (a : A) : act A := fun st => (Ok a, st).
Definition araise {A} (e : exn) : act A := fun st => (Raise e, st).
Definition abind {A B} (m : act A) (f : A -> act B) : act B := fun st => match m st with (Ok a, st') => f a st' | (Raise e, st') => (Raise e, st') end.
Definition alift {A} (r : res A) : act A := fun st => (r, st).
Definition emit (e : event) : act unit := fun st => (Ok tt, PSt (ps_cur st) (ps_next st) (ps_trace st ++ [e])).
(** a drawing call returns a container: the artist and where it is *)
Definition draws (ax : nat) (d : draw) : act (nat * draw) := fun st => (Ok (ax, d), PSt (ps_cur st) (ps_next st) (ps_trace st ++ [EDraw ax d])).
(** fig.add_subplot: the new axes become the current ones *)
Definition new_axes (proj3d : bool) : act nat := fun st => (Ok (ps_next st), PSt (Some (ps_next st)) (S (ps_next st)) (ps_trace st ++ [ENewAxes (ps_next st) proj3d])).
(** plt.gca(), used by plt.plot, plt.semilogy, plt.ylim *)
Definition gca : act nat := fun st => match ps_cur st with Some a => (Ok a, st) | None => new_axes false st end.
Declare Scope act_scope. Delimit Scope act_scope with act.
Notation "'do!' x := m 'in' k" := (abind m (fun x => k)) (at level 200, x name, m at level 100, k at level 200) : act_scope.
Open Scope act_scope.

(** *** plot_spectrum.py *)
(** x.max(), x.min(); empty arrays raise ValueError *)
Definition amax (l : list R) : res R := match l with [] => Raise ValueError | a :: l' => Ok (fold_left Rmax l' a) end.
Definition amin (l : list R) : res R := match l with [] => Raise ValueError | a :: l' => Ok (fold_left Rmin l' a) end.
(** plot_spectrum.py:5-10 _normalize_by_maximum (finite values) *)
Definition normalize_by_maximum (x : list R) : res (list R) := let! m := amax x in Ok (if Rltb 0 m then map (fun v => v / m)%R x else x).
(** the argument sp; elements of collections may be things without a shape *)
Inductive spval := SArr (a : ndarr R) | SOther.
Inductive spinput := InArray (a : ndarr R) | InList (l : list spval) | InTuple (l : list spval) | InDict (d : list (plabel * spval)) | InOther.
Definition shape_eqb (a b : list nat) : bool := if list_eq_dec Nat.eq_dec a b then true else false.
(** plot_spectrum.py:12-31 _build_spectrum_list *)
Fixpoint check_shapes (sh : list nat) (l : list (spval * plabel)) : res (list (ndarr R * plabel)) :=
  match l with
  | [] => Ok []
  | (SOther, _) :: _ => Raise AttributeError
  | (SArr a, lab) :: l' => raise_if (negb (shape_eqb (nd_shape a) sh)) as ValueError ;; let! r := check_shapes sh l' in Ok ((a, lab) :: r)
  end.
Definition build_spectrum_list (sp : spinput) (g : sgrid) : res (list (ndarr R * plabel)) :=
  let! sp_list :=
    match sp with
    | InArray a => Ok [(SArr a, LStr "")]
    | InList l => Ok (map (fun s => (s, LStr "")) l)
    | InTuple l => Ok (map (fun s => (s, LStr "")) l)
    | InDict d => Ok (map (fun kv => (snd kv, fst kv)) d)
    | InOther => Raise ValueError
    end in
  raise_if (Nat.eqb (List.length sp_list) 0) as ValueError ;;
  check_shapes (sg_shape g) sp_list.
(** grid.py: units and axis_names of the grid classes *)
Definition sg_units (g : sgrid) : list string := match sg_class g with G1D => [sg_unit g] | G2D => [sg_unit g; sg_unit g] | GNF => ["m"; "m"]%string end.
Definition sg_axis_names (g : sgrid) : list string := match sg_class g with G1D => ["DOA"]%string | G2D => ["Azimuth"; "Elevation"]%string | GNF => ["x"; "y"]%string end.
Definition units_eqb (a b : list string) : bool := if list_eq_dec string_dec a b then true else false.
Definition nth_res {A} (l : list A) (n : nat) : res A := match nth_error l n with Some a => Ok a | None => Raise IndexError end.
Definition color_cycle : list string := ["C0"; "C1"; "C4"; "C5"; "C6"; "C7"; "C8"; "C9"]%string.
Definition label_len (l : plabel) : res nat := match l with LStr s => Ok (String.length s) | LInt _ => Raise TypeError end.
(** plot_spectrum.py:83-97: the loop over the spectra; returns the containers and whether a label was found *)
Fixpoint draw_spectra (ax : nat) (x : list R) (log discrete : bool) (i : nat) (l : list (ndarr R * plabel)) : act (list (nat * draw) * bool) :=
  match l with
  | [] => aret ([], false)
  | (s, lab) :: l' =>
      let color := nth (Nat.modulo i (List.length color_cycle)) color_cycle ""%string in
      do! y := alift (normalize_by_maximum (nd_data s)) in
      do! n := alift (label_len lab) in
      do! c := (if discrete then draws ax (DStem x y "-" " " lab color)
                else do! a := gca in draws a (DLine x y log lab color)) in
      do! rest := draw_spectra ax x log discrete (S i) l' in
      aret (c :: fst rest, Nat.ltb 0 n || snd rest)
  end.
(** plot_spectrum.py:99-119: estimates and ground truth; [s] is a 1-D placement when the units match those of a 1-D grid *)
Definition draw_sources1 (g : sgrid) (ax : nat) (s : option sources) (marker lab color : string) : act (list (nat * draw)) :=
  match s with
  | None => aret []
  | Some s =>
      if negb (units_eqb (src_units s) (sg_units g)) then araise ValueError
      else let xs := map (fun row => nth 0 row 0%R) (src_rows s) in
           do! c := draws ax (DStem xs (map (fun _ => 1%R) xs) "--" marker (LStr lab) color) in aret [c]
  end.
Definition is_some {A} (o : option A) : bool := match o with Some _ => true | None => false end.
(** plot_spectrum.py:33-130 plot_spectrum_1d *)
Definition plot_spectrum_1d (sp : spinput) (g : sgrid) (ax : nat) (estimates ground_truth : option sources) (log discrete : bool) : act (list (nat * draw)) :=
  do! sp_list := alift (build_spectrum_list sp g) in
  do! x := alift (let! a := nth_res (sg_axes g) 0 in Ok (nd_data a)) in
  do! _ := (if discrete && log then emit (EDraw ax DYScaleLog) else aret tt) in
  do! r := draw_spectra ax x log discrete 0 sp_list in
  do! ce := draw_sources1 g ax estimates "x" "Estimates" "C3" in
  do! ct := draw_sources1 g ax ground_truth "o" "Ground truth" "C2" in
  do! nm := alift (nth_res (sg_axis_names g) 0) in
  do! un := alift (nth_res (sg_units g) 0) in
  do! _ := emit (EDraw ax (DXLabel (nm ++ "/" ++ un))) in
  do! _ := emit (EDraw ax DMarginsX0) in
  do! _ := (if log then aret tt else do! a := gca in emit (EDraw ax (DYLimFrom0 a))) in
  do! _ := emit (EDraw ax (DYLabel "Normalized spectrum")) in
  do! _ := (if snd r || is_some estimates || is_some ground_truth then emit (EDraw ax DLegend) else aret tt) in
  aret (fst r ++ ce ++ ct).

(** plot_spectrum.py:132-209 plot_spectrum_2d; [sp] has an attribute shape only if it is an array *)
Definition draw_sources2 (g : sgrid) (ax : nat) (s : option sources) (ix iy : nat) (marker lab : string) : act (list (nat * draw)) :=
  match s with
  | None => aret []
  | Some s =>
      if negb (units_eqb (src_units s) (sg_units g)) then araise ValueError
      else do! c := draws ax (DScatter [map (fun row => nth ix row 0%R) (src_rows s); map (fun row => nth iy row 0%R) (src_rows s)] marker lab) in aret [c]
  end.
Definition plot_spectrum_2d (sp : spinput) (g : sgrid) (ax : nat) (estimates ground_truth : option sources) (log swap : bool) (cmap : string) : act (list (nat * draw)) :=
  match sp with
  | InArray a =>
      if negb (shape_eqb (nd_shape a) (sg_shape g)) then araise ValueError
      else
        let ix := if swap then 1 else 0 in let iy := if swap then 0 else 1 in
        let m := nd_mat 0%R a in
        let img := if swap then m else mtr m in
        do! x := alift (let! v := nth_res (sg_axes g) ix in Ok (nd_data v)) in
        do! y := alift (let! v := nth_res (sg_axes g) iy in Ok (nd_data v)) in
        do! nx := alift (nth_res (sg_axis_names g) ix) in do! ux := alift (nth_res (sg_units g) ix) in
        do! ny := alift (nth_res (sg_axis_names g) iy) in do! uy := alift (nth_res (sg_units g) iy) in
        do! x0 := alift (amin x) in do! x1 := alift (amax x) in do! y0 := alift (amin y) in do! y1 := alift (amax y) in
        do! c := draws ax (DImage (nr img) (nc img) (ent img) x0 x1 y0 y1 cmap log) in
        do! _ := emit (EDraw ax DColorbar) in
        do! _ := emit (EDraw ax (DXLabel (nx ++ "/" ++ ux))) in
        do! _ := emit (EDraw ax (DYLabel (ny ++ "/" ++ uy))) in
        do! ce := draw_sources2 g ax estimates ix iy "o" "Estimates" in
        do! ct := draw_sources2 g ax ground_truth ix iy "+" "Ground truth" in
        do! _ := (if is_some estimates || is_some ground_truth then emit (EDraw ax DLegend) else aret tt) in
        aret (c :: ce ++ ct)
  | _ => araise AttributeError
  end.

(** plot_spectrum.py:211-262 plot_spectrum; keyword arguments the selected function does not know raise TypeError *)
Record pkw := Pkw { k_discrete : option bool; k_swap : option bool; k_cmap : option string }.
Definition or_else {A} (o : option A) (d : A) : A := match o with Some a => a | None => d end.
Definition plot_spectrum (sp : spinput) (g : sgrid) (ax : option nat) (estimates ground_truth : option sources) (log : bool) (kw : pkw) : act (nat * list (nat * draw)) :=
  do! a := (match ax with None => new_axes false | Some a => aret a end) in
  do! ret := (if Nat.eqb (sg_ndim g) 1
              then if is_some (k_swap kw) || is_some (k_cmap kw) then araise TypeError
                   else plot_spectrum_1d sp g a estimates ground_truth log (or_else (k_discrete kw) false)
              else if Nat.eqb (sg_ndim g) 2
              then if is_some (k_discrete kw) then araise TypeError
                   else plot_spectrum_2d sp g a estimates ground_truth log (or_else (k_swap kw) false) (or_else (k_cmap kw) "jet"%string)
              else araise NotImplementedError) in
  do! _ := (match ax with None => emit EShow | Some _ => aret tt end) in
  aret (a, ret).

(** *** plot_array.py *)
(** the keys of the dictionary of perturbations are classes; [has_perturbation] can be asked for anything *)
Inductive pkey := KClass (c : pclass) | KStr (s : string).
Definition pkey_eqb (a b : pkey) : bool := match a, b with KClass c, KClass d => pclass_eqb c d | KStr s, KStr t => String.eqb s t | _, _ => false end.
(** arrays.py:166-168 *)
Definition has_perturbation_key (a : array) (k : pkey) : bool := dmem pkey_eqb (map (fun kv => (KClass (fst kv), snd kv)) (ar_perts a)) k.
(** plot_array.py:7-20 _auto_scatter *)
Definition colR (m : rmat) (j : nat) : list R := map (fun i => ent m i j) (seq 0 (nr m)).
Definition auto_scatter (ax : nat) (x : rmat) (marker lab : string) : act unit :=
  match nc x with
  | 1 => emit (EDraw ax (DScatter [colR x 0; map (fun _ => 0%R) (seq 0 (nr x))] marker lab))
  | 2 => emit (EDraw ax (DScatter [colR x 0; colR x 1] marker lab))
  | 3 => emit (EDraw ax (DScatter [colR x 0; colR x 1; colR x 2] marker lab))
  | _ => araise ValueError
  end.
(** plot_array.py:22-40 _fix_3d_aspect: the limits passed to auto_scale_xyz, from the three current limits; None: it returns early *)
Definition fix_3d_limits (limits : list (R * R)) : option (list (R * R)) :=
  let ranges := map (fun l => Rabs (snd l - fst l)) limits in
  match ranges with
  | [] => None
  | r0 :: rs =>
      let max_range := fold_left Rmax rs r0 in
      if Req_EM_T max_range 0 then None
      else Some (map (fun l => let r := Rabs (snd l - fst l) in
                               if Req_EM_T r 0 then (- max_range / 2, max_range / 2)%R else (fst l * max_range / r, snd l * max_range / r)%R) limits)
  end.
(** plot_array.py:42-87 _plot_array_impl; [lims ax] are the limits matplotlib has chosen for the axes after the scatter plots *)
Definition plot_array_impl (lims : pst -> nat -> list (R * R)) (a : array) (ax : option nat) (coarray show_location_errors : bool) : act nat :=
  do! show := (if negb (has_perturbation_key a (KStr "location_errors")) && show_location_errors
               then do! _ := emit EWarn in aret false else aret show_location_errors) in
  do! dim := (if show then alift (let! l := actual_element_locations a in Ok (nc (la_m l))) else aret (ar_ndim a)) in
  do! axn := (match ax with None => new_axes (Nat.eqb dim 3) | Some n => aret n end) in
  do! loc := alift (if coarray then compute_unique_location_differences (la_m (ar_loc a)) 0 (1 / 100000000) else Ok (la_m (ar_loc a))) in
  do! _ := auto_scatter axn loc "o" "Nominal locations" in
  do! _ := (if show
            then do! l := alift (actual_element_locations a) in
                 do! loc := alift (if coarray then compute_unique_location_differences (la_m l) 0 (1 / 100000000) else Ok (la_m l)) in
                 auto_scatter axn loc "x" "Actual locations"
            else aret tt) in
  do! _ := emit (EDraw axn (DXLabel "x")) in
  do! _ := emit (EDraw axn (DYLabel "y")) in
  do! _ := (if Nat.ltb dim 3
            then do! _ := emit (EDraw axn DAspectEqual) in do! _ := emit (EDraw axn DGridOn) in emit (EDraw axn DAxisBelow)
            else do! _ := emit (EDraw axn (DZLabel "z")) in
                 fun st => match fix_3d_limits (lims st axn) with None => (Ok tt, st) | Some l => emit (EDraw axn (DLimits l)) st end) in
  do! _ := emit (EDraw axn DLegend) in
  do! _ := (match ax with None => emit EShow | Some _ => aret tt end) in
  aret axn.
(** plot_array.py:89-117 *)
Definition plot_array lims a ax show_location_errors := plot_array_impl lims a ax false show_location_errors.
Definition plot_coarray lims a ax show_location_errors := plot_array_impl lims a ax true show_location_errors.
