(** Model of doatools/model/coarray.py, doatools/estimation/coarray.py and the size check of
    doatools/estimation/core.py *)
From Verif Require Import Base_Np Base_Trig M_utils M_sources M_array M_designs.
Open Scope nat_scope.

(** model/coarray.py:5-21 compute_location_differences: (1,m,d) - (m,1,d) broadcast to (m,m,d), reshaped (-1,d) *)
Definition compute_location_differences {T} (sub : T -> T -> T) (loc : mat T) : mat T :=
  let m := nr loc in
  Mat (m * m) (nc loc) (fun r c => sub (ent loc (Nat.modulo r m) c) (ent loc (Nat.div r m) c)).

(** model/coarray.py:23-32 *)
Definition compute_unique_location_differences (loc : rmat) (atol rtol : R) : res rmat :=
  let! (y, _) := unique_rows (compute_location_differences Rminus loc) atol rtol false false in Ok y.

(** model/coarray.py:34-51 state of a WeightFunction1D *)
Record wfun := WFun {
  wf_m : nat;                          (* _m *)
  wf_mv : option nat;                  (* _mv, the cached central ULA size *)
  wf_map : list (Z * list nat);        (* _index_map *)
  wf_diffs : list Z                    (* _differences *)
}.

(** model/coarray.py:171-179: the loop of _build_map *)
Definition build_step (d : list (Z * list nat)) (e : nat * Z) : list (Z * list nat) :=
  match dget Z.eqb d (snd e) with
  | Some l => dset Z.eqb d (snd e) (l ++ [fst e])
  | None => dset Z.eqb d (snd e) [fst e]
  end.
Definition build_map (indices : mat Z) : list (Z * list nat) :=
  let diffs := flatC (compute_location_differences Z.sub indices) in
  fold_left build_step (combine (seq 0 (List.length diffs)) diffs) [].

(** model/coarray.py:46-51 and 180-185 *)
Definition mk_WeightFunction1D (g : gdesign) : res wfun :=
  raise_if (negb (Nat.eqb (ar_ndim (gd_array g)) 1)) as ValueError ;;
  let map_ := build_map (gd_indices g) in
  Ok (WFun (ar_size (gd_array g)) None map_ (sort_by Z.leb (dkeys map_))).

(** model/coarray.py:57-59, 61-67, 69-75, 77-82, 84-95 *)
Definition wf_len (w : wfun) : nat := List.length (wf_map w).
Definition differences (w : wfun) : list Z := wf_diffs w.
Definition indices_of (w : wfun) (d : Z) : list nat :=
  match dget Z.eqb (wf_map w) d with Some l => l | None => [] end.
Definition weight_of (w : wfun) (d : Z) : nat :=
  match dget Z.eqb (wf_map w) d with Some l => List.length l | None => 0 end.
Definition weights (w : wfun) : res (list nat) :=
  mapM (fun x => match dget Z.eqb (wf_map w) x with Some l => Ok (List.length l) | None => Raise KeyError end) (wf_diffs w).

(** model/coarray.py:123-128: the while loop; fuel = number of keys + 1 always suffices (proved) *)
Fixpoint ula_search (d : list (Z * list nat)) (fuel mv : nat) : nat :=
  match fuel with
  | O => mv
  | S f => if dmem Z.eqb d (Z.of_nat mv) then ula_search d f (mv + 1) else mv
  end.
Definition get_central_ula_size (w : wfun) (exclude_negative_part : bool) : Z * wfun :=
  let '(mv, w') :=
    match wf_mv w with
    | Some mv => (mv, w)
    | None => let mv := ula_search (wf_map w) (S (List.length (wf_map w))) 0 in
              (mv, WFun (wf_m w) (Some mv) (wf_map w) (wf_diffs w))
    end in
  (if exclude_negative_part then Z.of_nat mv else (Z.of_nat mv * 2 - 1)%Z, w').

(** model/coarray.py:159-169 get_coarray_selection_matrix: one row per difference in the range;
    np.zeros with a negative size raises ValueError; a column index beyond M^2 raises IndexError *)
Definition get_coarray_selection_matrix (w : wfun) (exclude_negative_part : bool) : res (rmat * wfun) :=
  let '(m_v, w') := get_central_ula_size w true in
  let '(m_ula, diff_range) :=
    if exclude_negative_part then (m_v, zrange 0 m_v)
    else ((2 * m_v - 1)%Z, zrange (- m_v + 1) m_v) in
  raise_if (m_ula <? 0)%Z as ValueError ;;
  raise_if (existsb (fun d => existsb (fun c => Nat.leb (wf_m w' * wf_m w') c) (indices_of w' d)) diff_range) as IndexError ;;
  Ok (Mat (Z.to_nat m_ula) (wf_m w' * wf_m w')
        (fun i c => let diff := nth i diff_range 0%Z in
                    if existsb (Nat.eqb c) (indices_of w' diff) then (1 / INR (weight_of w' diff))%R else 0%R), w').

(** estimation/core.py:8-18 ensure_covariance_size; [ndim] and shape of R *)
Definition ensure_covariance_size (shape : list nat) (m : nat) : res unit :=
  raise_if (negb (Nat.eqb (List.length shape) 2)) as ValueError ;;
  raise_if (negb (Nat.eqb (nth 0 shape 0) m) || negb (Nat.eqb (nth 0 shape 0) m)) as ValueError ;;
  Ok tt.

(** estimation/coarray.py:22-26 *)
Record acm := Acm { acm_array : gdesign; acm_w : wfun }.
Definition mk_acm (g : gdesign) : res acm :=
  raise_if (Nat.ltb 1 (ar_ndim (gd_array g))) as ValueError ;;
  let! w := mk_WeightFunction1D g in Ok (Acm g w).
(** estimation/coarray.py:32-40 *)
Definition acm_input_size (b : acm) : nat := ar_size (gd_array (acm_array b)).
Definition acm_output_size (b : acm) : Z := fst (get_central_ula_size (acm_w b) true).
(** estimation/coarray.py:42-55 get_virtual_ula: d0 is the 1-element vector of the physical array *)
Definition get_virtual_ula (b : acm) (name : option string) : res gdesign :=
  mk_ULA (acm_output_size b) (D0List (gd_d0 (acm_array b)))
    (Some (name_or name ("Virtual ULA of " ++ ar_name (gd_array (acm_array b))))) no_kwargs.

(** np.mean of r[idx] for the column vector r *)
Definition mean_at (r : cmat) (idx : list nat) : res C :=
  raise_if (existsb (fun p => Nat.leb (nr r) p) idx) as IndexError ;;
  Ok (fold_left Cplus (map (fun p => ent r p 0) idx) (RtoC 0) / RtoC (INR (List.length idx)))%C.
(** the virtual observation z (estimation/coarray.py:86-92) *)
Definition virtual_z (w : wfun) (r : cmat) (mc mv : nat) : res (list C) :=
  mapM (fun i => mean_at r (indices_of w (Z.of_nat i - Z.of_nat mv + 1)%Z)) (seq 0 mc).
(** estimation/coarray.py:57-103 transform of a 2-D matrix R (ndim <> 2 is rejected by the size check);
    z[i:i+mv] has mv entries for i < mv since len(z) = 2 mv - 1 *)
Definition transform (b : acm) (R : cmat) (method : string) : res cmat :=
  let! _ := ensure_covariance_size [nr R; nc R] (ar_size (gd_array (acm_array b))) in
  raise_if (negb (String.eqb method "ss" || String.eqb method "da")) as ValueError ;;
  let '(mc, w) := get_central_ula_size (acm_w b) false in
  let mv := Z.to_nat ((mc + 1) / 2)%Z in
  raise_if (mc <? 0)%Z as ValueError ;;
  let! z := virtual_z w (vec (RtoC 0) R) (Z.to_nat mc) mv in
  let zi := fun i r => nth r (firstn mv (skipn i z)) (RtoC 0) in
  let Ra0 := Mat mv mv (fun _ _ => RtoC 0) in
  if String.eqb method "ss" then
    let Ra := fold_left (fun Ra i => Mat mv mv (fun r c => (ent Ra r c + zi i r * Cconj (zi i c))%C)) (seq 0 mv) Ra0 in
    Ok (Mat mv mv (fun r c => (ent Ra r c / RtoC (INR mv))%C))
  else
    Ok (fold_left (fun Ra i => Mat mv mv (fun r c => if Nat.eqb c (mv - (i + 1)) then zi i r else ent Ra r c)) (seq 0 mv) Ra0).
