(** Models of doatools/estimation/music.py, min_norm.py, beamforming.py and esprit.py *)
From Verif Require Import Base_Np Base_Mem Base_Trig M_utils M_sources M_array M_coarray M_heap M_grid M_core.
Open Scope nat_scope.

(** spectrum values: a real number, or None for +inf (the reciprocal of 0) *)
Definition recip (x : R) : option R := if Req_EM_T x 0 then None else Some (/ x)%R.
(** np.sum(v * v.conj(), axis=0).real *)
Definition col_norms (v : cmat) : list R := map (fun j => Re (csum (nr v) (fun i => (ent v i j * Cconj (ent v i j))%C))) (seq 0 (nc v)).
(** music.py:26-27 f_music *)
Definition f_music (A En : cmat) : res (list (option R)) :=
  let! v := matmul (mher En) A in Ok (map recip (col_norms v)).

(** min_norm.py:75-78: the vector d; None stands for NaN entries (0/0 when the first row of En is zero) *)
Definition min_norm_vector (En : cmat) : res (option (nat -> C)) :=
  raise_if Nat.eqb (nr En) 0 as IndexError ;;
  let c := fun j => ent En 0 j in
  let n2 := rsum (nc En) (fun j => (Cmod (c j) * Cmod (c j))%R) in   (* np.linalg.norm(c, 2)**2 *)
  if Req_EM_T n2 0 then Ok None
  else let w := fun j => (Cconj (c j) / RtoC n2)%C in
       Ok (Some (fun i => Cconj (mvec En w i))).
(** min_norm.py:80 f_sp *)
Definition f_min_norm (m : nat) (d : nat -> C) (A : cmat) : res (list (option R)) :=
  raise_if negb (Nat.eqb (nr A) m) as ValueError ;;
  Ok (map (fun j => recip (abs_squared (csum m (fun i => (d i * ent A i j)%C)))) (seq 0 (nc A))).

(** beamforming.py:17 f_bartlett *)
Definition f_bartlett (A Rm : cmat) : res (list R) :=
  let! B := matmul Rm A in
  raise_if negb (Nat.eqb (nr A) (nr B)) as ValueError ;;
  Ok (map (fun j => Re (csum (nr A) (fun i => (Cconj (ent A i j) * ent B i j)%C))) (seq 0 (nc A))).
(** beamforming.py:32 f_mvdr; [lstsq R A] is the solution matrix of np.linalg.lstsq *)
Definition f_mvdr (lstsq : cmat -> cmat -> res cmat) (A Rm : cmat) : res (list (option R)) :=
  let! X := lstsq Rm A in
  raise_if negb (Nat.eqb (nr A) (nr X)) as ValueError ;;
  Ok (map (fun j => recip (Re (csum (nr A) (fun i => (Cconj (ent A i j) * ent X i j)%C)))) (seq 0 (nc A))).

(** The estimation core only compares spectrum values; an infinite value is represented by a number above all finite ones. *)
Definition embed_inf (l : list (option R)) : list R :=
  let top := fold_right (fun o acc => match o with Some v => Rmax v acc | None => acc end) 0%R l in
  map (fun o => match o with Some v => v | None => (1 + top)%R end) l.

Definition est_result := (res outcome * estimator cmat * lheap)%type.
(** music.py:91-94 MUSIC.estimate; [m] is the array size *)
Definition music_estimate eigh (m : nat) (e : estimator cmat) (h : lheap) (Rm : cmat) (k : Z) (o : options) : est_result :=
  match (let! _ := ensure_covariance_size [nr Rm; nc Rm] m in
         let! _ := ensure_n_resolvable_sources k (Z.of_nat m - 1) in get_noise_subspace eigh Rm k) with
  | Raise x => (Raise x, e, h)
  | Ok En => estimate e h (fun A => let! l := f_music A En in Ok (embed_inf l)) k o
  end.
(** min_norm.py:71-81 MinNorm.estimate; a NaN vector is not followed further (RuntimeError stands for it) *)
Definition min_norm_estimate eigh (m : nat) (e : estimator cmat) (h : lheap) (Rm : cmat) (k : Z) (o : options) : est_result :=
  match (let! _ := ensure_covariance_size [nr Rm; nc Rm] m in
         let! _ := ensure_n_resolvable_sources k (Z.of_nat m - 1) in
         let! En := get_noise_subspace eigh Rm k in let! d := min_norm_vector En in Ok (nr En, d)) with
  | Raise x => (Raise x, e, h)
  | Ok (_, None) => (Raise RuntimeError, e, h)
  | Ok (n, Some d) => estimate e h (fun A => let! l := f_min_norm n d A in Ok (embed_inf l)) k o
  end.
(** beamforming.py:96-97, 160-161 *)
Definition bartlett_estimate (m : nat) (e : estimator cmat) (h : lheap) (Rm : cmat) (k : Z) (o : options) : est_result :=
  match ensure_covariance_size [nr Rm; nc Rm] m with
  | Raise x => (Raise x, e, h)
  | Ok _ => estimate e h (fun A => f_bartlett A Rm) k o
  end.
Definition mvdr_estimate lstsq (m : nat) (e : estimator cmat) (h : lheap) (Rm : cmat) (k : Z) (o : options) : est_result :=
  match ensure_covariance_size [nr Rm; nc Rm] m with
  | Raise x => (Raise x, e, h)
  | Ok _ => estimate e h (fun A => let! l := f_mvdr lstsq A Rm in Ok (embed_inf l)) k o
  end.

(** *** root-MUSIC *)
(** np.sum(np.diag(C, i)), 0 <= i < m *)
Definition diag_sum (Cm : cmat) (i : nat) : C := csum (nr Cm - i) (fun r => ent Cm r (r + i)).
(** music.py:152-156 *)
Definition root_coeffs (Cm : cmat) : list C :=
  let m := nr Cm in
  let coeff := map (fun i => diag_sum Cm i) (seq 1 (m - 1)) in
  rev coeff ++ [diag_sum Cm 0] ++ map Cconj coeff.
(** music.py:171-178: the closest other point that is still in the mask *)
Definition closest (z : list C) (mask : list bool) (i : nat) : option nat :=
  fst (fold_left (fun (best : option nat * option R) j =>
         if negb (Nat.eqb j i) && nth j mask false
         then let cur := Cmod (nth i z (RtoC 0) - nth j z (RtoC 0))%C in
              match snd best with
              | None => (Some j, Some cur)
              | Some d => if Rltb cur d then (Some j, Some cur) else best
              end
         else best) (seq 0 (List.length z)) (None, None)).
(** music.py:163-181: one iteration of the loop *)
Definition mask_step (z : list C) (mask : list bool) (i : nat) : res (list bool) :=
  let absz := Cmod (nth i z (RtoC 0)) in
  if Rltb 1 absz then Ok (set_nth mask i false)
  else if Reqb absz 1 then
    match closest z mask i with
    | None => Raise RuntimeError
    | Some idx => Ok (set_nth mask idx false)
    end
  else Ok mask.
Fixpoint mask_loop (z : list C) (is : list nat) (mask : list bool) : res (list bool) :=
  match is with [] => Ok mask | i :: is' => let! mask' := mask_step z mask i in mask_loop z is' mask' end.
(** z[mask] *)
Definition masked {A} (z : list A) (mask : list bool) : list A := map fst (filter (fun p => snd p) (combine z mask)).
(** music.py:161-187: None for "not resolved"; [argsort] is np.argsort *)
Definition root_select (argsort : list R -> list nat) (z : list C) (k : Z) : res (option (list C)) :=
  let! mask := mask_loop z (seq 0 (List.length z)) (repeat true (List.length z)) in
  let z := masked z mask in
  let sorted_indices := argsort (map (fun w => 1 - Cmod w)%R z) in
  if (Z.of_nat (List.length z) <? k)%Z then Ok None
  else Ok (Some (map (fun i => nth i z (RtoC 0)) (pslice sorted_indices None (Some k)))).
(** music.py:144-188 RootMUSIC1D.estimate; [R] is a 2-D array *)
Definition root_music (eigh : cmat -> res (list R * cmat)) (roots : list C -> res (list C)) (argsort : list R -> list nat) (wavelength : R)
    (Rm : cmat) (k : Z) (d0 : option R) (unit : string)
    : res (bool * option (list (option R) * string)) :=
  raise_if negb (Nat.eqb (nr Rm) (nc Rm)) as ValueError ;;
  let m := nr Rm in
  let! _ := ensure_n_resolvable_sources k (Z.of_nat m - 1) in
  let d0 := match d0 with None => (wavelength / 2)%R | Some d => d end in
  let! En := get_noise_subspace eigh Rm k in
  let! Cm := matmul En (mher En) in
  let! z := roots (root_coeffs Cm) in
  let! s := root_select argsort z k in
  match s with
  | None => Ok (false, None)
  | Some z => let! p := from_z z wavelength d0 unit in Ok (true, Some p)
  end.

(** *** ESPRIT *)
(** esprit.py:14-20 get_default_row_weights *)
Definition get_default_row_weights (m : nat) : list R :=
  let w := fold_left (fun w i => set_nth (set_nth w i (INR (i + 1))) (m - i - 1) (INR (i + 1))) (seq 0 (m / 2)) (repeat 0%R m) in
  let w := if Nat.eqb (m mod 2) 1 then set_nth w (m / 2) ((INR m + 1) / 2)%R else w in
  map sqrt w.
Inductive row_weights := RWStr (s : string) | RWVec (shape : list nat) (l : list R) | RWOther.
(** esprit.py:104-115 *)
Definition check_row_weights (rw : row_weights) (m_reduced : Z) : res (option (list R)) :=
  match rw with
  | RWStr s => if String.eqb s "none" then Ok None
               else if String.eqb s "default" then Ok (Some (get_default_row_weights (Z.to_nat m_reduced)))
               else Raise ValueError
  | RWVec shape l => raise_if negb (Nat.eqb (List.length shape) 1) || negb (Z.of_nat (List.length l) =? m_reduced)%Z as ValueError ;; Ok (Some l)
  | RWOther => Raise ValueError
  end.
(** x[rlo:rhi, clo:chi] as a view, and of a value *)
Definition v_slice (v : view) (rlo rhi clo chi : option Z) : view :=
  let '(a, b) := slice_bounds (v_nr v) rlo rhi in let '(c, d) := slice_bounds (v_nc v) clo chi in v_window v a (b - a) c (d - c).
Definition m_slice (A : cmat) (rlo rhi clo chi : option Z) : cmat :=
  let '(a, b) := slice_bounds (nr A) rlo rhi in let '(c, d) := slice_bounds (nc A) clo chi in Mat (b - a) (d - c) (fun i j => ent A (a + i) (c + j)).
(** v *= w[:, np.newaxis] *)
Definition scale_rows (m : mem) (v : view) (w : list R) : res mem :=
  raise_if negb (Nat.eqb (v_nr v) (List.length w)) as ValueError ;;
  Ok (m_store m v (Mat (v_nr v) (v_nc v) (fun i j => (ent (v_read m v) i j * RtoC (nth i w 0%R))%C))).
(** esprit.py:117-125: the two subarray matrices after the (in-place) row weighting.  Es1 and Es2 are views of E. *)
Definition esprit_subarrays (E : cmat) (k displacement : Z) (w : option (list R)) : res (cmat * cmat) :=
  let (m, vE) := m_alloc (Mem 0 (fun _ _ => RtoC 0)) E in
  let Es := v_slice vE None None (Some (- k)%Z) None in
  let Es1 := v_slice Es None (Some (- displacement)%Z) None None in
  let Es2 := v_slice Es (Some displacement) None None None in
  let! m := match w with
            | None => Ok m
            | Some w => let! m := scale_rows m Es1 w in scale_rows m Es2 w
            end in
  Ok (v_read m Es1, v_read m Es2).
(** np.hstack *)
Definition hcat (A B : cmat) : cmat := Mat (nr A) (nc A + nc B) (fun i j => if Nat.ltb j (nc A) then ent A i j else ent B i (j - nc A)).
Definition fliplr (A : cmat) : cmat := Mat (nr A) (nc A) (fun i j => ent A i (nc A - 1 - j)).
(** esprit.py:127-142: the rotation matrix *)
Definition rotation (eigh : cmat -> res (list R * cmat)) (solve : cmat -> cmat -> res cmat) (formulation : string) (k : Z) (Es1 Es2 : cmat) : res cmat :=
  if String.eqb formulation "tls" then
    let C := hcat Es1 Es2 in
    let! C := matmul (mher C) C in
    let! (_, V) := eigh C in
    let V := fliplr V in
    let V12 := m_slice V None (Some k) (Some k) None in
    let V22 := m_slice V (Some k) None (Some k) None in
    let! X := solve (mtr V22) (mtr V12) in
    Ok (mscal (RtoC (-1)) (mtr X))
  else if String.eqb formulation "ls" then
    let H := mher Es1 in
    let! G := matmul H Es1 in
    let! B := matmul H Es2 in
    solve G B
  else Raise ValueError.
(** esprit.py:97-145 Esprit1D.estimate up to the eigenvalues, and the whole *)
Definition esprit_z eigh solve (eigvals : cmat -> res (list C)) (Rm : cmat) (k displacement : Z) (formulation : string) (rw : row_weights) : res (list C) :=
  let m := Z.of_nat (nr Rm) in
  raise_if (displacement <? 1)%Z as ValueError ;;
  let m_reduced := (m - displacement)%Z in
  let! _ := ensure_n_resolvable_sources k m_reduced in
  let! w := check_row_weights rw m_reduced in
  let! (_, E) := eigh Rm in
  let! (Es1, Es2) := esprit_subarrays E k displacement w in
  let! Phi := rotation eigh solve formulation k Es1 Es2 in
  eigvals Phi.
Definition esprit eigh solve eigvals (wavelength : R) (Rm : cmat) (k : Z) (d0 : option R) (displacement : Z) (formulation : string) (rw : row_weights) (unit : string)
    : res (bool * (list (option R) * string)) :=
  let d0 := match d0 with None => (wavelength / 2)%R | Some d => d end in
  let! z := esprit_z eigh solve eigvals Rm k displacement formulation rw in
  let! p := from_z z wavelength (d0 * IZR displacement) unit in
  Ok (true, p).
