(** Model of the concrete array designs of doatools/model/arrays.py (lines 444-739) *)
From Coq Require Import Ascii DecimalString.
From Verif Require Import Base_Np Base_Trig M_utils M_sources M_array.
Open Scope nat_scope.

(** Keyword arguments of ArrayDesign.__init__ (arrays.py:74-75) with their defaults *)
Record kwargs := Kw { kw_perturbations : option pertarg; kw_element : option element }.
Definition no_kwargs := Kw None None.
Definition kw_perts (k : kwargs) : pertarg := match kw_perturbations k with None => PList [] | Some p => p end.
Definition kw_elem (k : kwargs) : element := match kw_element k with None => ISOTROPIC_SCALAR_SENSOR | Some e => e end.
(** super().__init__(locations, name, **kwargs) with a 2-D float location matrix *)
Definition init_with_matrix (m : rmat) (name : string) (kw : kwargs) : res array :=
  raise_if (Nat.ltb 3 (nc m)) as ValueError ;;
  let! l := parse_input_perturbations (kw_perts kw) in
  add_perturbation_from_list (Array (LArr DFloat m) name (kw_elem kw) []) l true.

(** The [d0] argument *)
Inductive d0arg := D0None | D0Scalar (d : R) | D0List (l : list R) | D0Nested (* list-like of dimension > 1 *).

(** A grid-based design.  When [gd_nan] is true all locations, bases and spacings are NaN and the real
    entries stored here are placeholders. *)
Record gdesign := GDesign {
  gd_array : array;
  gd_indices : mat Z;
  gd_bases : rmat;
  gd_d0 : list R;
  gd_nan : bool
}.

(** arrays.py:477-502 GridBasedArrayDesign.__init__.
    np.array(None, dtype=float) is a 0-d NaN, which passes the check of lines 484-488 for one-column indices.
    indices @ bases raises ValueError when the inner sizes differ. *)
Definition mk_Grid (indices : mat Z) (d0 : d0arg) (name : string) (bases : option rmat) (kw : kwargs) : res gdesign :=
  let finish (B : rmat) (d0v : list R) (nan : bool) :=
    raise_if (negb (Nat.eqb (nc indices) (nr B))) as ValueError ;;
    let locs := Mat (nr indices) (nc B)
                  (fun i j => rsum (nc indices) (fun l => IZR (ent indices i l) * ent B l j)%R) in
    let! a := init_with_matrix locs name kw in
    Ok (GDesign a indices B d0v nan) in
  match bases with
  | None =>
      let! (v, nan) :=
        match d0 with
        | D0None => Ok ([0%R], true)
        | D0Scalar d => Ok (repeat d (nc indices), false)
        | D0List l => Ok (l, false)
        | D0Nested => Raise ValueError
        end in
      raise_if (Nat.ltb (nc indices) (List.length v)) as ValueError ;;
      finish (Mat (List.length v) (List.length v)
                (fun i j => (if Nat.eqb i j then 1 else 0) * nth j v 0)%R) v nan
  | Some B =>
      raise_if (negb (Nat.eqb (nc indices) (nr B))) as ValueError ;;
      finish B (map (fun i => sqrt (rsum (nc B) (fun j => ent B i j * ent B i j)%R)) (seq 0 (nr B))) false
  end.

(** np.arange(a, b) and x.reshape((-1, 1)) *)
Definition arange (a b : Z) : list Z := zrange a b.
Definition column (l : list Z) : mat Z := Mat (List.length l) 1 (fun i _ => nth i l 0%Z).
(** str(n) *)
Definition strZ (n : Z) : string := NilZero.string_of_int (Z.to_int n).
Definition name_or (o : option string) (d : string) : string := match o with None => d | Some s => s end.

(** arrays.py:548-551 UniformLinearArray *)
Definition ULA_indices (n : Z) : list Z := arange 0 n.
Definition mk_ULA (n : Z) (d0 : d0arg) (name : option string) (kw : kwargs) : res gdesign :=
  mk_Grid (column (ULA_indices n)) d0 (name_or name ("ULA " ++ strZ n)) None kw.

(** arrays.py:569-578 NestedArray *)
Definition nested_indices (n1 n2 : Z) : list Z :=
  (arange 0 n1 ++ map (fun x => x * (n1 + 1) - 1)%Z (arange 1 (n2 + 1)))%list.
Definition mk_Nested (n1 n2 : Z) (d0 : d0arg) (name : option string) (kw : kwargs) : res gdesign :=
  mk_Grid (column (nested_indices n1 n2)) d0
    (name_or name ("Nested (" ++ strZ n1 ++ "," ++ strZ n2 ++ ")")) None kw.

(** str.lower on ASCII *)
Definition lower_ascii (c : ascii) : ascii :=
  let k := nat_of_ascii c in
  if (Nat.leb 65 k && Nat.leb k 90)%bool then ascii_of_nat (k + 32) else c.
Fixpoint lower (s : string) : string :=
  match s with EmptyString => EmptyString | String c s' => String (lower_ascii c) (lower s') end.

(** arrays.py:607-630 CoPrimeArray; [cp_warned] records the warning of line 611 *)
Record coprime := Coprime {
  cp_design : gdesign; cp_pair : Z * Z; cp_mode : string; cp_warned : bool }.
Definition coprime_indices (m n : Z) (mode : string) : res (list Z) :=
  if String.eqb mode "2m" then
    Ok (map (fun k => k * m)%Z (arange 0 n) ++ map (fun k => k * n)%Z (arange 1 (2 * m)))%list
  else if String.eqb mode "m" then
    Ok (map (fun k => k * m)%Z (arange 0 n) ++ map (fun k => k * n)%Z (arange 1 m))%list
  else Raise ValueError.
Definition mk_CoPrime (m n : Z) (d0 : d0arg) (mode : string) (name : option string) (kw : kwargs) : res coprime :=
  let nm := name_or name ("Co-prime (" ++ strZ m ++ "," ++ strZ n ++ ")") in
  let warned := (m >? n)%Z in
  let '(m, n) := if warned then (n, m) else (m, n) in
  raise_if (negb (Z.eqb (Z.gcd m n) 1)) as ValueError ;;
  let mode := lower mode in
  let! indices := coprime_indices m n mode in
  let! g := mk_Grid (column indices) d0 nm None kw in
  Ok (Coprime g (m, n) mode warned).

(** arrays.py:642-663 _MRLA_PRESETS *)
Definition MRLA_PRESETS : list (list Z) := [
  [0];
  [0; 1];
  [0; 1; 3];
  [0; 1; 4; 6];
  [0; 1; 4; 7; 9];
  [0; 1; 6; 9; 11; 13];
  [0; 1; 8; 11; 13; 15; 17];
  [0; 1; 4; 10; 16; 18; 21; 23];
  [0; 1; 4; 10; 16; 22; 24; 27; 29];
  [0; 1; 4; 10; 16; 22; 28; 30; 33; 35];
  [0; 1; 6; 14; 22; 30; 32; 34; 37; 39; 41];
  [0; 1; 6; 14; 22; 30; 38; 40; 42; 45; 47; 49];
  [0; 1; 6; 14; 22; 30; 38; 46; 48; 50; 53; 55; 57];
  [0; 1; 6; 14; 22; 30; 38; 46; 54; 56; 58; 61; 63; 65];
  [0; 1; 6; 14; 22; 30; 38; 46; 54; 62; 64; 66; 69; 71; 73];
  [0; 1; 8; 18; 28; 38; 48; 58; 68; 70; 72; 74; 77; 79; 81; 83];
  [0; 1; 8; 18; 28; 38; 48; 58; 68; 78; 80; 82; 84; 87; 89; 91; 93];
  [0; 1; 8; 18; 28; 38; 48; 58; 68; 78; 88; 90; 92; 94; 97; 99; 101; 103];
  [0; 1; 8; 18; 28; 38; 48; 58; 68; 78; 88; 98; 100; 102; 104; 107; 109; 111; 113];
  [0; 1; 10; 22; 34; 46; 58; 70; 82; 94; 106; 108; 110; 112; 114; 117; 119; 121; 123; 125]
]%Z.
(** arrays.py:682-687 MinimumRedundancyLinearArray; the index n-1 is in range after the check *)
Definition mk_MRLA (n : Z) (d0 : d0arg) (name : option string) (kw : kwargs) : res gdesign :=
  raise_if ((n <? 1) || (n >=? Z.of_nat (List.length MRLA_PRESETS)))%Z as ValueError ;;
  mk_Grid (column (nth (Z.to_nat (n - 1)) MRLA_PRESETS [])) d0 (name_or name ("MRLA " ++ strZ n)) None kw.

(** np.linspace(start, stop, n) for n >= 0 *)
Definition linspace (start stop : R) (n : nat) : list R :=
  map (fun i => start + INR i * ((stop - start) / INR (n - 1)))%R (seq 0 n).
(** arrays.py:701-707 UniformCircularArray; kwargs are not passed on.  2.0/0 raises ZeroDivisionError,
    a negative count raises ValueError in linspace. *)
Definition UCA_locations (n : nat) (r : R) : rmat :=
  let theta := linspace 0 (PI * (2 - 2 / INR n)) n in
  Mat n 2 (fun i j => match j with 0 => (r * cos (nth i theta 0))%R | _ => (r * sin (nth i theta 0))%R end).
Definition mk_UCA (n : Z) (r : R) (name : option string) (kw : kwargs) : res array :=
  raise_if (Z.eqb n 0) as ZeroDivisionError ;;
  raise_if (n <? 0)%Z as ValueError ;;
  init_with_matrix (UCA_locations (Z.to_nat n) r) (name_or name ("UCA " ++ strZ n)) no_kwargs.

(** arrays.py:729-734 UniformRectangularArray *)
Definition mk_URA (m n : Z) (d0 : d0arg) (name : option string) (kw : kwargs) : res gdesign :=
  let! rows := cartesian 0%Z [arange 0 m; arange 0 n] in
  mk_Grid (Mat (List.length rows) 2 (fun i j => nth j (nth i rows []) 0%Z)) d0
    (name_or name ("URA " ++ strZ m ++ "x" ++ strZ n)) None kw.
