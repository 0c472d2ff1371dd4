(** Vocabulary of the properties about the plot functions *)
From Verif Require Import Base_Np M_utils M_sources M_array M_grid M_core M_plot.
Open Scope nat_scope.

(** y is x scaled to have maximum one, or x itself if its maximum is not positive *)
Definition normalised (x y : list R) : Prop :=
  exists m, In m x /\ (forall v, In v x -> (v <= m)%R) /\ ((0 < m)%R -> y = map (fun v => v / m)%R x) /\ ((m <= 0)%R -> y = x).
(** what sp offers: spectra and labels; None if it is no array, list, tuple or dictionary *)
Definition offered (sp : spinput) : option (list (spval * plabel)) :=
  match sp with
  | InArray a => Some [(SArr a, LStr "")]
  | InList l | InTuple l => Some (map (fun s => (s, LStr "")) l)
  | InDict d => Some (map (fun kv => (snd kv, fst kv)) d)
  | InOther => None
  end.
(** lines, stems, points and images among the events, with the axes they are on *)
Definition is_artist (d : draw) : bool := match d with DLine _ _ _ _ _ | DStem _ _ _ _ _ _ | DScatter _ _ _ | DImage _ _ _ _ _ _ _ _ _ => true | _ => false end.
Definition artists (l : list event) : list (nat * draw) :=
  flat_map (fun e => match e with EDraw ax d => if is_artist d then [(ax, d)] else [] | _ => [] end) l.
Definition legend_on (ax : nat) (l : list event) : Prop := In (EDraw ax DLegend) l.
(** color of the i-th spectrum *)
Definition color_of (i : nat) : string := nth (i mod 8) ["C0"; "C1"; "C4"; "C5"; "C6"; "C7"; "C8"; "C9"]%string ""%string.
(** the source locations along axis j *)
Definition along (s : sources) (j : nat) : list R :=
  match s with FF1 l _ => l | FF2 l _ => map (fun p => if Nat.eqb j 0 then fst p else snd p) l | NF2 l => map (fun p => if Nat.eqb j 0 then fst p else snd p) l end.
(** imshow with origin='lower' and the given extent: column c of n fills this interval *)
Definition pixel_lo (x0 x1 : R) (n c : nat) : R := (x0 + INR c * ((x1 - x0) / INR n))%R.
Definition pixel_hi (x0 x1 : R) (n c : nat) : R := (x0 + INR (c + 1) * ((x1 - x0) / INR n))%R.
