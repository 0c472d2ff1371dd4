(** Vocabulary of the properties about source number detection and preprocessing. *)
From Verif Require Import Base_Np Base_Trig.
Open Scope R_scope.

(** N (M-k) times the logarithm of the ratio of arithmetic and geometric mean of the M-k first (smallest) eigenvalues *)
Definition log_am_gm (x : list R) (k : nat) : R :=
  let d := (List.length x - k)%nat in
  INR d * ln (rsum d (fun j => nth j x 0) / INR d) - rsum d (fun j => ln (nth j x 0)).
(** the AIC and MDL criteria for k sources *)
Definition aic_crit (x : list R) (N : R) (k : nat) : R :=
  N * log_am_gm x k + INR k * (2 * INR (List.length x) - INR k).
Definition mdl_crit (x : list R) (N : R) (k : nat) : R :=
  N * log_am_gm x k + / 2 * (INR k * (2 * INR (List.length x) - INR k) + 1) * ln N.
(** p is the first minimiser of f over 0..n-1 *)
Definition first_min (n : nat) (f : nat -> R) (p : nat) : Prop :=
  (p < n)%nat /\ (forall i, (i < n)%nat -> f p <= f i) /\ (forall i, (i < p)%nat -> f p < f i).

(** SORTE: gaps of the descending eigenvalues, variance of the gaps from k on (gap j is between the (j+1)-st and the
    (j+2)-nd largest eigenvalue) *)
Definition gap (x : list R) (j : nat) : R := nth (List.length x - 1 - j) x 0 - nth (List.length x - 2 - j) x 0.
Definition gap_mean (x : list R) (k : nat) : R :=
  let d := (List.length x - 1 - k)%nat in rsum d (fun j => gap x (k + j)) / INR d.
Definition gap_var (x : list R) (k : nat) : R :=
  let d := (List.length x - 1 - k)%nat in rsum d (fun j => (gap x (k + j) - gap_mean x k) * (gap x (k + j) - gap_mean x k)) / INR d.
(** the SORTE ratio; infinite (None) where the variance is below [eps] *)
Definition sorte_ratio (eps : R) (x : list R) (k : nat) : option R :=
  if Rlt_dec (gap_var x k) eps then None else Some (gap_var x (k + 1) / gap_var x k).
Definition ole (a b : option R) : Prop := match a, b with Some u, Some v => u <= v | _, None => True | None, Some _ => False end.
Definition olt (a b : option R) : Prop := match a, b with Some u, Some v => u < v | Some _, None => True | None, _ => False end.
Definition first_omin (n : nat) (f : nat -> option R) (p : nat) : Prop :=
  (p < n)%nat /\ (forall i, (i < n)%nat -> ole (f p) (f i)) /\ (forall i, (i < p)%nat -> olt (f p) (f i)).

(** entry (a, b) depends on a - b only *)
Definition toeplitz (A : cmat) : Prop :=
  nr A = nc A /\ forall i j, (i + 1 < nr A)%nat -> (j + 1 < nr A)%nat -> ent A (i + 1) (j + 1) = ent A i j.
(** J conj(A) J = A *)
Definition centro_hermitian (A : cmat) : Prop :=
  nr A = nc A /\ forall i j, (i < nr A)%nat -> (j < nr A)%nat -> ent A i j = Cconj (ent A (nr A - 1 - i) (nr A - 1 - j)).
(** the (a, b) entry of the spatially smoothed matrix *)
Definition smoothed (A : cmat) (l a b : nat) : C := (RtoC (/ INR l) * csum l (fun i => ent A (i + a) (i + b)))%C.
