(** Vocabulary of C109: how often simulated sample covariance matrices are good enough. *)
From Verif Require Import Base_Np Base_Lin M_utils M_sources M_array M_signals S_signals S_stable.
Open Scope nat_scope.

(** Expectation over the first N normal draws, as [white], with the fourth moments of independent draws whose own fourth moment is kappa (3 for normal draws; 1 for random signs). *)
Record white4 (N : nat) (kappa : R) (E : ((nat -> R) -> R) -> R) : Prop := {
  w4_white : white N E;
  w4_one : E (fun _ => 1%R) = 1%R;
  w4_fourth : forall i j k l, i < N -> j < N -> k < N -> l < N -> let same a b := if Nat.eqb a b then 1%R else 0%R in
    E (fun x => x i * x j * x k * x l)%R =
    (same i j * same k l + same i k * same j l + same i l * same j k + (kappa - 3) * (same i j * same i k * same i l))%R
}.
(** functions of the draws whose expectation is determined by the moments *)
Inductive polynomial : ((nat -> R) -> R) -> Prop :=
| Poly_const c : polynomial (fun _ => c)
| Poly_draw i : polynomial (fun x => x i)
| Poly_plus f g : polynomial f -> polynomial g -> polynomial (fun x => f x + g x)%R
| Poly_mult f g : polynomial f -> polynomial g -> polynomial (fun x => f x * g x)%R
| Poly_ext f g : polynomial f -> (forall x, f x = g x) -> polynomial g.
(** the probability of the event [bad] is at most p, by Markov's inequality: some non-negative polynomial that is at least 1 wherever [bad] holds has expectation at most p *)
Definition unlikely (E : ((nat -> R) -> R) -> R) (bad : (nat -> R) -> Prop) (p : R) : Prop :=
  exists f, polynomial f /\ (forall x, (0 <= f x)%R) /\ (forall x, bad x -> (1 <= f x)%R) /\ (E f <= p)%R.
(** the sample covariance matrix of n simulated snapshots, as a function of the draws *)
Definition simulated (arr : array) (s : sources) (lam : R) (gs gn : cstoch) (n : nat) (st : rngst) (u x : nat -> R) : cmat :=
  snap_cov (get_narrowband_snapshots arr s lam (sto_emit (Draws x u) gs) (Some (sto_emit (Draws x u) gn)) n true st).
(** for enough snapshots the sample covariance matrix is good (what is good may depend on the number n of snapshots), except with a probability as small as wanted; how many snapshots are enough depends on that
    probability and the fourth moment only *)
Definition in_the_long_run (arr : array) (s : sources) (lam : R) (gs gn : cstoch) (good : nat -> cmat -> Prop) : Prop :=
  forall kappa p, (0 < p)%R -> exists n0, forall n N E st u, n0 <= n -> white4 N kappa E -> used_normals st + 2 * (sto_dim gs * n) + 2 * (sto_dim gn * n) <= N ->
    unlikely E (fun x => ~ good n (simulated arr s lam gs gn n st u x)) p.
(** the library's signal generators: gs for k sources with the covariance argument c, gn for white noise of power s at m sensors *)
Definition generators (sqrtm : cmat -> res cmat) (k m : nat) (c : carg) (s : R) (gs gn : cstoch) : Prop :=
  sqrtm_ok sqrtm /\ carg_ok k c /\ (0 <= s)%R /\ mk_stochastic sqrtm k c = Ok gs /\ mk_stochastic sqrtm m (CScalar s) = Ok gn.
