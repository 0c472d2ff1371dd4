(** Vocabulary of C108: any spectrum-based estimator on a linear array, run on search grids that need not contain the sources. *)
From Verif Require Import Base_Np Base_Lin M_utils S_utils M_sources S_sources M_array M_designs M_coarray M_heap M_grid M_core S_grid M_sparse M_subspace S_subspace M_pipeline S_pipeline S_cont S_offgrid S_refine.
Open Scope nat_scope.

(** the type of the estimate methods: estimator, memory, covariance matrix, number of sources, options *)
Definition estimate_method : Type := estimator cmat -> lheap -> cmat -> Z -> options -> est_result.
(** without refinement: whatever the search grid inside lo..hi (with no gap longer than step), the peak and sorting routines, the earlier calls and the options, the method applied to Rm succeeds and returns, for
    each direction, a grid point such that the direction lies between its two grid neighbours, up to tol *)
Definition finds_off_grid (method : estimate_method) (g : gdesign) (lam : R) (doas : list R) (u : string) (lo hi step tol : R) (Rm : cmat) : Prop :=
  forall find_peaks argsort angles dt sg caching h0 e0 h1 e h o,
    scipy_local_maxima find_peaks -> (forall x, is_argsort x (argsort x)) -> mk_grid_axes G1D [angles] dt u = Ok sg -> fine_grid lo hi step angles ->
    new_estimator (gd_array g) lam sg (find_peaks_simple find_peaks) argsort caching h0 = Ok (e0, h1) -> reach method e0 h1 e h -> o_refine o = false ->
    exists sp est e' h' idx, method e h Rm (Z.of_nat (List.length doas)) o = (Ok (Outcome true (Some est) (if o_spectrum o then Some sp else None)), e', h') /\
      buf h' est = map (fun a => [a]) (at_positions angles idx) /\ brackets tol angles doas idx.
(** with refinement, on grids of floats: the estimates are within step / density^n_iters + tol of the directions *)
Definition refines_off_grid (method : estimate_method) (g : gdesign) (lam : R) (doas : list R) (u : string) (lo hi step tol : R) (Rm : cmat) : Prop :=
  forall find_peaks argsort angles sg caching h0 e0 h1 e h ret_sp density n_iters,
    scipy_local_maxima find_peaks -> (forall x, is_argsort x (argsort x)) -> mk_grid_axes G1D [angles] DFloat u = Ok sg -> fine_grid lo hi step angles ->
    new_estimator (gd_array g) lam sg (find_peaks_simple find_peaks) argsort caching h0 = Ok (e0, h1) -> reach method e0 h1 e h -> (1 <= density)%Z -> 1 <= n_iters ->
    exists sp est e' h' r, method e h Rm (Z.of_nat (List.length doas)) (Opts ret_sp true density n_iters) = (Ok (Outcome true (Some est) (if ret_sp then Some sp else None)), e', h') /\
      buf h' est = map (fun a => [a]) r /\ forall t, (step / IZR density ^ n_iters + tol < t)%R -> accurate t doas r.
(** on the one grid l (of floats) and with the options o: the estimates are within t of the directions *)
Definition located (method : estimate_method) (g : gdesign) (lam : R) (doas : list R) (u : string) (l : list R) (t : R) (o : options) (Rm : cmat) : Prop :=
  forall find_peaks argsort caching h0 e0 h1 e h,
    scipy_local_maxima find_peaks -> (forall x, is_argsort x (argsort x)) ->
    new_estimator (gd_array g) lam (SGrid G1D [vec1 l] u DFloat) (find_peaks_simple find_peaks) argsort caching h0 = Ok (e0, h1) -> reach method e0 h1 e h ->
    exists sp est e' h' r, method e h Rm (Z.of_nat (List.length doas)) o = (Ok (Outcome true (Some est) (if o_spectrum o then Some sp else None)), e', h') /\
      buf h' est = map (fun a => [a]) r /\ accurate t doas r.
