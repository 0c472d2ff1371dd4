# Formal model of morriswmz/doatools.py in Rocq (Coq 8.16.1)

## 1. What is here

* `properties.jsonl` - the properties C01..  a user of doatools relies on.
* `rocq/theories/` - the model and the proofs.  Naming:
  * `Base_*.v`  - Python-ish base (exceptions as values, slices, dictionaries), finite sums,
    complex matrices.  Nothing here is specific to doatools.
  * `M_*.v`     - the model, one file per source module, every definition citing the file and lines
    it models.  No proofs.
  * `S_*.v`     - specifications: definitions the property statements are written in,
    independent of the helpers of the model.
  * `P_*.v`     - proofs.
  * `Prop_*.v`  - the property theorems only: `Theorem Cxx_... . Proof. exact lemma. Qed.`,
    non-vacuity `Example`s and `Print Assumptions`.
* `MANIFEST.json` - property -> status, theorem names.
* `seeded/LOG.jsonl` - the wrong-program experiments.

Suffixes: `_defect` = proves that the code deviates from its documentation or from what a caller expects (the statement of the
property in `properties.jsonl` names the deviation after the word "Defect"); `_partial` = only a part of the English claim is proved.
`tools/gen_manifest.py` collects the theorem names into `MANIFEST.json`; `tools/assumptions.py` writes `ASSUMPTIONS.md`.

## 2. Modelling conventions

* **Exceptions** are values: `res A := Ok a | Raise e` (`exn` = ValueError, TypeError, ...).
* **Numbers.** Floating point rounding is not modelled: float64 arrays are arrays over `R`
  and complex128 arrays are arrays over Coquelicot's `C`.  NaN is modelled explicitly
  only where the code can produce it and a property depends on it.  Where only comparisons matter
  (peak picking, root selection) the model is generic over an ordered carrier or uses `R` with decidable order tests.
* **Arrays.** 1-D arrays are `list`s (or a length and a function), 2-D arrays are
  `mat T := {nr; nc; ent : nat -> nat -> T}`, two matrices being equal (`==m`) when shapes and all in-range entries agree.
  dtype is a tag where behaviour depends on it.
* **External numerics** (eigh, solve, inv, svd, roots, pinv, sqrtm, minimize, cvxpy, random
  generators, scipy filters) are oracle arguments of the model functions; their contracts are
  hypotheses of the theorems and are listed below.
* **Aliasing** is modelled with a small heap (a list of buffers, address = position) where a
  property is about sharing (C19, C20, C34, C50, C55, C63, C65, C76); views of a matrix are (buffer, offset, shape) (`Base_Mem.v`).
* **Dictionaries** are insertion-ordered association lists.
* **Random generators** are streams of draws plus a counter (how many draws were used so far), so that the order and number of
  draws is observable.  Expectations are an abstract linear functional with the moments of white noise (`white`; with fourth moments: `white4`).
* **scipy.optimize.minimize** is an interaction tree: any finite sequence of evaluation points, each depending on the values seen so far,
  ended by a result; theorems hold for every tree.  **cvxpy** problems are modelled by their numeric meaning (objective and
  constraints as functions); the solver is an oracle, and statements about optima assume only that the answer it labels "optimal" is one.
* **matplotlib** is a trace of drawing commands with the axes they act on; pyplot's current axes is part of the state.

## 3. Per property: what is modelled, how it is proved

| id | model | statement and proof |
|----|-------|-------|
| C01 | `M_utils.vec` (reshape order F) | entry i+j*m; shape; the index map is a bijection |
| C02 | `M_utils.khatri_rao` (broadcast + reshape) | index arithmetic with div/mod |
| C03 | `M_sparse.scm_atom`, `scm_vector` | finite-sum algebra over C; recovery: the truth is an optimum when the data are exact |
| C04 | `M_utils.cartesian` via meshgrid/ravel semantics, any number of axes | induction on the axes |
| C05 | the two nested loops of `unique_rows` | loop invariant (cover, separation) |
| C06 | `projm` with solver and pinv oracles | matrix algebra from the contract |
| C07-C09 | conversion tables over R, arctan2 | trigonometry |
| C10-C17 | constructors of `arrays.py` over Z indices / R locations | induction, gcd arithmetic, decided table for the MRLA presets |
| C18, C19, C21, C27 | array object as a record, insertion-ordered perturbation dictionary | induction over chains of copies |
| C20, C34, C50 | mini-heap | invariant: no object refers to a returned buffer; frame lemmas |
| C22-C25, C28, C29 | the whole `steering_matrix` pipeline, scalar and vector sensors | sums; Coquelicot derivatives entry by entry (C24) |
| C26 | constructors with shapes as lists of dimensions | case analysis |
| C30-C33, C35 | source placements, near and far field | trigonometry; limit along a ray (C33) |
| C36-C40 | `WeightFunction1D` (with its lazily filled cache), augmented covariance | counting, sorting; weight functions over any history of calls; exactness on model covariances |
| C41, C51 | guards, `get_noise_subspace` | case analysis, slices |
| C42-C45, C47, C48 | grids, refinement, peak finding (maximum filter with reflection) | index arithmetic; iteration invariant for refinement |
| C46, C49 | `_estimate`, cache | sorting/permutation; induction on histories |
| C52-C54 | criteria over R, argmin with inf | AM-GM from ln x <= x-1; first minimiser |
| C55-C57 | loops over diagonal blocks on memory views; SVD projection | sums, frame lemmas |
| C58-C63 | spectra, polynomials, root selection, rotation matrix | complex linear algebra from the eigh/solve/eigvals contracts; exact-covariance theorems |
| C64 | row weights | case analysis |
| C65, C66 | ML base class on a heap; optimiser as interaction tree | refinement: the heap version has the same observations as a pure version, over all histories |
| C67 | CML/AML/WSF objectives | projector algebra, Hadamard-type determinant inequalities, spectral theorem |
| C68, C69 | power arguments, return modes | case analysis on shapes |
| C70-C73 | CRBs, MUSIC error covariances | Schur product theorem, Slepian-Bangs traces, derivatives of the model covariance |
| C74, C75 | generators on draw streams, snapshots | sums; abstract expectation |
| C76, C77 | sparse estimators, l1 problems | optimum transfer between the cvxpy problem and the documented one, for every state reached by earlier calls |
| C78, C80-C82 | plot functions as event traces | exact traces |
| C83, C84 | whole programs: design, grid, estimator constructor (`M_pipeline.v`), estimate | composition of C10/C14/C36-C40/C43/C46/C58 with the contract of scipy.signal.find_peaks; induction over earlier calls |
| C85 | array design, ACM builder, ESPRIT | composition of C39/C40 and C63; every contract met for every order (`P_fta.v`: the fundamental theorem of algebra, `P_fta2.v`: eigenvalues of any square matrix) |
| C86 | `spatial_smooth` then MUSIC/ESPRIT | smoothed source covariance as a Vandermonde-weighted sum, kernel argument |
| C87 | `aic`, `mdl`, `sorte` on exact spectra | strict AM/GM below K gives a linear-in-N penalty gap; ln N <= 2 sqrt N |
| C79 | `f_nll_stouc` | log-det and trace inequality (x - 1 - ln x >= 0 on eigenvalues) |
| C88 | `MinNorm.estimate` on `UniformLinearArray` | least-norm polynomial with given zeros: moving an extraneous unit-circle zero inwards decreases the norm; then as C83 |
| C89 | `BartlettBeamformer`, `MVDRBeamformer` | strict Cauchy-Schwarz; rank-one inverse; then as C83 |
| C90 | model of both functions with exact linear solvers | U = P A^H R^-1 A P and B = P^-1 + s P^-1 (A^H A)^-1 P^-1 are inverse to each other; (x + B y)^H U (x + B y) >= 0 summed over the rows of the projected derivative gives the comparison of the two quadratic forms |
| C91 | name argument of the design constructors, str(n) as decimal strings | injectivity of decimal strings and of the separators |
| C92 | no new model: composition of C83, C85 and C87 (Prop_pipeline5) | injectivity of the Vandermonde steering matrix feeds both the detector and the estimator |
| C93 | Scenes related by a record (S_equiv: rotation, scale, shift, order, units), on the existing models of steering matrices and bounds | the steering matrices are related by a monomial unitary matrix and the derivatives by the chain rule plus multiples of the steering vectors, which the projector removes; similarity of the information matrices and of their inverses |
| C94 | M_subspace, M_core, M_array | noise projectors of two eigenbases agree across a gap (unitary change of basis); spectra equal or order-equal; simulation of the estimation loop, refinement included; phase factors of a moved origin |
| C95 | M_perf, M_array | steering matrices of parts of a scene are submatrices; distances to a column space, variational form of P A^H R^-1 A P, Schur products of positive semidefinite matrices, antitone inverses and blocks of inverses |
| C96 | M_subspace, M_srcnum, M_coarray, M_sources | signal and noise eigenvectors of two decompositions differ by a unitary factor; rotation matrices become similar; the eigenvalues are unique; from_z sorts |
| C97 | M_ml | orthogonal projectors onto equal subspaces coincide and follow unitary changes; spectral functions do not depend on the eigenvectors; the two optimisation runs are compared by induction on the behaviour of the optimiser |
| C98 | M_sparse | the residual of the stacked real problem is a Frobenius norm, invariant under unitary conjugation; explicit bijections between the solution sets; strict convexity for uniqueness; the base-class search only compares spectrum values (C94) |
| C99 | M_core, M_subspace, M_coarray, M_pipeline | Courant-Fischer gives Weyl's inequality; the cross terms between the two eigenbases give a Davis-Kahan bound in Frobenius norm, hence two-sided bounds on projection lengths; finitely many strict comparisons have a positive margin; C58/C83/C84/C89 give the unperturbed comparisons, dominant_recovery the estimate; lag averages are contractions |
| C100 | M_srcnum, M_core, M_subspace, M_pipeline | Weyl (C99) bounds the eigenvalue errors; the log ratio of arithmetic and geometric mean is of second order in the error on the noise eigenvalues and Lipschitz elsewhere; penalties grow by at least 1 resp. ln N / 2 per source; gap variances are continuous; explicit 2 x 2 matrices for the inconsistency of aic |
| C101 | M_subspace, M_sources, M_coarray | Davis-Kahan style: the signal eigenvectors of R' are a unitary mix of vectors near those of R; polar factor of a near-unitary matrix; continuity of least squares / TLS solutions; the mix is a similarity of the rotation matrix; eigenvalues of a general matrix are continuous (Krylov + annihilating polynomial); continuity of atan2 off the cut and of arcsin inside (-1, 1); order-preserving matching |
| C102 | M_subspace, M_sources, M_coarray | the noise projector is continuous (Davis-Kahan); roots of a polynomial are continuous with multiplicities (deflation over the fundamental theorem of algebra); the true polynomial is const * prod (x - z_i)^2 * rest with rest off the circle (bounded below by the Vandermonde distance on the circle); the noise polynomial of a Hermitian matrix is self-reciprocal, so that each pair splits into one root inside and one outside and exactly M - 1 roots are kept; continuity of from_z as in C101 |
| C103 | M_srcnum, M_subspace, M_coarray | composition of C100 (budget of MDL), C101 and C102; the augmentation is Lipschitz near the true covariance (DA: linear averaging; SS: quadratic), and the augmented true covariance is an exact covariance of the virtual array with positive noise power (C40, gram_exact) |
| C104 | M_subspace, M_core, M_array, M_srcnum | conjugating all inputs conjugates every intermediate quantity and leaves the (real) spectra unchanged; a negative wavelength gives the conjugated steering vectors, so the reflected array is the array of C94 with a negative unit of length; C94 removes the choice of eigenvectors; diagonal sums of J conj(P) J equal those of P; ESPRIT with conjugating oracles commutes exactly, C96's uniqueness lemmas remove the oracles |
| C105 | M_ml, M_array, M_designs | the polynomial that vanishes at the candidate phases, used as a test vector, bounds the residual of a true steering vector from below; the CML/WSF objective moves at most n times the error of the matrix (WSF: subspace stability of C100); AML: Kullback-Leibler distance between R' and its fit bounds their distance, and a vector orthogonal to both the candidate and the true steering vectors separates noise from signal (2k < n); bounded-below objectives have near-minima; direct computation for the ambiguity |
| C106 | M_subspace, M_core, M_grid, M_array | the null spectrum is a nonnegative trigonometric polynomial of degree below n in the phase, with a strict second-order minimum at each source: quasi-convex near each source and bounded below elsewhere; on a fine grid its valleys near a source form exactly one discrete valley, all other valleys are higher; the k largest peaks are therefore these; the noise projector depends on the sources only (uniform step) and is continuous (C99) ; virtual array via C40 |
| C107 | M_core, M_grid, M_subspace | one round keeps a one-dip function bracketed by the grid neighbours of the new estimate and divides the bracket by density (induction over the rounds); the null spectrum has one dip between the neighbours of each estimate (C106), also for perturbed covariance matrices up to a tolerance (C99) |
| C108 | M_core, M_grid, M_subspace | each spectrum ranks the directions like a trigonometric form with one simple zero at each source (Min-Norm: the zeros of the Min-Norm polynomial on the unit circle are simple and are the sources; beamformers: n minus the beam pattern, and an affine function of it for R and its inverse), then C106 / C107's one-valley argument, stable under entrywise perturbations |
| C109 | M_signals, M_core, M_subspace, M_srcnum, M_ml | the snapshots are linear forms in the draws with circular coefficients; their fourth moments give the exact mean-square error, Markov's inequality (with a polynomial bound, so that only moments enter) the probability, and the perturbation theorems C101-C103, C105, C107, C108 the estimates |
| C110 | M_srcnum, M_subspace, M_signals, M_core | the smoothed matrix is a mean of submatrices (convexity of the squared norm gives contraction); the smoothed scene is an exact covariance of the subarray with a positive definite source covariance (C51), to which C101-C103, C107 and C109 apply |
| C111 | M_core, M_subspace, M_sparse | two local maxima (with plateaus) are at least two positions apart, hence at most (n - 1)/2 of them; the choice of peaks is C46 |

Oracles and their contracts (all satisfiable, for every order: `P_gauss.v`, `P_eig2.v`, `P_oracles.v`, `P_fta2.v` construct instances):
`eigh_contract n` (orthonormal eigenbasis, ascending eigenvalues, for Hermitian input of order <= n), `solve_contract`/`solve_exact` (solves
regular systems, raises on singular ones), `cinv_exact`, `rinv_exact`, `pinv_exact`, `eigvals_contract n`, `sqrtm_ok`, slogdet, `is_argsort`, `svd`, roots of a polynomial,
`scipy_find_peaks` (all strict local maxima are found; C83, C84, C99) and `scipy_local_maxima` (exactly the midpoints of the maximal plateaus that are higher than both
neighbours, which is what scipy.signal.find_peaks without conditions computes; C106, instance `local_maxima_ref`).

## 4. Trusted base

Coq 8.16.1's kernel (no kernel check is switched off, no native compilation of proofs needed); the standard library's axioms
`ClassicalDedekindReals.sig_forall_dec`, `ClassicalDedekindReals.sig_not_dec`, `FunctionalExtensionality.functional_extensionality_dep`
and `Classical_Prop.classic`, all from `Reals` and what Coquelicot uses of it.  `ASSUMPTIONS.md` lists for each
theorem which of the four it uses (output of Print Assumptions); there are no others.  The tie between the Python source and the `M_*.v` files is by reading:
every definition cites the lines it models.

### Modelled

All of `doatools/utils`, `doatools/model`, `doatools/estimation`, `doatools/optim`, `doatools/performance`, `doatools/plotting`: every function and method
with a body other than docstrings, trivial property getters and abstract methods is cited by a definition in `M_*.v`.

### Not modelled

* Rounding, overflow, NaN propagation (except where stated: `from_z`, grids without spacing, infinite criteria), dtypes other than int/float/complex distinctions.
* Error messages, warnings' texts, `__repr__`-like strings other than array names.
* The numerics of numpy.linalg, scipy, cvxpy and matplotlib's rendering (oracles, traces).
* Python-level type confusion beyond the argument forms listed with each argument type in `M_*.v` (e.g. passing strings for numbers).
* Concurrency: the library has none.

## 5. Findings

Deviations from the documentation found while modelling, each proved as a `_defect` theorem:

* C05 (unique_rows is a separated cover): for an empty input the index array has shape (0, m) and floating-point type instead of being an empty integer vector.
* C07 (Angle conversion round-trips on the valid ranges): converting from an unknown unit to itself succeeds.
* C08 (cart2spherical inverts the spherical parametrisation): coordinates with more than three columns are not rejected but mapped to zeros.
* C11 (Co-prime constructor decision rule): the default name does depend on the order.
* C16 (Minimum redundancy presets): n = 20, documented and present in the table of presets, is rejected.
* C17 (Grid-based designs: locations are indices times bases): leaving both d0 and bases unspecified is silently accepted and gives NaN locations.
* C18 (Perturbation registry: at most one of each type, only applicable ones): an object of the base class ArrayPerturbation, whose is_applicable_to returns a bare True, makes the constructor fail with TypeError.
* C20 (Returned location arrays are independent copies): for an array without location errors actual_element_locations returns the internal array itself, and writing to it changes the array.
* C25 (Location errors are applied on the leading axes): integer locations with floating-point errors raise TypeError.
* C26 (Perturbation constructors validate their parameters): lists raise AttributeError in GainErrors and PhaseErrors although the code means to convert them; MutualCoupling accepts every rectangular matrix and every array with two equal leading dimensions, and vectors raise IndexError.
* C27 (Every array class honours the common keyword arguments): UniformCircularArray silently drops all keyword arguments.
* C28 (Vector-sensor steering tensors flatten consistently): for vector sensors output_size never equals the number of rows of the flattened steering matrix.
* C29 (Spatial response input validation): a scalar polarization of a polarized element raises IndexError.
* C30 (Source placements reject out-of-range angles with ValueError): out-of-range 1D angles raise TypeError (the message cannot be formatted).
* C34 (Indexing a source placement): sources[i] of a 2D or near-field placement is a view: writing to it changes the placement.
* C35 (from_z recovers directions from unit-circle roots): for smaller spacings other roots give NaN locations without an error; an unknown unit is treated as deg.
* C36 (Weight function counts sensor pairs): a one-dimensional array given by two-column indices and bases is accepted and its weights are wrong.
* C41 (Covariance size checks): the number of columns is not checked, non-square matrices are accepted.
* C42 (Refined axes stay inside and resolve the neighbourhood): on other axes the original point can be missing.
* C43 (Uniform search grids): a multi-segment 1D grid can be built but has no usable source placement (ValueError).
* C45 (Every provided search grid class is usable): NearField2DSearchGrid leaves an abstract method unimplemented and can never be instantiated (TypeError).
* C46 (Spectrum estimators return the k largest peaks in grid order): k = 0 returns all peaks.
* C50 (Estimation never modifies the search grid): on a grid of integers the refined values are truncated.
* C51 (Noise subspace dimension and source-count guards): for k = 0 the noise subspace is empty instead of everything.
* C54 (SORTE source counts): scaling that does changes the answer.
* C55 (Spatial smoothing averages the diagonal blocks): integer matrices raise TypeError.
* C62 (root-MUSIC root selection): double roots exactly on the unit circle, as every exact covariance gives them, are dropped, so that root-MUSIC does not resolve the sources of an exact covariance; a single root on the circle raises RuntimeError.
* C63 (ESPRIT is exact on exact signal subspaces): the two subarrays are views of one matrix, so that on overlapping rows other weights are applied twice, and uniform weights different from one or the default weights give wrong directions.
* C65 (ML estimators keep user data and report their last estimate): guesses with integer locations raise TypeError.
* C67 (Objectives of the AML, CML and WSF estimators): for a noise-free covariance the AML objective is +infinity at the true directions, so the minimiser cannot return them.
* C68 (Source power normalisation): nested lists are treated as vectors and give results of the wrong shape.
* C71 (Uncorrelated stochastic CRB): entry (i,j) of the power-power block is Re(z^2) instead of |z|^2 for z = a_i^H R^{-1} a_j, which differs whenever z is not real.
* C73 (Coarray MUSIC error covariance uses the array's own virtual ULA): for arrays with another spacing the virtual ULA (and the error covariance) is wrong.
* C74 (Signal generators): lists raise AttributeError; scalar amplitudes, though documented, raise TypeError or ValueError, except 2, which gives wrong amplitudes.
* C76 (Sparse estimators: problem sizes and guards): an M x 1 matrix is accepted and repeated when the noise is known; after a solver failure on a 2D grid the estimator reports resolved sources.
* C79 (Stochastic likelihood function): when 0 < det S < 1 it returns Inf although the likelihood is finite; an S with an even number of negative eigenvalues (negative powers or noise power) is accepted as a covariance.
* C80 (1D spectrum plots): otherwise the lines are drawn on the current axes instead of the given ones; dictionary keys that are no strings raise TypeError.
* C81 (2D spectrum plots): not at its centre, except in the middle of the axis (the extent lacks half a pixel on each side); on descending axes the image is mirrored; collections of spectra, which plot_spectrum documents, raise AttributeError.
* C82 (Dispatch of plot_spectrum; array plots): location errors are never shown, even if the array has them and they are asked for; the 3D limits are scaled about the origin and can leave the data outside.
* C105 (Consistency of the ML estimators): the AML objective of two sensors and one source has a second, wrong global minimum.

## 6. Wrong-program experiments

`seeded/LOG.jsonl`: one line per edit of the model, made in a scratch copy.  Besides hand-written realistic bugs, a script applied
mutation operators (changed comparison, boundary, sign, constant, exception, dropped check, swapped indices or branches, dropped conjugate, ...)
to every definition of `M_*.v`; each surviving edit was either shown to be without observable effect or led to a stronger theorem.
Two edits of the last batch are exceptions: inverting the known flag of one perturbation class in `is_known` was not caught (C18_queries and C21 use
`is_known` itself, so that it returns the constructor's `known` argument has to be read off its definition in M_array), and one edit of `efoldM` was
stopped before its build ended (see the last two lines of the log).
