{"id": "C01", "title": "vec stacks columns", "statement": "vec(x) of an m x n matrix is an (m*n) x 1 matrix whose (i + j*m)-th entry is x[i,j] for every i<m, j<n (column-major stacking), so no entry is lost, duplicated or reordered.", "quantifier": "every shape m x n and every matrix", "why_tests_cant": "a test checks one 3x2 matrix; the index law must hold for every shape", "anchors": ["doatools/utils/math.py: vec"]}
{"id": "C02", "title": "khatri_rao is the column-wise Kronecker product", "statement": "khatri_rao(a,b) raises ValueError exactly when the column counts differ; otherwise it is (n1*n2) x k with entry (i*n2+j, c) equal to a[i,c]*b[j,c].", "quantifier": "every pair of matrices", "why_tests_cant": "sizes and values are unbounded; tests cover one 2x2/3x2 pair", "anchors": ["doatools/utils/math.py: khatri_rao"]}
{"id": "C03", "title": "Covariance vectorisation identity behind sparse covariance matching", "statement": "For every steering matrix A, every source power vector p and noise variance s, the dictionary built by SparseCovarianceMatching from A, applied to [p; s] (or to p when the noise is known and s*I is subtracted from R), equals the real/imag-stacked vectorised covariance of A diag(p) A^H + s I that the same estimator builds from R.", "quantifier": "every complex matrix A, every p, every s", "why_tests_cant": "an algebraic identity over all complex matrices; swapped vec/Kronecker order only shows on asymmetric inputs", "anchors": ["doatools/estimation/sparse.py: SparseCovarianceMatching._compute_atom_matrix, _get_sparse_spectrum, estimate", "doatools/utils/math.py: khatri_rao, vec"]}
{"id": "C04", "title": "cartesian enumerates the product, first axis slowest", "statement": "cartesian(x1,...,xd) has prod(len) rows; row r holds (x1[i1],...,xd[id]) where (i1,...,id) is the row-major multi-index of r; hence every combination appears exactly once per index tuple, in lexicographic index order.", "quantifier": "every number of axes and all axis lengths and contents", "why_tests_cant": "unbounded number of axes and lengths", "anchors": ["doatools/utils/math.py: cartesian", "doatools/estimation/grid.py: SearchGrid.source_placement"]}
{"id": "C05", "title": "unique_rows is a separated cover", "statement": "For every non-empty input unique_rows terminates and returns indices that start with row 0 and strictly increase; the returned rows are pairwise farther apart than the tolerance atol + rtol*max|x|, every input row is within tolerance of a returned row that does not come later, and y equals x[indices]; with sort=True the same rows come back in lexicographic order with matching indices; return_index only adds the indices. Defect: for an empty input the index array has shape (0, m) and floating-point type instead of being an empty integer vector.", "quantifier": "every finite matrix and tolerance", "why_tests_cant": "greedy while-loop over arbitrary data; only induction covers all row patterns", "anchors": ["doatools/utils/math.py: unique_rows", "doatools/model/coarray.py: compute_unique_location_differences"]}
{"id": "C06", "title": "projm returns the orthogonal projector onto the range of A", "statement": "Whenever the linear solver (or the pseudo-inverse) meets its contract, the result P of projm(A) satisfies P*P = P, P^H = P and P*A = A; its complement annihilates A.", "quantifier": "every full-column-rank complex matrix A (every A for use_pinv=True)", "why_tests_cant": "algebraic law over all complex matrices", "anchors": ["doatools/utils/math.py: projm"]}
{"id": "C07", "title": "Angle conversion round-trips on the valid ranges", "statement": "For all units u,v in {rad,deg,sin} and every angle in the valid range of u, converting u->v lands in the valid range of v and converting back returns the original; converting u->v->w equals u->w; different units of which one is unknown raise KeyError. Defect: converting from an unknown unit to itself succeeds.", "quantifier": "every real angle in the valid range and every unit triple", "why_tests_cant": "a continuum of values", "anchors": ["doatools/utils/conversion.py: convert_angles, ANGULAR_COV_MAT", "doatools/model/sources.py: as_unit"]}
{"id": "C08", "title": "cart2spherical inverts the spherical parametrisation", "statement": "For 1D, 2D and 3D coordinates the returned (r, az, el) satisfy x = r cos(el) cos(az), y = r cos(el) sin(az), z = r sin(el), r >= 0, az in (-pi, pi], el in [-pi/2, pi/2]. Defect: coordinates with more than three columns are not rejected but mapped to zeros.", "quantifier": "every point of R, R^2, R^3", "why_tests_cant": "all quadrants and axes including degenerate points; a continuum", "anchors": ["doatools/utils/conversion.py: cart2spherical"]}
{"id": "C09", "title": "Broadside conversion agrees with the linear-array phase law", "statement": "ae2broad(az,el) is an angle in [-pi/2, pi/2] whose sine is cos(az)cos(el), so a linear array sees the same phase delays from the 2D far-field source (az,el) and from the 1D source at ae2broad(az,el).", "quantifier": "every azimuth/elevation pair, every linear array, every nonzero wavelength", "why_tests_cant": "continuum of angles and all arrays", "anchors": ["doatools/utils/conversion.py: ae2broad", "doatools/model/sources.py: FarField1DSourcePlacement, FarField2DSourcePlacement"]}
{"id": "C10", "title": "1D designs place the documented number of distinct grid elements", "statement": "UniformLinearArray(n) has elements 0..n-1; NestedArray(n1,n2) (n1, n2 >= 0) has n1+n2 distinct, increasing elements, the first level 0..n1-1, the second (k+1)(n1+1)-1, the last n2(n1+1)-1; CoPrimeArray(m,n) for co-prime m,n >= 1, smaller one m, has n+2m-1 (mode 2m) or n+m-1 (mode m) pairwise distinct elements 0,m,..,(n-1)m,n,2n,...; element locations are the indices times d0.", "quantifier": "every n, n1, n2, every co-prime pair and mode, every d0", "why_tests_cant": "infinite families; distinctness rests on gcd arithmetic", "anchors": ["doatools/model/arrays.py: UniformLinearArray, NestedArray, CoPrimeArray"]}
{"id": "C11", "title": "Co-prime constructor decision rule", "statement": "CoPrimeArray(m,n,mode) raises ValueError exactly when gcd(m,n) != 1 or the lower-cased mode is not '2m' or 'm'; otherwise it records the pair with the smaller first, warns exactly when m > n, and for a given name the array does not depend on the order of m and n. Defect: the default name does depend on the order.", "quantifier": "every pair of integers and every mode string", "why_tests_cant": "unbounded integers and strings", "anchors": ["doatools/model/arrays.py: CoPrimeArray.__init__"]}
{"id": "C12", "title": "Uniform circular array geometry", "statement": "UniformCircularArray(n,r) has n elements, all at distance |r| from the origin, element i at angle 2*pi*i/n, pairwise distinct when r != 0, with centroid 0 for n >= 2.", "quantifier": "every n >= 1 and radius r", "why_tests_cant": "trigonometric identity for every n", "anchors": ["doatools/model/arrays.py: UniformCircularArray"]}
{"id": "C13", "title": "Uniform rectangular array geometry", "statement": "UniformRectangularArray(m,n,d0) has m*n distinct elements; element i*n+j sits at (i*dx, j*dy).", "quantifier": "every m, n and spacing", "why_tests_cant": "all sizes", "anchors": ["doatools/model/arrays.py: UniformRectangularArray", "doatools/utils/math.py: cartesian"]}
{"id": "C14", "title": "Nested arrays have a hole-free difference coarray", "statement": "For every n1,n2 (not both zero) the coarray of NestedArray(n1,n2) is exactly the contiguous range -(n2(n1+1)-1)..n2(n1+1)-1 (n2>=1), so the central ULA size reported is 2*n2(n1+1)-1.", "quantifier": "every n1 >= 0, n2 >= 1", "why_tests_cant": "infinite family; needs division arguments", "anchors": ["doatools/model/arrays.py: NestedArray", "doatools/model/coarray.py: WeightFunction1D.get_central_ula_size"]}
{"id": "C15", "title": "Co-prime arrays: exact central ULA size", "statement": "For co-prime m<n the central ULA of CoPrimeArray(m,n,'2m') has exactly mn+m non-negative lags (first hole at mn+m), and for mode 'm' with m>=2 exactly m+n (first hole at m+n).", "quantifier": "every co-prime pair", "why_tests_cant": "number-theoretic argument over all co-prime pairs", "anchors": ["doatools/model/arrays.py: CoPrimeArray", "doatools/model/coarray.py: WeightFunction1D.get_central_ula_size"]}
{"id": "C16", "title": "Minimum redundancy presets", "statement": "MinimumRedundancyLinearArray(n) is accepted exactly for n from 1 to 19 and raises ValueError otherwise; every accepted design has n strictly increasing elements starting at 0 and a hole-free coarray up to its aperture. Defect: n = 20, documented and present in the table of presets, is rejected.", "quantifier": "every integer n", "why_tests_cant": "tests use n=5 only; the boundary n=20 and every table row matter", "anchors": ["doatools/model/arrays.py: MinimumRedundancyLinearArray, _MRLA_PRESETS"]}
{"id": "C17", "title": "Grid-based designs: locations are indices times bases", "statement": "GridBasedArrayDesign(indices, d0) places element i at (i_1 d0_1, ..., i_k d0_k) (scalar d0 replicated), GridBasedArrayDesign(indices, bases=B) at sum_l i_l B[l,:], d0 then being the row norms of B; mismatched d0/bases sizes raise ValueError. Defect: leaving both d0 and bases unspecified is silently accepted and gives NaN locations.", "quantifier": "every index matrix, spacing and basis matrix", "why_tests_cant": "all shapes and values", "anchors": ["doatools/model/arrays.py: GridBasedArrayDesign.__init__"]}
{"id": "C18", "title": "Perturbation registry: at most one of each type, only applicable ones", "statement": "For perturbations of the four provided classes: an array constructed with a list of them either raises RuntimeError (inapplicable or duplicate type) or stores exactly one perturbation per given type, in the given order; after any chain of get_perturbed_copy calls there is still at most one per type, each applicable to the array, the last given one winning while untouched types keep theirs. Defect: an object of the base class ArrayPerturbation, whose is_applicable_to returns a bare True, makes the constructor fail with TypeError.", "quantifier": "every list and every chain of get_perturbed_copy / get_perturbation_free_copy", "why_tests_cant": "arbitrary histories of copies", "anchors": ["doatools/model/arrays.py: ArrayDesign.__init__, _add_perturbation_from_list, get_perturbed_copy, get_perturbation_free_copy"]}
{"id": "C19", "title": "Copies never disturb the original array", "statement": "get_perturbed_copy and get_perturbation_free_copy leave the original array's name, perturbations and locations unchanged, whatever happens to the copy afterwards.", "quantifier": "every chain of copy operations on every object in the family", "why_tests_cant": "aliasing across arbitrary histories", "anchors": ["doatools/model/arrays.py: get_perturbed_copy, get_perturbation_free_copy"]}
{"id": "C20", "title": "Returned location arrays are independent copies", "statement": "No sequence of reading element_locations / element_indices (and, for arrays with location errors, actual_element_locations) and writing into the returned arrays can change what the array later reports; the values read are the stored (actual) locations. Defect: for an array without location errors actual_element_locations returns the internal array itself, and writing to it changes the array.", "quantifier": "every sequence of reads and client writes", "why_tests_cant": "aliasing over arbitrary histories", "anchors": ["doatools/model/arrays.py: element_locations, actual_element_locations, element_indices"]}
{"id": "C21", "title": "Selecting perturbations in steering_matrix", "statement": "steering_matrix(..., perturbations=s) uses all perturbations for 'all', exactly those with known=True for 'known', none for 'none', and raises ValueError for any other string; 'none' equals the steering matrix of the perturbation-free copy, 'known' equals 'all' when every perturbation is known.", "quantifier": "every array, source placement, wavelength and selector string", "why_tests_cant": "all combinations of perturbations and flags", "anchors": ["doatools/model/arrays.py: steering_matrix"]}
{"id": "C22", "title": "Steering matrix formula with perturbations", "statement": "For scalar isotropic elements the steering matrix equals the product, in registration order, of the selected coupling / diag(1+g) / diag(e^{j phi}) matrices applied to e^{j phase} evaluated at the location-error-corrected sensor locations; unperturbed entries have modulus one and the first sensor at the origin has response 1. The steering matrix exists for every nonzero wavelength, and a zero wavelength is rejected with an error.", "quantifier": "every array, every perturbation set, every source placement, every wavelength", "why_tests_cant": "unbounded sizes and continuous values", "anchors": ["doatools/model/arrays.py: steering_matrix", "doatools/model/perturbations.py: perturb_steering_matrix"]}
{"id": "C23", "title": "Columns of the steering matrix depend only on their own source", "statement": "For arrays of scalar isotropic elements: for every source placement S and every index list I, the steering matrix of S[I] (and its derivative matrices) consists of the columns I of the steering matrix of S. (A custom response function receives all sources at once and may mix them.)", "quantifier": "every placement and every index list", "why_tests_cant": "all subsets and permutations", "anchors": ["doatools/model/arrays.py: steering_matrix", "doatools/model/sources.py: SourcePlacement.__getitem__, phase_delay_matrix"]}
{"id": "C24", "title": "Derivative matrices are the true derivatives", "statement": "With compute_derivatives=True the returned D is, entry by entry, the derivative of the returned A with respect to the source parameter, for units rad, deg and sin, for 1D/2D/3D arrays and under any gain, phase, coupling and location perturbations (sin unit with planar arrays: for |x|<1).", "quantifier": "every array, perturbation set, unit and source angle", "why_tests_cant": "a derivative is a limit; finite differences only approximate it", "anchors": ["doatools/model/arrays.py: steering_matrix", "doatools/model/sources.py: _phase_delay_matrix_rad, _phase_delay_matrix_sin", "doatools/model/perturbations.py"]}
{"id": "C25", "title": "Location errors are applied on the leading axes", "statement": "perturb_sensor_locations adds the errors on the first axes, producing max(d, e) columns; coordinates without an error and errors beyond the nominal dimension are kept as they are; the other perturbations do not move elements; it is defined whenever the row counts agree and the dtypes agree or floating-point locations have at least as many columns as the errors. Defect: integer locations with floating-point errors raise TypeError.", "quantifier": "every m x d locations and m x e errors, d,e in 1..3", "why_tests_cant": "all dimension combinations and values", "anchors": ["doatools/model/perturbations.py: LocationErrors.perturb_sensor_locations"]}
{"id": "C26", "title": "Perturbation constructors validate their parameters", "statement": "LocationErrors accepts exactly m x d matrices with d in 1..3; GainErrors and PhaseErrors accept exactly the arrays that are vectors; MutualCoupling accepts every square matrix; other arrays (for MutualCoupling: see below) raise ValueError; unknown keys of a dictionary of perturbations raise KeyError. Defects: lists raise AttributeError in GainErrors and PhaseErrors although the code means to convert them; MutualCoupling accepts every rectangular matrix and every array with two equal leading dimensions, and vectors raise IndexError.", "quantifier": "every input shape and container type", "why_tests_cant": "all shapes", "anchors": ["doatools/model/perturbations.py: LocationErrors, GainErrors, PhaseErrors, MutualCoupling"]}
{"id": "C27", "title": "Every array class honours the common keyword arguments", "statement": "For ULA, nested, co-prime, minimum redundancy, rectangular and general grid-based designs, passing perturbations or element at construction yields an array with those perturbations and that element. Defect: UniformCircularArray silently drops all keyword arguments.", "quantifier": "every array class, every perturbation list and element", "why_tests_cant": "all classes x all inputs; silent drops raise nothing", "anchors": ["doatools/model/arrays.py: UniformCircularArray.__init__ and siblings"]}
{"id": "C28", "title": "Vector-sensor steering tensors flatten consistently", "statement": "For an element with L outputs, the unflattened steering tensor holds per output the spatial response times the scalar steering entry, and the flattened steering matrix has L*M rows, row l*M+i being output l of sensor i; output_size is M for scalar sensors. Defect: for vector sensors output_size never equals the number of rows of the flattened steering matrix.", "quantifier": "every L, M, K and response function", "why_tests_cant": "all sizes", "anchors": ["doatools/model/arrays.py: steering_matrix, output_size", "doatools/model/array_elements.py: calc_spatial_response"]}
{"id": "C29", "title": "Spatial response input validation", "statement": "calc_spatial_response raises ValueError when the shapes of r, az, el differ, when polarization is given to an unpolarized element, or when its leading shape differs from that of r; otherwise it delegates unchanged inputs. Defect: a scalar polarization of a polarized element raises IndexError.", "quantifier": "every shape combination", "why_tests_cant": "all shapes", "anchors": ["doatools/model/array_elements.py: ArrayElement.calc_spatial_response"]}
{"id": "C30", "title": "Source placements reject out-of-range angles with ValueError", "statement": "FarField1DSourcePlacement / FarField2DSourcePlacement succeed exactly when the unit is supported, the shape is right and every angle lies in the closed valid range; wrong shapes and units raise ValueError, out-of-range 2D angles too. Defect: out-of-range 1D angles raise TypeError (the message cannot be formatted).", "quantifier": "every list of angles and every unit string", "why_tests_cant": "a continuum of values", "anchors": ["doatools/model/sources.py: FarField1DSourcePlacement.__init__, FarField2DSourcePlacement.__init__, NearField2DSourcePlacement.__init__"]}
{"id": "C31", "title": "Changing the unit does not change the physics", "statement": "For every valid placement and every supported target unit, as_unit succeeds and the phase delay matrix and spherical coordinates are unchanged; as_unit is invertible.", "quantifier": "every placement, sensor array of dimension 1..3, wavelength, unit", "why_tests_cant": "continuum of angles", "anchors": ["doatools/model/sources.py: as_unit, phase_delay_matrix, calc_spherical_coords"]}
{"id": "C32", "title": "1D far-field sources are 2D sources in the xy-plane", "statement": "A 1D source at broadside angle t and a 2D source at azimuth pi/2 - t, elevation 0 give the same phase delay on every 1D, 2D and 3D array, and calc_spherical_coords of the 1D placement reports exactly that azimuth/elevation with infinite range.", "quantifier": "every angle, array and nonzero wavelength", "why_tests_cant": "continuum", "anchors": ["doatools/model/sources.py: FarField1DSourcePlacement, FarField2DSourcePlacement"]}
{"id": "C33", "title": "Near-field phase delays", "statement": "The near-field phase delay matrix is -2*pi/lambda times (distance to sensor i minus distance to sensor 0): row 0 is zero, zero-padding to 2D/3D does not change it, and along a ray to infinity it converges to the far-field phase delay relative to sensor 0.", "quantifier": "every sensor array, source position and nonzero wavelength", "why_tests_cant": "limit statement over all geometries", "anchors": ["doatools/model/sources.py: NearField2DSourcePlacement.phase_delay_matrix, _align_location_dims"]}
{"id": "C34", "title": "Indexing a source placement", "statement": "sources[i] is the i-th location (negative i counting from the end, IndexError otherwise); slices, index lists and boolean masks give a placement of the same type and unit with the selected locations in order, and writes to it never reach the original; other keys raise KeyError/ValueError/IndexError. Defect: sources[i] of a 2D or near-field placement is a view: writing to it changes the placement.", "quantifier": "every placement, every key, every later write", "why_tests_cant": "arbitrary keys and histories", "anchors": ["doatools/model/sources.py: SourcePlacement.__getitem__"]}
{"id": "C35", "title": "from_z recovers directions from unit-circle roots", "statement": "For spacing d0 > 0 and sources with |sin| below lambda/(2 d0), from_z applied to e^{j 2 pi d0 sin(t)/lambda} (times any positive modulus) returns exactly the sines/angles in ascending order in the requested unit; for every z the result is a valid placement when 2*d0 >= lambda. For every wavelength and spacing each root whose sine is out of range gives one NaN after the others (unit rad or deg) or a TypeError (unit sin). A zero wavelength never yields a result, and a zero spacing yields only NaN locations. Defects: for smaller spacings other roots give NaN locations without an error; an unknown unit is treated as deg.", "quantifier": "every finite list of roots, spacing and unit", "why_tests_cant": "continuum of roots", "anchors": ["doatools/model/sources.py: FarField1DSourcePlacement.from_z"]}
{"id": "C36", "title": "Weight function counts sensor pairs", "statement": "For every 1D grid array, weight_of(d) is the number of ordered sensor pairs (i,j) with index difference d, indices_of(d) lists exactly their positions i+j*M in vec(R) in increasing order, weights are symmetric, sum to M^2, equal M at 0 for distinct sensors; differences() is the sorted set of attained differences and len() its size, whatever calls were made before; arrays that are not one-dimensional are rejected. Defect: a one-dimensional array given by two-column indices and bases is accepted and its weights are wrong.", "quantifier": "every index list and every difference", "why_tests_cant": "all arrays", "anchors": ["doatools/model/coarray.py: WeightFunction1D, compute_location_differences"]}
{"id": "C37", "title": "Central ULA size is the maximal hole-free range", "statement": "get_central_ula_size(True) is the least non-negative integer that is not a difference, get_central_ula_size() is twice that minus one; repeating the calls in any order always gives the same answers.", "quantifier": "every array and every call sequence", "why_tests_cant": "loop termination and caching over arbitrary histories", "anchors": ["doatools/model/coarray.py: get_central_ula_size"]}
{"id": "C38", "title": "Coarray selection matrix performs redundancy averaging", "statement": "Each row of get_coarray_selection_matrix sums to one, has its support exactly on the positions of one lag, and F vec(R) is for each lag the average of the R[i,j] with that lag; the nonnegative-only variant is the lower part of the full one.", "quantifier": "every array and every R", "why_tests_cant": "all arrays and matrices", "anchors": ["doatools/model/coarray.py: get_coarray_selection_matrix"]}
{"id": "C39", "title": "Augmented covariance: DA is Toeplitz, SS is its Gram square", "statement": "transform(R,'da') has entry (r,c) equal to the average of R over pairs with lag r-c, so it is Toeplitz and is Hermitian when R is; transform(R,'ss') = transform(R,'da') transform(R,'da')^H / Mv, hence always Hermitian and positive semidefinite.", "quantifier": "every 1D grid array and every M x M matrix R", "why_tests_cant": "matrix identity for all inputs", "anchors": ["doatools/estimation/coarray.py: CoarrayACMBuilder1D.transform"]}
{"id": "C40", "title": "Augmented covariance is exact on model covariances", "statement": "If R is the model covariance of uncorrelated far-field sources plus white noise on the physical array (distinct sensors), transform(R,'da') is the model covariance of the same sources and noise on the virtual ULA returned by get_virtual_ula.", "quantifier": "every array, source set, powers and noise level", "why_tests_cant": "all scenarios", "anchors": ["doatools/estimation/coarray.py: transform, get_virtual_ula", "doatools/model/arrays.py: steering_matrix"]}
{"id": "C41", "title": "Covariance size checks", "statement": "The covariance check made by every covariance-based estimator raises ValueError exactly for inputs that are not matrices with as many rows as the array has elements. Defect: the number of columns is not checked, non-square matrices are accepted.", "quantifier": "every input shape", "why_tests_cant": "all shapes", "anchors": ["doatools/estimation/core.py: ensure_covariance_size", "doatools/estimation/coarray.py: transform"]}
{"id": "C42", "title": "Refined axes stay inside and resolve the neighbourhood", "statement": "create_refined_axes_at(coord, density, span) raises ValueError for density<1, span<1 or wrong coordinate length; for an in-range coordinate it returns per axis an evenly spaced grid of (ub-lb)*density+1 points from axis[lb] to axis[ub], lb/ub being the coordinate +- span clipped to the axis, hence within the parent range, containing the original point when the axis is evenly spaced. Limitation: on other axes the original point can be missing.", "quantifier": "every grid, coordinate, density, span", "why_tests_cant": "all grids", "anchors": ["doatools/estimation/grid.py: SearchGrid.create_refined_axes_at"]}
{"id": "C43", "title": "Uniform search grids", "statement": "A search grid built from start/stop/size has the evenly spaced points start + i (stop-start)/size, excluding stop, and defaults to the full valid range of the unit; unknown units raise KeyError when a default is needed. Defect: a multi-segment 1D grid can be built but has no usable source placement (ValueError).", "quantifier": "every start, stop, size, unit and number of segments", "why_tests_cant": "all sizes and segment lists", "anchors": ["doatools/estimation/grid.py: FarField1DSearchGrid.__init__, FarField2DSearchGrid.__init__, NearField2DSearchGrid.__init__"]}
{"id": "C44", "title": "Grid order matches flattened spectrum order", "statement": "For every grid, source_placement has prod(shape) locations and location number ravel(i1..id) is (axis1[i1],...,axisd[id]); unravel and ravel are mutually inverse, so a spectrum value reshaped to the grid shape sits at the coordinate it was computed for; the placement exists exactly when all its points are valid.", "quantifier": "every grid shape", "why_tests_cant": "all shapes", "anchors": ["doatools/estimation/grid.py: SearchGrid.source_placement", "doatools/estimation/core.py: _estimate"]}
{"id": "C45", "title": "Every provided search grid class is usable", "statement": "The far-field search grid classes (1D, 2D) can be instantiated from axes or from start/stop/size. Defect: NearField2DSearchGrid leaves an abstract method unimplemented and can never be instantiated (TypeError).", "quantifier": "every exported grid class", "why_tests_cant": "class-level wiring for all methods", "anchors": ["doatools/estimation/grid.py: NearField2DSearchGrid.create_refined_grids_at"]}
{"id": "C46", "title": "Spectrum estimators return the k largest peaks in grid order", "statement": "For every spectrum, peak finder and k >= 1: resolved is True exactly when at least k peaks were found; then exactly k estimates are returned, all of them peaks, in grid order, and no unreturned peak is higher than a returned one; when unresolved no estimates are returned; the spectrum returned is the one computed. Defect: k = 0 returns all peaks.", "quantifier": "every spectrum, every peak finder result, every k", "why_tests_cant": "all spectra", "anchors": ["doatools/estimation/core.py: SpectrumBasedEstimatorBase._estimate"]}
{"id": "C47", "title": "2D peak finding reports exactly the 3x3 local maxima", "statement": "For multi-dimensional spectra the built-in peak finder returns exactly the coordinates whose value is the maximum of their 3-wide neighbourhood (reflected at the borders), in row-major order; for a non-empty spectrum it always includes a global maximum.", "quantifier": "every 2D spectrum", "why_tests_cant": "all spectra", "anchors": ["doatools/estimation/core.py: find_peaks_simple"]}
{"id": "C48", "title": "Grid refinement improves the spectrum and stays local", "statement": "With refinement the i-th returned location lies within one parent interval of the i-th coarse estimate, and, for uniform grids and a spectrum that is a function of location, the spectrum value at the refined location is at least the value at the coarse one, for any number of iterations; the number and order of estimates are unchanged.", "quantifier": "every spectrum function, density, iteration count", "why_tests_cant": "arbitrary iteration counts and spectra", "anchors": ["doatools/estimation/core.py: _refine_estimates", "doatools/estimation/grid.py: create_refined_axes_at"]}
{"id": "C49", "title": "Caching the atom matrix is transparent", "statement": "For every history of estimate calls, an estimator with caching enabled returns the same results as one with caching disabled, and refinement on sub-grids never pollutes the cache.", "quantifier": "every call history", "why_tests_cant": "arbitrary histories", "anchors": ["doatools/estimation/core.py: _get_atom_matrix"]}
{"id": "C50", "title": "Estimation never modifies the search grid", "statement": "In-place refinement of the returned estimates never changes the search grid's source placement or the estimates returned by earlier calls, over any history of calls. Defect: on a grid of integers the refined values are truncated.", "quantifier": "every call history and grid dtype", "why_tests_cant": "aliasing over arbitrary histories", "anchors": ["doatools/estimation/core.py: _estimate, _refine_estimates", "doatools/model/sources.py: __getitem__"]}
{"id": "C51", "title": "Noise subspace dimension and source-count guards", "statement": "get_noise_subspace(R,k) keeps exactly the M-k eigenvectors of the smallest eigenvalues for every k from 1 to M, and the subspace estimators reject exactly k > M-1. Defect: for k = 0 the noise subspace is empty instead of everything.", "quantifier": "every M and k", "why_tests_cant": "boundary k=0 and negative slices", "anchors": ["doatools/estimation/core.py: get_noise_subspace, ensure_n_resolvable_sources", "doatools/estimation/music.py: MUSIC.estimate"]}
{"id": "C52", "title": "ld_stat is a non-negative equality test", "statement": "For positive eigenvalues, ld_stat(l, k, N) >= 0, equals 0 when the m-k smallest eigenvalues coincide (and, for N>=1, only then), scales linearly in N and is invariant under scaling of the eigenvalues.", "quantifier": "every positive eigenvalue vector, k<m, N", "why_tests_cant": "AM-GM for every length", "anchors": ["doatools/estimation/source_number.py: ld_stat"]}
{"id": "C53", "title": "AIC and MDL source counts", "statement": "aic and mdl return the smallest minimiser of their criterion, always in 0..M-1; they are invariant under scaling of the eigenvalues; if the M-k smallest eigenvalues coincide and N >= 1 they never return more than k; in particular white noise gives 0; a matrix argument is replaced by its eigenvalues; mdl requires a positive number of snapshots and raises ValueError otherwise.", "quantifier": "every eigenvalue vector and N", "why_tests_cant": "all spectra", "anchors": ["doatools/estimation/source_number.py: aic, mdl"]}
{"id": "C54", "title": "SORTE source counts", "statement": "sorte raises ValueError for fewer than four eigenvalues and otherwise returns the smallest minimiser of the SORTE ratio over 1..n-3; it is unchanged when a constant is added to all eigenvalues, and when they are scaled by a positive factor that moves no gap variance across machine epsilon. Defect: scaling that does changes the answer.", "quantifier": "every eigenvalue vector", "why_tests_cant": "all spectra", "anchors": ["doatools/estimation/source_number.py: sorte"]}
{"id": "C55", "title": "Spatial smoothing averages the diagonal blocks", "statement": "For floating-point and complex R, spatial_smooth(R,l) raises ValueError unless 1<=l<=m, returns a fresh (m-l+1)-square matrix whose (a,b) entry is the mean of R[a+i,b+i] over i<l, leaves R unchanged; with fb it averages that with its flipped conjugate; l=1 forward is R itself. Defect: integer matrices raise TypeError.", "quantifier": "every m, l, R", "why_tests_cant": "all sizes", "anchors": ["doatools/estimation/preprocessing.py: spatial_smooth"]}
{"id": "C56", "title": "Spatial smoothing preserves covariance structure", "statement": "If R is Hermitian (positive semidefinite, Toeplitz) so is spatial_smooth(R,l) with and without fb; the fb result is centro-Hermitian, fb is idempotent, and a Hermitian Toeplitz R is mapped to its leading block.", "quantifier": "every R and l", "why_tests_cant": "matrix properties for all inputs", "anchors": ["doatools/estimation/preprocessing.py: spatial_smooth"]}
{"id": "C57", "title": "l1_svd projects the snapshots onto the leading right singular vectors", "statement": "With a valid SVD Y = U S V^H, l1_svd(Y,k) = Y V[:, :k], has k columns and preserves Y Y^H up to the discarded singular directions (exactly when k = rank).", "quantifier": "every Y and k", "why_tests_cant": "algebraic identity", "anchors": ["doatools/estimation/preprocessing.py: l1_svd"]}
{"id": "C58", "title": "MUSIC spectrum is the reciprocal squared distance to the signal subspace", "statement": "The MUSIC denominator at a candidate is a^H En En^H a >= 0, it is zero exactly when the candidate steering vector is orthogonal to the noise subspace (so true directions of an exact covariance are the only poles), and it does not depend on the choice of orthonormal noise basis.", "quantifier": "every steering matrix and noise basis", "why_tests_cant": "all matrices", "anchors": ["doatools/estimation/music.py: f_music"]}
{"id": "C59", "title": "Min-Norm vector", "statement": "The vector used by MinNorm lies in the conjugated noise subspace, has first entry 1 and has the least norm among such vectors, and the spectrum is 1/|d^H a|^2; true directions of an exact covariance are poles.", "quantifier": "every noise basis with non-zero first row", "why_tests_cant": "all matrices", "anchors": ["doatools/estimation/min_norm.py: MinNorm.estimate"]}
{"id": "C60", "title": "Beamformer spectra", "statement": "f_bartlett is the Hermitian form a^H R a per column (real and non-negative for positive semidefinite R); f_mvdr is 1/(a^H R^{-1} a), positive for positive definite R, and f_mvdr <= f_bartlett/|a|^4.", "quantifier": "every steering matrix and covariance", "why_tests_cant": "inequalities over all inputs", "anchors": ["doatools/estimation/beamforming.py: f_bartlett, f_mvdr"]}
{"id": "C61", "title": "root-MUSIC polynomial", "statement": "The root-MUSIC coefficient vector is conjugate-symmetric and its polynomial at a unit-modulus z equals z^{m-1} a(z)^H En En^H a(z); hence true directions are roots and roots come in pairs z, 1/conj(z).", "quantifier": "every noise basis, every z", "why_tests_cant": "polynomial identity for all m and z", "anchors": ["doatools/estimation/music.py: RootMUSIC1D.estimate"]}
{"id": "C62", "title": "root-MUSIC root selection", "statement": "Given the polynomial roots, none on the unit circle, root-MUSIC keeps the roots inside it (one of every pair z, 1/conj(z)), reports resolved exactly when at least k remain, and then uses the k closest to the circle. If no steering vector is exactly orthogonal to the noise eigenvectors of a Hermitian matrix, root-MUSIC always resolves, for every admissible number of sources. Defects: double roots exactly on the unit circle, as every exact covariance gives them, are dropped, so that root-MUSIC does not resolve the sources of an exact covariance; a single root on the circle raises RuntimeError.", "quantifier": "every list of roots", "why_tests_cant": "all root lists including exact ties", "anchors": ["doatools/estimation/music.py: RootMUSIC1D.estimate"]}
{"id": "C63", "title": "ESPRIT is exact on exact signal subspaces", "statement": "If the covariance is that of k sources with distinct phase shifts per displacement on a uniform linear array, ESPRIT (ls and tls) finds exactly the shifts e^{j 2 pi d0 D sin(t)/lambda} and hence the directions, for every displacement D, without row weights, with unit weights, and with arbitrary positive weights when the two subarrays do not overlap. Defect: the two subarrays are views of one matrix, so that on overlapping rows other weights are applied twice, and uniform weights different from one or the default weights give wrong directions.", "quantifier": "every m, k, displacement, weights", "why_tests_cant": "all scenarios; tests use a 1% tolerance", "anchors": ["doatools/estimation/esprit.py: Esprit1D.estimate"]}
{"id": "C64", "title": "ESPRIT default row weights and argument checks", "statement": "get_default_row_weights(m)[i] = sqrt(min(i+1, m-i)), symmetric and positive; estimate rejects displacement < 1, more than m - displacement sources, and malformed row weights with ValueError.", "quantifier": "every m and argument", "why_tests_cant": "all sizes", "anchors": ["doatools/estimation/esprit.py: get_default_row_weights, Esprit1D.estimate"]}
{"id": "C65", "title": "ML estimators keep user data and report their last estimate", "statement": "estimate never modifies the initial guess; after a successful call the returned placement and get_last_estimates agree, have the type, unit and size of the guess, and are independent of each other and of later calls; before any call get_last_estimates raises RuntimeError; a failed call returns (False, None), get_last_estimates then being the last point evaluated. Defect: guesses with integer locations raise TypeError.", "quantifier": "every history of estimate/get_last_estimates calls, optimiser behaviours and client writes", "why_tests_cant": "stateful histories with an arbitrary optimiser", "anchors": ["doatools/estimation/ml.py: CovarianceBasedMLEstimator"]}
{"id": "C66", "title": "ML optimisation variables line up with their bounds", "statement": "The flattened start vector, the bounds list and the reshaped estimates use the same order: variable i*d+j is coordinate j of source i and carries the valid range of coordinate j; the start point satisfies its bounds; reshaping back is the inverse of flattening.", "quantifier": "every number of sources and dimension", "why_tests_cant": "all sizes", "anchors": ["doatools/estimation/ml.py: _prepare_opt_prob, _update_estimates_from_x"]}
{"id": "C67", "title": "Objectives of the AML, CML and WSF estimators", "statement": "The CML objective is tr((I-P_A)R) with P_A the orthogonal projector on the span of the steering vectors; for positive semidefinite R it is real, non-negative, and zero exactly when the range of R lies in that span. The WSF weight matrix is sum (l-s)^2/l e e^H over the k largest eigenvalues (s the mean of the others), Hermitian, and positive semidefinite when those eigenvalues are positive. For an exact covariance the CML objective is at least (m-k)s and the WSF objective at least 0, with equality exactly when the candidate directions span the true steering vectors; on a uniform linear array exactly at the true directions. The AML objective is log det of P_A R P_A + tr((I-P_A)R)/(m-k) (I-P_A), is at least log det R for positive definite R, and equals it at the true directions of an exact covariance; for a positive semidefinite R it is infinite exactly where that matrix is singular. Defect: for a noise-free covariance the AML objective is +infinity at the true directions, so the minimiser cannot return them.", "quantifier": "every A, R", "why_tests_cant": "inequalities over all inputs", "anchors": ["doatools/estimation/ml.py: AMLEstimator._eval_nll, CMLEstimator._eval_nll, WSFEstimator._prepare_m, WSFEstimator._eval_nll"]}
{"id": "C68", "title": "Source power normalisation", "statement": "unify_p_to_matrix and unify_p_to_vector accept a scalar, a length-k vector/list or a k x k matrix, agree with each other (the vector is the diagonal of the matrix) and raise ValueError for every other array or flat list; the matrix form is always k x k. Defect: nested lists are treated as vectors and give results of the wrong shape.", "quantifier": "every input shape", "why_tests_cant": "all shapes", "anchors": ["doatools/performance/utils.py: unify_p_to_matrix, unify_p_to_vector"]}
{"id": "C69", "title": "Return modes are consistent", "statement": "For every result matrix, 'diag' is the diagonal of 'full', 'mean_diag' the mean of 'diag', any other mode raises ValueError.", "quantifier": "every matrix and mode string", "why_tests_cant": "all inputs", "anchors": ["doatools/performance/utils.py: reduce_output_matrix"]}
{"id": "C70", "title": "CRB matrices are symmetric, positive semidefinite and scale as sigma/N", "statement": "crb_det_farfield_1d and crb_sto_farfield_1d return a real symmetric matrix, positive semidefinite for positive semidefinite source covariances, inversely proportional to n_snapshots; non-1D-far-field sources and wrong P shapes raise ValueError.", "quantifier": "every array, source set, covariance, sigma, N", "why_tests_cant": "all inputs", "anchors": ["doatools/performance/crb.py"]}
{"id": "C71", "title": "Uncorrelated stochastic CRB", "statement": "The matrix inverted by crb_stouc_farfield_1d is real symmetric and equals, entry by entry except possibly in the power-power block, the Slepian-Bangs form tr(R^{-1} dR_i R^{-1} dR_j) of the model covariance A diag(p) A^H + sigma I with respect to (theta, p, sigma), dR being the true derivatives; for one source all entries agree, and the bound is inversely proportional to the number of snapshots. Defect: entry (i,j) of the power-power block is Re(z^2) instead of |z|^2 for z = a_i^H R^{-1} a_j, which differs whenever z is not real.", "quantifier": "every array, sources, powers, sigma", "why_tests_cant": "matrix identity for all inputs", "anchors": ["doatools/performance/crb.py: crb_stouc_farfield_1d"]}
{"id": "C72", "title": "MUSIC error covariance", "statement": "ecov_music_1d raises ValueError when k >= M, returns a real symmetric matrix for Hermitian invertible P, proportional to 1/n_snapshots, with non-negative diagonal for positive definite P.", "quantifier": "every array, source set, P, sigma, N", "why_tests_cant": "all inputs", "anchors": ["doatools/performance/mse.py: ecov_music_1d"]}
{"id": "C73", "title": "Coarray MUSIC error covariance uses the array's own virtual ULA", "statement": "ecov_coarray_music_1d evaluates the documented formula on the virtual ULA with half-wavelength spacing; its subarray matrix maps the virtual observation to the vectorised Toeplitz matrix of the direct augmentation; for arrays with spacing lambda/2 that virtual ULA is the one of the array; it rejects perturbed arrays, other kinds of sources and k >= Mv. Defect: for arrays with another spacing the virtual ULA (and the error covariance) is wrong.", "quantifier": "every 1D grid array and spacing", "why_tests_cant": "all arrays and spacings", "anchors": ["doatools/performance/mse.py: ecov_coarray_music_1d"]}
{"id": "C74", "title": "Signal generators", "statement": "ComplexStochasticSignal accepts a scalar, a length-dim vector or a dim x dim matrix (arrays) and emits dim x n samples C2 W, W white, C2 C2^H = C: their sample covariance is C2 cov(W) C2^H, and in expectation they have mean zero, covariance C, and are circular and independent over time; RandomPhaseSignal accepts a vector of amplitudes and emits dim x n samples with |s_i(t)| = amplitude_i and uniform phases; wrong sizes raise ValueError. Defects: lists raise AttributeError; scalar amplitudes, though documented, raise TypeError or ValueError, except 2, which gives wrong amplitudes.", "quantifier": "every dim, C, amplitudes, n and random draw", "why_tests_cant": "all random draws", "anchors": ["doatools/model/signals.py"]}
{"id": "C75", "title": "Narrowband snapshots", "statement": "get_narrowband_snapshots returns Y = A S + N column by column, and R = Y Y^H / N which is Hermitian positive semidefinite with trace equal to the mean snapshot power; without noise_signal no noise is added and the source generator is called exactly once, before the noise generator.", "quantifier": "every array, generators, number of snapshots", "why_tests_cant": "all draws", "anchors": ["doatools/model/snapshots.py: get_narrowband_snapshots"]}
{"id": "C76", "title": "Sparse estimators: problem sizes and guards", "statement": "SparseCovarianceMatching builds a dictionary with 2M^2 rows and grid-size (+1 if the noise is unknown) columns matching its solver problem, returns a spectrum of grid size in every case (zeros on solver failure), never modifies R, requires sigma when the noise is known; GroupSparseEstimator checks Y's shape; both raise ValueError when refine_estimates is given, even False; non-square R is rejected when the noise is unknown. Defects: an M x 1 matrix is accepted and repeated when the noise is known; after a solver failure on a 2D grid the estimator reports resolved sources.", "quantifier": "every array, grid, solver outcome", "why_tests_cant": "all sizes and solver outcomes", "anchors": ["doatools/estimation/sparse.py", "doatools/optim/l1lsq.py"]}
{"id": "C77", "title": "l1-regularised problem formulations", "statement": "L1RegularizedLeastSquaresProblem minimises the documented objective under the documented constraints for each formulation name and non-negativity flag, raises ValueError for other names, and solve() returns the optimum for the parameters of this call, zeros when the solver does not report 'optimal'.", "quantifier": "every formulation, data, solver outcome and call history", "why_tests_cant": "all inputs and histories", "anchors": ["doatools/optim/l1lsq.py"]}
{"id": "C78", "title": "Spectra accepted by the plot functions", "statement": "The plot functions accept an array, a non-empty list/tuple or dict of arrays of the grid's shape and keep order and labels; everything else raises ValueError (elements of a collection that are no arrays: AttributeError); normalisation makes the maximum 1 for spectra with a positive maximum, leaves other spectra alone, and keeps ratios and order.", "quantifier": "every spectrum collection and array", "why_tests_cant": "all inputs", "anchors": ["doatools/plotting/plot_spectrum.py: _build_spectrum_list, _normalize_by_maximum", "doatools/plotting/plot_array.py: _plot_array_impl"]}
{"id": "C79", "title": "Stochastic likelihood function", "statement": "f_nll_stouc(R, array, sources, wavelength, p, sigma) returns log det S + tr(S^-1 R) for S = A diag(p) A^H + sigma I whenever det S >= 1; for positive definite R this is a real number at least log det R + m, with equality exactly when S = R; when S is singular or has a negative determinant it returns Inf. Defect: when 0 < det S < 1 it returns Inf although the likelihood is finite. Defect: an S that is not positive definite but has an even number of negative eigenvalues (negative powers or noise power) and |det S| >= 1 is accepted as a covariance and given a finite value.", "quantifier": "every array, source placement, powers, noise power and positive definite R", "why_tests_cant": "a bound over all covariances and all parameter values", "anchors": ["doatools/estimation/ml.py: f_nll_stouc"]}
{"id": "C80", "title": "1D spectrum plots", "statement": "plot_spectrum_1d draws, in this order, one line (or stem) per spectrum against the grid axis with the normalised values, the given labels and the colours C0, C1, C4.. in turn (never those of estimates and ground truth), then a stem of height one per estimate and per true location; it returns exactly these artists; a legend appears exactly when there is a non-empty label, estimates or ground truth; estimates or ground truth in other units raise ValueError. With stems, or when the given axes are pyplot's current ones, everything is on the given axes. Defects: otherwise the lines are drawn on the current axes instead of the given ones; dictionary keys that are no strings raise TypeError.", "quantifier": "all spectra, grids, estimates, ground truths, options and pyplot states", "why_tests_cant": "the bad cases depend on the state of pyplot and on the number of spectra; tests fix one of each", "anchors": ["doatools/plotting/plot_spectrum.py: plot_spectrum_1d"]}
{"id": "C81", "title": "2D spectrum plots", "statement": "plot_spectrum_2d draws one image whose pixel in column c and row r from below is the spectrum at grid index c of the horizontal and r of the vertical axis, swapped or not, with the extent from the least to the greatest axis value, labels and units of the axes, and scatter plots of the estimates and the truth in the same axis order; wrong shapes and units raise ValueError. On ascending evenly spaced axes every grid point lies in its own pixel. Defects: not at its centre, except in the middle of the axis (the extent lacks half a pixel on each side); on descending axes the image is mirrored; collections of spectra, which plot_spectrum documents, raise AttributeError.", "quantifier": "all 2D grids, spectra, sources and options", "why_tests_cant": "tests look at one picture; the pixel correspondence is for all sizes, both orders and all indices", "anchors": ["doatools/plotting/plot_spectrum.py: plot_spectrum_2d, plot_spectrum"]}
{"id": "C82", "title": "Dispatch of plot_spectrum; array plots", "statement": "plot_spectrum draws with the 1D or 2D function on the given axes, or on new ones that it then shows, returns axes and artists, rejects other dimensions with NotImplementedError and foreign keyword arguments with TypeError. plot_array / plot_coarray draw one scatter plot of the nominal locations (their distinct differences), padded to two dimensions, on the given or new axes, equal aspect below three dimensions; in three dimensions the limits get equal ranges; other dimensions raise ValueError. Defects: location errors are never shown, even if the array has them and they are asked for; the 3D limits are scaled about the origin and can leave the data outside.", "quantifier": "all arrays of any dimension, all perturbations, axes and pyplot states", "why_tests_cant": "the claim is about every array and every pyplot state", "anchors": ["doatools/plotting/plot_spectrum.py: plot_spectrum", "doatools/plotting/plot_array.py: plot_array, plot_coarray, _fix_3d_aspect"]}
{"id": "C83", "title": "MUSIC on a uniform linear array, end to end", "statement": "A program that builds UniformLinearArray(n, d), a FarField1DSearchGrid (from given angles, or the default uniform grid with d at most half a wavelength) and a MUSIC estimator with the default peak finder, and then calls estimate with the covariance matrix A P A^H + s I (A: the array's own steering matrix of 1 <= k < n far-field sources at grid positions that are neither neighbours nor at the border; P any nonsingular source covariance, correlated or not; s any real), gets resolved = True and exactly the source directions, in grid order, whatever calls of estimate were made on the estimator before.", "quantifier": "all n, d, wavelengths, units, grids without aliases, sets of sources, source covariances, noise levels, caching modes and histories of calls", "why_tests_cant": "the claim ranges over all arrays, directions and source covariances, and over every previous use of the estimator", "anchors": ["doatools/model/arrays.py: UniformLinearArray", "doatools/estimation/grid.py: FarField1DSearchGrid", "doatools/estimation/core.py: SpectrumBasedEstimatorBase, get_default_peak_finder", "doatools/estimation/music.py: MUSIC"]}
{"id": "C84", "title": "Coarray MUSIC locates more sources than sensors", "statement": "For a linear array on distinct multiples of a spacing d whose difference coarray is contiguous up to lag m - 1: the augmented covariance matrix (CoarrayACMBuilder1D, 'da' or 'ss') of A diag(p) A^H + sigma I, given to a MUSIC estimator built on get_virtual_ula(), yields exactly the source directions for every 1 <= k < m, e.g. up to n2 (n1 + 1) - 1 sources for NestedArray(n1, n2).", "quantifier": "all such arrays (in particular all nested arrays), sources at separated grid positions, positive powers, noise levels, histories of calls of the weight function and the estimator", "why_tests_cant": "unbounded array sizes and source sets; relies on an exact identity, not on a numerical tolerance", "anchors": ["doatools/model/coarray.py: CoarrayACMBuilder1D", "doatools/model/arrays.py: NestedArray", "doatools/estimation/music.py: MUSIC"]}
{"id": "C85", "title": "ESPRIT on designed arrays, end to end", "statement": "Esprit1D.estimate with d0 = d and displacement D, on the covariance A P A^H + s I of a UniformLinearArray(n, d) (or on the 'da'/'ss' augmented covariance of a sparse linear array, with n replaced by the number m of virtual sensors), returns resolved = True and a sorted list with exactly the source directions, for k distinct sources with k + D <= n whose phase d D sin(theta) lies within half a wavelength, in both formulations and for row weights 'none' (or weights on non-overlapping subarrays); at d <= lambda/2 and D = 1 the phase condition only excludes -90 degrees.", "quantifier": "all n, d, D, wavelengths, units, directions, nonsingular source covariances, noise levels", "why_tests_cant": "exact recovery for all arrays and source sets", "anchors": ["doatools/estimation/esprit.py: Esprit1D", "doatools/model/arrays.py: UniformLinearArray", "doatools/model/coarray.py: CoarrayACMBuilder1D"]}
{"id": "C86", "title": "Spatial smoothing restores coherent sources", "statement": "Let R = A P A^H + s I be the covariance of k sources on UniformLinearArray(n, d), P ANY positive semidefinite source covariance (e.g. rank one: fully coherent sources) with nonzero powers. spatial_smooth(R, l, fb) with k <= l <= n has the form A' P' A'^H + s I for the steering matrix A' of UniformLinearArray(n - l + 1, d) and a nonsingular P', forward only or forward-backward; so MUSIC and ESPRIT on the smaller array return exactly the source directions when k < n - l + 1 (k + D <= n - l + 1).", "quantifier": "all n, l, d, directions without aliases, source covariances (possibly singular), noise levels, both modes", "why_tests_cant": "the rank argument is about every coherent combination of sources", "anchors": ["doatools/estimation/preprocessing.py: spatial_smooth", "doatools/estimation/music.py: MUSIC", "doatools/estimation/esprit.py: Esprit1D"]}
{"id": "C87", "title": "Source number detection is right on exact covariances", "statement": "For M eigenvalues of which the M-K smallest equal the noise power s > 0 and the K largest exceed it (as for the covariance A P A^H + s I of K < M sources with independent steering vectors and positive definite P), there is N0 such that aic and mdl return exactly K for every number of snapshots N >= N0, from the eigenvalues or from the matrix. sorte returns K for 1 <= K <= M-3 provided that the gap g between the smallest signal eigenvalue and s satisfies g^2 (d-1)/d^2 >= float64 eps, d = M-K (the code's absolute threshold).", "quantifier": "all M, K, signal eigenvalues, noise powers and all N >= N0", "why_tests_cant": "consistency is a statement about all large N and all spectra", "anchors": ["doatools/estimation/source_number.py: aic, mdl, sorte"]}
{"id": "C88", "title": "Min-Norm on designed arrays, end to end", "statement": "MinNorm.estimate on the covariance A P A^H + s I (P positive definite) of k < n sources on UniformLinearArray(n, d), at grid points that are neither neighbours nor at the border, returns resolved = True and exactly the source directions, in grid order, whatever calls were made before; also on the default grid for d <= lambda/2, and on the virtual array of a sparse linear array with the 'da' or 'ss' augmented covariance. The reason: on a uniform linear array the spectrum is infinite at the sources and at no other direction (no spurious poles on the unit circle).", "quantifier": "all n, d, wavelengths, units, grids without aliases, source sets, source covariances, noise levels, call histories", "why_tests_cant": "absence of spurious peaks is a statement about every direction and covariance", "anchors": ["doatools/estimation/min_norm.py: MinNorm", "doatools/model/arrays.py: UniformLinearArray", "doatools/model/coarray.py: CoarrayACMBuilder1D"]}
{"id": "C89", "title": "Beamformers with a single source, end to end", "statement": "BartlettBeamformer.estimate and MVDRBeamformer.estimate (k = 1) on the covariance p a a^H + s I of a single source return exactly the source's grid point, resolved = True, on any array and grid (any dimension) whose steering vectors have equal norm and where no other grid point has a steering vector parallel to a, for s >= 0 (Bartlett) and s > 0 (MVDR); in particular on UniformLinearArray(n, d) with n >= 2 and a grid without aliases.", "quantifier": "all arrays, grids, powers, noise levels, positions of the source, call histories", "why_tests_cant": "the spectrum must be strictly smaller at every other grid point", "anchors": ["doatools/estimation/beamforming.py: BartlettBeamformer, MVDRBeamformer", "doatools/estimation/core.py: SpectrumBasedEstimatorBase"]}
{"id": "C90", "title": "MUSIC never beats the stochastic Cramer-Rao bound", "statement": "For a positive semidefinite source covariance, positive noise power and a positive number of snapshots, whenever the asymptotic covariance of MUSIC (ecov_music_1d) and the stochastic Cramer-Rao bound (crb_sto_farfield_1d) are both returned for the same array, sources and powers, the MUSIC covariance minus the bound is positive semidefinite; in particular the predicted variance of every source is at least its bound. With one source the two are equal (MUSIC is asymptotically efficient). Together with C70 the deterministic bound, the stochastic bound and the MUSIC covariance form an increasing chain.", "quantifier": "every array and perturbation set, every list of source directions and unit, every power argument denoting a positive semidefinite matrix, every noise power > 0 and snapshot count > 0", "why_tests_cant": "the inequality between two matrix functions is over all arrays, directions and powers; tests compare the two at a handful of scenarios", "anchors": ["doatools/performance/mse.py:ecov_music_1d", "doatools/performance/crb.py:crb_sto_farfield_1d", "doatools/performance/crb.py:crb_det_farfield_1d"]}
{"id": "C91", "title": "Names of array designs identify the design", "statement": "Every array design keeps an explicit name verbatim; without one it gets the documented default name, and two designs with default names have equal names only if they are of the same class (ULA, nested, co-prime, MRLA, UCA, URA) with the same integer arguments. (Limitation: spacing, radius, mode and perturbations are not part of the name.)", "quantifier": "every design class, all integer arguments, spacings, modes, keyword arguments", "why_tests_cant": "injectivity over all pairs of designs and integers", "anchors": ["doatools/model/arrays.py:UniformLinearArray", "doatools/model/arrays.py:NestedArray", "doatools/model/arrays.py:CoPrimeArray", "doatools/model/arrays.py:MinimumRedundancyLinearArray", "doatools/model/arrays.py:UniformCircularArray", "doatools/model/arrays.py:UniformRectangularArray"]}
{"id": "C92", "title": "Detect the number of sources, then locate them", "statement": "On the covariance A P A^H + s I (s > 0, P positive definite) of k < n sources on UniformLinearArray(n, d) there is N0 such that for every number of snapshots N >= N0 a program that computes k with mdl or aic from the matrix and passes it on to MUSIC (grid without aliases, sources at separated grid points) or ESPRIT (phase within half a wavelength, k + D <= n) gets exactly the source directions, resolved = True, after any history of calls.", "quantifier": "all n, d, wavelengths, units, source sets, source covariances, noise levels, call histories and N >= N0", "why_tests_cant": "Two statistical criteria and two estimators must agree for every array, scene and snapshot count; the threshold N0 depends on the eigenvalues.", "anchors": ["doatools/estimation/source_number.py: mdl, aic", "doatools/estimation/music.py: MUSIC", "doatools/estimation/esprit.py: Esprit1D", "doatools/model/arrays.py: UniformLinearArray"]}
{"id": "C93", "title": "Performance bounds depend on the physical scene only", "statement": "Two descriptions of the same physical scene - sensors rotated in the plane together with the sources, scaled together with the wavelength, moved to another origin (with the source covariance referred to it), sources listed in another order, angles written in radians, degrees or sines - give the same crb_det_farfield_1d, crb_sto_farfield_1d and ecov_music_1d matrices once converted to radians and reordered, and the second is defined whenever the first is (all sources off end-fire for sines). In particular as_unit changes the bounds only by the chain rule, and permuting the sources permutes rows and columns. crb_stouc_farfield_1d does the same between descriptions that give a common phase shift to all sources (same origin, or one source). Defect: moving the origin changes the matrix crb_stouc_farfield_1d inverts when there are two sources (consequence of the power block of C71), although the covariance model is unchanged.", "quantifier": "all arrays (response errors of any kind, moved sensors included), far-field 1D sources, units, rotations, scales, shifts, orders, powers, noise levels, snapshot counts, exact solvers", "why_tests_cant": "an invariance over a continuous group acting on arrays and sources; a test samples a few transformations", "anchors": ["doatools/performance/crb.py:crb_det_farfield_1d", "doatools/performance/crb.py:crb_sto_farfield_1d", "doatools/performance/crb.py:crb_stouc_farfield_1d", "doatools/performance/mse.py:ecov_music_1d", "doatools/model/sources.py:FarField1DSourcePlacement.phase_delay_matrix", "doatools/model/sources.py:FarField1DSourcePlacement.as_unit"]}
{"id": "C94", "title": "Spectrum-based estimates depend on the physical scene only", "statement": "The result of MUSIC (error or flag, estimates, spectrum, with or without refinement) does not change with the eigenvectors the eigenvalue routine happens to return, with the amplitude scale of the covariance matrix, with diagonal loading or the noise floor, with a unitary change of coordinates of the array output applied to covariance matrix and steering vectors, with the order in which the sensors are listed, with the origin of the coordinates, or with a common scaling of sensor locations and wavelength. The same holds for Min-Norm if the first sensor stays first, for the estimates of Bartlett (diagonal loading: if all steering vectors have the same length, as they do without response errors) and of MVDR (no loading, invertible covariance matrix); the values of the last two spectra are ordered in the same way. Limitation: MUSIC and Min-Norm need an eigenvalue gap below the k largest eigenvalues; without one (white noise, say) the spectrum depends on the eigenvectors returned.", "quantifier": "all arrays of isotropic scalar sensors with known errors of any kind (reordering: known location errors only), far-field grids of both kinds, covariance matrices, source numbers, options, correct eigenvalue and least-squares routines, unitary matrices, scales, loadings, orders, origins", "why_tests_cant": "an invariance over continuous groups, arrays, grids and all correct numerical libraries; a test compares one library on a few arrays", "anchors": ["doatools/estimation/music.py:MUSIC.estimate", "doatools/estimation/min_norm.py:MinNorm.estimate", "doatools/estimation/beamforming.py:BartlettBeamformer.estimate", "doatools/estimation/beamforming.py:MVDRBeamformer.estimate", "doatools/estimation/core.py:SpectrumBasedEstimatorBase._estimate", "doatools/estimation/core.py:get_noise_subspace", "doatools/model/arrays.py:ArrayDesign.steering_matrix"]}
{"id": "C95", "title": "Performance bounds respond correctly to a change of scenario", "statement": "More sensors: the deterministic and the stochastic Cramer-Rao bound of an array are at most those of any part of the array (same sensor locations, gain and phase errors; no mutual coupling), and exist whenever those of the part exist. Better conditions: raising the number of snapshots, lowering the noise power or raising the source covariance (deterministic bound: in the Loewner order; stochastic bound: by a common factor) never raises a bound. Only the signal-to-noise ratio matters: scaling source covariance and noise power by the same factor leaves both bounds unchanged. More sources: adding sources (stochastic bound: uncorrelated with the others) never lowers the bound of the others. Matrices are compared as quadratic forms, diagonals source by source, means as numbers, for every output mode (added sources: full and diagonal output).", "quantifier": "all arrays of isotropic scalar sensors and parts of them, sources and additional sources in any unit, wavelengths, positive semidefinite source covariance matrices, noise powers, snapshot numbers, output modes and correct solvers", "why_tests_cant": "order relations between two runs over all arrays, source sets and covariance matrices; a test compares a few pairs of numbers", "anchors": ["doatools/performance/crb.py:crb_det_farfield_1d", "doatools/performance/crb.py:crb_sto_farfield_1d", "doatools/performance/utils.py:reduce_output_matrix", "doatools/performance/utils.py:unify_p_to_matrix", "doatools/model/arrays.py:ArrayDesign.steering_matrix"]}
{"id": "C96", "title": "Search-free estimates and source counts depend on the physical scene only", "statement": "Estimates that need no search grid are functions of the physical scene, not of units, noise floor or the eigenvectors a solver happens to return. Root-MUSIC gives exactly the same result for R and for c R + delta I (c > 0, any delta), for any two correct eigendecompositions, and with wavelength and sensor spacing in another unit of length, whenever the k largest eigenvalues of R are separated from the rest. ESPRIT gives the same set of shifts, and exactly the same result if they are distinct, under the same changes and for any correct linear solver and eigenvalue routine, whenever its least-squares (ls or tls) problem determines the rotation; the covariance matrix of k sources on a uniform linear array with positive definite source covariance always does, for both formulations and every displacement with k + d <= m. AIC and MDL give the same count for a full-rank covariance matrix and for c U R U^H with U unitary (sensors listed in another order, other phase references); SORTE also under an added noise floor as long as scaling carries no gap variance across its epsilon (C54). Preprocessing commutes with the change: spatial smoothing and the \"da\" virtual array map c R + delta I to c B + delta I, the \"ss\" virtual array maps c R to c^2 B.", "quantifier": "all array sizes, source counts, covariance matrices, positive scales, noise floors, unitary changes, correct solvers, displacements, formulations, row weights and units", "why_tests_cant": "two runs of every covariance matrix and every correct eigenvector choice have to be compared; a test tries one library's eigenvectors on a few matrices", "anchors": ["doatools/estimation/music.py:RootMUSIC1D", "doatools/estimation/esprit.py:Esprit1D", "doatools/estimation/source_number.py:aic", "doatools/estimation/source_number.py:mdl", "doatools/estimation/source_number.py:sorte", "doatools/estimation/preprocessing.py:spatial_smooth", "doatools/estimation/coarray.py:CoarrayACMBuilder1D.transform", "doatools/model/sources.py:FarField1DSourcePlacement.from_z"]}
{"id": "C97", "title": "Maximum-likelihood objectives and estimates depend on the physical scene only", "statement": "Recording the same scene in other coordinates U (sensors listed in another order, known phases) and in another amplitude scale c > 0 changes the objective of AMLEstimator, CMLEstimator and WSFEstimator only by the factor c (CML, WSF) or by the constant m ln c (AML), infinite values staying infinite, for every candidate placement and all correct linear algebra routines (for WSF: if the k largest eigenvalues of R are separated from the rest); candidates are therefore ordered in the same way and the same ones are optimal, and CML keeps this order also under another noise floor. With c = 1, estimate() returns the same flag and sources or raises the same error, stores the same estimates and leaves every location array the same, for every optimiser that evaluates the objective inside the bounds it is given; in particular for the same sensors in another order, unit of length (wavelength included) and origin. The objective does not depend on the order in which the candidate sources are listed. f_nll_stouc is unchanged by a change of coordinates, and changes by m ln c when all powers are measured in another unit, while it is finite. Defect: f_nll_stouc is Inf whenever the determinant of the model covariance is below one (C79), so whether it is finite depends on the unit of power.", "quantifier": "all numbers of sensors and sources, arrays, wavelengths, Hermitian covariance matrices, candidate placements, unitary changes of coordinates, scales, correct routines, optimisers staying in bounds, and initial guesses", "why_tests_cant": "pairs of runs of two estimators have to agree for every covariance matrix, change of coordinates and optimiser behaviour; a test compares a few runs of one optimiser", "anchors": ["doatools/estimation/ml.py:AMLEstimator._eval_nll", "doatools/estimation/ml.py:CMLEstimator._eval_nll", "doatools/estimation/ml.py:WSFEstimator._prepare_opt_prob", "doatools/estimation/ml.py:CovarianceBasedMLEstimator.estimate", "doatools/estimation/ml.py:f_nll_stouc"]}
{"id": "C98", "title": "Sparse estimators solve covariance matching, and depend on the physical scene only", "statement": "The problem SparseCovarianceMatching solves is covariance matching: among non-negative powers p on the grid (and a non-negative noise power s if it is unknown), minimise the Frobenius distance between A diag(p) A^H + s I and the (denoised) R together with the total power, in the chosen formulation (penalised, constrained total power, constrained distance). For the first two formulations the powers found are unique whenever the covariance matrix determines the powers on the grid. Recording the same scene in other coordinates U, in another amplitude scale c > 0 (with l scaled by c) and, when the noise power is given, with another noise floor (given noise power c s + delta) scales the optimal powers by c; so if the powers are unique and the solver works, estimate() returns the same flag and sources or raises the same error, leaves every location array the same, and returns c times the spectrum. The same holds for GroupSparseEstimator with snapshots c U Y. In particular this covers the same sensors in another order, unit of length (wavelength included) and origin. Limitation: with unknown noise power the noise floor may not change (the noise power is constrained to be non-negative).", "quantifier": "all grids, arrays, wavelengths, covariance matrices and snapshots, unitary changes of coordinates, scales, formulations, regularisation parameters, earlier calls, and solvers that work on the two problems", "why_tests_cant": "pairs of runs have to agree for every covariance matrix, change of coordinates and solver; a test compares a few runs of one solver to within its tolerance", "anchors": ["doatools/estimation/sparse.py:SparseCovarianceMatching.estimate", "doatools/estimation/sparse.py:GroupSparseEstimator.estimate", "doatools/optim/l1lsq.py:L1RegularizedLeastSquaresProblem", "doatools/optim/l1lsq.py:L21RegularizedLeastSquaresProblem"]}
{"id": "C99", "title": "Stability: small errors of the covariance matrix do not change the estimates", "statement": "Let eps be the Frobenius distance between a covariance estimate R' and the true covariance R. Every eigenvalue of R' is within eps of the corresponding eigenvalue of R. If every combination of the sources is received with power at least delta > eps (delta > 0 exists whenever the steering matrix has full column rank and the source covariance is positive definite), the noise subspace tilts by at most eps / (delta - eps): the MUSIC spectrum keeps the direction of a source above any direction whose steering vector is at distance eta from all combinations of the sources as soon as that tilt times the two steering vector lengths is below eta, and if this holds for the whole grid MUSIC returns exactly the true grid points. More generally, for any Hermitian R with an eigenvalue gap (MUSIC), any R (Bartlett) and any positive definite R (MVDR), there is eps0 > 0 such that every strict comparison between two spectrum values on a grid survives all errors below eps0; the Bartlett value at a moves by at most eps |a|^2 and the MVDR value by a factor between 1 - eps/lambda_min and 1 + eps/lambda_min. Consequently for a uniform linear array and an unambiguous grid with separated on-grid sources there is eps0 > 0 such that MUSIC (any number of sources below the number of sensors) and Bartlett / MVDR (one source) return exactly the true directions for every R' within eps0, whatever eigenvector basis or linear solver is used and whatever calls were made before. Redundancy averaging never moves an entry by more than eps, and the same eps0 statement holds for coarray MUSIC with methods 'da' and 'ss' on sparse linear arrays with more sources than sensors. Hence the estimators are consistent: if a sequence of covariance estimates converges to R, from some point on the estimates are exact.", "quantifier": "all scenes, arrays, grids and covariance matrices with the stated properties, all Hermitian error matrices below the threshold, all eigenvalue routines and solvers meeting their contracts, all call histories", "why_tests_cant": "an open set of error matrices cannot be enumerated, and the guarantee must hold for every eigenvector basis an eigenvalue routine may return for the perturbed matrix", "anchors": ["doatools/estimation/core.py:get_noise_subspace", "doatools/estimation/core.py:SpectrumBasedEstimatorBase._estimate", "doatools/estimation/music.py:f_music", "doatools/estimation/music.py:MUSIC.estimate", "doatools/estimation/beamforming.py:BartlettBeamformer.estimate", "doatools/estimation/beamforming.py:MVDRBeamformer.estimate", "doatools/estimation/coarray.py:CoarrayACMBuilder1D.transform"]}
{"id": "C100", "title": "Source number detection from inexact covariances; consistency of the detect-then-locate program", "statement": "Let R be the covariance A P A^H + s I of K < M sources (A of full column rank, P positive definite, s > 0) and let R' be a Hermitian estimate at Frobenius distance eps. There are c > 0 and N0 such that for every number of snapshots N >= N0: aic(R', N) = K whenever N eps^2 <= c, and mdl(R', N) = K whenever N eps^2 <= c ln N; the same holds for eigenvalue lists whose entries are off by at most eps. Hence mdl is consistent: along a growing record whose squared errors fall faster than ln N / N it eventually returns K, and the program that passes mdl's count on to MUSIC (uniform linear array, separated sources on an alias-free grid) eventually returns exactly the true directions, after any history of calls. sorte returns K for every R' within some eps0 if the smallest signal eigenvalue stands out by more than the code's absolute threshold. For arbitrary eigenvalues >= m a count that beats all others by a margin is kept when 6 N M eps / m is below the margin (eps <= m/2). Neither criterion undercounts: for estimates within some eps > 0 of R and every N >= N0 (whatever the relation of eps and N) aic and mdl return at least K and less than M. Limitation: aic is not consistent: for every s there are covariance estimates converging to s I with errors of order 1/sqrt N (the order of the sampling error) on which aic reports one source for every N, while mdl is eventually right on them.", "quantifier": "all scenes with the stated properties, all Hermitian error matrices and snapshot counts within the budget, all sequences of estimates, all eigenvalue routines meeting their contracts, all call histories", "why_tests_cant": "an open set of error matrices and unbounded snapshot counts cannot be enumerated; whether the budget may grow with ln N is an asymptotic statement", "anchors": ["doatools/estimation/source_number.py:aic", "doatools/estimation/source_number.py:mdl", "doatools/estimation/source_number.py:sorte", "doatools/estimation/source_number.py:ld_stat", "doatools/estimation/music.py:MUSIC.estimate"]}
{"id": "C101", "title": "ESPRIT is continuous in the covariance and consistent", "statement": "ESPRIT does not search a grid, so an inexact covariance moves its estimates; they move continuously. Shifts: around every Hermitian R with a gap between its (M-K)-th and (M-K+1)-th eigenvalue and a well-posed rotation problem (least squares: first subarray of full column rank; total least squares: separated small eigenvalues and invertible lower block), if the K shifts are distinct, then for every tolerance there is eps > 0 such that on every Hermitian R' within Frobenius distance eps the computation succeeds and returns the same shifts up to order and tolerance, whatever eigen- and linear solvers meeting their contracts are used in either run (eigenvector phases, bases of degenerate subspaces and output orders may differ). Directions: on a uniform linear array (and on the virtual array of a sparse design for both augmentation methods, also with more sources than sensors) with distinct sources whose phase over the displacement stays strictly within half a cycle and none at endfire, for every tolerance there is eps > 0 such that for every Hermitian R' within eps of the true covariance the i-th smallest returned direction is within the tolerance of the i-th smallest true one, in every unit, for both formulations. Hence if covariance estimates converge to the true covariance, the ESPRIT estimates converge to the true directions. Limitation: at the edge of the field of view this fails: with two sensors half a wavelength apart and a source at +90 degrees, matrices arbitrarily close to the true covariance give a direction below -80 degrees.", "quantifier": "all arrays, scenes and weights with the stated properties, all tolerances, all Hermitian matrices in the neighbourhood, all solvers meeting their contracts, all convergent sequences of estimates", "why_tests_cant": "a neighbourhood of matrices is uncountable and eigen-solvers may return any phases, bases and orders; convergence is a limit statement", "anchors": ["doatools/estimation/esprit.py:Esprit1D.estimate", "doatools/estimation/esprit.py:get_default_row_weights", "doatools/model/sources.py:FarField1DSourcePlacement.from_z", "doatools/estimation/coarray.py:CoarrayACMBuilder1D.transform"]}
{"id": "C102", "title": "root-MUSIC is continuous in the covariance and consistent", "statement": "Let R be an exact covariance of K < M sources with nonsingular source covariance on a uniform linear array. For every tolerance there is eps > 0 such that for every Hermitian R' within Frobenius distance eps of R, none of whose steering vectors (on the whole unit circle) is exactly orthogonal to all estimated noise eigenvectors, root-MUSIC succeeds and reports resolved, and the K roots it uses are the true ones up to order and tolerance, whatever eigen-solver and root finder meeting their contracts are used. When no source is at endfire or at the ambiguity boundary, the i-th smallest returned direction is within the tolerance of the i-th smallest true one, in every unit. The same holds for the virtual array of a sparse design, for both augmentation methods, also with more sources than sensors. Hence if covariance estimates of this kind converge to the true covariance, the root-MUSIC estimates converge to the true directions. Limitation: matrices with an exact null on the unit circle (R itself among them) are excluded, because root-MUSIC loses exact double roots (the defect of C62).", "quantifier": "all arrays and scenes with the stated properties, all tolerances, all Hermitian matrices in the neighbourhood without an exact null, all solvers meeting their contracts, all convergent sequences of estimates", "why_tests_cant": "a neighbourhood of matrices is uncountable, solvers may return any phases, bases and orders of roots, and the polynomial sits at a point where all the wanted roots are double; convergence is a limit statement", "anchors": ["doatools/estimation/music.py:RootMUSIC1D.estimate", "doatools/estimation/core.py:get_noise_subspace", "doatools/model/sources.py:FarField1DSourcePlacement.from_z", "doatools/estimation/coarray.py:CoarrayACMBuilder1D.transform"]}
{"id": "C103", "title": "Detect the number of sources, then locate them without a search grid; more sources than sensors", "statement": "Let R be the covariance of K sources in noise of positive power on a uniform linear array. For every tolerance there are c > 0 and N0 such that for every Hermitian estimate R' and every number of snapshots N >= N0 with N dist(R, R')^2 <= c ln N, mdl(R', N) returns K, and ESPRIT (either formulation, any displacement with unambiguous phases) and root-MUSIC (if R' has no exact null on the unit circle) given that count return K directions within the tolerance of the true ones. The same holds on every sparse design with uncorrelated sources, up to the size of its virtual array and so with more sources than sensors, when mdl, ESPRIT and root-MUSIC are given the augmented covariance (either augmentation method). Hence, along a growing record whose squared errors fall faster than ln N / N, the program that does not know the number of sources eventually reports the right number, and its directions converge to the true ones.", "quantifier": "all arrays, designs, scenes and tolerances with the stated properties, all Hermitian estimates and snapshot counts within the budget, all records, all solvers meeting their contracts", "why_tests_cant": "the estimates range over a neighbourhood of an uncountable set, and consistency is a limit statement about infinite records", "anchors": ["doatools/estimation/source_number.py:mdl", "doatools/estimation/esprit.py:Esprit1D.estimate", "doatools/estimation/music.py:RootMUSIC1D.estimate", "doatools/estimation/coarray.py:CoarrayACMBuilder1D.transform"]}
{"id": "C104", "title": "Conjugated measurements are measurements of the reflected array; forward and backward covariance are equivalent", "statement": "Complex-conjugating the array output is the same as reflecting the array in a point. (a) If the steering vectors and the covariance matrix of a spectrum-based estimator are replaced by their complex conjugates, MUSIC, Min-Norm, Bartlett and MVDR return exactly the same flag, estimates and spectrum, refinement included and whatever eigenvectors the eigenvalue routine picks. (b) Let a' be a reflected in a point, its sensors listed in any order and measured in any unit of length (wavelength included) from any origin, without known gain, phase or coupling errors. The conjugated covariance matrix (in that order of sensors, in another amplitude unit, with another noise floor) on a' gives the same results as the original one on a (Min-Norm if the first sensor stays first; MVDR without changing the noise floor; Bartlett and MVDR spectra in the same order of values). (c) Consequently on a uniform linear array the backward covariance matrix J conj(R) J gives the same results as R for MUSIC, Bartlett and MVDR, and for root-MUSIC exactly the same estimates without any assumption on the root finder. (d) ESPRIT on conj(R) finds the complex conjugates of the shifts it finds on R, so the directions are mirrored at broadside (shifts distinct and not on the negative real axis, where the angle of both is +pi). (e) aic, mdl and sorte return the same number of sources on the conjugated measurements.", "quantifier": "all covariance matrices (with an eigenvalue gap where subspaces are used), arrays, reflections, sensor orders, units, grids, options, all oracles meeting their contracts", "why_tests_cant": "a relational statement about two runs on arbitrary Hermitian matrices and arbitrary arrays, for every eigenvector choice of the linear algebra library", "anchors": ["doatools/estimation/music.py:MUSIC.estimate", "doatools/estimation/music.py:RootMUSIC1D.estimate", "doatools/estimation/min_norm.py:MinNorm.estimate", "doatools/estimation/beamforming.py:BartlettBeamformer.estimate", "doatools/estimation/beamforming.py:MVDRBeamformer.estimate", "doatools/estimation/esprit.py:Esprit1D.estimate", "doatools/estimation/source_number.py:mdl", "doatools/model/arrays.py:ArrayDesign.steering_matrix"]}
{"id": "C105", "title": "The maximum-likelihood estimators are consistent on uniform linear arrays", "statement": "On a uniform linear array with at most half a wavelength between neighbouring sensors, with distinct sources (fewer than sensors, none at endfire or at the ambiguity boundary, source covariance positive definite): for every tolerance there is a level eps such that, for every Hermitian R' within eps of the true covariance matrix, the directions returned by the AML, CML or WSF estimator are the true ones, in some order, up to the tolerance, from every initial guess and after every earlier history of the estimator, provided the optimiser ends at a point of the bounds whose objective is within eps of the smallest. Hence the estimates converge when the covariance estimates do. For CML the error is explicit: for each true direction a the product of the squared chords 4 sin^2(pi d / lambda (sin a - sin b)) over the estimates b, times the smallest source power, is at most 4^k (2 n |R - R'| + eps). Optimisers meeting the proviso exist for every guess and every Hermitian R' (AML: positive definite), and estimate succeeds with them. CML and WSF need no condition on the noise; AML needs noise and more than twice as many sensors as sources. Limitation: without that, the AML objective can have wrong global minima: with two sensors and one source at a in noise, the direction b with sin a - sin b = lambda / (2 d) has exactly the same, smallest, objective (e.g. -30 degrees for a source at 30 degrees at half a wavelength), because the concentrated likelihood does not require the fitted source covariance to be positive semidefinite.", "quantifier": "all uniform linear arrays, wavelengths, source sets, source covariance matrices, noise levels, tolerances, Hermitian covariance estimates, initial guesses, histories, optimisers that find minima, all linear algebra routines meeting their contracts", "why_tests_cant": "a limit statement over all perturbations of the covariance matrix and all candidate directions of a non-convex objective; tests with random data see a few perturbations and one local optimiser", "anchors": ["doatools/estimation/ml.py:AMLEstimator", "doatools/estimation/ml.py:CMLEstimator", "doatools/estimation/ml.py:WSFEstimator", "doatools/estimation/ml.py:CovarianceBasedMLEstimator.estimate", "doatools/model/arrays.py:UniformLinearArray", "doatools/model/arrays.py:ArrayDesign.steering_matrix"]}
{"id": "C106", "title": "MUSIC finds sources that lie between the grid points", "statement": "On a uniform linear array with distinct sources (fewer than sensors, source covariance positive definite) in the interior of a range of directions without aliases (at most half a wavelength between sensors: any directions but endfire): there is a grid step, depending on the geometry and the directions only, such that on every grid of that range at least that fine, after every earlier history of the estimator, MUSIC applied to the exact covariance matrix is resolved and returns for each direction, in ascending order, one of the grid points between its two grid neighbours (each direction lies between the grid points next to its estimate). For every tolerance there is eps such that the same holds, up to the tolerance, for every Hermitian matrix within eps of the covariance matrix, on every grid at least that fine. Hence on FarField1DSearchGrid of sufficiently large size, with default or given bounds, every error bound t is met, and the estimates are consistent as the covariance estimates converge and the grids are refined. The same holds for coarray MUSIC on the augmented covariance matrix, with possibly more sources than sensors.", "quantifier": "all uniform linear arrays (coarray: all 1-D grid-based designs), wavelengths, source sets, source covariance matrices, noise levels, tolerances, search grids at least as fine as the step, histories, Hermitian perturbations, peak finders and linear algebra routines meeting their contracts", "why_tests_cant": "needs a statement about all grids and all perturbations of the covariance matrix: tests use sources on or near one grid and one realisation; spurious peaks between sources, missed peaks and neighbour swaps show up only for unlucky positions", "anchors": ["doatools/estimation/music.py:MUSIC", "doatools/estimation/music.py:f_music", "doatools/estimation/core.py:SpectrumBasedEstimatorBase", "doatools/estimation/core.py:find_peaks_simple", "doatools/estimation/grid.py:FarField1DSearchGrid", "doatools/model/arrays.py:UniformLinearArray", "doatools/estimation/coarray.py:CoarrayACMBuilder1D"]}
{"id": "C107", "title": "Refinement converges geometrically, and MUSIC with refinement is accurate", "statement": "With refinement every estimate converges to the nearest peak of the spectrum. For every spectrum-based estimator on a one-dimensional grid of floats whose spectrum ranks the points of every one-dimensional grid in one way: if estimation without refinement succeeds, so does estimation with it, with the same number of estimates; and if the two grid neighbours of an unrefined estimate enclose a single peak of the spectrum (up to a tolerance), the refined estimate stays between them and is within (distance of the two neighbours) / (2 * density^n_iters) of the peak, up to the tolerance. Hence for MUSIC on a uniform linear array with distinct sources in the interior of a range of directions without aliases there is a grid step, depending on the geometry and the directions only, such that on every grid at least that fine, after every earlier history, the refined estimates from the exact covariance matrix are within step / density^n_iters of the directions, in the same order; and within any tolerance more for every Hermitian matrix close enough to it. On FarField1DSearchGrid one size of the grid, for the geometry and the directions alone, suffices for every error bound when the density is at least 2 and the iterations are enough; so the refined estimates are consistent on one fixed grid as the covariance estimates converge. The same holds for coarray MUSIC on the augmented covariance matrix.", "quantifier": "all one-dimensional grids, spectra, densities, numbers of iterations, numbers of sources, histories; all uniform linear arrays (coarray: all 1-D grid-based designs), source sets, source covariance matrices, noise levels, Hermitian perturbations, error bounds", "why_tests_cant": "needs a statement about all spectra, densities and numbers of iterations: an off-by-one in the refined axis, its bounds or its re-centring still yields plausible estimates in the example of a test, and only limits the accuracy that can be reached", "anchors": ["doatools/estimation/core.py:SpectrumBasedEstimatorBase", "doatools/estimation/grid.py:SearchGrid", "doatools/estimation/music.py:MUSIC", "doatools/estimation/coarray.py:CoarrayACMBuilder1D"]}
{"id": "C108", "title": "Min-Norm, Bartlett and MVDR find sources between the grid points", "statement": "The other spectrum-based estimators share the accuracy of MUSIC with sources that are on no grid point. Min-Norm, for any number of distinct sources below the number of sensors of a uniform linear array, and the Bartlett and MVDR beamformers, for one source (MVDR: with a positive noise level), in the interior of a range of directions without aliases: there is a grid step, depending on the geometry and the directions only, such that on every ascending search grid at least that fine, after every earlier history, estimation from the exact covariance matrix succeeds and returns for each direction one of the two grid points next to it; with refinement the estimates are within step / density^n_iters of the directions. For every tolerance the same holds up to the tolerance for all matrices close enough to the covariance matrix (Min-Norm: Hermitian ones; Bartlett and MVDR: any). On FarField1DSearchGrid every sufficiently large size meets a given error bound without refinement, and one size meets every error bound with refinement, density at least 2 and enough iterations; so the refined estimates are consistent on one fixed grid. Coarray Min-Norm has the same accuracy on the augmented covariance matrix.", "quantifier": "all uniform linear arrays, spacings, wavelengths, units, source sets, source covariance matrices, noise levels, search grids, histories, perturbations, error bounds, densities and numbers of iterations; coarray: all 1-D grid-based designs", "why_tests_cant": "a test places its sources on the grid or accepts an error of some grid steps for one grid and one covariance matrix; that every direction is found, in order, between its two grid neighbours needs the shape of the spectrum for every source set and every perturbation", "anchors": ["doatools/estimation/min_norm.py:MinNorm", "doatools/estimation/beamforming.py:BartlettBeamformer", "doatools/estimation/beamforming.py:MVDRBeamformer", "doatools/estimation/core.py:SpectrumBasedEstimatorBase", "doatools/estimation/grid.py:FarField1DSearchGrid", "doatools/estimation/coarray.py:CoarrayACMBuilder1D"]}
{"id": "C109", "title": "Simulated sample covariances converge, and the estimators then find the sources with probability tending to 1", "statement": "For snapshots simulated with ComplexStochasticSignal sources and noise, the sample covariance matrix returned by get_narrowband_snapshots converges to A C A^H + Cn in mean square at the rate 1/n: every entry has the mean-square error (R_ii R_jj + (kappa - 3) w_ij) / n, where kappa is the fourth moment of a draw and 0 <= w_ij <= R_ii R_jj; for normal draws (kappa = 3) exactly R_ii R_jj / n, and the mean-square Frobenius distance is exactly (trace R)^2 / n. Hence for every probability p > 0 there is a number of snapshots, independent of the state of the random number generator, from which on the following hold except with probability at most p, for every direction set of distinct sources and every positive definite source covariance: refined MUSIC and Min-Norm (any number of sources below the number of sensors) and refined Bartlett and MVDR (one source) on one sufficiently fine default grid give every direction within any chosen error bound; MDL applied to the sample covariance returns the true number of sources, and ESPRIT and root-MUSIC with that number give the directions within the bound; for any array with linearly independent steering vectors MDL returns the true number (SORTE too, if the smallest signal eigenvalue stands out by more than the code's threshold) and AIC at least that number; the same with MDL and ESPRIT or root-MUSIC, and with refined MUSIC and Min-Norm for the virtual array, on the augmented coarray covariance of a sparse array with uncorrelated sources, also with more sources than sensors; and the maximum-likelihood estimators with a minimiser that comes close enough to the minimum.", "quantifier": "all array geometries and covariance arguments (mean-square error); all uniform linear arrays or 1-D grid-based designs, spacings, wavelengths, units, source sets, covariances, noise levels, error bounds, probabilities, generator states, distributions of the draws with the stated moments, histories of the estimator objects", "why_tests_cant": "a simulation test checks one seed and one number of snapshots against a loose tolerance; that the failure probability tends to 0 for every scene needs the fourth moments of the simulated signals and the stability of every estimator", "anchors": ["doatools/model/signals.py:ComplexStochasticSignal", "doatools/model/snapshots.py:get_narrowband_snapshots", "doatools/estimation/music.py:MUSIC", "doatools/estimation/music.py:RootMUSIC1D", "doatools/estimation/min_norm.py:MinNorm", "doatools/estimation/beamforming.py:BartlettBeamformer", "doatools/estimation/esprit.py:Esprit1D", "doatools/estimation/source_number.py:mdl", "doatools/estimation/coarray.py:CoarrayACMBuilder1D", "doatools/estimation/ml.py:CovarianceBasedMLEstimator"]}
{"id": "C110", "title": "Spatial smoothing of estimated covariance matrices: coherent sources are counted and located", "statement": "spatial_smooth of a Hermitian covariance estimate (real or complex, forward or forward-backward) is Hermitian, and the Frobenius distance between the smoothed matrices of two Hermitian inputs is never larger than the distance between the inputs. On an n-sensor uniform linear array with K distinct sources inside the unambiguous range, l >= K subarrays and n - l + 1 > K sensors per subarray, for every source covariance with non-zero powers (fully coherent sources included) and any noise level s > 0 there are c > 0 and N0 such that for every Hermitian estimate R' of the covariance R with N |R' - R|^2 <= c ln N, N >= N0: MDL applied to the smoothed estimate returns K, and ESPRIT (any displacement D with K + D <= n - l + 1) and root-MUSIC with that count return all K directions within any chosen error bound; refined MUSIC and Min-Norm for the smaller array on any sufficiently fine default grid also do, whatever the noise level. From simulated snapshots all of this holds with probability tending to 1, whatever the state of the generator. Limitation: without smoothing, fully coherent sources are counted as one by MDL however many snapshots are taken.", "quantifier": "all array lengths, subarray counts, spacings, wavelengths, units, source sets, source covariances with non-zero powers, noise levels, smoothing directions, covariance estimates, error bounds, probabilities, generator states", "why_tests_cant": "coherent scenes are a continuum and the threshold of snapshots differs for each of them; a test checks one seed; that smoothing restores the rank for every fully coherent source covariance and never amplifies the estimation error needs a proof", "anchors": ["doatools/estimation/preprocessing.py:spatial_smooth", "doatools/estimation/source_number.py:mdl", "doatools/estimation/esprit.py:Esprit1D", "doatools/estimation/music.py:MUSIC", "doatools/estimation/music.py:RootMUSIC1D", "doatools/estimation/min_norm.py:MinNorm", "doatools/model/snapshots.py:get_narrowband_snapshots"]}
{"id": "C111", "title": "Limitation: one-dimensional searches never return end points of the grid, adjacent grid points, or k sources on fewer than 2k + 1 points", "statement": "For every estimator on a FarField1DSearchGrid with the built-in peak finder, whatever the spectrum: without refinement the k returned directions are grid points at ascending positions, each a local maximum of the spectrum, no two of them at adjacent positions, and neither the first nor the last grid point is among them, so a source at an end of the grid is never reported there and two sources one grid step apart are never both reported. With fewer than 2k + 1 grid points, with or without refinement, resolved is False and no estimates are returned; this holds for MUSIC, Min-Norm, Bartlett, MVDR and for the estimates the sparse estimators read from their solution, for every covariance matrix. A spectrum that rises or falls over the whole grid (a source at one of the ends) is never resolved for k >= 1, with or without refinement. Three points suffice for one source: the bound is sharp.", "quantifier": "every spectrum, grid, peak finder meeting scipy's contract, number of sources, options, estimator state, covariance matrix", "why_tests_cant": "the limits hold for all spectra and all covariance matrices: a test exhibits single cases, and cannot exclude that some spectrum gets an end point returned", "anchors": ["doatools/estimation/core.py:SpectrumBasedEstimatorBase._estimate", "doatools/estimation/core.py:find_peaks_simple", "doatools/estimation/grid.py:FarField1DSearchGrid", "doatools/estimation/music.py:MUSIC", "doatools/estimation/sparse.py:GroupSparseEstimator"]}
