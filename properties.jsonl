{"id": "C01", "title": "Field count from spectra count is exact", "statement": "nfields_from_nspectra(T) returns n exactly when T = n(n+1)/2 for a natural number n, and raises ValueError for every other T; in exact arithmetic for all T, and in IEEE double arithmetic for every T below 2^103 (not for all larger T).", "quantifier": "for every natural number T (exact), and every T < 2^103 (double precision sqrt/floor)", "why_tests_cant": "The square root is evaluated in floating point; a test can sample a few triangle numbers but a wrong rounding at any of 2^103 arguments would silently mis-size a simulation.", "anchors": ["glass/fields.py:_inv_triangle_number", "glass/fields.py:nfields_from_nspectra"]}
{"id": "C02", "title": "Spectra ordering is one bijection shared by all accessors", "statement": "spectra_indices(n) lists every unordered pair of fields exactly once, with row k equal to the pair that enumerate_spectra attaches to entry k, and getcl(cls,i,j) returns precisely the entry that enumerate_spectra labels with {i,j}; getcl is symmetric in i and j.", "quantifier": "for every number of fields n, every list of n(n+1)/2 spectra, every i,j < n", "why_tests_cant": "The three functions use three different index formulae; agreement for all n is an induction, tests check n up to 3 or 4.", "anchors": ["glass/fields.py:enumerate_spectra", "glass/fields.py:spectra_indices", "glass/fields.py:getcl", "docs/reference/fields.rst:twopoint_order"]}
{"id": "C03", "title": "enumerate_spectra float index recovery", "statement": "The row index that enumerate_spectra recovers from the running counter k with a floating-point power, int((2k+0.25)**0.5-0.5), equals the integer triangular root of k whenever the power is a faithful rounding, for every k up to a stated bound, and not for every k.", "quantifier": "for every counter value k < 2^50 and every faithfully rounded result of the power", "why_tests_cant": "The recovery happens at the exact edge of a floor at every triangular number; a rounding error there mislabels all subsequent spectra and is not visible for small k.", "anchors": ["glass/fields.py:enumerate_spectra"]}
{"id": "C04", "title": "getcl length contract", "statement": "getcl(cls,i,j,lmax) has length lmax+1 for every input length, agrees with the stored spectrum on the common range and is zero beyond it; without lmax the stored spectrum is returned unchanged.", "quantifier": "for all spectra lists, i, j and lmax", "why_tests_cant": "Truncation and padding interact with every length relation (shorter, equal, longer, empty).", "anchors": ["glass/fields.py:getcl"]}
{"id": "C05", "title": "GLASS/HEALPix spectra reordering is a lossless round trip", "statement": "glass_to_healpix_spectra places the cross-spectrum of fields (i,i-k) at HEALPix position 'diagonal k, row', healpix_to_glass_spectra is its two-sided inverse, and both preserve the multiset of spectra.", "quantifier": "for every number of fields and every list of spectra of triangular length", "why_tests_cant": "A permutation identity over all n; tests use n=3 or so, and self-inverse mistakes cancel in small cases.", "anchors": ["glass/fields.py:glass_to_healpix_spectra", "glass/fields.py:healpix_to_glass_spectra"]}
{"id": "C06", "title": "Harmonic coefficient reordering is a bijection", "statement": "_glass_to_healpix_alm maps GLASS order (l-major) to HEALPix order (m-major): coefficient (l,m) ends at index m(2 lmax+1-m)/2+l; the map is a permutation of all coefficients and the first lmax+1 outputs are exactly the m=0 coefficients.", "quantifier": "for every lmax and every coefficient array of triangular size", "why_tests_cant": "Closed-form index formula must hold for every l,m; only an arithmetic proof covers all sizes.", "anchors": ["glass/fields.py:_glass_to_healpix_alm"]}
{"id": "C07", "title": "multalm multiplies each mode by the value of its own l", "statement": "multalm(alm,bl) in GLASS order multiplies coefficient (l,m) by bl[l], for all m<=l<=lmax, and leaves the length unchanged; arrays that do not belong to a common lmax are rejected (except for the broadcasting of length-one pieces).", "quantifier": "for every lmax, alm array and bl array", "why_tests_cant": "Slices of different start and length for each m; off-by-one at any m stays invisible in an isotropic test.", "anchors": ["glass/harmonics.py:multalm"]}
{"id": "C08", "title": "discretized_cls selects, truncates and smooths the right spectra", "statement": "After discretized_cls the entry for fields (i,j) is empty when |i-j|>ncorr, otherwise truncated to lmax+1 and multiplied mode by mode by the squared pixel window; number and order of spectra are unchanged; a non-triangular list raises ValueError when ncorr is given.", "quantifier": "for every list of spectra, lmax, ncorr, nside", "why_tests_cant": "Interaction of truncation to the shorter of spectrum and pixel window with the ordering, for all sizes.", "anchors": ["glass/fields.py:discretized_cls"]}
{"id": "C09", "title": "Iterative conditional normal sampler reproduces the target covariance", "statement": "When the conditional variances produced by iternorm are all positive, the sequence x_i = a_i . (previous k draws) + s_i z_i built from its output has covariance C(i,i-d) equal to the requested value for every lag d <= k, and for a general k the joint law equals the banded Cholesky factorisation; the variance of every draw is exact. Degrees at which all covariances vanish give zero draws and leave the other degrees unaffected.", "quantifier": "for every k, every number of fields, every covariance sequence with positive conditional variances", "why_tests_cant": "The state update of the inverse-triangular matrix is an inductive invariant over an unbounded sequence of fields; sampling tests check only noisy moments for small cases.", "anchors": ["glass/fields.py:iternorm"]}
{"id": "C10", "title": "iternorm on degenerate (semi-definite) input", "statement": "iternorm claims to handle conditional standard deviation zero ('add a zero row'): the property that positive semi-definite covariances are accepted and reproduced is refuted by concrete covariances (one rejected with ValueError, one silently given a wrong cross-covariance).", "quantifier": "there exist positive semi-definite covariance sequences that are rejected or sampled wrongly", "why_tests_cant": "Tests only use positive definite input; the failing state arises only after a zero pivot followed by a correlated field.", "anchors": ["glass/fields.py:iternorm"]}
{"id": "C11", "title": "cls2cov lays out covariance rows in sampler order", "statement": "The j-th value yielded by cls2cov is the array whose column i holds, for every l, half the spectrum of fields (j,j-i), zero padded to nl, with all remaining columns zero; for every number of correlated fields nc; a negative auto-spectrum raises ValueError.", "quantifier": "for all spectra lists, nl, nf, nc, every step j", "why_tests_cant": "The array is re-used and mutated in place, so stale values from earlier rows may leak; needs an invariant over all steps.", "anchors": ["glass/fields.py:cls2cov"]}
{"id": "C12", "title": "cls2cov yields one aliased array", "statement": "Successive values yielded by cls2cov are the same object: a consumer that stores them sees earlier rows overwritten; with the generator consumed lazily (as the library does) each row is correct at the time it is used.", "quantifier": "for every iteration history with at least two rows", "why_tests_cant": "Unit tests look at each row at yield time only; aliasing shows up through the history of heap updates.", "anchors": ["glass/fields.py:cls2cov", "glass/fields.py:_generate_grf"]}
{"id": "C13", "title": "Gaussian field generator: modes have the requested joint power", "statement": "The harmonic coefficients generated for field j are, for every l, a linear combination of independent draws whose covariance with field j-d equals the spectrum cl_{(j,j-d)}[l] for d <= ncorr: m=0 modes with variance cl and m>0 modes with cl/2 in each of real and imaginary part, while only ncorr previous fields are kept in memory.", "quantifier": "for every number of fields, ncorr, l, m and spectra with positive conditional variances", "why_tests_cant": "Statistical tests can only check sampled moments to a few percent; exact covariance of all pairs of fields is an algebraic identity.", "anchors": ["glass/fields.py:_generate_grf", "glass/fields.py:iternorm", "glass/fields.py:cls2cov"]}
{"id": "C14", "title": "Covariance matrices and spectra convert back and forth without loss", "statement": "cov_from_spectra(s,lmax)[l,i,j] = s_{ij}[l] (0 beyond its length), symmetric in i,j; reading the matrix out along spectra_indices returns each spectrum truncated or padded to lmax+1, so regularisation with an identity method is the identity; missing (None) spectra, which the documentation admits, raise an error (refuted).", "quantifier": "for every number of fields, spectra lengths and lmax", "why_tests_cant": "All lengths, all n; index bookkeeping between two orderings.", "anchors": ["glass/fields.py:cov_from_spectra", "glass/fields.py:regularized_spectra"]}
{"id": "C15", "title": "cov_clip returns a symmetric positive semi-definite matrix", "statement": "For every symmetric input whose largest eigenvalue is non-negative, cov_clip returns a symmetric positive semi-definite matrix, with smallest eigenvalue at least rtol times the largest, and returns the input unchanged if its eigenvalues already satisfy this.", "quantifier": "for every real symmetric matrix, every size, every rtol >= 0", "why_tests_cant": "Positive semi-definiteness is a statement about all vectors; tests check eigenvalues of one random matrix.", "anchors": ["glass/algorithm.py:cov_clip"]}
{"id": "C16", "title": "nearcorr output invariants", "statement": "nearcorr returns a matrix with unit diagonal and symmetric for every symmetric input, whatever the number of iterations; if it stops by tolerance the result is within that tolerance of a positive semi-definite matrix; with tolerance zero it is then the nearest such matrix; a correlation matrix whose eigenvalues are not tiny is returned unchanged, a singular one is not; a stack with two leading axes is rejected, contrary to the documentation.", "quantifier": "for every symmetric matrix, tol and niter", "why_tests_cant": "The alternating projection has unbounded many iterations; the loop invariant is not testable.", "anchors": ["glass/algorithm.py:nearcorr"]}
{"id": "C17", "title": "cov_nearest preserves the diagonal and rejects negative variances", "statement": "cov_nearest raises ValueError iff some diagonal entry is negative; otherwise the result has exactly the input's diagonal, rows and columns of zero-variance entries are zero, and the result is symmetric.", "quantifier": "for every symmetric matrix and size", "why_tests_cant": "Zero diagonal entries require division conventions that tests exercise on one example.", "anchors": ["glass/algorithm.py:cov_nearest"]}
{"id": "C18", "title": "nnls result is feasible; a converged result is a global optimum", "statement": "Every vector returned by nnls is non-negative and satisfies the stationarity conditions on its support; if the loop stops by its own convergence test (rather than maxiter) with tolerance zero, the returned x minimises |Ax-b| over all non-negative vectors.", "quantifier": "for every matrix A, vector b, tolerance and iteration limit", "why_tests_cant": "Global optimality quantifies over all competitors; tests compare against a single reference solution.", "anchors": ["glass/algorithm.py:nnls"]}
{"id": "C19", "title": "nnls reaches the optimum", "statement": "The claim that nnls returns the least-squares optimum for every full-rank problem is refuted: for A=[[2,2],[2,1]], b=(2,0) the step length has the wrong sign, the active set cycles and the returned vector is (1/2,0) with misfit 2 although (0,4/5) has misfit 4/5.", "quantifier": "there exists a 2x2 full-rank problem on which the result is not optimal for any iteration limit >= 1", "why_tests_cant": "Reference problems in the tests never enter the inner loop with a cycling active set.", "anchors": ["glass/algorithm.py:nnls"]}
{"id": "C20", "title": "effective_cls is the bilinear form of weights and spectra", "statement": "effective_cls(cls,w1,w2)[i,j,l] = sum_{a,b} w1[a,i] w2[b,j] cls_{ab}[l] (zero padded), every output element is written, and for w2=w1 the result is symmetric.", "quantifier": "for all numbers of fields, weights, lmax", "why_tests_cant": "Output allocated then filled pairwise with a symmetric shortcut; need all index pairs covered for all shapes.", "anchors": ["glass/fields.py:effective_cls"]}
{"id": "C21", "title": "Gaussian spectra are computed from the matching pair of fields", "statement": "compute_gaussian_spectra and solve_gaussian_spectra apply the pair transformation of fields (i,j) to the spectrum labelled (i,j) for every entry, return one spectrum per input, leave empty spectra empty, and raise ValueError iff the number of spectra does not fit the number of fields.", "quantifier": "for every list of fields and every list of spectra", "why_tests_cant": "Pairing via zip of two differently produced orderings must hold for all n.", "anchors": ["glass/fields.py:compute_gaussian_spectra", "glass/fields.py:solve_gaussian_spectra"]}
{"id": "C22", "title": "Correlation transforms are mutually inverse and consistent with their derivative", "statement": "For each supported pair of transformations, icorr(corr(x)) = x and corr(icorr(y)) = y on the stated domains, corr(0)=0, corr is symmetric under exchange of the fields, and dcorr is the derivative of corr.", "quantifier": "for all real correlations in the domain and all positive shift/variance parameters", "why_tests_cant": "Identities over the reals; finite differences or sampled values cannot establish derivative and inverse exactly.", "anchors": ["glass/grf/_core.py:corr", "glass/grf/_core.py:icorr", "glass/grf/_core.py:dcorr", "glass/grf/_transformations.py"]}
{"id": "C23", "title": "Transformed fields respect their physical lower bound", "statement": "Lognormal fields are > -lambda, squared-normal fields are >= -lambda, for every Gaussian field value and variance; the dispatch is total: unsupported pairs raise NotImplementedError, in both argument orders.", "quantifier": "for every real Gaussian value, every variance, every lambda >= 0 and every ordered pair of transformation types", "why_tests_cant": "Range statement over all reals, and completeness of a dispatch table.", "anchors": ["glass/grf/_transformations.py", "glass/grf/_core.py"]}
{"id": "C24", "title": "Spectrum solver: reported convergence is sound", "statement": "If solve reports convergence bit 1 then the returned spectrum's relative error is at most cltol; the returned Gaussian spectrum, correlation and residual are mutually consistent, the monopole constraint is kept, the error never increases between iterations.", "quantifier": "for every target spectrum, tolerance, iteration limit and any transform pair implementation", "why_tests_cant": "Invariant over an unbounded number of Newton iterations with step halving.", "anchors": ["glass/grf/_solver.py:solve"]}
{"id": "C25", "title": "Spectrum solver: the info flag is not complete", "statement": "The converse - that a returned solution within cltol is always flagged - is refuted: convergence is not re-tested after the last permitted step, so e.g. with maxiter=0 an exactly solved problem is reported as not converged.", "quantifier": "there exist inputs with exact solution and info=0", "why_tests_cant": "Tests use ample iteration limits.", "anchors": ["glass/grf/_solver.py:solve"]}
{"id": "C26", "title": "Linear and cubic windows are partitions of unity", "statement": "The sum of linear_windows (resp. cubic_windows) at every sampled or intermediate redshift between the second and the last but one node is one, each window is non-negative and vanishes outside its support, and adjacent windows share the sample grid on the overlap.", "quantifier": "for every increasing redshift grid of at least 3 nodes, every resolution and every redshift in range", "why_tests_cant": "Piecewise interpolated functions: equality must hold on a continuum, not at sample points.", "anchors": ["glass/shells.py:linear_windows", "glass/shells.py:cubic_windows"]}
{"id": "C27", "title": "Tophat windows tile the redshift range", "statement": "tophat_windows(z) produces len(z)-1 windows with weight one, window i covering exactly [z_i,z_{i+1}], adjacent ones sharing the boundary, with effective redshift strictly inside the shell (the centre of the shell without a weight function); fewer than two nodes are rejected; a RadialWindow built without an effective redshift gets the weighted mean redshift of its window, and one that is given is kept.", "quantifier": "for every increasing grid, dz > 0 and positive weight function", "why_tests_cant": "Bounds on a weighted average for arbitrary weight functions.", "anchors": ["glass/shells.py:tophat_windows", "glass/shells.py:RadialWindow"]}
{"id": "C28", "title": "restrict multiplies and keeps both grids", "statement": "restrict(z,f,w) returns a strictly increasing grid inside the window which contains every grid point of f and of w in the overlap, with values f*w there; the integral over disjoint tophat windows adds up to the integral over the union.", "quantifier": "for every piecewise-linear f and every window", "why_tests_cant": "Additivity over arbitrary grids requires a refinement lemma for trapezoidal sums.", "anchors": ["glass/shells.py:restrict", "glass/arraytools.py:trapezoid_product", "glass/_array_api_utils.py:xp_additions"]}
{"id": "C29", "title": "Linear interpolation contract", "statement": "interp reproduces the samples, stays between neighbouring samples, is linear in the values, and returns left/right outside the grid.", "quantifier": "for every strictly increasing grid and every real argument", "why_tests_cant": "Continuum statement.", "anchors": ["glass/_array_api_utils.py:xp_additions.interp", "glass/arraytools.py:ndinterp"]}
{"id": "C30", "title": "Trapezoidal integration is additive and refinement-invariant", "statement": "cumulative_trapezoid starts at 0, ends at trapezoid, is non-decreasing for non-negative samples, and inserting extra interpolated nodes does not change the value.", "quantifier": "for every grid and samples", "why_tests_cant": "Any number of nodes inserted anywhere.", "anchors": ["glass/arraytools.py:cumulative_trapezoid", "glass/_array_api_utils.py:xp_additions.trapezoid"]}
{"id": "C31", "title": "partition by restriction conserves the distribution", "statement": "partition with method 'restrict' distributes n(z) over contiguous tophat shells so that weights are non-negative and their sum equals the integral of n(z) over the covered range; combine with unit-normalised shells returns a function of the same total; a source range that overshoots the shells loses what lies beyond.", "quantifier": "for every n(z) and contiguous tophat windows", "why_tests_cant": "Exact conservation over arbitrary grids; tests compare to tolerance on one grid.", "anchors": ["glass/shells.py:partition", "glass/shells.py:partition_restrict", "glass/shells.py:combine"]}
{"id": "C32", "title": "Redshift and distance grids cover the range with equal steps", "statement": "redshift_grid/distance_grid contain both end points' coverage: they start at zmin, are strictly increasing with equal steps, reach at least zmax with the dz variant and exactly zmax with the num variant (num = 0 yields the single point zmin); exactly one of the options must be given.", "quantifier": "for all zmin < zmax, spacing > 0 or num >= 1", "why_tests_cant": "The ceil/arange boundary case needs proof over the reals.", "anchors": ["glass/shells.py:_uniform_grid", "glass/shells.py:redshift_grid", "glass/shells.py:distance_grid"]}
{"id": "C33", "title": "distribute assigns each object to a shell with positive weight", "statement": "distribute returns -1 for exactly those redshifts where every shell weight vanishes, and otherwise an index of a shell with positive interpolated weight there, and batches of 1000 are handled one after the other without loss or reordering.", "quantifier": "for every redshift array, shells and uniform draws", "why_tests_cant": "Edge draws (u=0, u->1) and zero-weight shells have measure zero in random tests.", "anchors": ["glass/shells.py:distribute"]}
{"id": "C34", "title": "Galaxy positions: batching neither loses nor duplicates objects", "statement": "For per-pixel counts n, the concatenation over all yielded batches of pixel indices lists pixel i exactly n_i times in increasing order; every batch has at most `batch` objects unless it consists of a single pixel; the reported counts add up to the total; the loop terminates and its internal assertion never fails.", "quantifier": "for every count array and every batch size >= 1", "why_tests_cant": "Loop over searchsorted on cumulative counts; boundary cases (empty pixels, pixels larger than the batch, exact multiples) are unboundedly many.", "anchors": ["glass/points.py:_sample_galaxies_per_pixel", "glass/points.py:positions_from_delta"]}
{"id": "C35", "title": "positions_from_delta never yields an empty batch", "statement": "The expectation that every yielded batch contains at least one position is refuted: counts (0,10) with batch 5 yield an empty batch first.", "quantifier": "there exist counts and a batch size producing an empty batch", "why_tests_cant": "A test that concatenates the batches cannot notice.", "anchors": ["glass/points.py:_sample_galaxies_per_pixel"]}
{"id": "C36", "title": "Expected galaxy counts conserve the mean density and respect visibility", "statement": "Expected counts are ngal*(1+delta)*pixel area (times visibility), never negative, zero where visibility is zero, monotone in visibility, and with remove_monopole sum exactly to ngal times the sphere area over all pixels.", "quantifier": "for every map, number density, bias model and visibility map with values in [0,1]", "why_tests_cant": "Real-arithmetic identity for all maps; clipping at -1 must not interfere.", "anchors": ["glass/points.py:_compute_density_contrast", "glass/points.py:_compute_expected_count", "glass/points.py:_apply_visibility", "glass/points.py:_sample_number_galaxies"]}
{"id": "C37", "title": "uniform_positions ranges and counts", "statement": "Every longitude lies in [-180,180), every latitude in [-90,90], and the number of positions yielded for each population equals the Poisson draw of that population, in order.", "quantifier": "for all uniform draws in [0,1) and all arrays of counts", "why_tests_cant": "Range at the edges of the uniform distribution.", "anchors": ["glass/points.py:uniform_positions"]}
{"id": "C38", "title": "position_weights is a normalised mixture", "statement": "position_weights returns bias-weighted densities divided by their total along the shell axis when there is a positive total, so for unit bias weights they sum to one; scaling all densities by a positive constant does not change the result.", "quantifier": "for every density array with positive sum and bias", "why_tests_cant": "Algebraic identity under broadcasting.", "anchors": ["glass/points.py:position_weights"]}
{"id": "C39", "title": "effective_bias is a weighted mean of bias", "statement": "effective_bias of a constant bias is that constant, and in general lies between the minimum and maximum of the bias over the window support.", "quantifier": "for every grid and non-negative window with positive integral", "why_tests_cant": "Holds for all grids through the refinement of grids.", "anchors": ["glass/points.py:effective_bias"]}
{"id": "C40", "title": "displace moves along a great circle by exactly |alpha|", "statement": "displace(lon,lat,alpha) returns the position at angular distance |alpha| from the start in the direction arg(alpha) (0 north, 90 degrees east); displacement is its inverse: it returns the alpha that displaces the first position into the second.", "quantifier": "for every pair of points away from the poles and every displacement with 0 < |alpha| < pi", "why_tests_cant": "Trigonometric identities on the whole sphere.", "anchors": ["glass/points.py:displace", "glass/points.py:displacement"]}
{"id": "C41", "title": "deflect is displacement by the conjugate convention", "statement": "deflect(lon,lat,alpha) moves the source position by angular distance |alpha|, keeps the point for alpha=0, and agrees with the documented convention of displacement.", "quantifier": "for every position and complex deflection", "why_tests_cant": "Same reasons; branch for zero deflection and arrays.", "anchors": ["glass/lensing.py:deflect"]}
{"id": "C42", "title": "Multi-plane convergence recurrence equals the lensing sum", "statement": "After adding planes with increasing redshifts, the convergence kept by MultiPlaneConvergence equals the discretised line-of-sight integral sum_j q_j x_j (x_k-x_j)/x_k (1+z_j) w_j delta_j for the current plane, for every number of planes, for every cosmology's distance function.", "quantifier": "for every sequence of planes, density maps, weights and every flat-or-curved distance additive relation used", "why_tests_cant": "Three-term recurrence over an unbounded number of planes; tests compare two or three planes against the same formulas.", "anchors": ["glass/lensing.py:MultiPlaneConvergence.add_plane", "glass/lensing.py:MultiPlaneConvergence.add_window"]}
{"id": "C43", "title": "multi_plane_matrix and weights are dual views of the recurrence", "statement": "multi_plane_matrix is strictly lower triangular, its product with the stacked density planes equals the convergence of the recurrence at each plane, and multi_plane_weights(w).delta equals the w-average of the plane convergences.", "quantifier": "for every number of planes and all maps", "why_tests_cant": "Linearity and duality for all inputs.", "anchors": ["glass/lensing.py:multi_plane_matrix", "glass/lensing.py:multi_plane_weights"]}
{"id": "C44", "title": "MultiPlaneConvergence rejects out-of-order planes without corrupting state", "statement": "Adding a plane whose redshift is not larger than the previous one raises ValueError and leaves convergence, density and redshift state as they were; kappa objects handed out earlier are overwritten by the second following add_plane. After planes were accepted, zsrc, delta and wlens are those of the last plane, whose redshift is greater than all before.", "quantifier": "for every call history", "why_tests_cant": "Needs reasoning about every history and about aliasing of the two kappa buffers.", "anchors": ["glass/lensing.py:MultiPlaneConvergence.add_plane", "glass/lensing.py:MultiPlaneConvergence.zsrc", "glass/lensing.py:MultiPlaneConvergence.kappa", "glass/lensing.py:MultiPlaneConvergence.delta", "glass/lensing.py:MultiPlaneConvergence.wlens", "glass/lensing.py:MultiPlaneConvergence._initialise_inputs"]}
{"id": "C45", "title": "from_convergence: all combinations of outputs are mutually consistent", "statement": "For each combination of requested outputs, from_convergence returns exactly the requested maps in documented order, and the harmonic factors satisfy 2*kappa_l = l(l+1) psi_l, alpha_l = sqrt(l(l+1)) psi_l, gamma_l = sqrt((l+2)(l+1)l(l-1))/(l(l+1)) kappa_l up to the documented signs, the same as shear_from_convergence.", "quantifier": "for every l and lmax, for all 8 flag combinations, with discretised and undiscretised pixel windows", "why_tests_cant": "In-place mutation of the same alm array through the cascade; every branch must leave it in the right state.", "anchors": ["glass/lensing.py:from_convergence", "glass/lensing.py:shear_from_convergence"]}
{"id": "C46", "title": "redshifts_from_nz returns exactly the requested number inside the range", "statement": "The total number of drawn redshifts equals the sum of counts, each lies within the range of the grid, and inverse-CDF sampling returns z with CDF(z)=u for every uniform draw u, where the CDF is the trapezoidal one, linear between nodes; arrays are broadcast and the populations concatenated in row-major order.", "quantifier": "for all n(z) with positive total and all draws", "why_tests_cant": "CDF inversion at every u, incl. flat parts of the CDF.", "anchors": ["glass/galaxies.py:redshifts_from_nz", "glass/galaxies.py:redshifts", "glass/galaxies.py:_draw_nz"]}
{"id": "C47", "title": "redshifts_from_bins keeps each object with its own bin", "statement": "Every object receives a redshift drawn from the distribution of its own bin, whatever the order of the bin array and whatever (stable or not) sorting permutation argsort returns; labels without a distribution are rejected, and an empty array of objects raises an error instead of giving an empty result (refuted).", "quantifier": "for every bin label array and every sorting permutation", "why_tests_cant": "The double-argsort trick is correct for all permutations only by proof; unstable sorts depend on the platform.", "anchors": ["glass/galaxies.py:redshifts_from_bins"]}
{"id": "C48", "title": "Reduced shear preserves the unit disc and is invertible", "statement": "galaxy_shear with reduced_shear maps intrinsic ellipticities of modulus < 1 to modulus < 1 whenever the reduced shear has modulus < 1, is inverted by the opposite shear, and without reduced_shear adds the shear; results do not depend on the chunk size, except that a single position for many objects works only while they fit into one chunk (refuted).", "quantifier": "for all complex ellipticities and shears, all chunkings", "why_tests_cant": "Moebius-map inequality over the disc; chunk boundaries at multiples of 10000.", "anchors": ["glass/galaxies.py:galaxy_shear"]}
{"id": "C49", "title": "Photometric redshifts stay within bounds", "statement": "gaussian_phz without bounds returns non-negative redshifts; with lower/upper bounds every result lies in [lower,upper]; entries accepted in the first pass are not redrawn; contradictory bounds raise ValueError.", "quantifier": "for every input, bound and every sequence of normal draws on which it terminates", "why_tests_cant": "Rejection loop over unbounded random sequences.", "anchors": ["glass/galaxies.py:gaussian_phz"]}
{"id": "C50", "title": "Redshift distributions are normalised and peak where documented", "statement": "gaussian_nz and smail_nz integrate to norm (default 1) under the trapezoidal rule; smail_nz's underlying density has its maximum at z_mode; array-valued norm broadcasting multiplies along the wrong axis (refuted).", "quantifier": "for every grid with positive mass and every parameter choice alpha,beta>0", "why_tests_cant": "Maximum over the whole half line.", "anchors": ["glass/observations.py:gaussian_nz", "glass/observations.py:smail_nz"]}
{"id": "C51", "title": "Tomographic bins are contiguous and equally populated", "statement": "fixed_zbins covers [zmin,zmax] by contiguous bins of equal width; equal_dens_zbins returns contiguous bins whose CDF increments are 1/nbins, with last edge at z[-1] and, if there are sources in the first grid interval, first edge at z[0] (otherwise the first edge is where the sources begin); exactly one of nbins/dz is required.", "quantifier": "for all ranges, counts and distributions", "why_tests_cant": "Inverse interpolation on arbitrary CDFs.", "anchors": ["glass/observations.py:fixed_zbins", "glass/observations.py:equal_dens_zbins"]}
{"id": "C52", "title": "Tomographic split conserves n(z)", "statement": "tomo_nz_gausserr returns non-negative bin distributions not exceeding nz, and for contiguous bins the bins' sum telescopes to a single truncated distribution bounded by nz.", "quantifier": "for every increasing bin sequence, sigma_0 > 0 and any monotone error function", "why_tests_cant": "Telescoping over arbitrary numbers of bins.", "anchors": ["glass/observations.py:tomo_nz_gausserr"]}
{"id": "C53", "title": "Ellipticity samplers stay in the unit disc", "statement": "ellipticity_gaussian, ellipticity_intnorm and ellipticity_ryden04 only return complex ellipticities with modulus <= 1 (gaussian, ryden04) or < 1 (intnorm); the projected axis ratio of triaxial_axis_ratio lies in [0,1] for all viewing angles.", "quantifier": "for every sequence of draws and every axis ratios in (0,1]", "why_tests_cant": "Inequality over a continuum of angles and axis ratios.", "anchors": ["glass/shapes.py:ellipticity_gaussian", "glass/shapes.py:ellipticity_intnorm", "glass/shapes.py:ellipticity_ryden04", "glass/shapes.py:triaxial_axis_ratio"]}
{"id": "C54", "title": "resample_shapes reproduces the requested variance", "statement": "resample_shapes produces ellipticities with the requested variance: the mixing factors solve the variance equation exactly, the result stays finite for non-degenerate input; zero input variance yields an undefined (0/0) value.", "quantifier": "for all shape samples with positive variance", "why_tests_cant": "Quadratic equation identity for all parameters.", "anchors": ["glass/shapes.py:resample_shapes"]}
{"id": "C55", "title": "save_cls/load_cls round trip", "statement": "load_cls(save_cls(cls)) returns the same list of arrays (empty ones included, same order) for every non-empty list; the empty list cannot be saved; a file name without .npz gets this suffix when saved and must be loaded under it.", "quantifier": "for every list of arrays of arbitrary lengths", "why_tests_cant": "Split points are cumulative lengths; zero-length entries at both ends need proof.", "anchors": ["glass/user.py:save_cls", "glass/user.py:load_cls"]}
{"id": "C56", "title": "Catalogue writer appends rows without loss", "statement": "Writing any sequence of row batches through write_catalog produces a table containing all rows in order, the header fixed by the first batch; a batch with unequal column lengths is rejected, one with no columns changes nothing; the file is closed on exceptions.", "quantifier": "for every sequence of writes and every interleaving with an exception", "why_tests_cant": "Histories of arbitrary length.", "anchors": ["glass/user.py:_FitsWriter", "glass/user.py:write_catalog"]}
{"id": "C57", "title": "JAX random keys are never reused", "statement": "Every draw and every spawned child of glass.jax.Generator consumes a key distinct from all keys consumed before, for any history of split and spawn on any generator of the family, including concurrent use from several threads thanks to the lock; without the lock the property is false.", "quantifier": "for every call history and every thread interleaving", "why_tests_cant": "Interleavings and histories are unbounded.", "anchors": ["glass/jax.py:Generator"]}
{"id": "C58", "title": "Default random generators are deterministic", "statement": "Two calls without rng produce identical sequences, because each creates a generator from the fixed seed; HEALPix sub-pixel offsets are re-seeded at every call, so two batches of equal length get identical offsets regardless of the user's generator.", "quantifier": "for every generator implementation", "why_tests_cant": "Statement about all RNG states rather than a sampled value.", "anchors": ["glass/rng.py:default_rng", "glass/healpix.py:randang"]}
{"id": "C59", "title": "Broadcasting of leading axes", "statement": "broadcast_leading_axes returns the NumPy broadcast of all leading shapes and gives each array exactly that leading shape followed by its own trailing axes; it raises iff the leading shapes are incompatible; broadcast_first treats the first axis as shared.", "quantifier": "for all numbers of arrays and all shapes", "why_tests_cant": "Shapes of any rank.", "anchors": ["glass/arraytools.py:broadcast_leading_axes", "glass/arraytools.py:broadcast_first"]}
{"id": "C60", "title": "numpy_fallback converts every array argument and result", "statement": "A function wrapped by numpy_fallback receives NumPy arrays wherever its arguments, nested in tuples, lists and dicts, hold backend arrays, other values unchanged, and all arrays in a nested result are converted back; with no array and an explicit xp the call passes xp on unchanged.", "quantifier": "for arbitrarily nested tuples/lists/dicts of arguments", "why_tests_cant": "Structural induction over nesting.", "anchors": ["glass/_array_api_utils.py:numpy_fallback"]}
{"id": "C61", "title": "Deprecated and new entry points generate the same sequence", "statement": "generate_gaussian, generate_lognormal and generate call the same mode generator in the same order, so for equal spectra, seed and ncorr the Gaussian fields are the same, and the lognormal transformation is applied per field with its own variance.", "quantifier": "for all spectra and any random stream", "why_tests_cant": "Equality of two programs for all inputs.", "anchors": ["glass/fields.py:generate", "glass/fields.py:generate_gaussian", "glass/fields.py:generate_lognormal"]}
{"id": "C62", "title": "Lognormal shift is positive and increasing for positive redshift", "statement": "lognormal_shift_hilbert2011(z) is strictly positive for every z > 0 and zero at z=0 and strictly increasing on z >= 0, so it is a valid lognormal shift.", "quantifier": "for every real z >= 0", "why_tests_cant": "Continuum inequality for a quartic with negative coefficient.", "anchors": ["glass/fields.py:lognormal_shift_hilbert2011"]}
{"id": "C63", "title": "Intrinsic alignment amplitude scaling", "statement": "The NLA convergence is linear in the density map and in the amplitude, zero for zero amplitude, scales as (1+z)^eta relative to pivot, and the luminosity factor is one at the pivot luminosity.", "quantifier": "for all maps and parameters", "why_tests_cant": "Algebraic identity for all parameters.", "anchors": ["glass/galaxies.py:_kappa_ia_nla"]}
{"id": "C64", "title": "Visibility map lies between zero and one", "statement": "vmap_galactic_ecliptic returns values between 0 and 1, zero where all interpolated pixels lie in the ecliptic stripe and one where they avoid both stripes, for every pixel rotation that averages neighbouring pixels; stripes that are not pairs raise TypeError.", "quantifier": "for every resolution, all stripes and all averaging rotations", "why_tests_cant": "Two interpolating rotations are composed; the range statement concerns every pixel and every rotation.", "anchors": ["glass/observations.py:vmap_galactic_ecliptic"]}
{"id": "C65", "title": "nnls always ends", "statement": "The claim that nnls ends for every full-rank problem is refuted: for A=[[-1,-2,1],[3,3,-3],[1,-2,3]], b=(-1,-2,3) the inner loop of the third iteration doubles a variable forever, for every iteration limit of at least three, including the default.", "quantifier": "there exists a 3x3 full-rank problem on which the inner while loop does not end, whatever the solver of the linear systems", "why_tests_cant": "No test can observe that a loop never ends; the reference problems never take a step of the inner loop that removes two variables.", "anchors": ["glass/algorithm.py:nnls"]}
{"id": "C66", "title": "Regularised spectra are valid at every mode", "statement": "check_posdef_spectra is true exactly if the covariance matrix of every mode is positive semi-definite; regularized_spectra with method clip returns spectra of the requested length whose matrices are positive semi-definite and nearest to the given ones, leaving valid spectra unchanged up to length; method nearest keeps the auto-spectra exactly, rejects negative ones, and is valid if the zero tolerance is reached; unknown methods raise ValueError.", "quantifier": "for all spectra of any number of fields, any lmax, and any correct eigenvalue decomposition", "why_tests_cant": "Combines the ordering of spectra, padding, and matrix optimisation for every mode and number of fields.", "anchors": ["glass/fields.py:regularized_spectra", "glass/fields.py:check_posdef_spectra"]}
{"id": "C67", "title": "Least-squares partition is the best fit and recovers sums of windows", "statement": "partition_lstsq returns, for each function, weights whose combination of normalised windows has the least sum of squared deviations on the union of all grids, weighted by grid spacing, with the total weight penalised by the relative tolerance; a function that is a combination of independent windows gets its weights back exactly, and the total weight is near the integral of the function. Fewer than two grid points or no shells raise ValueError.", "quantifier": "for all functions, windows, grids and tolerances with windows of non-zero integral, and every correct least-squares solver", "why_tests_cant": "Optimality compares with infinitely many other weights.", "anchors": ["glass/shells.py:partition_lstsq"]}
{"id": "C68", "title": "Non-negative partition is the best non-negative fit", "statement": "The weights of partition_nnls are non-negative and no weight in use can be improved alone; they are the best non-negative weights whenever nnls stops of its own accord. That they are always the best ones is refuted: for z=[0,1,2], f=[1,2,1] and unit tophat shells [0,1],[1,2],[2,3] the weights are 9/4, 0, 3/4 with misfit 1, while 7/5, 8/5, 0 have misfit 26/225.", "quantifier": "for all functions, windows, grids and tolerances with windows of non-zero integral, and all correct QR decompositions and solvers; the refutation holds for all of them", "why_tests_cant": "The failure needs the iteration limit of nnls to be reached after a wrong step; results look plausible because the weights are non-negative and sum to the integral.", "anchors": ["glass/shells.py:partition_nnls", "glass/algorithm.py:nnls"]}
{"id": "C69", "title": "JAX draws have the shape that NumPy gives them", "statement": "The sampling methods of glass.jax.Generator return arrays of the documented shape: without a size the broadcast shape of the parameters, with a size that size, provided the parameters are scalars or broadcast to exactly it; every element uses its own random number under the key of this call and the parameters that broadcasting puts at its place. Whenever a call is accepted, NumPy gives the same shape. That every call accepted by NumPy is accepted is refuted: means of shape (2,) with size=(3, 2) raise ValueError, after taking a key; a rejected multinomial takes none.", "quantifier": "for all keys, parameters of any shapes, and all sizes", "why_tests_cant": "Quantifies over all combinations of shapes; tests use a few equal shapes.", "anchors": ["glass/jax.py:_shape", "glass/jax.py:Generator.normal", "glass/jax.py:Generator.uniform", "glass/jax.py:Generator.poisson", "glass/jax.py:Generator.multinomial", "glass/jax.py:Generator.random", "glass/jax.py:Generator.standard_normal"]}
{"id": "C70", "title": "Redshift weights integrate to distances, volumes and masses", "statement": "The integral of DistanceWeight over a redshift range is the comoving distance between its ends in units of the Hubble distance, that of VolumeWeight the volume of the shell in flat or curved space, and that of DensityWeight its mass if matter is a fixed share of the critical density. That DensityWeight is uniform in matter density in general is refuted: in flat space with matter and a cosmological constant it is proportional neither to the comoving volume nor to volume times matter density.", "quantifier": "for all expansion histories, curvatures and redshift ranges", "why_tests_cant": "Integrals over a continuum, for every cosmology; tests compare with the same formula.", "anchors": ["glass/shells.py:DistanceWeight", "glass/shells.py:VolumeWeight", "glass/shells.py:DensityWeight"]}
{"id": "C71", "title": "Grids and bins of given spacing in double precision", "statement": "In binary64, redshift_grid with a spacing has points within a few rounding errors of zmin + k dz, and its last point lies between zmax and zmax + dz up to rounding. The exact claims are refuted: redshift_grid(0, 0.2, dz=0.1) has four points and ends beyond zmax + dz, redshift_grid(0, 0.9, dz=0.3) ends before zmax, and fixed_zbins(1.4, 1.6, dz=0.1) has a third bin that starts at zmax.", "quantifier": "for all zmin >= 0, zmax >= zmin and dz with zmax + dz at most 2^50 dz, under IEEE rounding", "why_tests_cant": "Depends on the last bit of the inputs; tests check spacings at which the errors cancel.", "anchors": ["glass/shells.py:_uniform_grid", "glass/shells.py:redshift_grid", "glass/observations.py:fixed_zbins"]}
{"id": "C72", "title": "nearcorr and cov_nearest converge", "statement": "With a tolerance that is not tiny compared to the machine precision, nearcorr of a matrix ends without warning within a number of iterations bounded by 8/3 times the squared distance of the matrix to any correlation matrix over n tol^2, and cov_nearest likewise for the matrix of correlations. The result is close to a positive semi-definite matrix that is as near to the input as any correlation matrix, up to an error proportional to that closeness. In exact arithmetic the loop ends for stacks of matrices and all positive tolerances.", "quantifier": "for all symmetric matrices with a non-negative eigenvalue, all sizes, all correct eigenvalue decompositions and all tolerances of at least 4 n eps (distance + largest eigenvalue of the correlation matrix)", "why_tests_cant": "Convergence is about arbitrarily many iterations and compares with all correlation matrices.", "anchors": ["glass/algorithm.py:nearcorr", "glass/algorithm.py:cov_nearest"]}
{"id": "C73", "title": "Regularised matrices do not depend on the choice of eigenvectors", "statement": "Every symmetric matrix has an eigenvalue decomposition; cov_clip returns the same matrix, and nearcorr the same matrix and the same warning, for any two correct decompositions, although eigenvectors are never unique.", "quantifier": "for all symmetric matrices with a non-negative eigenvalue and any two functions that compute correct decompositions", "why_tests_cant": "Different LAPACK versions return different eigenvectors of degenerate eigenvalues; no test can try all of them.", "anchors": ["glass/algorithm.py:cov_clip", "glass/algorithm.py:nearcorr"]}
{"id": "C74", "title": "Generators of all backends draw NumPy's numbers", "statement": "For every array backend but JAX, default_rng with a given seed yields, request by request, the numbers of NumPy's generator with that seed, and wrapping a generator again changes nothing. Doubles of random() lie in [0, 1). That random() lies in the documented half-open interval for every dtype is refuted: in single precision the value 1 is returned just when NumPy draws one of the 2^28 largest doubles below one.", "quantifier": "for all seeds, backends, sequences of requests and draws", "why_tests_cant": "A single-precision draw of 1 has probability 2^-25.", "anchors": ["glass/rng.py:default_rng", "glass/rng.py:Generator.random", "glass/rng.py:Generator.standard_normal", "glass/rng.py:Generator.normal"]}
{"id": "C75", "title": "Tomographic bins weigh sources by a Gaussian probability", "statement": "With the error function erf(x) = 2/sqrt(pi) times the integral of exp(-t^2) from 0 to x, the value tomo_nz_gausserr returns for a bin [a,b] at redshift z is nz times the probability that a normal number with mean z and standard deviation sigma_0 (1+z) lies in the bin, given that it is not negative; a bin from zero that extends far enough has all sources.", "quantifier": "for every grid of redshifts above -1, every sigma_0 > 0 and all bins", "why_tests_cant": "An identity between special function values and improper integrals, which holds for a continuum of bins and redshifts; numerical quadrature only approximates it at sampled values.", "anchors": ["glass/observations.py:tomo_nz_gausserr"]}
{"id": "C76", "title": "Transformed normal numbers have the correlations that corr predicts", "statement": "With expected values defined as Gaussian integrals: the draws of the sampler iternorm are jointly normal with the requested covariance matrix, and the product of two transformed draws has the expected value corr(covariance), each transformed draw having mean zero.", "quantifier": "for every number of fields, every positive definite covariance matrix, every pair of transformations that can be combined", "why_tests_cant": "Expected values are integrals over all real numbers in any dimension; a simulation test only sees noisy averages.", "anchors": ["glass/fields.py:iternorm", "glass/grf/_core.py:corr", "glass/grf/_transformations.py"]}
{"id": "C77", "title": "gaussian_phz draws from the truncated normal distribution that tomo_nz_gausserr assumes", "statement": "For one object and independent standard normal numbers, the probability that gaussian_phz returns a redshift in [a,b) within k+1 attempts is the ratio of Gaussian integrals over [a,b) and over the allowed range, times 1-r^(k+1) with 0 <= r < 1; hence the bin distribution of tomo_nz_gausserr is nz times the limit of that probability, as the documentation of gaussian_phz says (the same model).", "quantifier": "for every redshift, sigma_0, bounds, bin inside the bounds and number of attempts", "why_tests_cant": "A statement about the exact distribution of the result of an unbounded rejection loop; simulations only estimate it.", "anchors": ["glass/galaxies.py:gaussian_phz", "glass/observations.py:tomo_nz_gausserr"]}
{"id": "C78", "title": "Lognormal simulations respect their shift and reproduce the given angular power spectra", "statement": "Maps generated for lognormal_fields stay above minus the shift at the nominal redshift of their own shell (above -1 by default); maps for gaussian_fields are the Gaussian maps. For the fields of lognormal_fields, compute_gaussian_spectra returns spectra whose correlations, when normal numbers with these covariances are transformed, give at every angle exactly the covariance of the given spectrum; where a covariance falls to minus the product of the shifts all modes of that spectrum are NaN. lognormal_gls equals solve_gaussian_spectra for lognormal_fields of the same constant shift.", "quantifier": "for every sequence of shells, positive shift function, spectra, Gaussian maps and pair of mutually inverse transforms", "why_tests_cant": "The bound holds for every map and every shift function, and the covariance is an expected value; tests check a few seeds and noisy estimates.", "anchors": ["glass/fields.py:lognormal_fields", "glass/fields.py:gaussian_fields", "glass/fields.py:lognormal_gls", "glass/fields.py:compute_gaussian_spectra", "glass/fields.py:generate", "glass/grf/_core.py:compute"]}
{"id": "C79", "title": "Random redshifts, positions and orientations have the documented distributions", "statement": "With expected values over independent uniform numbers defined as iterated integrals: redshifts drawn from a sampled distribution are independent and each falls into an interval with the probability by which the cumulative distribution increases; the positions of uniform_positions are independent and fall into a longitude-latitude cell with probability cell area over sphere area; resample_shapes gives every shape components of mean zero and variance |e|^2/2 that are uncorrelated within and between shapes.", "quantifier": "for every sampled distribution, every number of objects, all intervals and cells, all shapes and variances", "why_tests_cant": "Distributions are statements about all random numbers at once; a test can only compare histograms of samples within noise.", "anchors": ["glass/galaxies.py:_draw_nz", "glass/points.py:uniform_positions", "glass/shapes.py:resample_shapes"]}
{"id": "C80", "title": "Every iteration of the spectrum solver is a Newton step, shortened only as far as needed", "statement": "When an iteration of solve does not stop, the new Gaussian spectrum is the old one plus y/2^j: along the direction y the realised spectrum changes at first order by exactly the difference between target and realised spectrum (with a given monopole neither counted nor changed, and with zeros in the padding), and j is the first number of halvings for which the largest relative error does not increase.", "quantifier": "for every target, start, padding, monopole and tolerance, every pair of transformations with nonzero derivative at the correlations reached, and every pair of mutually inverse linear transforms", "why_tests_cant": "A derivative along a direction in any number of dimensions, and a statement about every iterate of the loop; a test compares some final results only.", "anchors": ["glass/grf/_solver.py:solve", "glass/grf/_core.py:dcorr"]}
{"id": "C81", "title": "Simulated maps have the angular correlations that were asked for", "statement": "Maps generated from independent standard normal numbers have mean zero, and the expected product of any two pixels of two maps is corr applied to the angular correlation function of the Gaussian spectrum at the angle between the pixels. With spectra from compute_gaussian_spectra this equals the correlation function of the given spectrum at every angle that the transform uses; with spectra from solve_gaussian_spectra the expected spectrum of the maps is the realised one that the solver returns, within its tolerance of the given spectrum when it reports so. At other angles, such as zero, the equality is refuted: the variance of a lognormal map differs from the one of the given spectrum.", "quantifier": "for every number of fields, modes and pixels, all transformations that can be combined, all spectra whose covariance matrices (within the limit ncorr, if given) are positive definite or zero, and every set of spherical harmonics", "why_tests_cant": "Expected values over all random numbers for every pair of pixels; a simulation gives noisy averages over one sky.", "anchors": ["glass/fields.py:generate", "glass/fields.py:_generate_grf", "glass/fields.py:compute_gaussian_spectra", "glass/fields.py:solve_gaussian_spectra", "glass/grf/_core.py:compute", "glass/grf/_solver.py:solve"]}
{"id": "C82", "title": "Limiting the number of correlated fields keeps the nearby correlations exactly, but may be impossible", "statement": "With at most k correlated fields on either side, iternorm accepts a stack of covariance matrices with positive standard deviations exactly if the matrices are positive definite after all entries further than k from the diagonal are set to zero; the draws then have exactly this covariance (fields further apart are independent), also with degrees at which nothing varies, and _generate_grf(ncorr=k) gives modes with it. That positive definite spectra are always accepted is refuted: with three fields and ncorr=1 a ValueError is raised.", "quantifier": "for every number of fields and degrees, every limit k and every stack of symmetric matrices", "why_tests_cant": "An equivalence over all matrices; the tests run ncorr with weakly correlated spectra only, where the limit is harmless.", "anchors": ["glass/fields.py:iternorm", "glass/fields.py:cls2cov", "glass/fields.py:_generate_grf"]}
{"id": "C83", "title": "Stripes of the visibility map: angles in radians, and the ecliptic stripe in equatorial coordinates", "statement": "query_strip returns one entry per pixel, one inside of the strip and zero outside, for angles between 0 and pi the colatitudes between them. A direction in ecliptic coordinates is visible in the map of vmap_galactic_ecliptic exactly if its galactic colatitude is outside of the galactic stripe and its equatorial, not ecliptic, colatitude outside of the other stripe: the claim that the stripe is located in ecliptic coordinates is refuted for every obliquity. The default stripes are neither colatitudes in radians (no direction has one) nor in degrees (they block other directions).", "quantifier": "for all stripes, all directions of the sky, every obliquity and every orientation of the galaxy", "why_tests_cant": "Maps are compared as arrays of the right shape; which coordinates a stripe refers to and in which unit needs the geometry for all directions.", "anchors": ["glass/observations.py:vmap_galactic_ecliptic", "glass/healpix.py:query_strip", "glass/healpix.py:Rotator", "glass/healpix.py:nside2npix"]}
{"id": "C84", "title": "Wrapped functions return NumPy's results for arrays of every library", "statement": "If NumPy and JAX compute the same contents, then trapezoid, interp, gradient, linalg_lstsq, einsum, apply_along_axis, radians, degrees and tril_indices return these contents (or the same exception) as arrays of the library of their arguments; arrays of two libraries raise TypeError. pixwin and map2alm raise ValueError exactly if the data path is not a directory or healpy does. Refuted for other libraries than NumPy: trapezoid without abscissae (ValueError), the rank of linalg_lstsq as a number, the gradient of arrays with several axes as a tuple, results of vectorize in the named library, and shear_from_convergence, which raises TypeError.", "quantifier": "for all libraries, all contents of arrays and all functions of the libraries", "why_tests_cant": "Each backend is tested on a few arrays; that no wrapper mixes libraries or loses an exception is a statement about all arguments.", "anchors": ["glass/_array_api_utils.py:xp_additions", "glass/_array_api_utils.py:default_xp", "glass/healpix.py:pixwin", "glass/healpix.py:map2alm", "glass/healpix.py:_get_healpy_datapath", "glass/lensing.py:shear_from_convergence", "glass/jax.py:trapezoid"]}
{"id": "C85", "title": "Gaussian ellipticities are independent truncated normal numbers, with less than the documented variance", "statement": "With expected values over independent normal numbers defined as quotients of integrals: the ellipticities that ellipticity_gaussian returns, for any counts and positive scales, are independent, and each is distributed as a complex number with normal components that is known to be inside the unit disc, up to the chance that the given number of repetitions is not enough. The moduli have distribution function (1 - exp(-r^2/2s^2)) / (1 - exp(-1/2s^2)); the components have mean zero, are uncorrelated and have variance s^2 - e / (2 (1 - e)) with e = exp(-1/2s^2). That sigma is the standard deviation in each component of what is returned is refuted for every sigma.", "quantifier": "for all shapes of count and sigma, all positive scales, all functions of the ellipticities that have a mean, all numbers of repetitions", "why_tests_cant": "Tests draw samples for one small sigma and compare with a tolerance; the distribution is an integral statement, and the deficit of the variance is small for small sigma.", "anchors": ["glass/shapes.py:ellipticity_gaussian", "glass/shapes.py:_populate_random_complex_array"]}
{"id": "C86", "title": "Intrinsically normal ellipticities: distribution of moduli, and accuracy of the fit for their scale", "statement": "The moduli of the ellipticities from ellipticity_intnorm are independent, and below r with probability 1 - exp(-ln((1+r)/(1-r))^2 / (2 s'^2)) with s'^2 = s^2 (8 + 5 s^2) / (2 - 4 s^2). For sigma up to 1/5 the mean variance of the components is sigma^2 to two percent; it is strictly smaller than sigma^2 for sigma up to 1/8, which refutes that sigma is exactly the documented standard deviation.", "quantifier": "for all shapes of count and sigma, all moduli below one and all scales below the square root of one half; the variance for all scales up to 1/5", "why_tests_cant": "Tests draw samples for a few values of sigma; the exact distribution and the bound on the fit hold for a continuum of scales.", "anchors": ["glass/shapes.py:ellipticity_intnorm", "glass/shapes.py:_populate_random_complex_array"]}
{"id": "C87", "title": "Random points are Poisson processes of the requested density, and visibility is the chance to be kept", "statement": "With Poisson numbers defined by their probabilities and expected values as sums and integrals: the points of uniform_positions form independent Poisson processes on the sphere with the given numbers per square arc minute (generating functional), so that the numbers in regions that do not overlap are independent Poisson numbers with means density times area. Sums of a function of the position over the points have the expected value density times its integral, and the expected product of two such sums exceeds the product of their means by density times the integral of the product (Campbell's formulas). positions_from_delta returns points whose numbers per pixel are independent Poisson numbers with means density times area times (1 + contrast) times visibility, not below zero; the number in any set of pixels is a Poisson number with the sum as its mean. The points with a visibility map are distributed as those without, if each is kept with the probability that the map gives for its pixel.", "quantifier": "for all densities, contrasts and visibilities of all shapes, all functions of the position (uniform) or of the pixel, all sets of regions and pixels", "why_tests_cant": "Tests check mean counts for a few seeds with a tolerance; independence and the exact distribution cannot be sampled.", "anchors": ["glass/points.py:uniform_positions", "glass/points.py:positions_from_delta", "glass/points.py:_sample_number_galaxies", "glass/points.py:_apply_visibility", "glass/points.py:_sample_galaxies_per_pixel", "glass/points.py:_compute_density_contrast", "glass/points.py:_compute_expected_count"]}
{"id": "C88", "title": "Photometric redshifts of arrays are independent truncated normal numbers", "statement": "With expected values over independent standard normal numbers defined as quotients of integrals: the redshifts that gaussian_phz returns for arrays (any mixture of scalars and arrays for redshifts, sigma_0 and bounds) are independent, and each is distributed as a normal number with its own mean z and standard deviation (1 + z) sigma_0 that is known to be between its own bounds, up to the factor 1 - (1 - p)^(k+1) for the chance that k repetitions of the loop are not enough. In particular, the joint probabilities of redshift bins are products of quotients of integrals of bell curves, although the loop draws new numbers for all entries as long as any entry is out of bounds.", "quantifier": "for all numbers of objects, redshifts, sigma_0, bounds, functions of the redshifts that have a mean, and numbers of repetitions", "why_tests_cant": "Whether redrawing the whole array biases the entries that were accepted earlier is a statement about joint distributions; sampling tests only see marginal means.", "anchors": ["glass/galaxies.py:gaussian_phz"]}
{"id": "C89", "title": "Ellipticities of projected ellipsoids follow the documented distribution and are isotropic", "statement": "The ellipticities that ellipticity_ryden04 returns are independent; each is that of an ellipsoid with log(1 - B/A) normal with mean mu and standard deviation sigma, truncated to B/A between 0 and 1, and 1 - C/B normal with mean gamma and standard deviation sigma_gamma, truncated to C/B between 0 and 1, seen from a direction whose polar angle has a cosine uniform in [-1, 1] and whose azimuth is uniform, with a uniform position angle; all up to the chance that the given number of repetitions is not enough. The distribution is invariant under rotations of the ellipticity by any angle, and the mean ellipticity is zero.", "quantifier": "for all numbers of galaxies, parameters, functions of the ellipticity that have a mean, rotation angles and numbers of repetitions", "why_tests_cant": "Tests check the shape and the range of a few samples; the distribution is a statement about five-fold integrals for each galaxy and about the independence of all of them.", "anchors": ["glass/shapes.py:ellipticity_ryden04", "glass/shapes.py:triaxial_axis_ratio"]}
{"id": "C90", "title": "A catalogue made shell by shell is a Poisson process with the given redshift distribution", "statement": "For the loop of the examples, with positions_from_delta and redshifts called for every shell: the expected product over all galaxies of a function of shell, pixel and redshift is that of a Poisson process whose means in pixels are the expected numbers from density, contrast, bias and visibility, and whose redshifts are independent and follow the window function. So the number of galaxies in some pixels and a redshift range has the generating function of a Poisson number. If shells tile a redshift range, densities come from partition with the method restrict, and contrasts are at least -1 and average to zero, then the number of galaxies on the sphere between two edges of shells has the integral of dN/dz times the area of the sphere as its mean.", "quantifier": "for all numbers of shells, pixels, batch sizes, contrasts, biases, visibilities, windows and step functions of redshift", "why_tests_cant": "Tests run each function by itself on a few inputs; what the functions do together is a statement about sums over all counts and integrals over as many uniform numbers as there are galaxies.", "anchors": ["glass/points.py:positions_from_delta", "glass/galaxies.py:redshifts", "glass/shells.py:partition", "glass/shells.py:partition_restrict"]}
{"id": "C91", "title": "Mean convergence and number contrast of galaxies have the spectra that effective_cls predicts", "statement": "The example notebooks predict the signals of a simulation from effective_cls with position_weights and multi_plane_weights. If the maps of the shells have the correlation functions of given spectra, at some angles, then at these angles: the mean convergence from the loop over shells with MultiPlaneConvergence.add_window, weighted by number densities, has the correlation function of effective_cls with multi_plane_weights, also between two populations; the contrast of the numbers that positions_from_delta expects, added up over the shells, has the one with position_weights, as long as no number is clipped; and contrast and convergence together have the one with both weights. Gaussian maps of generate have the given spectra at all angles; maps of the other kinds of fields, with Gaussian spectra from compute_gaussian_spectra, have them at the angles of the transform. Lognormal maps are never clipped if the product of bias and parameter is at most one.", "quantifier": "for all numbers of shells, pixels, modes and populations, all spectra, window functions, cosmologies, densities and biases", "why_tests_cant": "Tests compare the weights for a few shells; that they predict what a simulation gives on average is a statement about integrals over all random numbers of the simulation, for all shells and pixels at once.", "anchors": ["glass/fields.py:effective_cls", "glass/lensing.py:multi_plane_weights", "glass/lensing.py:multi_plane_matrix", "glass/lensing.py:MultiPlaneConvergence.add_window", "glass/points.py:position_weights", "glass/points.py:positions_from_delta", "glass/fields.py:generate", "glass/fields.py:compute_gaussian_spectra"]}
{"id": "C92", "title": "The namespace of extensions searches the extension directories of all packages, but does not keep its own path", "statement": "_extend_path returns exactly those existing directories p/ext for which p is an entry of the path given or a place where the package is found along sys.path (or listed in a .pkg file), in that order and without repetition. The directory of the namespace itself is kept if its package lies in an entry of sys.path; it is lost otherwise, for example with an editable installation that uses an import hook, which refutes that the path is extended.", "quantifier": "for all search paths, contents of the disk, packages found and names of directories", "why_tests_cant": "Tests run with one installation of the package; which directories exist and what is on the search path is different on every system.", "anchors": ["glass/ext/__init__.py:_extend_path"]}
{"id": "C93", "title": "Samples with true and photometric redshifts are a Poisson process that tomo_nz_gausserr describes", "statement": "In the example for photometric redshifts, the number of galaxies is a Poisson number whose mean is the integral of dndz times the area of the sphere in square arc minutes, true redshifts come from redshifts_from_nz and photometric redshifts from gaussian_phz. For independent random numbers, the numbers of galaxies in any separate cells, each a range of true redshifts and a photometric bin, are then independent Poisson numbers in the limit of many repetitions of the rejection loop. Their means are the area of the sphere times the integral, over the range of true redshifts, of a density that is constant between two points of the grid, times the probability that a truncated normal number is in the bin. Between two neighbouring points of the grid this mean is the length of the interval times the value of tomo_nz_gausserr for the mean density at a redshift in the interval. The redshifts drawn do not follow the density that interpolates dndz linearly.", "quantifier": "all grids above -1 and usable distributions; all errors sigma_0 > 0; all finite families of separate cells with non-negative photometric bins; all arguments of the joint generating function; all numbers of repetitions, and the limit", "why_tests_cant": "a statement about joint probability distributions, with three sources of random numbers and a loop that ends only with probability one; histograms of samples show it within noise", "anchors": ["glass/galaxies.py:redshifts_from_nz", "glass/galaxies.py:_draw_nz", "glass/galaxies.py:gaussian_phz", "glass/observations.py:tomo_nz_gausserr"]}
{"id": "C94", "title": "Wrappers for healpy and healpix pass on every argument and return arrays of the caller's library", "statement": "alm2map, alm2map_spin, almxfl, ang2pix, ang2vec, get_nside and Rotator.rotate_map_pixel call the function of healpy or healpix with the same arguments as NumPy arrays, with the value of every option that was given and the documented default of the others, and return the same outcome, exceptions included, with arrays of the library of the arguments. ang2vec returns three arrays and alm2map_spin a list of two maps. Options given by position, unknown options and arrays of two libraries are rejected with TypeError. The documented parameter xp of ang2pix and ang2vec sets the library of the result for arrays, but is rejected for single positions. npix2nside and nside2npix return the integer of the function of healpix of the same name.", "quantifier": "all array libraries, all contents, all functions of healpy and healpix, all sets of options", "why_tests_cant": "tests need healpy and run a few calls with NumPy or one other library; they do not vary the options that are passed on", "anchors": ["glass/healpix.py:alm2map", "glass/healpix.py:alm2map_spin", "glass/healpix.py:almxfl", "glass/healpix.py:ang2pix", "glass/healpix.py:ang2vec", "glass/healpix.py:get_nside", "glass/healpix.py:npix2nside", "glass/healpix.py:nside2npix", "glass/healpix.py:Rotator", "glass/_array_api_utils.py:numpy_fallback"]}
{"id": "C95", "title": "Observed shapes are unbiased for the reduced shear", "statement": "For galaxies whose intrinsic ellipticities have random directions, the expected shape that galaxy_shear returns is the reduced shear gamma / (1 - kappa) of the maps at the position of the galaxy, exactly and not just to first order: for every modulus of the ellipticity averaged over directions, for the shapes of ellipticity_ryden04 with any distribution of axis ratios, for the shapes of ellipticity_intnorm with any valid standard deviations, and for the shapes of ellipticity_gaussian with any standard deviations, given that the rejection loop has ended.  Without reduced_shear the expected shape is the shear itself.", "quantifier": "all reduced shears of modulus below one, all moduli of ellipticities up to one, all populations, all positions and maps, all numbers of galaxies", "why_tests_cant": "The claim is about expected values over continuous random numbers.  A test can only average a finite sample, and second-order terms in the shear are far below its noise.", "anchors": ["glass/galaxies.py:galaxy_shear", "glass/shapes.py:ellipticity_intnorm", "glass/shapes.py:ellipticity_gaussian", "glass/shapes.py:ellipticity_ryden04"]}
{"id": "C96", "title": "Maps of sums of galaxy shears have the reduced shear as mean and white shape noise", "statement": "In the example for cosmic shear, galaxies get shapes from ellipticity_intnorm and galaxy_shear, and are added to maps of numbers and of shears by sorting pixels, splitting at the first index of each pixel, and adding sums.  For any way to sort, every pixel of the maps grows by exactly the number, and the sum of the shears, of the galaxies in it, and galaxies outside of the map raise IndexError.  For independent Poisson numbers of galaxies in pixels, the expected map of shears is the expected number times the reduced shear of the pixel.  The expected product of two entries is the product of their means, plus, for the same pixel, the expected number times the second moment of one observed shape.  Without shear, the map divided by the expected number therefore has white noise with the level 4 pi / ntot * sigma_e^2 that the example subtracts, to two percent for sigma_e up to 1/5.  The same means and products hold for galaxies that uniform_positions draws, for any division of the sphere into pixels, with density times area as the expected number.  After the loop over all shells, every pixel has the number and the sum of the observed shapes of the galaxies of all shells in it, each sheared by the reduced shear of its own shell and pixel; no galaxy is lost.  For given lensing maps, the final map of shears has the sum over shells of expected number times reduced shear as mean, and beyond products of means only noise within pixels; without shear its level is that of the example.", "quantifier": "all sorting functions; all positions, maps, convergences and shears with reduced shear below one; all expected numbers; all standard deviations for which ellipticity_intnorm is defined (up to 1/5 for the level); all pairs of pixels and components", "why_tests_cant": "moments over Poisson and normal random numbers; the example only compares one simulated spectrum with the expectation by eye", "anchors": ["glass/galaxies.py:galaxy_shear", "glass/shapes.py:ellipticity_intnorm", "glass/points.py:uniform_positions"]}
