# Design of the Rocq model of GLASS

Source under study: `/repo` (glass, Python), read as text only; nothing in it is run.
Prover: Coq 8.16.1, logical name `Verif`, files in `rocq/theories/`.

## Layout

One topic is split into up to four files:

* `Model_<topic>.v` – Gallina transcription, one definition per Python function
  (or per loop of a function). Each definition cites file and lines and lists its simplifications.
* `Spec_<topic>.v` – small independent vocabulary used by the statements
  (never mentions model helpers). Omitted when the statement needs no vocabulary.
* `Proof_<topic>.v` – lemmas.
* `Prop_<topic>.v` – the theorems named in `MANIFEST.json`, each followed by an
  `Example` that a concrete non-trivial case meets its hypotheses, and `Print Assumptions`.

The topic `Prop_Solver.v` shares `Model_Transform.v`; `Prop_Fields.v`, `Prop_Grf.v` share `Model_Fields.v`. Coquelicot supplies complex
numbers and the Riemann integral, Flocq the rounding of floats; neither adds axioms to those of the standard library.

`Base.v` holds the result type (`Ok`/`Err` with the Python exception as a value) and list lemmas.

## Modelling conventions

* Python exceptions are values of `result A`; a branch that raises is an explicit branch.
  Partial operations are never totalised silently: list indexing uses `nth_error`/`option`, or the
  theorem carries a length hypothesis; division and square root in `R` are guarded by
  an explicit error/NaN branch or by a hypothesis in the theorem.
* Floating point numbers are modelled by the reals `R`, except in the two places where rounding
  decides an integer (`_inv_triangle_number`, `enumerate_spectra`), which are modelled with Flocq.
  Everything claimed about numeric code is thus a claim about exact arithmetic.
* Arrays are lists (of lists). A stack of matrices with leading axes is modelled by one slice of the
  stack where NumPy acts slice by slice; theorems about the batch checks (`any(...)`) use a list of slices.
* Randomness: draws are arguments (lists of reals, arbitrary functions or an abstract generator
  state), so every theorem is for all draws.
* External routines (HEALPix transforms, `eigh`, `solve`, cosmology distances, `transformcl`) are
  section variables / function arguments; what is assumed of each is a hypothesis of the theorem
  that uses it and is therefore visible in the statement.
* Loops with data dependent termination (`nnls`, `solve`, `gaussian_phz`, samplers) take fuel; theorems
  hold for every fuel, and running out of fuel is a visible outcome.
* Aliasing of NumPy buffers (cls2cov, MultiPlaneConvergence) is modelled with an explicit heap.
* Behaviour of the code that contradicts the expectation is proved as `…_refuted` with a witness.

## Trusted base

* The Coq kernel (8.16.1, `coqc` and `coqchk`), `vm_compute` where used.
* Axioms: only those of the standard library's real numbers and classical logic. What
  `Print Assumptions` lists for every named theorem is recorded in section "Assumptions per theorem".
* The hand translation from Python to Gallina, guided by the citations, and
  NumPy/array-API semantics as described in the comments beside each definition.
* Not modelled: HEALPix spherical harmonic transforms (`healpy`), FITS and npz file formats beyond the sequence of
  arrays they store, cosmology libraries, NumPy dtype promotion, device handling, type annotations,
  type checks, plotting/docs, floating point rounding (except as said above), memory and speed,
  quality of random number generators.

## Plan per property

| id | what is modelled | how it is proved |
|----|------------------|------------------|
| C01 | `_inv_triangle_number`, `nfields_from_nspectra` over Z, and with Flocq binary64 sqrt | `sqrt` bounds; relative error of rounded sqrt below 2^103; counterexample above |
| C02 | `enumerate_spectra`, `spectra_indices` (via `tril_indices`), `getcl` | induction on n, arithmetic of triangular numbers |
| C03 | the float recovery expression, pow as any faithful rounding | Flocq: monotonicity of rounding, representable neighbours |
| C04 | `getcl` with lmax | case split on lengths |
| C05 | both reorderings with their dict / `list.index` lookup | permutation of pairs |
| C06 | `_glass_to_healpix_alm` | index arithmetic |
| C07 | `multalm` | index arithmetic, induction on l |
| C08 | `discretized_cls` (pixel window as argument) | pointwise spec |
| C09 | `iternorm` on one slice, any k per row, with the growing matrix | invariant m = inverse of trailing block of L |
| C10 | same model | computed witnesses over Q/R |
| C11 | `cls2cov` as a loop over an array | invariant over rows |
| C12 | `cls2cov` with heap cell | simulation with C11, witness |
| C13 | `_generate_grf` up to `alm2map`, draws symbolic | linear algebra on coefficient vectors, C09+C11 |
| C14 | `cov_from_spectra`, last line of `regularized_spectra` | loop invariant |
| C15 | `cov_clip`, `eigh` as a specified oracle | quadratic forms |
| C16 | `nearcorr`, `eigh` as oracle | loop invariant; convergence as gradient descent for the dual problem; spectral theorem |
| C17 | `cov_nearest` | pointwise |
| C18 | `nnls`, `solve` as oracle with its normal equations | loop invariant, convexity (KKT) |
| C19,C65 | `nnls` with any correct and successful solver of the normal equations | symbolic execution of the loops on the witness, induction on iterations |
| C20 | `effective_cls` | loop invariant over index pairs |
| C21 | `compute_gaussian_spectra`, `solve_gaussian_spectra`, transformations as arguments | from C02 |
| C22,C23 | `glass.grf` transformations and dispatch | real analysis (exp/ln/sqrt), derivatives; expected values as Gaussian integrals (`Spec_Gauss`, `Prop_Gauss`) |
| C24,C25 | `grf.solve` with abstract transforms | loop invariant; witness |
| C26 | `linear_windows`, `cubic_windows` with `interp` | piecewise algebra |
| C27 | `tophat_windows` | trapezoid bounds |
| C28-C31,C39 | `interp`, `trapezoid`, `union1d`, `restrict`, `trapezoid_product`, `partition_restrict`, `combine`, `effective_bias` | refinement lemma of trapezoidal sums |
| C32 | `_uniform_grid` | floor/ceil arithmetic |
| C33 | `distribute` | list induction, searchsorted |
| C34,C35 | `_sample_galaxies_per_pixel` | loop invariant over cumulative counts; witness |
| C36 | density contrast, expected counts, visibility | sums over pixels |
| C37 | `uniform_positions` with draws as arguments | inequalities |
| C38 | `position_weights` | algebra of sums |
| C40,C41 | `displace`, `displacement`, `deflect` with an `atan2` | trigonometric identities on unit vectors |
| C42-C44 | `MultiPlaneConvergence` state machine, `multi_plane_matrix`, `multi_plane_weights` | induction on planes |
| C45 | `from_convergence`, `shear_from_convergence` as the sequence of in-place factor multiplications | symbolic execution of flags |
| C46 | `redshifts_from_nz`, `_draw_nz` | monotone interpolation |
| C47 | `redshifts_from_bins` with arbitrary argsort | permutations |
| C48 | `galaxy_shear` | complex algebra, chunk concatenation |
| C49 | `gaussian_phz` with fuel | loop invariant |
| C50 | `gaussian_nz`, `smail_nz` | algebra, ln u <= u-1 |
| C51 | `fixed_zbins`, `equal_dens_zbins` | inverse interpolation |
| C52 | `tomo_nz_gausserr`, erf as monotone function bounded by 1, and the error function | telescoping |
| C53 | samplers in `shapes.py` | inequalities |
| C54 | `resample_shapes` | quadratic formula |
| C55 | `save_cls`, `load_cls` | list split at cumulative lengths |
| C56 | `_FitsWriter` | history induction |
| C57 | `glass.jax.Generator`, keys as paths in the free tree generated by split | history/interleaving induction |
| C58 | `default_rng`, `randang` | unfolding for every generator |
| C59 | shapes | list induction |
| C60 | `numpy_fallback` on a tree of values | structural induction |
| C61 | `generate`, `generate_gaussian`, `generate_lognormal` | program equality |
| C62 | `lognormal_shift_hilbert2011` | polynomial inequality |
| C63 | `_kappa_ia_nla` | algebra |
| C64 | `vmap_galactic_ecliptic`, rotations as averaging operators | weighted means |
| C66 | `check_posdef_spectra`, `regularized_spectra` with both methods | C14 with C15 and C17, mode by mode |
| C67 | `partition_lstsq` with any least-squares solver | the system is the badness of the fit, expansion of squares |
| C68 | `partition_nnls` with any QR decomposition and solver | C18 for the triangular system; symbolic execution on a witness |
| C69 | `_shape` and the draws of the JAX generator, keys as paths | broadcasting lemmas of C59 |
| C70 | `DistanceWeight`, `VolumeWeight`, `DensityWeight` | fundamental theorem of calculus (Coquelicot) |
| C71 | `arange` in binary64 as used by `_uniform_grid` and `fixed_zbins` | error bounds with Flocq; computed roundings for witnesses |
| C72 | the loop of `nearcorr` | gradient descent for the dual problem with inexact projections |
| C73 | `cov_clip`, `nearcorr` with two decompositions | spectral theorem by maximisation on the sphere; uniqueness of projections |
| C74 | `default_rng`, `Generator` for all backends, binary32 conversion | induction over requests; rounding with Flocq |
| C75 | `tomo_nz_gausserr` with the error function as an integral (`Spec_Erf`) | Gaussian integral by a parameter integral, limits |
| C76 | sampler output and transformations, expected values as integrals (`Spec_Gauss`) | iterated means, moments by parts, induction over the number of normal numbers |
| C77 | `gaussian_phz` fed by independent standard normal numbers, against `tomo_nz_gausserr` | recursion over attempts, geometric series, error function |
| C78 | `lognormal_fields`, `gaussian_fields`, `lognormal_gls` with `generate` and `compute_gaussian_spectra` | composition of C21, C22, C61 and C76 |
| C79 | `_draw_nz`, `uniform_positions`, `resample_shapes` fed by independent uniform numbers (`Spec_Uniform`) | iterated integrals of products, inversion of the distribution function |
| C80 | `solve`, one iteration from any state of the loop | directional derivative through the two linear transforms; induction over halvings |
| C81 | `generate` with `_generate_grf` and `alm2map` as a sum over spherical harmonics, Gaussian spectra from `compute_gaussian_spectra` or `solve_gaussian_spectra` | addition theorem; composition of C13, C61, C76 and the solver's soundness |
| C82 | `iternorm` and `_generate_grf` with a limited number of correlations | triangular systems; a matrix with a Cholesky factor is definite |
| C83 | `query_strip`, stripes and coordinates of `vmap_galactic_ecliptic` | cosine decreasing on [0, pi]; bounds of pi for the default stripes |
| C84 | `xp_additions`, `pixwin`, `map2alm`, `shear_from_convergence` by array library | case analysis on the library |
| C85 | `ellipticity_gaussian` with a list of normal numbers as source | a differential equation in the radius for the integral over a disc; product formula by induction over repetitions, with the remaining numbers as continuation |
| C86 | `ellipticity_intnorm` with the same source | the disc again; existence of means of bounded functions, polynomial bounds of the squared hyperbolic tangent |
| C87 | `uniform_positions` and `positions_from_delta` with a source of Poisson and uniform numbers (`Spec_Poisson`) | power series of the exponential, iterated integrals with latitude as variable, convolution of Poisson probabilities; sums over points by induction over the points, then the moments of Poisson numbers |
| C88 | the array loop of `gaussian_phz` with a source of standard normal numbers (`Spec_Truncated`) | expected value of a product over entries after each round, by induction on the rounds; entries that are kept factor out |
| C89 | `ellipticity_ryden04` with a source of normal and uniform numbers (`Spec_Truncated`) | the two loops as in C88 with the rest of the computation as continuation, batches of uniform numbers by iterated integrals, shift of a periodic integral |
| C90 | the loop of the examples (`Model_Catalogue`) over shells: positions, then redshifts for every batch | given the counts, the catalogue is the list of pixels with one uniform number each; products of integrals, then the generating functions of Poisson numbers as in C87; shares of tophat windows and additivity of integrals |
| C91 | the loops of the examples (`Model_Convergence`) over the simulated maps: mean convergence, expected numbers of galaxies | the loop runs in step with the rows of the unit matrix (as in C43), so both signals are weighted sums of the maps; expected products are bilinear, and so is the correlation function in the spectrum |
| C92 | `_extend_path` with the search of `pkgutil.extend_path` (`Model_Ext`); importers and disk are parameters | membership, order and uniqueness by induction over the entries of `sys.path`; refuted for a package that was not imported from there |
| C93 | the example for photometric redshifts (`Model_Tomography`) from the models of `redshifts_from_nz` and `gaussian_phz`; the sources of random numbers are used up in the order in which the example draws | for a given number and given uniform numbers, C88 is applied to the galaxies; uniform numbers become an integral over redshift piece by piece; the Poisson series is an exponential; the bound on the failed repetitions is geometric; the mean value theorem finds the redshift for `tomo_nz_gausserr` |
| C94 | the wrappers of `glass/healpix.py` (`Model_Healpix`) as decorated functions with Python's binding of arguments; healpy and healpix are parameters | one lemma about a decorated call with arrays of one library, then one theorem for each wrapper; refuted for `xp` without arrays |
| C95 | `galaxy_shear`, `ellipticity_gaussian`, `ellipticity_intnorm`, `ellipticity_ryden04` | `e / (1 + conj(g) e)` is the derivative under rotation of a combination of the logarithm and the argument of `1 + conj(g) e`, so its average over a circle vanishes by the fundamental theorem; the integral over a disc of normal numbers is turned into an integral of a total derivative over the angle of the end point of each slice; for `ellipticity_intnorm` the scaling by the length is first made regular at the origin, and the limits of a regular scaling that approaches the true one and of a growing disc are taken with a Lipschitz bound |
| C96 | map making of examples/2-advanced/cosmic_shear.ipynb, with `ellipticity_intnorm` and `galaxy_shear` | groups of the sorted pixels by induction, with the sum over each group invariant under the order; products of sums over independent shapes are expanded one galaxy at a time, with a prefix of factors for the galaxies already treated; second moments exist because observed shapes are bounded and Lipschitz in the normal numbers; Poisson moments by induction over pixels; for drawn galaxies, sums over the points of pixel indicators with Campbell's formulas of C87; the main loop (`Model_ShearLoop`) by induction over shells |

## Assumptions per theorem

Written by `tools/assumptions.py` from `Print Assumptions` of every theorem in `MANIFEST.json`. All axioms belong to the
standard library: `ClassicalDedekindReals.sig_not_dec` and `ClassicalDedekindReals.sig_forall_dec` (the construction of
the real numbers), `FunctionalExtensionality.functional_extensionality_dep` (used by the same construction), and
`Classical_Prop.classic` (used by the libraries Flocq and Coquelicot and by `Reals`). No axiom is declared here.

**No axioms** (120 theorems): `leading_axes_broadcast`, `leading_axes_rejects`, `leading_axes_too_few_refuted`, `first_axis_broadcast`, `fallback_converts`, `fallback_no_arrays`, `fallback_mixed_rejected`, `fallback_every_sequence_refuted`, `trapezoid_any_library`, `interp_any_library`, `interp_number`, `gradient_any_library`, `gradient_axes_refuted`, `einsum_any_library`, `lstsq_any_library`, `lstsq_rank_refuted`, `apply_along_axis_any_library`, `angles_any_library`, `tril_indices_any_library`, `vectorize_library_refuted`, `wrappers_reject_mixed`, `trapezoid_default_refuted`, `shear_other_library_refuted`, `shear_numpy`, `pixwin_datapath`, `map2alm_datapath`, `positions_batches_complete`, `positions_counts`, `positions_invalid_npix`, `positions_no_empty_batch_refuted`, `jax_standard_draws`, `jax_poisson_draw`, `jax_multinomial_draw`, `jax_draw_is_numpy`, `extension_directories`, `extension_order`, `extension_once`, `extension_own`, `extension_absolute`, `extension_keeps_path_refuted`, `cls2cov_rows`, `cls2cov_lazy_rows`, `cls2cov_yields_alias`, `cls2cov_stored_rows_refuted`, `cov_from_spectra_entries`, `cov_from_spectra_symmetric`, `regularized_spectra_identity`, `regularized_spectra_roundtrip`, `regularized_spectra_none_refuted`, `cov_from_spectra_none_rejected`, `cov_from_spectra_empty`, `cov_from_spectra_rejects`, `compute_gaussian_spectra_pairs`, `compute_gaussian_spectra_raises`, `solve_gaussian_spectra_pairs`, `solve_gaussian_spectra_raises`, `gaussian_spectra_mismatch`, `generate_field_by_field`, `generate_complete`, `generate_finishes`, `deprecated_same_fields`, `generate_mismatch`, `alm2map_call`, `almxfl_call`, `almxfl_mixed`, `ang2pix_call`, `ang2vec_call`, `alm2map_spin_call`, `get_nside_call`, `pixel_numbers_call`, `rotate_call`, `options_by_keyword`, `ang2pix_xp`, `ang2pix_xp_refuted`, `jax_keys_independent`, `jax_keys_never_reused`, `jax_use_key_counts`, `jax_method_call`, `jax_unlocked_keys_refuted`, `equal_counts_equal_positions`, `positions_sources`, `default_positions_repeat`, `randang_same_offsets`, `fresh_positions_refuted`, `nfields_from_nspectra_exact`, `nfields_from_nspectra_rejects`, `enumerate_spectra_order`, `enumerate_spectra_no_underflow`, `spectra_indices_order`, `spectra_indices_every_pair_once`, `enumerate_agrees_with_indices`, `getcl_returns_labelled_entry`, `getcl_agrees_with_enumerate`, `getcl_symmetric`, `getcl_length_contract`, `getcl_missing_entry`, `glass_to_healpix_places`, `healpix_to_glass_places`, `glass_healpix_round_trip`, `glass_to_healpix_permutation`, `healpix_reordering_rejects`, `glass_to_healpix_alm_places`, `glass_to_healpix_alm_permutation`, `glass_to_healpix_alm_m0_first`, `glass_to_healpix_alm_rejects`, `multalm_scales_each_mode`, `multalm_rejects_mismatch`, `multalm_short_bl_refuted`, `multalm_single_factor`, `discretized_cls_spec`, `discretized_cls_rejects`, `dispatch_order`, `save_load_roundtrip`, `save_load_added_suffix`, `save_load_same_name_refuted`, `save_fails_iff_empty`, `load_fails_iff_missing`, `catalog_rows`, `catalog_ragged_rejected`, `catalog_empty_write`

**sig_forall_dec** (7 theorems): `jax_normal_draw`, `jax_draw_accepts_numpy_refuted`, `lognormal_gls_fields`, `norm_array_rejected_refuted`, `vmap_rejects`, `query_strip_mask`, `query_strip_rejects`

**sig_forall_dec, functional_extensionality_dep** (71 theorems): `jax_uniform_draw`, `effective_cls_sum`, `effective_cls_symmetric`, `effective_cls_rejects`, `bins_empty_refuted`, `bins_unknown_label`, `galaxy_shear_objects`, `galaxy_shear_one_position_refuted`, `photometric_redshifts`, `photometric_redshifts_bounds`, `photometric_redshifts_end`, `photometric_redshifts_contradictory`, `mode_power`, `matrix_defined`, `matrix_triangular`, `matrix_times_planes`, `weights_dual`, `weights_rejected`, `weights_axes_refuted`, `out_of_order_rejected`, `current_plane`, `rejected_unchanged_refuted`, `kappa_reused`, `nnls_stationary`, `nnls_optimal`, `nnls_step_mirrored`, `nnls_rejected`, `nnls_orthogonal`, `nnls_optimal_refuted`, `nnls_ends_refuted`, `interp_contract`, `interp_between_samples`, `interp_linear`, `interp_rejects`, `cumulative_trapezoid_monotone`, `distribute_draws`, `distribute_shells`, `distribute_empty`, `fixed_zbins_number`, `fixed_zbins_width`, `fixed_zbins_options`, `equal_dens_start_refuted`, `lognormal_shift_valid`, `vmap_range`, `partition_lstsq_optimal`, `partition_lstsq_recovers`, `partition_rejects`, `partition_nnls_optimal`, `partition_nnls_optimal_refuted`, `position_weights_normalised`, `position_weights_biased`, `effective_bias_range_refuted`, `check_posdef_iff`, `shear_sums`, `linear_windows_unity`, `cubic_windows_unity`, `linear_windows_shape`, `cubic_windows_shape`, `weighted_windows_sum`, `node_windows_rejects`, `tophat_windows_weighted`, `tophat_windows_rejects`, `restrict_spec`, `partition_restrict_overshoot_refuted`, `partition_method`, `redshift_grid_dz`, `redshift_grid_num`, `distance_grid_dx`, `distance_grid_num`, `redshift_grid_options`, `redshift_grid_zero_steps_refuted`

**sig_forall_dec, sig_not_dec, functional_extensionality_dep** (91 theorems): `lognormal_unclipped`, `cov_clip_nearest`, `cov_clip_total`, `cov_clip_negative`, `cov_clip_refuted`, `nearcorr_rejected`, `nearcorr_diagonal`, `nearcorr_total`, `nearcorr_unchanged`, `nearcorr_nearest`, `nearcorr_more`, `nearcorr_unchanged_refuted`, `nearcorr_stack_refuted`, `cov_nearest_rejected`, `cov_nearest_diagonal`, `cov_nearest_total`, `cov_nearest_unchanged`, `nearcorr_converges`, `nearcorr_converges_exact`, `cov_nearest_converges`, `lognormal_simulation`, `lognormal_shift_simulation`, `gaussian_simulation`, `simulation_complete`, `reduced_shear_disc`, `reduced_shear_circle`, `generate_grf_modes`, `generate_grf_definite`, `generate_grf_limited`, `generate_grf_limited_refuted`, `iternorm_covariance`, `iternorm_variance`, `iternorm_shapes`, `iternorm_cholesky`, `iternorm_accepts_definite`, `iternorm_definite_covariance`, `iternorm_definite_or_absent`, `iternorm_accepts_semidefinite_refuted`, `iternorm_semidefinite_covariance_refuted`, `iternorm_accepts_banded`, `iternorm_banded_covariance`, `iternorm_banded_or_absent`, `iternorm_accepts_limited_refuted`, `from_convergence_maps`, `norm_array_wrong_axis_refuted`, `tomo_bounded`, `tomo_contiguous`, `expected_counts_formula`, `expected_counts_nonnegative`, `expected_counts_visibility`, `expected_counts_total`, `expected_counts_total_refuted`, `positions_from_delta_sources`, `positions_need_model`, `counts_expected_unique`, `points_expected_unique`, `poisson_moments`, `positions_process`, `positions_number`, `visibility_thins`, `regularize_unknown`, `regularize_clip`, `regularize_clip_valid`, `regularize_nearest`, `ryden_expected_unique`, `ryden_isotropic`, `triaxial_axis_ratios`, `ryden04_shapes`, `ryden04_disc`, `ryden04_number_refuted`, `ryden04_ends_refuted`, `gaussian_shapes`, `gaussian_disc`, `intnorm_rejected`, `resample_orientations`, `resample_vargamma`, `resample_varg`, `resample_rejected`, `resample_varg_zero_refuted`, `resample_round_refuted`, `cov_clip_determined`, `nearcorr_determined`, `corr_zero_symmetric`, `corr_derivative`, `corr_expectation`, `transformed_bounds`, `uniform_expected_unique`, `from_ecliptic_unit`, `distance_weight_uniform`, `volume_weight_uniform`, `density_weight_matter_only`

**sig_forall_dec, sig_not_dec, classic, functional_extensionality_dep** (136 theorems): `uniform_positions_sums`, `catalogue_process`, `catalogue_number`, `catalogue_conserves`, `convergence_predicted`, `counts_predicted`, `cross_predicted`, `gaussian_maps`, `computed_maps`, `gaussian_law`, `gaussian_radii`, `gaussian_moments`, `gaussian_sigma_refuted`, `intnorm_radii`, `intnorm_variance`, `intnorm_sigma_refuted`, `erf_function`, `tomo_probability`, `tomo_complete`, `computed_spectra_covariance`, `lognormal_spectra_covariance`, `draw_inverts_cdf`, `redshifts_counts`, `redshifts_total`, `redshifts_window`, `bins_own_distribution`, `bins_redshifts`, `alignment_linear`, `alignment_formula`, `alignment_pivots`, `normal_numbers`, `corr_normal`, `default_rng_same`, `point_generators_same`, `default_rng_jax`, `random_range`, `random_single`, `random_range_refuted`, `redshift_grid_float_close`, `redshift_grid_float_end_refuted`, `redshift_grid_float_covers_refuted`, `fixed_zbins_float_end_refuted`, `convergence_sum`, `window_plane`, `matrix_entries`, `wrong_size_refuted`, `kappa_kept_refuted`, `simulated_correlations`, `simulated_spectrum`, `simulated_computed`, `simulated_solved`, `simulated_variance_refuted`, `solve_newton`, `combinations_jointly_normal`, `iternorm_normal`, `iternorm_transformed`, `trapezoid_is_integral`, `cumulative_trapezoid_additive`, `trapezoid_refinement`, `trapezoid_subrange`, `gaussian_nz_normalised`, `gaussian_nz_broadcast`, `smail_nz_normalised`, `smail_mode`, `equal_dens_fractions`, `equal_dens_start`, `photometric_law`, `tomo_same_model`, `loglinear_bias_spec`, `uniform_positions_spec`, `effective_bias_mean`, `displace_great_circle`, `displacement_reaches`, `displacement_of_displace`, `deflect_conjugate`, `deflect_zero`, `deflect_bearing_refuted`, `uniform_positions_process`, `uniform_positions_regions`, `ryden_law`, `ryden_centred`, `intnorm_shapes`, `uniform_shear_map`, `simulation_sums`, `shear_map_moments`, `shear_map_noise`, `simulation_moments`, `simulation_noise`, `solve_sound`, `solve_start`, `solve_monotone`, `solve_step`, `solve_stops`, `solve_rejected`, `solve_info_refuted`, `solve_last_refuted`, `solve_unattainable`, `solve_ends_refuted`, `inv_triangle_number_float_exact`, `inv_triangle_number_float_rejects`, `inv_triangle_number_float_refuted`, `enumerate_spectra_float_row`, `enumerate_spectra_float_row_refuted`, `symmetric_eigensystem`, `largest_eigenvalue`, `sample_process`, `sample_cells`, `sample_tomography`, `redshift_density_refuted`, `corr_inverse`, `inverse_corr`, `corr_inverse_refuted`, `compute_reproduces`, `dispatch_total`, `photometric_joint_law`, `photometric_bins`, `shear_circle_unbiased`, `ryden_shear_unbiased`, `gaussian_shear_unbiased`, `intnorm_shear_unbiased`, `uniform_positions_law`, `redshift_law`, `resample_isotropic`, `strip_colatitudes`, `vmap_visible`, `vmap_ecliptic_stripe_refuted`, `default_stripe_refuted`, `default_ecliptic_refuted`, `default_colatitudes_refuted`, `volume_weight_flat`, `density_weight_matter_refuted`, `tophat_windows_tile`, `effective_redshift`, `partition_restrict_conserves`, `partition_tophat_conserves`, `combine_conserves`
