{
 "claims": [
  {
   "property": "C01",
   "status": "proved",
   "theorems": [
    "nfields_from_nspectra_exact",
    "nfields_from_nspectra_rejects",
    "inv_triangle_number_float_exact",
    "inv_triangle_number_float_rejects",
    "inv_triangle_number_float_refuted"
   ],
   "note": "Floating point sqrt is Flocq's correctly rounded binary64 square root. The bound 2^103 for floats is sharp up to a factor near 1: a number of spectra above it is rejected (refuted for all T)."
  },
  {
   "property": "C02",
   "status": "proved",
   "theorems": [
    "enumerate_spectra_order",
    "enumerate_spectra_no_underflow",
    "spectra_indices_order",
    "spectra_indices_every_pair_once",
    "enumerate_agrees_with_indices",
    "getcl_returns_labelled_entry",
    "getcl_agrees_with_enumerate",
    "getcl_symmetric"
   ],
   "note": ""
  },
  {
   "property": "C03",
   "status": "proved",
   "theorems": [
    "enumerate_spectra_float_row",
    "enumerate_spectra_float_row_refuted"
   ],
   "note": "For every faithfully rounded power below 2^50; with correct rounding a counter near 2^53 gets the wrong row (refuted for all k)."
  },
  {
   "property": "C04",
   "status": "proved",
   "theorems": [
    "getcl_length_contract",
    "getcl_missing_entry"
   ],
   "note": ""
  },
  {
   "property": "C05",
   "status": "proved",
   "theorems": [
    "glass_to_healpix_places",
    "healpix_to_glass_places",
    "glass_healpix_round_trip",
    "glass_to_healpix_permutation",
    "healpix_reordering_rejects"
   ],
   "note": ""
  },
  {
   "property": "C06",
   "status": "proved",
   "theorems": [
    "glass_to_healpix_alm_places",
    "glass_to_healpix_alm_permutation",
    "glass_to_healpix_alm_m0_first",
    "glass_to_healpix_alm_rejects"
   ],
   "note": ""
  },
  {
   "property": "C07",
   "status": "proved",
   "theorems": [
    "multalm_scales_each_mode",
    "multalm_rejects_mismatch",
    "multalm_short_bl_refuted",
    "multalm_single_factor"
   ],
   "note": "The rejection of mismatched lengths has exceptions (broadcast of single values), stated as multalm_short_bl_refuted."
  },
  {
   "property": "C08",
   "status": "proved",
   "theorems": [
    "discretized_cls_spec",
    "discretized_cls_rejects"
   ],
   "note": ""
  },
  {
   "property": "C09",
   "status": "proved",
   "theorems": [
    "iternorm_covariance",
    "iternorm_variance",
    "iternorm_shapes",
    "iternorm_cholesky",
    "iternorm_accepts_definite",
    "iternorm_definite_covariance",
    "iternorm_definite_or_absent",
    "combinations_jointly_normal",
    "iternorm_normal",
    "iternorm_transformed"
   ],
   "note": "Real arithmetic; draws are independent standard normals represented by their coefficient vectors."
  },
  {
   "property": "C10",
   "status": "proved",
   "theorems": [
    "iternorm_accepts_semidefinite_refuted",
    "iternorm_semidefinite_covariance_refuted"
   ],
   "note": "Both claims are refuted by witnesses."
  },
  {
   "property": "C11",
   "status": "proved",
   "theorems": [
    "cls2cov_rows"
   ],
   "note": ""
  },
  {
   "property": "C12",
   "status": "proved",
   "theorems": [
    "cls2cov_lazy_rows",
    "cls2cov_yields_alias",
    "cls2cov_stored_rows_refuted"
   ],
   "note": "That stored rows stay valid is refuted; lazy consumption is proved correct."
  },
  {
   "property": "C13",
   "status": "proved",
   "theorems": [
    "generate_grf_modes",
    "mode_power",
    "generate_grf_definite"
   ],
   "note": "Spherical harmonic transforms are outside the model: the theorem is about the coefficients handed to alm2map."
  },
  {
   "property": "C14",
   "status": "proved",
   "theorems": [
    "cov_from_spectra_entries",
    "cov_from_spectra_symmetric",
    "regularized_spectra_identity",
    "regularized_spectra_roundtrip",
    "regularized_spectra_none_refuted",
    "cov_from_spectra_none_rejected",
    "cov_from_spectra_empty",
    "cov_from_spectra_rejects"
   ],
   "note": "Missing spectra (None), which the documentation admits, are refuted."
  },
  {
   "property": "C15",
   "status": "proved",
   "theorems": [
    "cov_clip_nearest",
    "cov_clip_total",
    "cov_clip_negative",
    "cov_clip_refuted",
    "symmetric_eigensystem",
    "largest_eigenvalue",
    "cov_clip_determined"
   ],
   "note": "eigh is any function returning a correct eigenvalue decomposition. Without the hypothesis on the largest eigenvalue the claim is refuted."
  },
  {
   "property": "C16",
   "status": "proved",
   "theorems": [
    "nearcorr_rejected",
    "nearcorr_diagonal",
    "nearcorr_total",
    "nearcorr_unchanged",
    "nearcorr_nearest",
    "nearcorr_more",
    "nearcorr_unchanged_refuted",
    "nearcorr_stack_refuted",
    "nearcorr_converges",
    "nearcorr_converges_exact",
    "symmetric_eigensystem",
    "nearcorr_determined"
   ],
   "note": "eigh is any function returning a correct eigenvalue decomposition. Two documented behaviours are refuted."
  },
  {
   "property": "C17",
   "status": "proved",
   "theorems": [
    "cov_nearest_rejected",
    "cov_nearest_diagonal",
    "cov_nearest_total",
    "cov_nearest_unchanged",
    "cov_nearest_converges",
    "symmetric_eigensystem"
   ],
   "note": "eigh is any function returning a correct eigenvalue decomposition."
  },
  {
   "property": "C18",
   "status": "proved",
   "theorems": [
    "nnls_stationary",
    "nnls_optimal",
    "nnls_step_mirrored",
    "nnls_rejected",
    "nnls_orthogonal"
   ],
   "note": "The linear solver is any function that is correct when it succeeds. Termination is not part of this property, see C65."
  },
  {
   "property": "C19",
   "status": "proved",
   "theorems": [
    "nnls_optimal_refuted"
   ],
   "note": "Refuted for every correct solver and every iteration limit >= 1."
  },
  {
   "property": "C20",
   "status": "proved",
   "theorems": [
    "effective_cls_sum",
    "effective_cls_symmetric",
    "effective_cls_rejects"
   ],
   "note": "Real arithmetic."
  },
  {
   "property": "C21",
   "status": "proved",
   "theorems": [
    "lognormal_gls_fields",
    "compute_gaussian_spectra_pairs",
    "compute_gaussian_spectra_raises",
    "solve_gaussian_spectra_pairs",
    "solve_gaussian_spectra_raises",
    "gaussian_spectra_mismatch"
   ],
   "note": ""
  },
  {
   "property": "C22",
   "status": "proved",
   "theorems": [
    "computed_spectra_covariance",
    "lognormal_spectra_covariance",
    "normal_numbers",
    "corr_normal",
    "iternorm_transformed",
    "corr_inverse",
    "inverse_corr",
    "corr_zero_symmetric",
    "corr_derivative",
    "corr_inverse_refuted",
    "corr_expectation",
    "compute_reproduces"
   ],
   "note": "Equations hold on the stated domains; outside of them the round trip is refuted (other branch of the square root)."
  },
  {
   "property": "C23",
   "status": "proved",
   "theorems": [
    "dispatch_total",
    "dispatch_order",
    "transformed_bounds"
   ],
   "note": ""
  },
  {
   "property": "C24",
   "status": "proved",
   "theorems": [
    "solve_sound",
    "solve_start",
    "solve_monotone",
    "solve_step",
    "solve_stops",
    "solve_rejected"
   ],
   "note": "cltocorr/corrtocl are arbitrary functions on finite arrays."
  },
  {
   "property": "C25",
   "status": "proved",
   "theorems": [
    "solve_info_refuted",
    "solve_last_refuted",
    "solve_unattainable",
    "solve_ends_refuted"
   ],
   "note": "Refuted, with non-termination of step halving in exact arithmetic and an unattainable target."
  },
  {
   "property": "C26",
   "status": "proved",
   "theorems": [
    "linear_windows_unity",
    "cubic_windows_unity",
    "linear_windows_shape",
    "cubic_windows_shape",
    "weighted_windows_sum",
    "node_windows_rejects"
   ],
   "note": "Real arithmetic."
  },
  {
   "property": "C27",
   "status": "proved",
   "theorems": [
    "tophat_windows_tile",
    "tophat_windows_weighted",
    "tophat_windows_rejects",
    "effective_redshift"
   ],
   "note": ""
  },
  {
   "property": "C28",
   "status": "proved",
   "theorems": [
    "restrict_spec",
    "partition_restrict_conserves"
   ],
   "note": ""
  },
  {
   "property": "C29",
   "status": "proved",
   "theorems": [
    "interp_contract",
    "interp_between_samples",
    "interp_linear",
    "interp_rejects"
   ],
   "note": ""
  },
  {
   "property": "C30",
   "status": "proved",
   "theorems": [
    "trapezoid_is_integral",
    "cumulative_trapezoid_additive",
    "cumulative_trapezoid_monotone",
    "trapezoid_refinement",
    "trapezoid_subrange"
   ],
   "note": ""
  },
  {
   "property": "C31",
   "status": "proved",
   "theorems": [
    "partition_restrict_conserves",
    "partition_tophat_conserves",
    "partition_restrict_overshoot_refuted",
    "combine_conserves",
    "partition_method"
   ],
   "note": "Conservation needs the distribution to lie inside the shells; otherwise refuted."
  },
  {
   "property": "C32",
   "status": "proved",
   "theorems": [
    "redshift_grid_dz",
    "redshift_grid_num",
    "distance_grid_dx",
    "distance_grid_num",
    "redshift_grid_options",
    "redshift_grid_zero_steps_refuted"
   ],
   "note": "Real arithmetic; rounding is the subject of C71. num=0 is refuted."
  },
  {
   "property": "C33",
   "status": "proved",
   "theorems": [
    "distribute_draws",
    "distribute_shells",
    "distribute_empty"
   ],
   "note": ""
  },
  {
   "property": "C34",
   "status": "proved",
   "theorems": [
    "positions_batches_complete",
    "positions_counts",
    "positions_invalid_npix"
   ],
   "note": "Counts are given; the theorem covers the batching code, not the Poisson draws."
  },
  {
   "property": "C35",
   "status": "proved",
   "theorems": [
    "positions_no_empty_batch_refuted"
   ],
   "note": "Refuted by a witness."
  },
  {
   "property": "C36",
   "status": "proved",
   "theorems": [
    "expected_counts_formula",
    "expected_counts_nonnegative",
    "expected_counts_visibility",
    "expected_counts_total",
    "expected_counts_total_refuted",
    "positions_from_delta_sources",
    "positions_need_model",
    "loglinear_bias_spec"
   ],
   "note": "The exact total needs a contrast (after biasing and removing the mean) of at least -1; without, it is refuted because clipping raises the total."
  },
  {
   "property": "C37",
   "status": "proved",
   "theorems": [
    "uniform_positions_spec",
    "uniform_positions_law"
   ],
   "note": ""
  },
  {
   "property": "C38",
   "status": "proved",
   "theorems": [
    "position_weights_normalised",
    "position_weights_biased"
   ],
   "note": ""
  },
  {
   "property": "C39",
   "status": "proved",
   "theorems": [
    "effective_bias_mean",
    "effective_bias_range_refuted"
   ],
   "note": "The range claim outside of the bias grid is refuted."
  },
  {
   "property": "C40",
   "status": "proved",
   "theorems": [
    "displace_great_circle",
    "displacement_reaches",
    "displacement_of_displace"
   ],
   "note": "Real trigonometry with an explicit atan2."
  },
  {
   "property": "C41",
   "status": "proved",
   "theorems": [
    "deflect_conjugate",
    "deflect_zero",
    "deflect_bearing_refuted"
   ],
   "note": "The documented bearing is refuted: the code uses the conjugate convention."
  },
  {
   "property": "C42",
   "status": "proved",
   "theorems": [
    "convergence_sum",
    "window_plane"
   ],
   "note": "Holds for every distance function with the additivity relation stated as hypothesis."
  },
  {
   "property": "C43",
   "status": "proved",
   "theorems": [
    "matrix_defined",
    "matrix_triangular",
    "matrix_times_planes",
    "matrix_entries",
    "weights_dual",
    "weights_rejected",
    "weights_axes_refuted"
   ],
   "note": "A stack of weights with more axes than two is refuted."
  },
  {
   "property": "C44",
   "status": "proved",
   "theorems": [
    "out_of_order_rejected",
    "current_plane",
    "rejected_unchanged_refuted",
    "wrong_size_refuted",
    "kappa_reused",
    "kappa_kept_refuted"
   ],
   "note": "A rejected plane leaves redshifts, distances, weights and convergence unchanged; that nothing at all changes is refuted, and a map of the wrong size raises too late."
  },
  {
   "property": "C45",
   "status": "proved",
   "theorems": [
    "from_convergence_maps"
   ],
   "note": "Transforms and pixel windows are arbitrary functions; the theorem is about the coefficients handed to them."
  },
  {
   "property": "C46",
   "status": "proved",
   "theorems": [
    "draw_inverts_cdf",
    "redshifts_counts",
    "redshifts_total",
    "redshifts_window",
    "uniform_expected_unique",
    "redshift_law"
   ],
   "note": "Real arithmetic, all draws."
  },
  {
   "property": "C47",
   "status": "proved",
   "theorems": [
    "bins_own_distribution",
    "bins_redshifts",
    "bins_empty_refuted",
    "bins_unknown_label"
   ],
   "note": "argsort is any sorting permutation. An empty array of objects is refuted."
  },
  {
   "property": "C48",
   "status": "proved",
   "theorems": [
    "galaxy_shear_objects",
    "reduced_shear_disc",
    "reduced_shear_circle",
    "galaxy_shear_one_position_refuted"
   ],
   "note": "A single position for many objects is refuted beyond one chunk."
  },
  {
   "property": "C49",
   "status": "proved",
   "theorems": [
    "photometric_redshifts",
    "photometric_redshifts_bounds",
    "photometric_redshifts_end",
    "photometric_redshifts_contradictory",
    "photometric_law"
   ],
   "note": "For all draws on which the loop ends, and it ends once every entry has had an acceptable value."
  },
  {
   "property": "C50",
   "status": "proved",
   "theorems": [
    "gaussian_nz_normalised",
    "gaussian_nz_broadcast",
    "smail_nz_normalised",
    "smail_mode",
    "norm_array_rejected_refuted",
    "norm_array_wrong_axis_refuted"
   ],
   "note": "Array-valued normalisation is refuted."
  },
  {
   "property": "C51",
   "status": "proved",
   "theorems": [
    "fixed_zbins_number",
    "fixed_zbins_width",
    "fixed_zbins_options",
    "equal_dens_fractions",
    "equal_dens_start",
    "equal_dens_start_refuted"
   ],
   "note": "nextafter is an argument with its order properties as hypotheses."
  },
  {
   "property": "C52",
   "status": "proved",
   "theorems": [
    "erf_function",
    "tomo_probability",
    "tomo_complete",
    "tomo_bounded",
    "tomo_contiguous",
    "tomo_same_model"
   ],
   "note": "tomo_bounded and tomo_contiguous hold for any increasing function with values in (-1, 1] as erf; the others are about the error function itself."
  },
  {
   "property": "C53",
   "status": "proved",
   "theorems": [
    "triaxial_axis_ratios",
    "ryden04_shapes",
    "ryden04_disc",
    "ryden04_number_refuted",
    "ryden04_ends_refuted",
    "gaussian_shapes",
    "gaussian_disc",
    "intnorm_shapes",
    "intnorm_rejected"
   ],
   "note": "NaN is modelled as a missing value; termination and number of results of ryden04 are refuted for some inputs."
  },
  {
   "property": "C54",
   "status": "proved",
   "theorems": [
    "resample_orientations",
    "resample_vargamma",
    "resample_varg",
    "resample_rejected",
    "resample_varg_zero_refuted",
    "resample_round_refuted",
    "resample_isotropic"
   ],
   "note": "Zero variance is refuted."
  },
  {
   "property": "C55",
   "status": "proved",
   "theorems": [
    "save_load_roundtrip",
    "save_load_added_suffix",
    "save_load_same_name_refuted",
    "save_fails_iff_empty",
    "load_fails_iff_missing"
   ],
   "note": "Contents of files are modelled, not bytes. Loading under the same name without suffix is refuted."
  },
  {
   "property": "C56",
   "status": "proved",
   "theorems": [
    "catalog_rows",
    "catalog_ragged_rejected",
    "catalog_empty_write"
   ],
   "note": "The FITS library is modelled as a list of tables."
  },
  {
   "property": "C57",
   "status": "proved",
   "theorems": [
    "jax_keys_independent",
    "jax_keys_never_reused",
    "jax_use_key_counts",
    "jax_method_call",
    "jax_unlocked_keys_refuted"
   ],
   "note": "Keys are paths in the free tree generated by split, so 'distinct' is independence of the free model, not of threefry bits."
  },
  {
   "property": "C58",
   "status": "proved",
   "theorems": [
    "equal_counts_equal_positions",
    "positions_sources",
    "default_positions_repeat",
    "randang_same_offsets",
    "fresh_positions_refuted"
   ],
   "note": "That positions are fresh is refuted."
  },
  {
   "property": "C59",
   "status": "proved",
   "theorems": [
    "leading_axes_broadcast",
    "leading_axes_rejects",
    "leading_axes_too_few_refuted",
    "first_axis_broadcast"
   ],
   "note": "That an array with too few axes is rejected is refuted."
  },
  {
   "property": "C60",
   "status": "proved",
   "theorems": [
    "fallback_converts",
    "fallback_no_arrays",
    "fallback_mixed_rejected",
    "fallback_every_sequence_refuted"
   ],
   "note": "Sequences other than tuples and lists are refuted."
  },
  {
   "property": "C61",
   "status": "proved",
   "theorems": [
    "lognormal_simulation",
    "lognormal_shift_simulation",
    "gaussian_simulation",
    "simulation_complete",
    "generate_field_by_field",
    "generate_complete",
    "generate_finishes",
    "deprecated_same_fields",
    "generate_mismatch"
   ],
   "note": ""
  },
  {
   "property": "C62",
   "status": "proved",
   "theorems": [
    "lognormal_simulation",
    "lognormal_shift_simulation",
    "gaussian_simulation",
    "simulation_complete",
    "lognormal_shift_valid"
   ],
   "note": ""
  },
  {
   "property": "C63",
   "status": "proved",
   "theorems": [
    "alignment_linear",
    "alignment_formula",
    "alignment_pivots"
   ],
   "note": ""
  },
  {
   "property": "C64",
   "status": "proved",
   "theorems": [
    "vmap_range",
    "vmap_rejects"
   ],
   "note": "Rotations are arbitrary averaging operators."
  },
  {
   "property": "C65",
   "status": "proved",
   "theorems": [
    "nnls_ends_refuted"
   ],
   "note": "Refuted for every correct solver."
  },
  {
   "property": "C66",
   "status": "proved",
   "theorems": [
    "check_posdef_iff",
    "regularize_unknown",
    "regularize_clip",
    "regularize_clip_valid",
    "regularize_nearest",
    "symmetric_eigensystem"
   ],
   "note": "eigh is any function returning a correct eigenvalue decomposition."
  },
  {
   "property": "C67",
   "status": "proved",
   "theorems": [
    "partition_lstsq_optimal",
    "partition_lstsq_recovers",
    "partition_rejects"
   ],
   "note": "lstsq is any function returning a minimiser."
  },
  {
   "property": "C68",
   "status": "proved",
   "theorems": [
    "partition_nnls_optimal",
    "partition_nnls_optimal_refuted",
    "partition_rejects"
   ],
   "note": "QR decomposition and solver are arbitrary correct functions; optimality is refuted when the iteration limit is reached."
  },
  {
   "property": "C69",
   "status": "proved",
   "theorems": [
    "jax_normal_draw",
    "jax_standard_draws",
    "jax_poisson_draw",
    "jax_uniform_draw",
    "jax_multinomial_draw",
    "jax_draw_is_numpy",
    "jax_draw_accepts_numpy_refuted"
   ],
   "note": "That every call accepted by NumPy is accepted is refuted."
  },
  {
   "property": "C70",
   "status": "proved",
   "theorems": [
    "distance_weight_uniform",
    "volume_weight_uniform",
    "volume_weight_flat",
    "density_weight_matter_only",
    "density_weight_matter_refuted"
   ],
   "note": "DensityWeight is refuted for a universe with matter and a cosmological constant."
  },
  {
   "property": "C71",
   "status": "proved",
   "theorems": [
    "redshift_grid_float_close",
    "redshift_grid_float_end_refuted",
    "redshift_grid_float_covers_refuted",
    "fixed_zbins_float_end_refuted"
   ],
   "note": "The exact claims are refuted by three concrete calls; bounds on the errors are proved. NumPy's arange, no overflow."
  },
  {
   "property": "C72",
   "status": "proved",
   "theorems": [
    "nearcorr_converges",
    "nearcorr_converges_exact",
    "cov_nearest_converges"
   ],
   "note": ""
  },
  {
   "property": "C73",
   "status": "proved",
   "theorems": [
    "symmetric_eigensystem",
    "largest_eigenvalue",
    "cov_clip_determined",
    "nearcorr_determined"
   ],
   "note": ""
  },
  {
   "property": "C74",
   "status": "proved",
   "theorems": [
    "default_rng_same",
    "point_generators_same",
    "default_rng_jax",
    "random_range",
    "random_single",
    "random_range_refuted"
   ],
   "note": ""
  },
  {
   "property": "C75",
   "status": "proved",
   "theorems": [
    "erf_function",
    "tomo_probability",
    "tomo_complete",
    "tomo_same_model"
   ],
   "note": "Real arithmetic; the error function is defined as an integral in Spec_Erf. Sources need redshifts above -1."
  },
  {
   "property": "C76",
   "status": "proved",
   "theorems": [
    "normal_numbers",
    "corr_normal",
    "combinations_jointly_normal",
    "iternorm_normal",
    "iternorm_transformed"
   ],
   "note": "Expected values are iterated limits of Riemann integrals in units of the Gaussian integral (Spec_Gauss); jointly_normal lists moments and exponentials, not arbitrary functions."
  },
  {
   "property": "C77",
   "status": "proved",
   "theorems": [
    "photometric_law",
    "tomo_same_model"
   ],
   "note": "One object; expected values are iterated Gaussian integrals (Spec_Gauss), the random numbers a list of independent standard normal numbers. Real arithmetic."
  },
  {
   "property": "C78",
   "status": "proved",
   "theorems": [
    "lognormal_simulation",
    "lognormal_shift_simulation",
    "gaussian_simulation",
    "simulation_complete",
    "lognormal_gls_fields",
    "computed_spectra_covariance",
    "lognormal_spectra_covariance"
   ],
   "note": "The transforms between spectra and correlations are any two functions inverse to each other; NaN and infinite values are not told apart. Real arithmetic."
  },
  {
   "property": "C79",
   "status": "proved",
   "theorems": [
    "uniform_expected_unique",
    "redshift_law",
    "uniform_positions_law",
    "resample_isotropic"
   ],
   "note": "Uniform numbers are real numbers between 0 and 1, as a list of independent numbers; the Poisson count of uniform_positions is given. Real arithmetic."
  },
  {
   "property": "C80",
   "status": "proved",
   "theorems": [
    "solve_newton"
   ],
   "note": "The transforms between spectra and correlations are given by matrices inverse to each other. Nothing is claimed for iterations at which the derivative vanishes. Real arithmetic."
  },
  {
   "property": "C81",
   "status": "proved",
   "theorems": [
    "simulated_correlations",
    "simulated_spectrum",
    "simulated_computed",
    "simulated_solved",
    "simulated_variance_refuted"
   ],
   "note": "alm2map is the sum over spherical harmonics, given by values in the pixels that satisfy the addition theorem; the transform to correlations is the Legendre sum at its nodes. NaN and infinite values are not told apart. Real arithmetic."
  },
  {
   "property": "C82",
   "status": "proved",
   "theorems": [
    "generate_grf_limited",
    "generate_grf_limited_refuted",
    "iternorm_accepts_banded",
    "iternorm_banded_covariance",
    "iternorm_banded_or_absent",
    "iternorm_accepts_limited_refuted"
   ],
   "note": "Nothing is claimed for matrices that become semi-definite but not definite within the limit, except when they vanish. Real arithmetic."
  },
  {
   "property": "C83",
   "status": "proved",
   "theorems": [
    "query_strip_mask",
    "query_strip_rejects",
    "strip_colatitudes",
    "from_ecliptic_unit",
    "vmap_visible",
    "vmap_ecliptic_stripe_refuted",
    "default_stripe_refuted",
    "default_ecliptic_refuted",
    "default_colatitudes_refuted"
   ],
   "note": "healpy.query_strip selects pixels by the height of their centre, compared with the cosines of the angles, as the HEALPix library does. The visibility map is a function of the direction, the limit of small pixels; pixels and averages are in C64. Real arithmetic."
  },
  {
   "property": "C84",
   "status": "proved",
   "theorems": [
    "trapezoid_any_library",
    "interp_any_library",
    "interp_number",
    "gradient_any_library",
    "gradient_axes_refuted",
    "einsum_any_library",
    "lstsq_any_library",
    "lstsq_rank_refuted",
    "apply_along_axis_any_library",
    "angles_any_library",
    "tril_indices_any_library",
    "vectorize_library_refuted",
    "wrappers_reject_mixed",
    "trapezoid_default_refuted",
    "shear_other_library_refuted",
    "shear_numpy",
    "pixwin_datapath",
    "map2alm_datapath"
   ],
   "note": "The functions of NumPy, JAX and healpy are given, as functions of contents of arrays. Copies and memory are not modelled."
  },
  {
   "property": "C85",
   "status": "proved",
   "theorems": [
    "gaussian_law",
    "gaussian_radii",
    "gaussian_moments",
    "gaussian_sigma_refuted"
   ],
   "note": "The source of normal numbers is a list whose entries are independent and standard normal. The loop is limited to a number of repetitions; the chance that it needs more is part of the statement and vanishes geometrically. Real arithmetic."
  },
  {
   "property": "C86",
   "status": "proved",
   "theorems": [
    "intnorm_radii",
    "intnorm_variance",
    "intnorm_sigma_refuted"
   ],
   "note": "As for C85. The variance is the mean of those of the two components. Nothing is claimed about the fit above 1/5."
  },
  {
   "property": "C87",
   "status": "proved",
   "theorems": [
    "uniform_positions_sums",
    "counts_expected_unique",
    "points_expected_unique",
    "poisson_moments",
    "uniform_positions_process",
    "uniform_positions_regions",
    "positions_process",
    "positions_number",
    "visibility_thins"
   ],
   "note": "The generators' Poisson and uniform methods are taken to give independent numbers of the requested distributions; a number is only given out for the mean that it was drawn for. Within pixels nothing is claimed about the positions of positions_from_delta (see C58). Functions of the latitude are continuous apart from jumps. Real arithmetic."
  },
  {
   "property": "C88",
   "status": "proved",
   "theorems": [
    "photometric_joint_law",
    "photometric_bins"
   ],
   "note": "For one-dimensional arrays and scalars (bounds have the size of the result). The generator's normal method is taken to give independent numbers. Existence of the expected values is a hypothesis on the functions of the redshifts; photometric_bins shows it for bins. Real arithmetic."
  },
  {
   "property": "C89",
   "status": "proved",
   "theorems": [
    "ryden_law",
    "ryden_expected_unique",
    "ryden_isotropic",
    "ryden_centred"
   ],
   "note": "For arrays that are broadcast to a common size. The generator's normal and uniform methods are taken to give independent numbers. Existence of the expected values is a hypothesis on the functions of the ellipticity; ryden_centred shows it for the components. Real arithmetic."
  },
  {
   "property": "C90",
   "status": "proved",
   "theorems": [
    "catalogue_process",
    "catalogue_number",
    "catalogue_conserves"
   ],
   "note": "The loop is that of the example notebooks without lensing, shapes and photometric redshifts. The generator's poisson and uniform methods are taken to give independent numbers with the requested distributions. Functions of redshift are step functions. Real arithmetic."
  },
  {
   "property": "C91",
   "status": "proved",
   "theorems": [
    "convergence_predicted",
    "counts_predicted",
    "cross_predicted",
    "gaussian_maps",
    "computed_maps",
    "lognormal_unclipped"
   ],
   "note": "The notebooks (examples/1-basic) are modelled for the loop over shells; the shear maps are left out. The signal of the galaxies is the expected number in each pixel, before the Poisson numbers are drawn. Correlation functions are those of C81, with the same assumptions about alm2map and the harmonics. lognormal_unclipped gives the case in which the condition of no clipping holds for all random numbers."
  },
  {
   "property": "C92",
   "status": "proved",
   "theorems": [
    "extension_directories",
    "extension_order",
    "extension_once",
    "extension_own",
    "extension_absolute",
    "extension_keeps_path_refuted"
   ],
   "note": "pkgutil.extend_path and os.path.join are modelled as in the standard library on POSIX; what the importers find is a parameter. Names of places must not be empty or end with a separator, as os.path.join would then not insert one. extension_keeps_path_refuted is the finding that the given path is replaced, not extended."
  },
  {
   "property": "C93",
   "status": "proved",
   "theorems": [
    "sample_process",
    "sample_cells",
    "sample_tomography",
    "redshift_density_refuted"
   ],
   "note": "The example is modelled with a bound on the repetitions of the loop in gaussian_phz; the Err results are counted as 0, and the limit of many repetitions is part of the theorems. redshift_density_refuted is the finding that the redshifts drawn are uniform between two points of the grid."
  },
  {
   "property": "C94",
   "status": "proved",
   "theorems": [
    "alm2map_call",
    "almxfl_call",
    "almxfl_mixed",
    "ang2pix_call",
    "ang2vec_call",
    "alm2map_spin_call",
    "get_nside_call",
    "pixel_numbers_call",
    "rotate_call",
    "options_by_keyword",
    "ang2pix_xp",
    "ang2pix_xp_refuted"
   ],
   "note": "The functions of healpy and healpix are parameters that return NumPy arrays; whether they write into their arguments is not modelled. ang2pix_xp_refuted is the finding that the documented parameter xp is rejected without arrays."
  },
  {
   "property": "C95",
   "status": "proved",
   "theorems": [
    "shear_circle_unbiased",
    "ryden_shear_unbiased",
    "gaussian_shear_unbiased",
    "intnorm_shear_unbiased"
   ],
   "note": "Expected values are integrals over normal and uniform numbers."
  },
  {
   "property": "C96",
   "status": "proved",
   "theorems": [
    "uniform_shear_map",
    "simulation_sums",
    "shear_sums",
    "shear_map_moments",
    "shear_map_noise",
    "simulation_moments",
    "simulation_noise"
   ],
   "note": "In shear_map_moments and shear_map_noise galaxies are at any place within their pixels, with independent Poisson numbers in pixels; in uniform_shear_map they are drawn by uniform_positions, and the indicator function of each pixel is continuous along meridians apart from jumps and has a mean over the sphere. Real arithmetic."
  }
 ]
}