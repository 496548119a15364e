{
 "claims": [
  {
   "property": "C01",
   "status": "proved",
   "theorems": [
    "C01_exclusive_checkout"
   ],
   "note": "All histories of the circular scene server from any freshly ingested catalog."
  },
  {
   "property": "C02",
   "status": "proved",
   "theorems": [
    "C02_bookkeeping_balances",
    "C02_sparse"
   ],
   "note": ""
  },
  {
   "property": "C03",
   "status": "proved",
   "theorems": [
    "C03_checkin_frame",
    "C03_looked_up",
    "C03_checkins_commute",
    "C03_checkin_succeeds_iff"
   ],
   "note": ""
  },
  {
   "property": "C04",
   "status": "proved",
   "theorems": [
    "C04_counts_and_logs",
    "C04_reset"
   ],
   "note": ""
  },
  {
   "property": "C05",
   "status": "proved",
   "theorems": [
    "C05_circular_patch_shape",
    "C05_circular_refused_iff",
    "C05_circular_granted_iff"
   ],
   "note": ""
  },
  {
   "property": "C06",
   "status": "partial",
   "theorems": [
    "C06_in_use_not_valid_refuted",
    "C06_in_use_not_valid_partial"
   ],
   "note": "The property is false of the code: validity is a flag, not a count, so the return of a patch that shares a source marks it valid while another patch still uses it (witness proved). What holds is proved as the partial theorem."
  },
  {
   "property": "C07",
   "status": "partial",
   "theorems": [
    "C07_seed_weights_probability",
    "C07_seed_weights_favour_undersampled",
    "C07_invalid_weight_zero_refuted",
    "C07_sigmoid_active_weight_zero_refuted"
   ],
   "note": "The zero-weight clause is false of the code (~ on an int32 flag gives -2 or -1, both of which mask nothing as intended); witnesses proved. Probability vector and monotonicity clauses are proved in full."
  },
  {
   "property": "C08",
   "status": "partial",
   "theorems": [
    "C08_growth_is_reachable_set",
    "C08_growth_is_linked_set",
    "C08_wide_radii_refuted"
   ],
   "note": "Termination, no repeats and exactness are proved for every catalog with respect to the overlap search the code performs, and with respect to true overlap of regions of influence when no radius exceeds the boundary radius. For wider radii the search misses overlapping sources (witness proved)."
  },
  {
   "property": "C09",
   "status": "partial",
   "theorems": [
    "C09_group_catalog_partial",
    "C09_group_catalog_refuted"
   ],
   "note": "Proved when no radius of influence exceeds the boundary radius; false otherwise (two witnesses proved: overlapping sources in different groups, and an unused group number)."
  },
  {
   "property": "C10",
   "status": "partial",
   "theorems": [
    "C10_linked_patch_shape",
    "C10_linked_patch_groups_partial",
    "C10_active_repeats_refuted"
   ],
   "note": "Size, fixed-source and region clauses for all radii; group clauses when no radius exceeds the boundary radius; without that the active list can repeat a source (witness proved)."
  },
  {
   "property": "C11",
   "status": "partial",
   "theorems": [
    "C11_exclusive_linked_checkout_refuted",
    "C11_exclusive_linked_checkout_partial"
   ],
   "note": "False of the code in general (two witnesses: group larger than a patch; radii following the catalog). Proved over all histories for strict mode with supplied radii inside the boundary radius and groups that fit."
  },
  {
   "property": "C12",
   "status": "proved",
   "theorems": [
    "C12_queue_accounting",
    "C12_collect_effect"
   ],
   "note": "MPI is represented by its contract: which requests complete is an arbitrary input."
  },
  {
   "property": "C13",
   "status": "partial",
   "theorems": [
    "C13_queue_never_misused",
    "C13_results_checked_in_partial",
    "C13_label_refuted",
    "C13_stragglers_refuted",
    "C13_server_error_iff",
    "C13_no_exception_partial",
    "C13_server_fails_refuted"
   ],
   "note": "Queue misuse is excluded and every result collected in the loop is checked in once. The code logs results under the latest task number, not their own (refuted with a two-child run), and throws away results that arrive after the loop (refuted). Exactly which passes die in the scene server is proved (an iff); with compact sources no pass fails at all; a fit that grows a source past the maximal radius kills every later pass (refuted)."
  },
  {
   "property": "C14",
   "status": "proved",
   "theorems": [
    "C14_set_then_get",
    "C14_too_short_fails",
    "C14_single_band",
    "C14_generic_source_refuted"
   ],
   "note": "All concrete source kinds in any mixture. The generic base class cannot be set through a scene at all (refuted for every vector)."
  },
  {
   "property": "C15",
   "status": "proved",
   "theorems": [
    "C15_stacked_layout",
    "C15_stacked_gradient"
   ],
   "note": "Galaxy scenes, the kind the fast kernel takes. The kernel response is an argument of the theorem; its correctness is C22."
  },
  {
   "property": "C16",
   "status": "proved",
   "theorems": [
    "C16_parameter_vector",
    "C16_bounds",
    "C16_bounds_exist",
    "C16_proposal",
    "C16_chain_catalog"
   ],
   "note": "One position s*(n_bands+6)+j in all four."
  },
  {
   "property": "C35",
   "status": "proved",
   "theorems": [
    "C35_chain_catalog_exists",
    "C35_sample_roundtrip"
   ],
   "note": ""
  },
  {
   "property": "C44",
   "status": "partial",
   "theorems": [
    "C44_indices_of_active_source",
    "C44_fixed_source_refuted"
   ],
   "note": "Holds when every source is active; with an inactive source in front the indices are another source's (witness)."
  },
  {
   "property": "C17",
   "status": "proved",
   "theorems": [
    "C17_transform_inside",
    "C17_inverse_of_transform",
    "C17_transform_of_inverse",
    "C17_increasing"
   ],
   "note": "Exact real arithmetic."
  },
  {
   "property": "C18",
   "status": "proved",
   "theorems": [
    "C18_posterior_gradient",
    "C18_nll_gradient",
    "C18_volume_term",
    "C18_fast_posterior_gradient"
   ],
   "note": "All transforms, both settings of the switch; the last theorem is the fast posterior end to end with the kernel response as an argument."
  },
  {
   "property": "C19",
   "status": "partial",
   "theorems": [
    "C19_barrier_gradient",
    "C19_symmetric",
    "C19_barrier_partial",
    "C19_any_exponent_refuted",
    "C19_sum",
    "C19_box_partial"
   ],
   "note": "Gradient and symmetry for every exponent; the barrier shape for negative exponents, in one parameter and on boxes of any dimension. The constructor accepts exponents above 0, for which there is no barrier (refuted)."
  },
  {
   "property": "C38",
   "status": "partial",
   "theorems": [
    "C38_answers_fresh_partial",
    "C38_stale_after_inplace_change_refuted",
    "C38_stale_after_switch_refuted",
    "C38_stale_after_prior_change_refuted",
    "C38_shared_gradient_refuted",
    "C38_first_vector_refuted"
   ],
   "note": "Fresh for every history in which passed arrays and returned gradients are not written to and switches are followed by a new vector; each of these provisos is shown to be needed."
  },
  {
   "property": "C20",
   "status": "proved",
   "theorems": [
    "C20_pixel_derivatives",
    "C20_rendered_value",
    "C20_sums"
   ],
   "note": "Over the reals, not floating point."
  },
  {
   "property": "C21",
   "status": "proved",
   "theorems": [
    "C21_kernel_gradient",
    "C21_jacobian",
    "C21_posterior_gradient"
   ],
   "note": "Over the reals; at most MAXSOURCES sources; amplitudes need not be non-zero, the axis ratio only non-zero."
  },
  {
   "property": "C22",
   "status": "proved",
   "theorems": [
    "C22_unmasked_pixels_only",
    "C22_chi2_value",
    "C22_no_extra_gradient"
   ],
   "note": "Over the reals."
  },
  {
   "property": "C23",
   "status": "proved",
   "theorems": [
    "C23_same_image",
    "C23_dropped_term",
    "C23_same_gradient",
    "C23_arcsec_psf_refuted"
   ],
   "note": "Real arithmetic; PSF mixtures in pixel units, as the device patch needs. The image is equal up to the terms the kernel drops (C23_dropped_term says which) and the gradients are equal. For PSFs in arcsec the two renderers differ (C23_arcsec_psf_refuted)."
  },
  {
   "property": "C43",
   "status": "proved",
   "theorems": [
    "C43_gpu_equals_cpu",
    "C43_gpu_runs",
    "C43_same_residuals",
    "C43_accumulator_in_range",
    "C43_unpadded_refuted"
   ],
   "note": "Real arithmetic, one block per band, arbitrary order of atomic additions and writes. Needs a block of whole warps and exposures padded to 32 pixels; C43_unpadded_refuted shows the second condition cannot be dropped, C43_accumulator_in_range that the first cannot. The residual image needs neither."
  },
  {
   "property": "C24",
   "status": "proved",
   "theorems": [
    "C24_qphi_roundtrip",
    "C24_eta_roundtrip",
    "C24_q_range",
    "C24_q_derivatives",
    "C24_pa_derivatives",
    "C24_gradient_conversion",
    "C24_angle_modulo_pi",
    "C24_pa_on_cut_refuted",
    "C24_fast_gradient_refuted"
   ],
   "note": "Real arithmetic. Derivatives hold for every non-round source; the angle's own derivative needs to be off the half-line where the angle jumps (C24_pa_on_cut_refuted), but gradients of anything that depends on the angle modulo pi are right there too, and the kernel is such a thing (C24_angle_modulo_pi). The fast likelihood never applies the conversion (C24_fast_gradient_refuted)."
  },
  {
   "property": "C25",
   "status": "proved",
   "theorems": [
    "C25_accepts",
    "C25_exposures",
    "C25_bands",
    "C25_split",
    "C25_padding"
   ],
   "note": "Integer tables are unbounded naturals. build_patch is characterised exactly: it accepts iff the exposures are non-empty, known and grouped by band. Bands without exposures do not enter the band list."
  },
  {
   "property": "C41",
   "status": "proved",
   "theorems": [
    "C41_psf_rows",
    "C41_mixed_lengths_refuted"
   ],
   "note": "Holds when the store's n_psf_per_source attribute is the length of the band's tables. The code only checks the grand total: C41_mixed_lengths_refuted shows attributes that cancel across bands are accepted and give wrong rows."
  },
  {
   "property": "C45",
   "status": "partial",
   "theorems": [
    "C45_shared_psf_partial",
    "C45_store_ignores_position",
    "C45_per_source_psf_refuted",
    "C45_kernel_reads_first_refuted"
   ],
   "note": "True only when all sources share a band's table (as PSFStore always gives). With per-source tables the kernel reads the first source's rows: refuted."
  },
  {
   "property": "C26",
   "status": "proved",
   "theorems": [
    "C26_coordinates_match",
    "C26_each_pixel_once",
    "C26_corners",
    "C26_region_pixels",
    "C26_large_image_refuted"
   ],
   "note": "Holds for sides up to 32768: coordinates are stored as int16, and C26_large_image_refuted shows the tables are wrong above that. C26_region_pixels follows the pixels through StorePatch.find_pixels."
  },
  {
   "property": "C27",
   "status": "partial",
   "theorems": [
    "C27_stored_pixels_partial",
    "C27_refusal",
    "C27_accepts_any_values",
    "C27_integer_mask_refuted"
   ],
   "note": "IEEE floats (Flocq) with rounding and special values, image and store formats arbitrary. Missing: integer masks without a bitmask, for which the claim is false (C27_integer_mask_refuted)."
  },
  {
   "property": "C28",
   "status": "partial",
   "theorems": [
    "C28_cap_partial",
    "C28_idempotent",
    "C28_negative_refuted",
    "C28_single_partial",
    "C28_single_refuted"
   ],
   "note": "Bound over the reals for non-negative pixels; idempotence in any arithmetic. In single precision the bound holds to a part in 2^24 and can be passed by a rounding. The |data| bound is false for negative pixels (C28_negative_refuted)."
  },
  {
   "property": "C46",
   "status": "partial",
   "theorems": [
    "C46_store_again_partial",
    "C46_background_refuted"
   ],
   "note": "True without background and calibration; with a background the second call subtracts it again because the arrays are changed in place."
  },
  {
   "property": "C29",
   "status": "partial",
   "theorems": [
    "C29_subtracted_once_partial",
    "C29_blocks",
    "C29_gpu_refuses_second",
    "C29_empty_fixed_refuted",
    "C29_cpu_twice_refuted",
    "C29_derivatives"
   ],
   "note": "Proved over reals on both devices for the first preparation with absent or non-empty groups of fixed and big sources. Refuted: an empty catalog of fixed sources raises, and on the CPU a second preparation subtracts everything a second time."
  },
  {
   "property": "C39",
   "status": "partial",
   "theorems": [
    "C39_unzero_zero",
    "C39_prepare",
    "C39_repeat",
    "C39_float_exact",
    "C39_no_active_refuted",
    "C39_linear_optimize_refuted",
    "C39_float_refuted",
    "C39_reference"
   ],
   "note": "Exact over the reals for every history of preparations. In binary64 exact when a coordinate is within a factor two of the reference, refuted otherwise. Without active sources the recorded reference is the origin."
  },
  {
   "property": "C30",
   "status": "proved",
   "theorems": [
    "C30_least_squares",
    "C30_unique",
    "C30_precision",
    "C30_curvature",
    "C30_masked",
    "C30_fluxes",
    "C30_prepared",
    "C30_failure",
    "C30_zero_flux_refuted"
   ],
   "note": "least squares for one band with any design matrix, weights, data and fixed image; optimize_fluxes on any prepared patch, both devices, any solver whose answers solve the system. A zero flux in the given catalog leaves the design row undefined (refuted)."
  },
  {
   "property": "C31",
   "status": "proved",
   "theorems": [
    "C31_disjoint",
    "C31_convex_exact",
    "C31_rectangles",
    "C31_contains_ccw",
    "C31_contains_cw",
    "C31_contains_hull",
    "C31_degenerate_refuted"
   ],
   "note": "Over the reals. polygons_overlap: False means disjoint for any polygons; for strictly convex polygons it is True exactly when the hulls meet. polygon_contains: exact interior test for either orientation of a strictly convex polygon. Finding: a polygon whose vertices coincide contains every point."
  },
  {
   "property": "C42",
   "status": "partial",
   "theorems": [
    "C42_found",
    "C42_circle_partial",
    "C42_meta_square_partial",
    "C42_meta_inside_partial",
    "C42_lazy_wcs_refuted",
    "C42_surrounded_refuted",
    "C42_small_circle_refuted",
    "C42_crossing_refuted",
    "C42_meta_refuted",
    "C42_bounding_box",
    "C42_rectangle_partial",
    "C42_rectangle_margin",
    "C42_small_rectangle_refuted",
    "C42_fits_check"
   ],
   "note": "False as stated of the code, with witnesses: a StorePatch opens its metadata without WCS and then finds no exposure at all; a region whose box surrounds the image, a circle away from the super-pixel corners, a region crossing the image and a point in a non-square image are missed. Proved: exactly what is found; for circles the exposures and pixels inside by half a super-pixel diagonal, given a box corner in the image; for square images the point search is exact and its cache does not change answers. For rectangles, the exposures and pixels with the sky within half a super-pixel inside, given a corner of the rectangle in the image."
  },
  {
   "property": "C32",
   "status": "partial",
   "theorems": [
    "C32_multiple_of_pi",
    "C32_principal_iff",
    "C32_kept_partial",
    "C32_unwrapped_refuted",
    "C32_rectify_rotate"
   ],
   "note": "False as stated: the test for angles below the interval compares with +pi/2, so angles oscillate. Proved: the result always differs by a multiple of pi; exactly which angles end in the interval for any number of passes (135 degrees does not); angles already inside stay inside for an even number of passes, with rotation and reversal; rectify_catalog's rotation lands in the interval for clip ranges within +-pi."
  },
  {
   "property": "C33",
   "status": "partial",
   "theorems": [
    "C33_check_exact",
    "C33_generated_iff_partial",
    "C33_precision",
    "C33_vectors",
    "C33_adjust_widens",
    "C33_zero_flux_refuted",
    "C33_default_ranges_refuted",
    "C33_adjust_refuted",
    "C33_flux_width",
    "C33_zero_width",
    "C33_widths",
    "C33_default_shapes",
    "C33_missing_column"
   ],
   "note": "The widths of all bounds are stated, by flux, uncertainty and arcseconds. The check is exact and reports a column with a violation; bounds vectors agree with it. Generated bounds contain positions always, fluxes exactly when they are not zero (or have a positive uncertainty). False for a zero flux, for shapes let pass by rectify_catalog's defaults, and after adjust_bounds, which puts every flux below its lower bound. Infinities (unc1 = 0) and broadcasting of one-row catalogs are left out."
  },
  {
   "property": "C34",
   "status": "proved",
   "theorems": [
    "C34_extract",
    "C34_assembled",
    "C34_round_trip",
    "C34_returned_unchanged"
   ],
   "note": "Blocks of an assembled covariance are the ones put in, for any number and size of blocks."
  },
  {
   "property": "C36",
   "status": "proved",
   "theorems": [
    "C36_reflects",
    "C36_inside_untouched",
    "C36_parity",
    "C36_degenerate_box"
   ],
   "note": "Over the reals. The loop terminates for every start when lower < upper (finite or infinite); the result is the bounced path and the sign counts bounces. With lower = upper, outside the claim, the loop never ends."
  },
  {
   "property": "C37",
   "status": "partial",
   "theorems": [
    "C37_exact_partial",
    "C37_stray",
    "C37_unknown",
    "C37_count",
    "C37_precedence_partial",
    "C37_joined_refuted",
    "C37_abbreviation_refuted",
    "C37_joined_config_file_refuted",
    "C37_read_config_refuted",
    "C37_rectified",
    "C37_store_directory_refuted",
    "C37_bounds_kwargs",
    "C37_store_path"
   ],
   "note": "Proved for options written in full and apart from their value; the exact rule is proved for every spelling. False for '--k=v' and abbreviations, which are parsed and then dropped."
  },
  {
   "property": "C40",
   "status": "partial",
   "theorems": [
    "C40_images_partial",
    "C40_populate",
    "C40_catalog",
    "C40_padding_refuted",
    "C40_leaked_shape_refuted",
    "C40_shared_default_refuted",
    "C40_patches_argument_refuted",
    "C40_multipatch_partial",
    "C40_multipatch_refuted"
   ],
   "note": "Images: proved when all pixels lie in their image; false with padding pixels at (-1,-1), which are written over the last pixel, and for the shared default dictionary. Catalogs: proved for every run in order; find_multipatch is right only when patches were logged in the order of their ids."
  },
  {
   "property": "C47",
   "status": "partial",
   "theorems": [
    "C47_density",
    "C47_pass_never_lowers",
    "C47_likelihoods_never_decrease_partial",
    "C47_answer_sound",
    "C47_moments_preserved",
    "C47_first_pass_refuted",
    "C47_no_answer_refuted",
    "C47_repeats"
   ],
   "note": "Proved over the reals: a pass never lowers the likelihood when the amplitudes sum to at most one, which every pass after the first satisfies; any answer is a proper mixture; moments of the image are reproduced by each pass. False of the code: the first pass may lower the likelihood (random amplitudes sum above one), and a fit that does not converge within the limit returns nothing at all."
  },
  {
   "property": "C48",
   "status": "partial",
   "theorems": [
    "C48_linear_exact",
    "C48_scale_in_arcsec",
    "C48_limit",
    "C48_branches_agree",
    "C48_ra_wrap_refuted",
    "C48_packed_position",
    "C48_moved_position",
    "C48_stored_sources",
    "C48_stored_affine",
    "C48_first_source_refuted",
    "C48_stamp_round_trip"
   ],
   "note": "Exact for affine world coordinates, in the limit for differentiable ones. False of the code where right ascension wraps between 0 and 360, and when a different number of positions than sources is converted (the first source's matrix is used for all)."
  },
  {
   "property": "C49",
   "status": "partial",
   "theorems": [
    "C49_round_trip",
    "C49_images",
    "C49_too_few_residuals",
    "C49_duplicate_refuted"
   ],
   "note": "Proved for distinct exposure paths. False of the code for a repeated path: the second exposure's arrays are silently dropped."
  },
  {
   "property": "C50",
   "status": "partial",
   "theorems": [
    "C50_fraction",
    "C50_flux",
    "C50_flux_radius",
    "C50_isophote",
    "C50_isophote_refuted",
    "C50_kron",
    "C50_kron_rmax_partial",
    "C50_kron_rmax_refuted"
   ],
   "note": "Proved over the reals for any functions with the derivative and limits of the incomplete gamma function, shown to exist for every whole index. False of the code: the Kron radius with a maximum radius misses the ratio of the complete gamma functions; a brightness above the central one still gets a radius when the index is a whole number."
  },
  {
   "property": "C51",
   "status": "partial",
   "theorems": [
    "C51_render_gradient",
    "C51_plans_agree",
    "C51_fast_value",
    "C51_unit_amplitudes",
    "C51_value",
    "C51_any_value",
    "C51_gradient",
    "C51_negative",
    "C51_shear_refuted",
    "C51_fixed_sources_refuted",
    "C51_fixed_scene_refuted",
    "C51_shared_keyword_refuted"
   ],
   "note": "Value and gradient proved for scenes of galaxies and stars without fixed sources; with fixed sources the claim is refuted for WorkPlan and for scenes holding a fixed source, and the shared keyword dictionary makes the outcome depend on the order of plans. For galaxies in conformal shear the value is right (C51_any_value, any classes) and the gradient entry of eta_+ is refuted: it is the derivative in the axis ratio."
  },
  {
   "property": "C52",
   "status": "partial",
   "theorems": [
    "C52_optimum",
    "C52_stationary",
    "C52_lnp_partial",
    "C52_lnp_refuted",
    "C52_volume_kept_refuted",
    "C52_chain",
    "C52_start",
    "C52_warmup_refuted",
    "C52_map",
    "C52_map_refuted",
    "C52_mass",
    "C52_mass_kept",
    "C52_mass_default",
    "C52_mass_refuted",
    "C52_variance",
    "C52_handoff",
    "C52_handoff_fluxes",
    "C52_task_optimum",
    "C52_singular_refuted"
   ],
   "note": "Bounds, counts, optimality, mass matrix and hand-off proved for optimisers and samplers keeping their contract. False of the code: the reported log probability is half of it, later warmup windows are ignored, the mass matrix may stay indefinite after five tries, get_map maximises the density in the unbounded variables, and a singular band in the linear step breaks the task."
  },
  {
   "property": "C53",
   "status": "partial",
   "theorems": [
    "C53_percentile",
    "C53_order",
    "C53_monotone",
    "C53_ends",
    "C53_counts",
    "C53_affine",
    "C53_weighted",
    "C53_weighted_found",
    "C53_weighted_place",
    "C53_equal_weights",
    "C53_weight_scale",
    "C53_last_weight_refuted",
    "C53_heavy_refuted",
    "C53_spans",
    "C53_catalog"
   ],
   "note": "Everything about unweighted percentiles, spans and catalogs is proved. Weighted quantiles stay within the samples, increase, depend on weight ratios only and agree with the unweighted ones for equal weights; that every sample's weight counts is refuted: the weight of the largest sample is never used."
  },
  {
   "property": "C54",
   "status": "partial",
   "theorems": [
    "C54_combined",
    "C54_header",
    "C54_conserved",
    "C54_order",
    "C54_position",
    "C54_integer_ids_refuted",
    "C54_names_refuted",
    "C54_wrap_refuted",
    "C54_append",
    "C54_append_unnamed_refuted",
    "C54_append_shifted_refuted",
    "C54_uncertainties",
    "C54_snr",
    "C54_default",
    "C54_default_snr_refuted",
    "C54_zero_flux_refuted",
    "C54_missing_refuted"
   ],
   "note": "Proved for text ids, named extensions and runs with precision matrices in every patch. Refuted: integer ids are never found, group names are rewritten as floats, right ascension is averaged across the wrap, unnamed extensions fail or are shifted by one, a patch without precision matrices fails the whole run, and the default uncertainty does not respect snr_max."
  },
  {
   "property": "C55",
   "status": "partial",
   "theorems": [
    "C55_saved",
    "C55_kept",
    "C55_complete",
    "C55_loaded",
    "C55_again",
    "C55_task",
    "C55_filled",
    "C55_none_refuted",
    "C55_large_list_refuted",
    "C55_text_array_refuted",
    "C55_scalar_array_refuted",
    "C55_bare_name_refuted",
    "C55_rectangle_refuted",
    "C55_names_refuted"
   ],
   "note": "Proved: a completed save followed by a load gives every attribute back or names it in the messages; arrays of numbers or bytes, numbers and text are never lost; loaded names, region and chain catalog; a filled result written and loaded; loading and saving again changes nothing. Refuted of the code: None and large lists are lost without notice after write_to_disk, arrays of text abort the save, arrays without dimensions make the file unreadable, bare file names raise, rectangular regions are not restored, lists of names change type with every save. h5py is modelled from its documentation."
  },
  {
   "property": "C56",
   "status": "partial",
   "theorems": [
    "C56_images_partial",
    "C56_names",
    "C56_same_name_refuted",
    "C56_patch_regions",
    "C56_labels_refuted",
    "C56_pages_partial",
    "C56_pages_refuted"
   ],
   "note": "Proved for runs whose exposures have different base names; exposures of equal base name overwrite each other (refuted). Patch circles are complete but labelled by rank of file name (refuted); pages omit the patches after the last full page (refuted)."
  },
  {
   "property": "C57",
   "status": "partial",
   "theorems": [
    "C57_written",
    "C57_round_trip_partial",
    "C57_stable",
    "C57_exact",
    "C57_class_refuted",
    "C57_lost_refuted",
    "C57_position_error",
    "C57_position_refuted",
    "C57_ids",
    "C57_names_distinct",
    "C57_names_aligned",
    "C57_names_fit_refuted"
   ],
   "note": "Proved for scenes of Galaxy (free or fixed profile) or ConformalShearGalaxy with common filters; values come back rounded to single precision, exactly when they are representable. Refuted: the other classes cannot be read, fixed marks are lost, unknown extra columns are zeros, positions move by up to 0.055 arcsec, names do not match the vector of a fit when a source is fixed."
  },
  {
   "property": "C58",
   "status": "partial",
   "theorems": [
    "C58_detector",
    "C58_reshape",
    "C58_parameters",
    "C58_newstyle_partial",
    "C58_newstyle_refuted",
    "C58_files_refuted",
    "C58_fwhm_refuted",
    "C58_stored",
    "C58_flux",
    "C58_order",
    "C58_one_gaussian_refuted",
    "C58_overwrite",
    "C58_combined",
    "C58_image",
    "C58_scaled",
    "C58_shape",
    "C58_blur"
   ],
   "note": "Equality of the densities proved for the EM fits, the sampled fits, rescaling and blurring (heat equation). Refuted: tables of non-square images are shifted, files written by psf_mixture and make_psf cannot be read by get_psf, the PSF made from a width alone has the wrong width, fits of one gaussian cannot be stored."
  },
  {
   "property": "C59",
   "status": "partial",
   "theorems": [
    "C59_identity",
    "C59_distinct",
    "C59_distinct_refuted",
    "C59_band",
    "C59_pixels",
    "C59_deleted_refuted",
    "C59_sizes",
    "C59_headers",
    "C59_file",
    "C59_gwcs_partial",
    "C59_gwcs_refuted",
    "C59_table",
    "C59_flux",
    "C59_run",
    "C59_capitals"
   ],
   "note": "Proved for files whose path does not repeat the name of the frame directory or of the extension and of which none is named like a directory of another. Refuted without these: names collide, adding one exposure deletes another; generalized WCS of an older file are read, or dropped."
  },
  {
   "property": "C60",
   "status": "partial",
   "theorems": [
    "C60_table",
    "C60_opens",
    "C60_point",
    "C60_descending_refuted",
    "C60_repeated",
    "C60_total",
    "C60_below",
    "C60_jump_refuted",
    "C60_gradient",
    "C60_edge_refuted",
    "C60_mixture",
    "C60_growth",
    "C60_misfit",
    "C60_smooth_refuted",
    "C60_profile",
    "C60_stored"
   ],
   "note": "Proved for grids strictly increasing as stored, derivatives inside the table, and totals everywhere. Refuted: tables with descending grids, derivatives beyond the largest radius, continuity at the smallest index, and a smoothness penalty that ignores level amplitudes."
  },
  {
   "property": "C61",
   "status": "partial",
   "theorems": [
    "C61_pixels",
    "C61_bands",
    "C61_psf",
    "C61_built",
    "C61_unsorted",
    "C61_astrometry",
    "C61_mask_refuted",
    "C61_fixed_refuted",
    "C61_back_refuted",
    "C61_last_refuted",
    "C61_unset_refuted",
    "C61_reference_refuted",
    "C61_sizes",
    "C61_counts",
    "C61_single",
    "C61_gaussians"
   ],
   "note": "Layout of pixels, bands, PSF gaussians and matrices proved for all stamps and scenes of active sources that have the declared numbers of gaussians; such scenes always make a patch. Refuted: masks, fixed sources, the check of the number of gaussians in the last exposure, references of sources after the first, turning a patch back into stamps."
  },
  {
   "property": "C62",
   "status": "partial",
   "theorems": [
    "C62_grid",
    "C62_written",
    "C62_writable",
    "C62_again",
    "C62_image",
    "C62_moved_refuted",
    "C62_new_refuted",
    "C62_fixed_refuted",
    "C62_selection_refuted",
    "C62_sign_refuted"
   ],
   "note": "Layout of pixels, the file and the image of all active sources proved for all stamps and scenes. Refuted: writing leaves the stamp as it was, images show fixed sources, selections, and the two ways of making an image agree."
  },
  {
   "property": "C63",
   "status": "partial",
   "theorems": [
    "C63_written",
    "C63_made",
    "C63_metadata",
    "C63_next",
    "C63_overwritten_refuted",
    "C63_directory_refuted",
    "C63_clipped_refuted",
    "C63_patch0_refuted",
    "C63_raw_refuted",
    "C63_order_refuted",
    "C63_elsewhere",
    "C63_beside",
    "C63_first",
    "C63_ranges"
   ],
   "note": "Proved for paths with .fits only at the end, catalogs inside the ranges of rectify_catalog and one FITS file in the directory. Refuted: other file and directory names, radii below 0.051, several FITS files, runs without patch 0, raw catalogs without .fits."
  },
  {
   "property": "C64",
   "status": "partial",
   "theorems": [
    "C64_built",
    "C64_fast",
    "C64_slow_partial",
    "C64_check_grad",
    "C64_check_error",
    "C64_dynesty",
    "C64_dynesty_runs",
    "C64_dynesty_uniform",
    "C64_bounded_partial",
    "C64_zero_bounds_refuted",
    "C64_slow_refuted",
    "C64_slow_nll_refuted",
    "C64_dynesty_scene_refuted",
    "C64_dynesty_default_refuted",
    "C64_bounds_refuted"
   ],
   "note": "Construction, evaluation of the fast posterior, the gradient check and the nested sampler's box are proved; refuted of the code: boxes with zero bounds, the slow posterior without a prior and its nll, the default bounds and the space of run_dynesty, the bounds of run_opt_bounded."
  },
  {
   "property": "C65",
   "status": "partial",
   "theorems": [
    "C65_range",
    "C65_law",
    "C65_flat",
    "C65_expbeta",
    "C65_own_range_refuted",
    "C65_outside_refuted",
    "C65_density_refuted",
    "C65_barrier_refuted"
   ],
   "note": "Draws lie in the given interval and follow the truncated Cauchy law; the flat prior and the exponents of ExpBeta are as stated. Refuted of the code: the range of the prior is not used by its draws, values outside the range count as inside, named priors are flat, Barrier cannot be built."
  },
  {
   "property": "C66",
   "status": "partial",
   "theorems": [
    "C66_answers",
    "C66_form",
    "C66_refines",
    "C66_listening",
    "C66_one_task",
    "C66_waiting",
    "C66_stops",
    "C66_crash",
    "C66_content",
    "C66_child_refuted",
    "C66_dummy_refuted",
    "C66_default_tag_refuted"
   ],
   "note": "The protocol is proved for every interleaving and any work that answers. Refuted of the code: the work a child does raises for every task, and a submission with the default tag loses a child."
  },
  {
   "property": "C67",
   "status": "partial",
   "theorems": [
    "C67_moments",
    "C67_easy_start",
    "C67_easy_defined",
    "C67_greedy_refuted",
    "C67_answers",
    "C67_least",
    "C67_greedy_repeats",
    "C67_least_squares_refuted",
    "C67_shared_start_refuted",
    "C67_nan_refuted"
   ],
   "note": "The single-component start, the answers that report a likelihood and the choice by least residual are proved. Refuted of the code: further components of the start, least-squares fits, answers sharing the starting array, nan residuals."
  },
  {
   "property": "C68",
   "status": "partial",
   "theorems": [
    "C68_isophotes",
    "C68_regions",
    "C68_regions_defined",
    "C68_annotate",
    "C68_outline",
    "C68_axes",
    "C68_size_refuted",
    "C68_turned_refuted",
    "C68_documented_refuted",
    "C68_sourcereg_refuted",
    "C68_place_refuted",
    "C68_jades_refuted"
   ],
   "note": "Number, order, position and labels of the regions are proved, and what exactly is drawn. Refuted of the code: size and orientation of the outlines, the written region file, the documented meaning of q and pa, the conversion of survey tables."
  },
  {
   "property": "C69",
   "status": "partial",
   "theorems": [
    "C69_half",
    "C69_half_defined",
    "C69_units",
    "C69_place",
    "C69_image",
    "C69_positive",
    "C69_radii",
    "C69_radii_made",
    "C69_chain_half",
    "C69_band_refuted",
    "C69_stamp_refuted",
    "C69_ties_refuted"
   ],
   "note": "The radius, its samples, the image and the invariances are proved. Refuted of the code: independence of the order of equidistant pixels, the band argument, the caller's stamp unchanged."
  },
  {
   "property": "C70",
   "status": "partial",
   "theorems": [
    "C70_correlation",
    "C70_exp_squared",
    "C70_finite_difference",
    "C70_triangular",
    "C70_triangular_refuted",
    "C70_default_scale_refuted",
    "C70_light",
    "C70_separate",
    "C70_predicts",
    "C70_unknowns",
    "C70_model_made",
    "C70_mu",
    "C70_fixed_refuted",
    "C70_shear_refuted",
    "C70_weights_prior"
   ],
   "note": "The smooth priors, the light of the components and the prediction of free parameters are proved. Refuted of the code: the triangular prior at its default scale, parameters held fixed, free shear and negative Gaussians."
  },
  {
   "property": "C71",
   "status": "partial",
   "theorems": [
    "C71_stamp",
    "C71_scene",
    "C71_scene_raises",
    "C71_scene_made",
    "C71_scene_given",
    "C71_spacing_refuted",
    "C71_shape",
    "C71_area",
    "C71_image",
    "C71_image_defined",
    "C71_centre",
    "C71_flipped_refuted",
    "C71_psfstore",
    "C71_psfstore_twice",
    "C71_psfstore_made",
    "C71_psf_sum_refuted",
    "C71_noise",
    "C71_noise_made",
    "C71_file",
    "C71_dithers_refuted",
    "C71_star_import_refuted"
   ],
   "note": "Proved for stamps with columns to the east; mirrored stamps, unequal radii, PSFs of several dispersions and dithers refuted."
  },
  {
   "property": "C72",
   "status": "partial",
   "theorems": [
    "C72_counts",
    "C72_counts_1d",
    "C72_levels",
    "C72_nested",
    "C72_contours",
    "C72_hang_refuted",
    "C72_no_samples_refuted",
    "C72_smoothing",
    "C72_one_bin_refuted",
    "C72_bins_refuted",
    "C72_density",
    "C72_drawn",
    "C72_fills",
    "C72_colours",
    "C72_default_levels",
    "C72_coincide_refuted",
    "C72_marginal",
    "C72_peak",
    "C72_peak_refuted",
    "C72_panels",
    "C72_once",
    "C72_scatter",
    "C72_labels",
    "C72_truths_refuted"
   ],
   "note": "Histograms, levels, density, marginals, panels and labels are proved. Refuted of the code: the end of the loop without samples in the span, distinct contours, equal bins of marginal and joint panels, true values on the joint panels."
  },
  {
   "property": "C73",
   "status": "partial",
   "theorems": [
    "C73_profile",
    "C73_enclosed_light",
    "C73_radius_of_fraction",
    "C73_smoothed",
    "C73_normal_refuted",
    "C73_table",
    "C73_columns_refuted",
    "C73_best",
    "C73_enclosed",
    "C73_enclosed_made",
    "C73_narrow_refuted",
    "C73_residual",
    "C73_ellipse_em",
    "C73_ellipse_hmc_refuted"
   ],
   "note": "The Sersic profile, its enclosed light and radii, the best sample, the curves and residuals of images and the ellipses of the EM fit are proved. Refuted of the code: the ellipses of sampled Gaussians, the volume of the two-dimensional density, distinct columns of the table, small images away from their centre."
  },
  {
   "property": "C74",
   "status": "partial",
   "theorems": [
    "C74_mosaic",
    "C74_mosaic_order",
    "C74_mosaic_variance",
    "C74_drz_name",
    "C74_weight_scale",
    "C74_uncovered_refuted",
    "C74_header_refuted",
    "C74_grid",
    "C74_grid_path_refuted",
    "C74_grid_fits",
    "C74_grid_own",
    "C74_grid_steps",
    "C74_tags_refuted",
    "C74_tags_collide",
    "C74_size",
    "C74_region",
    "C74_import_refuted",
    "C74_catalog",
    "C74_catalog_refuted",
    "C74_map",
    "C74_points",
    "C74_map_point_refuted",
    "C74_shown",
    "C74_apflux",
    "C74_multispan",
    "C74_multispan_made",
    "C74_trace",
    "C74_trace_made",
    "C74_movie_refuted",
    "C74_first",
    "C74_single"
   ],
   "note": "Weighted mean, order, weight scale, grid, own image under distinct tags, region, catalog, percentiles, aperture flux, common spans and trace panels are proved. Refuted of the code: missed pixels, the mosaic's header, tags that print alike, YAML paths with fits in them, the imports of the grid driver, catalogs without a file or with two sources, error bars at the best sample, frames of the movie."
  },
  {
   "property": "C75",
   "status": "partial",
   "theorems": [
    "C75_scale",
    "C75_scale_refuted",
    "C75_panels",
    "C75_place",
    "C75_marks",
    "C75_marks_refuted",
    "C75_chain_pdf",
    "C75_chain_pdf_refuted",
    "C75_statscat",
    "C75_log",
    "C75_multipatch_refuted",
    "C75_overlap_circle",
    "C75_pymc3",
    "C75_pymc3_refuted",
    "C75_pymc3_refuses"
   ],
   "note": "False of the code for masked pixels, colours of later calls, one band, sources in two patches, empty circles and default bounds (Finding 58); the rest is proved."
  },
  {
   "property": "C76",
   "status": "partial",
   "theorems": [
    "C76_median",
    "C76_taken",
    "C76_median_mirror",
    "C76_center",
    "C76_distance",
    "C76_cached",
    "C76_search",
    "C76_moved_refuted",
    "C76_reingest_refuted",
    "C76_wrap_refuted",
    "C76_directions"
   ],
   "note": "Proved for catalogs as they were given, in fields of up to half a radian about their medians; false of the code across right ascension zero, for sources that have moved and for a second catalog (Finding 59)."
  },
  {
   "property": "C77",
   "status": "partial",
   "theorems": [
    "C77_packed",
    "C77_unreferenced",
    "C77_unreferenced_refuted",
    "C77_unmoved",
    "C77_centre",
    "C77_placed",
    "C77_monotone",
    "C77_dead_zone",
    "C77_residual",
    "C77_absorbed_refuted",
    "C77_chi2_form",
    "C77_pixel",
    "C77_sums",
    "C77_patch",
    "C77_blank",
    "C77_stall",
    "C77_order_refuted"
   ],
   "note": "Error bounds proved without a bound on the data; proposals closer than 2^-26 of the pixel coordinate are one to the kernel, and derivatives depend on order and stop growing (Finding 60)."
  },
  {
   "property": "C78",
   "status": "partial",
   "theorems": [
    "C78_pixel",
    "C78_residual",
    "C78_width",
    "C78_flux",
    "C78_image",
    "C78_block",
    "C78_positive",
    "C78_negative_refuted",
    "C78_narrow_refuted"
   ],
   "note": "Bounds and total flux proved for every Gaussian; that no pixel loses light holds down to 0.29 pixel and is refuted below (Finding 61)."
  },
  {
   "property": "C79",
   "status": "proved",
   "theorems": [
    "C79_convolution",
    "C79_point",
    "C79_unit",
    "C79_patch",
    "C79_mixture",
    "C79_sums"
   ],
   "note": "For PSF components of positive width, radii above zero and axis ratios other than zero; a zero radius is C79_point."
  },
  {
   "property": "C80",
   "status": "proved",
   "theorems": [
    "C80_best",
    "C80_flat",
    "C80_mock",
    "C80_shapes",
    "C80_same",
    "C80_same_gradient",
    "C80_units"
   ],
   "note": "In exact arithmetic; axis ratios other than zero, local scale matrices of non-zero determinant for the converse, at most MAXSOURCES sources."
  },
  {
   "property": "C81",
   "status": "proved",
   "theorems": [
    "C81_parts",
    "C81_order",
    "C81_axes"
   ],
   "note": "For the kernel with real arithmetic; sums in another order differ in single precision (C77)."
  },
  {
   "property": "C82",
   "status": "partial",
   "theorems": [
    "C82_ends_partial",
    "C82_wide",
    "C82_crowd_refuted",
    "C82_linked_seed",
    "C82_linked_granted",
    "C82_twins_refuted"
   ],
   "note": "Proved when every source has room in a patch of its own and seeds want iterations. Refuted of the code otherwise: a wide or crowded source is never fitted and the loop does not end. The linked server puts every seed in its own patch unless another source is at the very same place."
  },
  {
   "property": "C83",
   "status": "partial",
   "theorems": [
    "C83_cut_partial",
    "C83_nothing_refuted",
    "C83_low_edge_refuted",
    "C83_high_edge_refuted",
    "C83_axes_refuted",
    "C83_nan_refuted"
   ],
   "note": "False of the code, with witnesses: the function raises for every image (it sets a read-only attribute), and without that line gives nothing back, raises for centres on the sky, takes the rows of a FITS image for its first axis, gives no pixels near the low edges, a short stamp near the high edges, and keeps the weight of values that are not numbers. Proved of the code without the line that raises: shape, pixels, weights, coordinates, reference pixel and matrix for centres in pixels half a stamp from the edges."
  },
  {
   "property": "C84",
   "status": "proved",
   "theorems": [
    "C84_parabola",
    "C84_best",
    "C84_ties",
    "C84_chord",
    "C84_gradient_line",
    "C84_one_step",
    "C84_dark",
    "C84_out_of_reach",
    "C84_place_refuted"
   ],
   "note": "Over the reals; at most MAXSOURCES sources. The cut of faint tails is the same for all fluxes, so the parabola is exact. The claim is about fluxes only: C84_place_refuted shows that the like is false of places, and that a source out of reach has a zero gradient though the fit is not the best."
  }
 ]
}
