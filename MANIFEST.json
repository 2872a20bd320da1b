{
 "claims": [
  {
   "property": "C01",
   "status": "proved",
   "theorems": [
    "C01_and_is_set_intersection",
    "C01_and_defined_iff_common_point",
    "C01_and_laws",
    "C01_and_is_set_intersection_BoundsD",
    "C01_includes_meaning",
    "C01_includes_meaning_BoundsD"
   ],
   "note": "Intersection proved exact for integer and real bounds, in any definedness state."
  },
  {
   "property": "C02",
   "status": "proved",
   "theorems": [
    "C02_union_is_least_upper_bound",
    "C02_union_is_least_upper_bound_BoundsD",
    "C02_undefined_is_neutral",
    "C02_accumulated_positions"
   ],
   "note": "Least upper bound, neutrality of undefined, order independence of accumulating positions."
  },
  {
   "property": "C03",
   "status": "partial",
   "theorems": [
    "C03_conversion_keeps_region",
    "C03_conversion_keeps_region_BoundsD",
    "C03_conversion_keeps_undefined_BoundsI",
    "C03_conversion_keeps_definedness_refuted"
   ],
   "note": "Defined bounds: proved. Statement for undefined bounds is false: BoundsD(BoundsD()) and BoundsI(BoundsD()) are defined (finding F1, *_refuted)."
  },
  {
   "property": "C04",
   "status": "partial",
   "theorems": [
    "C04_equal_defined_bounds_hash_equal",
    "C04_equal_defined_bounds_hash_equal_BoundsD",
    "C04_equal_bounds_hash_equal_refuted"
   ],
   "note": "Proved for defined bounds; refuted for undefined ones: BoundsI() == BoundsI(5,1,5,1) but the hashed tuples differ (finding F2)."
  },
  {
   "property": "C05",
   "status": "proved",
   "theorems": [
    "C05_pytree_roundtrip_BoundsI",
    "C05_pytree_roundtrip_BoundsD"
   ],
   "note": "For every bounds obtainable from the constructor and any value-preserving action on the leaves."
  },
  {
   "property": "C06",
   "status": "partial",
   "theorems": [
    "C06_area_counts_points",
    "C06_numpyShape",
    "C06_center",
    "C06_withBorder",
    "C06_withBorder_negative",
    "C06_shift",
    "C06_origin",
    "C06_python_bounds_wellformed",
    "C06_jax_scalar_bounds_wellformed_refuted"
   ],
   "note": "All measures proved for bounds whose defined state implies non-empty, which holds for Python-number bounds; refuted for JAX-scalar bounds, which can be 'defined' with negative width (finding F3)."
  },
  {
   "property": "C07",
   "status": "proved",
   "theorems": [
    "C07_image_refines_pixel_map",
    "C07_raising_operation_changes_nothing",
    "C07_set_then_get"
   ],
   "note": "Every sequence of setValue/addValue/fill/setZero/invertSelf/replaceNegative/setSubImage/copyFrom/in-place operators/array assignment/shift refines a map from (x, y) to values; failing calls change nothing."
  },
  {
   "property": "C08",
   "status": "partial",
   "theorems": [
    "C08_subimage_exposes_requested_pixels",
    "C08_uncontained_bounds_raise",
    "C08_write_back_is_identity",
    "C08_jax_bounds_outside_raise_refuted"
   ],
   "note": "Proved for Python-number bounds (read, write, outside raises). Refuted for JAX-scalar sub-bounds: dynamic_slice clamps silently (finding F4)."
  },
  {
   "property": "C09",
   "status": "partial",
   "theorems": [
    "C09_const_image_checked_methods",
    "C09_const_image_array_never_changes",
    "C09_const_image_never_modified_refuted"
   ],
   "note": "Guarded mutators proved to leave a const image unchanged; in-place operators, array setter and wrap do change it (finding F5, refuted)."
  },
  {
   "property": "C10",
   "status": "proved",
   "theorems": [
    "C10_shift_moves_every_pixel",
    "C10_shifts_compose",
    "C10_setOrigin_setCenter_reach_target",
    "C10_world_positions_kept",
    "C10_world_positions_kept_by_sequences",
    "C10_world_positions_kept_by_setOrigin_setCenter"
   ],
   "note": "Pixels: Image_Props; world coordinates: WCS_Props, for shift, setOrigin, setCenter and sequences, all six Euclidean wcs classes."
  },
  {
   "property": "C100",
   "status": "proved",
   "theorems": [
    "C100_flux",
    "C100_flux_in_k",
    "C100_positive_negative"
   ],
   "note": "flux, kValue(0,0), positive/negative flux"
  },
  {
   "property": "C101",
   "status": "partial",
   "theorems": [
    "C101_padding",
    "C101_size",
    "C101_no_recenter_refuted"
   ],
   "note": "proved with recentring (the default); _recenter_image=False refuted (F55)"
  },
  {
   "property": "C102",
   "status": "proved",
   "theorems": [
    "C102_grid",
    "C102_between",
    "C102_beyond"
   ],
   "note": "grid, in-between and beyond"
  },
  {
   "property": "C103",
   "status": "partial",
   "theorems": [
    "C103_rings",
    "C103_no_search",
    "C103_positive_refuted"
   ],
   "note": "exact characterisation proved; positivity refuted (F56)"
  },
  {
   "property": "C104",
   "status": "partial",
   "theorems": [
    "C104_isotropic_partial",
    "C104_forced",
    "C104_stretched_refuted"
   ],
   "note": "proved for isotropic wcs, refuted for every anisotropic one (F57)"
  },
  {
   "property": "C105",
   "status": "partial",
   "theorems": [
    "C105_same_wcs_partial",
    "C105_wcs_refuted"
   ],
   "note": "proved for equal wcs, refuted otherwise (F58)"
  },
  {
   "property": "C106",
   "status": "partial",
   "theorems": [
    "C106_no_offset_partial",
    "C106_error",
    "C106_even_refuted"
   ],
   "note": "proved for zero offset, exact error otherwise, refuted for even sizes (F59)"
  },
  {
   "property": "C107",
   "status": "partial",
   "theorems": [
    "C107_plain",
    "C107_sip",
    "C107_tpv_partial",
    "C107_stale_refuted"
   ],
   "note": "Exact round trip proved without distortion and with SIP; TPV as far as C61 allows; refuted when PV keys are already in the header (finding F64)."
  },
  {
   "property": "C108",
   "status": "proved",
   "theorems": [
    "C108_local"
   ],
   "note": "Derivative along every differentiable path, distortions included, away from the poles of the sky."
  },
  {
   "property": "C109",
   "status": "partial",
   "theorems": [
    "C109_linear_partial",
    "C109_simplify",
    "C109_pc_refuted",
    "C109_cd_refuted"
   ],
   "note": "Proved for CD complete or absent and no PC keys; refuted for PC keys and for CD without CTYPE1 (finding F65)."
  },
  {
   "property": "C11",
   "status": "partial",
   "theorems": [
    "C11_pixel_permutations",
    "C11_dihedral_group_laws",
    "C11_result_is_usable_refuted"
   ],
   "note": "Pixel relocation and group laws proved; the results have no _is_const attribute so mutators raise AttributeError (finding F6, refuted)."
  },
  {
   "property": "C110",
   "status": "partial",
   "theorems": [
    "C110_tnx_partial",
    "C110_polynomial_refuted"
   ],
   "note": "Proved for Chebyshev and Legendre surfaces; type 3 is refused with a TypeError (finding F66)."
  },
  {
   "property": "C111",
   "status": "partial",
   "theorems": [
    "C111_axes_partial",
    "C111_tpv_refuted"
   ],
   "note": "Proved without TPV/TNX distortion; refuted for TPV (finding F67)."
  },
  {
   "property": "C112",
   "status": "partial",
   "theorems": [
    "C112_sip",
    "C112_sip_pairs",
    "C112_tpv_partial",
    "C112_radial_refused",
    "C112_default_refuted"
   ],
   "note": "SIP in full; TPV for headers giving PV1_1 and PV2_1 whose top degree is seen by the order search (C61); refuted for the default of PV1_1 (F68)"
  },
  {
   "property": "C113",
   "status": "proved",
   "theorems": [
    "C113_total_flux",
    "C113_total_flux_moffat",
    "C113_flux_spergel",
    "C113_centre"
   ],
   "note": "Gaussian, Exponential, Moffat, Box; Spergel beyond every radius above 1e-10 r0."
  },
  {
   "property": "C114",
   "status": "proved",
   "theorems": [
    "C114_box",
    "C114_gaussian",
    "C114_exponential",
    "C114_delta"
   ],
   "note": "Box exactly, Gaussian in Cartesian form and Exponential in polar form up to the rounding of 1 / (2 pi); the point source."
  },
  {
   "property": "C115",
   "status": "partial",
   "theorems": [
    "C115_moffat",
    "C115_exponential",
    "C115_spergel_partial",
    "C115_box",
    "C115_angle"
   ],
   "note": "Moffat: every radius within maxR; Exponential and Spergel (nu > 0; table steps above the interpolation epsilon assumed, shown for nu = 1/2): every node of the table; Box; the angle."
  },
  {
   "property": "C116",
   "status": "proved",
   "theorems": [
    "C116_spergel_is_exponential"
   ],
   "note": "kValue exactly; xValue at the centre and beyond 1e-10 r0 to 1e-16; half-light radius to 1e-9 r0."
  },
  {
   "property": "C117",
   "status": "partial",
   "theorems": [
    "C117_integral",
    "C117_whole_line",
    "C117_failure",
    "C117_far_limit_refuted",
    "C117_limits",
    "C117_same_side_refuted"
   ],
   "note": "Proved for limits that are infinite or at most 10^4 in absolute value, given an integrator that keeps its tolerances when it reports success (quadax is not part of the repository). Refuted for larger finite limits, which are replaced by infinity, and for two limits beyond 10^4 on the same side, for which the answer is zero (finding F71)."
  },
  {
   "property": "C118",
   "status": "partial",
   "theorems": [
    "C118_exact",
    "C118_orders",
    "C118_linear",
    "C118_monotone",
    "C118_constants",
    "C118_error",
    "C118_error_weights_partial",
    "C118_error_of_polynomials"
   ],
   "note": "Exactness, positivity (monotone), linearity and the error bound are proved for every order. The error weights give twice the difference to the rule of half the order because they are not rescaled (finding F72); order 0 fails the assertion in abs_weights."
  },
  {
   "property": "C119",
   "status": "partial",
   "theorems": [
    "C119_bessel_equation",
    "C119_half_orders",
    "C119_close",
    "C119_edges",
    "C119_orders_partial",
    "C119_miller",
    "C119_small_orders",
    "C119_gradient",
    "C119_gradient_close",
    "C119_order_gradient_refuted"
   ],
   "note": "Half-integer orders below 50: within 1e-12 relative of the closed form for every positive argument (Temme's series with its stopping rule, the continued fraction, the recurrence), exact above 2; the gradient likewise. All orders: evenness, edge cases, and the recurrence between three orders when v is not half-integer. For orders up to 1/2 and arguments above 2 the loop is shown to be Miller's algorithm for Temme's recurrence with at most 1001 terms (C119_miller), so the value lies between 0 and that of order 1/2. The closed forms are shown to solve Bessel's equation. Missing: the convergence of that algorithm to K_nu for other orders, Temme's series for other orders, and orders from 50 on (Olver). Finding F73: the gradient with respect to the order is reported as 0."
  },
  {
   "property": "C12",
   "status": "partial",
   "theorems": [
    "C12_rejected_wrap_changes_nothing_refuted",
    "C12_hermitian_precondition_atomic_partial"
   ],
   "note": "Refuted: _wrap assigns the array before subImage raises (finding F7). The Hermitian precondition checks are proved atomic."
  },
  {
   "property": "C120",
   "status": "proved",
   "theorems": [
    "C120_close",
    "C120_small",
    "C120_odd"
   ],
   "note": "Within 1e-14 of the integral for every real argument, within 1e-16 |x| for |x| <= 4, odd. Real arithmetic with the decimals of the source."
  },
  {
   "property": "C121",
   "status": "proved",
   "theorems": [
    "C121_close",
    "C121_far",
    "C121_even"
   ],
   "note": "All real arguments: within 2e-16 of the power series; beyond 8 within 5.3e-16/sqrt|x| (Bessel equation of the asymptotic branch, energy estimate from 8); even, 1 at 0."
  },
  {
   "property": "C122",
   "status": "proved",
   "theorems": [
    "C122_units",
    "C122_units_back",
    "C122_round_trip",
    "C122_refused",
    "C122_shift"
   ],
   "note": "for every class given by its origin, _radec, _xy and _newOrigin; GSFitsWCS shown to be one"
  },
  {
   "property": "C123",
   "status": "partial",
   "theorems": [
    "C123_sky",
    "C123_fits",
    "C123_local",
    "C123_jump_refuted",
    "C123_pole_refuted",
    "C123_integer",
    "C123_integer_refuted"
   ],
   "note": "sky level times solid angle within M/4(|a|+|b|)+M^2/18 for third derivatives bounded by M, jumps included; FITS: area of local; refuted: the generic _local across a jump (F76), the pole pixel (F77), rounding of integer images (F78)"
  },
  {
   "property": "C124",
   "status": "partial",
   "theorems": [
    "C124_returns",
    "C124_refused",
    "C124_arguments",
    "C124_failure_states",
    "C124_failure_refuted",
    "C124_retry_refuted",
    "C124_const_refuted"
   ],
   "note": "proved for calls that return and calls refused for their arguments; all exits are described (C124_failure_states); leaving the image alone when drawing raises is refuted (finding F74)"
  },
  {
   "property": "C125",
   "status": "proved",
   "theorems": [
    "C125_choice",
    "C125_refused",
    "C125_positive",
    "C125_again"
   ],
   "note": "for every argument combination, any wcs classes satisfying lawful_pixels (shown for the Euclidean ones)"
  },
  {
   "property": "C126",
   "status": "partial",
   "theorems": [
    "C126_returns",
    "C126_automatic",
    "C126_failure",
    "C126_failure_refuted"
   ],
   "note": "proved except that a failing call may move an image whose wcs is not a pixel scale (finding F75)"
  },
  {
   "property": "C13",
   "status": "partial",
   "theorems": [
    "C13_roundtrip_when_added_flux_present",
    "C13_roundtrip_any_attributes_refuted",
    "C13_flatten_fails_without_const_flag_refuted"
   ],
   "note": "Proved whenever added_flux is present or photons absent; refuted otherwise (photons land in added_flux) and for images from transpose etc. (finding F8)."
  },
  {
   "property": "C14",
   "status": "proved",
   "theorems": [
    "C14_wrap_sums_congruent_pixels",
    "C14_wrap_preserves_total"
   ],
   "note": "Wrapped pixel equals the sum of all pixels congruent to it, for every image, region and both block-reduction paths."
  },
  {
   "property": "C15",
   "status": "partial",
   "theorems": [
    "C15_hermitian_x_is_full_plane_wrap",
    "C15_hermitian_y_is_full_plane_wrap",
    "C15_asymmetric_rows_refuted"
   ],
   "note": "Proved when the row range is symmetric about zero (x case) / column range (y case); refuted for asymmetric ranges (finding F9)."
  },
  {
   "property": "C16",
   "status": "proved",
   "theorems": [
    "C16_block_reductions_agree",
    "C16_block_reduction_is_block_sum"
   ],
   "note": "Both block reductions equal the block sum for every shape."
  },
  {
   "property": "C17",
   "status": "partial",
   "theorems": [
    "C17_smallest_good_size_to_99999",
    "C17_smallest_with_slop_partial",
    "C17_at_least_n_refuted"
   ],
   "note": "Smallest good size proved for every n up to 99999 and for every n outside the tolerance band of a good size; 'at least n' is refuted: n=131073 gives 131072 because of the 1e-5 slop (finding F10)."
  },
  {
   "property": "C18",
   "status": "partial",
   "theorems": [
    "C18_fft_grid_covers",
    "C18_good_image_size",
    "C18_too_large_raises",
    "C18_draw_fft_region_and_aliasing",
    "C18_fixed_size_geometry_refuted",
    "C18_uncentred_image_refuted"
   ],
   "note": "Grid size, spacing, Nyquist/aliasing region and too-large error proved; refuted when minimum==maximum FFT size (checks skipped, finding F11) and for images not centred at the origin (finding F12)."
  },
  {
   "property": "C19",
   "status": "proved",
   "theorems": [
    "C19_incompatible_iff_conflicting",
    "C19_image_as_requested",
    "C19_drawing_restores_bounds_and_wcs"
   ],
   "note": "Incompatible arguments characterised exactly; outcome image determined; bounds and wcs restored after drawing."
  },
  {
   "property": "C20",
   "status": "partial",
   "theorems": [
    "C20_profile_drawn_where_asked",
    "C20_wcs_linearised_there",
    "C20_undefined_image_with_center_refuted"
   ],
   "note": "Proved for every argument combination except an image of undefined bounds with an explicit center, where the statement is refuted (finding F13)."
  },
  {
   "property": "C21",
   "status": "partial",
   "theorems": [
    "C21_float_sum_drawn_exactly",
    "C21_integer_sum_within_one_partial",
    "C21_integer_image_refuted"
   ],
   "note": "Float images: exact sum in any order. Integer images: within one of the sum (partial); rounding of the sum, order independence and dtype preservation refuted (findings F14, F15)."
  },
  {
   "property": "C22",
   "status": "partial",
   "theorems": [
    "C22_draw_loop_shoots_every_photon",
    "C22_fixed_size_small_maxN_refuted"
   ],
   "note": "Proved for every tree of positive profiles, any N, gain, scale and image, when no fixed array size is set or maxN is at least that size: termination, number of rounds, photon counts, total flux, every pixel, added_flux. Refuted (F17): with a fixed size S and maxN < S the flux drawn is F*maxN/S. photon_ops, non-default sensors and traced max_n are not modelled."
  },
  {
   "property": "C23",
   "status": "partial",
   "theorems": [
    "C23_shot_photons_carry_the_flux",
    "C23_fixed_size_flux_partial",
    "C23_fixed_size_refuted",
    "C23_sum_ignores_count_refuted"
   ],
   "note": "Proved for N equal to the array size (or no fixed size) for every tree of positive profiles. Refuted (F16): N < S photons of a simple profile carry F*N/S; a Sum keeps all S slots."
  },
  {
   "property": "C24",
   "status": "partial",
   "theorems": [
    "C24_masked_bookkeeping",
    "C24_assigned_flux_is_read_back",
    "C24_scaling_is_exact",
    "C24_number_kept",
    "C24_nothing_kept_refuted"
   ],
   "note": "Invariant over all operation sequences, exact read-back, scaling and keep-count laws proved while at least one photon is kept. Refuted (F18) when none is kept: fluxes read NaN and assignments are lost."
  },
  {
   "property": "C25",
   "status": "partial",
   "theorems": [
    "C25_binning_conserves_flux",
    "C25_order_does_not_matter",
    "C25_undefined_bounds_raise",
    "C25_integer_image_partial",
    "C25_integer_image_refuted"
   ],
   "note": "Proved for floating-point images (pixel values, returned flux, order independence, undefined bounds). Refuted (F19) for integer images: pixels are rounded but the returned flux is not."
  },
  {
   "property": "C26",
   "status": "proved",
   "theorems": [
    "C26_convolution_pairs_photons",
    "C26_total_flux_is_product",
    "C26_commutes",
    "C26_sizes_must_agree"
   ],
   "note": "Pairing by a permutation, visible flux products, total flux product, commutativity for uncorrelated arrays with equal masks, size check."
  },
  {
   "property": "C27",
   "status": "proved",
   "theorems": [
    "C27_photons_reproduce_image",
    "C27_binned_back",
    "C27_bad_max_flux_raises"
   ],
   "note": "Binning the photons back reproduces every pixel; |flux| bound; range error. Modelled without fixed array size; the wcs scale is the scaleXY law of C24."
  },
  {
   "property": "C28",
   "status": "partial",
   "theorems": [
    "C28_given_count_is_used",
    "C28_computed_count_nonneg_partial",
    "C28_negative_flux_refuted"
   ],
   "note": "Non-negative for non-negative flux or with Poisson noise; a positive integer n_photons is used verbatim. Refuted (F20): negative flux with poisson_flux=False gives a negative count."
  },
  {
   "property": "C29",
   "status": "partial",
   "theorems": [
    "C29_pytree_round_trip",
    "C29_file_round_trip_partial",
    "C29_file_inflates_masked_flux_refuted"
   ],
   "note": "Pytree identity for all arrays; file identity when all photons are kept. Refuted (F21): with dropped photons the file round trip inflates visible fluxes by N/kept, proved as an exact formula."
  },
  {
   "property": "C30",
   "status": "proved",
   "theorems": [
    "C30_generate_is_calls",
    "C30_stream_values",
    "C30_any_history"
   ],
   "note": "Bulk generation equals the sequence of single calls for every deviate class, length and history; value i depends only on the i-th subkey."
  },
  {
   "property": "C31",
   "status": "proved",
   "theorems": [
    "C31_sharing_is_linking",
    "C31_draws_move_the_linked_deviates",
    "C31_duplicate",
    "C31_equal_states_equal_futures",
    "C31_same_seed_same_stream"
   ],
   "note": "Two deviates move together iff linked by construction/reset; duplicates and seeds give the same future but separate states."
  },
  {
   "property": "C32",
   "status": "proved",
   "theorems": [
    "C32_text_round_trip",
    "C32_serialize_restores"
   ],
   "note": "repr/serialize text of a key parses back to the same key; resetting from it restores the stream."
  },
  {
   "property": "C33",
   "status": "partial",
   "theorems": [
    "C33_noise_advances_generator_partial",
    "C33_successive_noise_is_fresh_partial",
    "C33_noise_is_linked",
    "C33_ccd_noise_refuted",
    "C33_ccd_with_variance_refuted"
   ],
   "note": "Proved for Gaussian, Poisson, variable Gaussian and deviate noise. Refuted for CCDNoise (F24): applyTo leaves every generator unchanged and re-uses subkeys; withVariance returns an unlinked object (F25)."
  },
  {
   "property": "C34",
   "status": "proved",
   "theorems": [
    "C34_permute",
    "C34_permute_nothing"
   ],
   "note": "permute applies one permutation to all arrays, drawn from one subkey, and advances the generator by one; no arrays raises."
  },
  {
   "property": "C35",
   "status": "proved",
   "theorems": [
    "C35_with_variance",
    "C35_scaled_variance",
    "C35_unsupported_raise"
   ],
   "note": "withVariance, withScaledVariance, * and / give the requested variance for every noise with a variance; others raise unchanged."
  },
  {
   "property": "C36",
   "status": "partial",
   "theorems": [
    "C36_snr_preserving_flux_partial",
    "C36_snr_scaling_flux_partial",
    "C36_integer_image_refuted",
    "C36_integer_scaling_refuted"
   ],
   "note": "Proved for float images, both modes. Refuted for integer images (F28): squares wrap in the image dtype; scaled pixels are rounded."
  },
  {
   "property": "C37",
   "status": "partial",
   "theorems": [
    "C37_noise_round_trip_partial",
    "C37_deviate_noise_refuted",
    "C37_base_noise_refuted"
   ],
   "note": "Round trip gives an equal object for Gaussian, Poisson, CCD and variable Gaussian noise. Refuted: DeviateNoise.tree_unflatten raises TypeError (F26); BaseNoise never compares equal (F27)."
  },
  {
   "property": "C38",
   "status": "proved",
   "theorems": [
    "C38_operations_in_sequence"
   ],
   "note": "All ten operations, any sequence, any tree. Classes overriding withFlux are assumed proportional to the flux parameter (flux_linear)."
  },
  {
   "property": "C39",
   "status": "proved",
   "theorems": [
    "C39_drawing_is_evaluation"
   ],
   "note": "Any tree; float images; both raise together. Jacobian and inner transformations non-singular."
  },
  {
   "property": "C40",
   "status": "proved",
   "theorems": [
    "C40_fourier_drawing_is_evaluation"
   ],
   "note": "Trees without deconvolution (for these see C45)."
  },
  {
   "property": "C41",
   "status": "proved",
   "theorems": [
    "C41_flux_is_amplitude_at_zero",
    "C41_sum_adds",
    "C41_convolution_multiplies",
    "C41_with_flux"
   ],
   "note": "Deconvolution of zero flux and kvalue_accuracy outside [0,1] excluded; sums and convolutions of default-propagating profiles."
  },
  {
   "property": "C42",
   "status": "partial",
   "theorems": [
    "C42_difference_is_flux",
    "C42_non_negative_partial",
    "C42_negative_flux_refuted"
   ],
   "note": "Difference proved for all trees; non-negativity only without negative fluxes, refuted otherwise (finding F31)."
  },
  {
   "property": "C43",
   "status": "partial",
   "theorems": [
    "C43_sum_order",
    "C43_sum_nesting",
    "C43_unpropagated_refuted"
   ],
   "note": "Order for all arguments; nesting for default-propagating profiles (same object); refuted when the inner Sum does not propagate its gsparams (finding F32)."
  },
  {
   "property": "C44",
   "status": "partial",
   "theorems": [
    "C44_convolution_decision",
    "C44_bad_arguments",
    "C44_order_irrelevant",
    "C44_default_raises_refuted"
   ],
   "note": "Decision characterised exactly and order-independent; 'works with default arguments' refuted for hard-edged profiles (finding F33)."
  },
  {
   "property": "C45",
   "status": "partial",
   "theorems": [
    "C45_deconvolution_inverts",
    "C45_never_amplifies",
    "C45_twice",
    "C45_drawing_partial",
    "C45_drawing_refuted"
   ],
   "note": "Inversion at and above the threshold, no amplification below, double deconvolution; drawing agrees inside maxk off the threshold, refuted beyond maxk, at the threshold, and the threshold is ineffective for negative flux (finding F34)."
  },
  {
   "property": "C46",
   "status": "proved",
   "theorems": [
    "C46_combination_is_strictest",
    "C46_order_and_nesting_irrelevant",
    "C46_combine_idempotent",
    "C46_with_params_changes_only_named",
    "C46_unknown_parameter_rejected",
    "C46_check_takes_first_given"
   ],
   "note": "All thirteen combined parameters; unknown parameters rejected."
  },
  {
   "property": "C47",
   "status": "partial",
   "theorems": [
    "C47_one_size",
    "C47_gaussian_read_back",
    "C47_exponential_read_back",
    "C47_moffat_read_back",
    "C47_spergel_read_back",
    "C47_half_light_gaussian",
    "C47_half_light_exponential",
    "C47_half_light_moffat",
    "C47_half_light_spergel_partial",
    "C47_half_peak_gaussian",
    "C47_half_peak_moffat",
    "C47_flux_beyond_half_integers",
    "C47_half_light_half_integers",
    "C47_half_integer_bessel"
   ],
   "note": "One size, read-back, half of the peak: all profiles. Half of the flux inside the half-light radius: Gaussian, Exponential (to 4e-16) and Moffat (exactly) for all parameters; Spergel for the half-integers nu = -1/2, 1/2, 3/2, 5/2, 7/2 (to 1e-8, 2e-8 for -1/2 and 1/2); the other nu rest on a fitted function (_partial)."
  },
  {
   "property": "C48",
   "status": "partial",
   "theorems": [
    "C48_maxk_gaussian",
    "C48_maxk_exponential",
    "C48_maxk_spergel",
    "C48_maxk_box",
    "C48_stepk_gaussian",
    "C48_stepk_moffat",
    "C48_stepk_box",
    "C48_stepk_spergel_partial",
    "C48_stepk_exponential_partial",
    "C48_stepk_exponential_by_radius",
    "C48_stepk_exponential_refuted"
   ],
   "note": "maxk: Gaussian, Exponential, Spergel, Box for all parameters. stepk: Gaussian, Moffat, Box; Spergel under the laws of the Bessel functions (_partial: bisection must not hit the root exactly); Exponential refuted where the iteration decides (finding F69), with a bound on the excess, and proved for the defaults. Moffat._maxk is not modelled."
  },
  {
   "property": "C49",
   "status": "proved",
   "theorems": [
    "C49_addition_stays_in_disc",
    "C49_negative_is_inverse",
    "C49_subtraction",
    "C49_zero_is_neutral",
    "C49_matrix",
    "C49_composition"
   ],
   "note": "rotationWith order: S(s)S(o)=S(s+o)R(s.rotationWith(o))"
  },
  {
   "property": "C50",
   "status": "partial",
   "theorems": [
    "C50_g_round_trip",
    "C50_e_round_trip",
    "C50_eta_round_trip",
    "C50_polar_round_trip",
    "C50_attributes_agree",
    "C50_out_of_range_raises",
    "C50_malformed_calls_raise",
    "C50_disc_not_enforced_refuted"
   ],
   "note": "round trips and rejections proved; F30: |g|=1 is accepted and the unnamed complex argument is not range checked (refuted part)"
  },
  {
   "property": "C51",
   "status": "proved",
   "theorems": [
    "C51_maps_are_inverse",
    "C51_inverse_swaps",
    "C51_world_position"
   ],
   "note": "PixelScale, ShearWCS, JacobianWCS, OffsetWCS, OffsetShearWCS, AffineTransform over the reals, nonzero scale/determinant and |g|<1."
  },
  {
   "property": "C52",
   "status": "proved",
   "theorems": [
    "C52_origin_moves_with_image",
    "C52_world_origin_set",
    "C52_local_part_unchanged",
    "C52_sequences_add"
   ],
   "note": "For either value of the inherited attribute _isLocal; sequences by induction."
  },
  {
   "property": "C53",
   "status": "proved",
   "theorems": [
    "C53_decomposition",
    "C53_pixel_area",
    "C53_linear_scales_are_singular_values",
    "C53_linear_scales_of_other_classes"
   ],
   "note": "Reconstruction, pixel area, singular values; PixelScale and ShearWCS scales for positive scale (negative scales are not validated by the code and give negative linear scales)."
  },
  {
   "property": "C54",
   "status": "partial",
   "theorems": [
    "C54_flux_conserved",
    "C54_surface_brightness",
    "C54_profile_round_trip",
    "C54_shear_moments",
    "C54_shear_round_trip_partial",
    "C54_sheared_round_profile"
   ],
   "note": "Profiles: proved. Shears: transformed shape exact or within 1e-16 relative; exact round trip outside ellipticities below 0.01 (truncated series in Shear); sheared round profile theorem for exact shapes."
  },
  {
   "property": "C55",
   "status": "proved",
   "theorems": [
    "C55_jacobian_gives_differences",
    "C55_affine_is_the_same_map",
    "C55_compatible_iff_same_linear_part",
    "C55_finite_differences_exact",
    "C55_sky_image"
   ],
   "note": "jacobian, affine, compatible, finite differences (exact up to degree two), sky image."
  },
  {
   "property": "C56",
   "status": "partial",
   "theorems": [
    "C56_header_round_trip_partial",
    "C56_shear_headers_refuted"
   ],
   "note": "Round trip proved for the classes without shear; refuted for ShearWCS and OffsetShearWCS (F38). writeToFitsHeader is inherited from galsim and modelled as documented; FitsWCS headers not covered here."
  },
  {
   "property": "C57",
   "status": "proved",
   "theorems": [
    "C57_plane_sky_plane",
    "C57_sky_plane_sky",
    "C57_same_coordinates",
    "C57_geometry",
    "C57_gnomonic_behind",
    "C57_unknown_projection",
    "C57_names"
   ],
   "note": "For all four projections, on the whole domain of each; gnomonic_behind shows what happens outside (F42)."
  },
  {
   "property": "C58",
   "status": "proved",
   "theorems": [
    "C58_is_the_angle",
    "C58_metric",
    "C58_formulas_agree"
   ],
   "note": "distanceTo is the angle between the unit vectors, a metric, whichever of its two formulas is used."
  },
  {
   "property": "C59",
   "status": "proved",
   "theorems": [
    "C59_galactic_is_a_rotation",
    "C59_galactic_inverse",
    "C59_obliquity",
    "C59_ecliptic_is_a_rotation",
    "C59_ecliptic_inverse",
    "C59_precession_is_a_rotation",
    "C59_precession_there_and_back",
    "C59_distances_kept",
    "C59_galactic_keeps_distances",
    "C59_from_xyz",
    "C59_get_xyz_back",
    "C59_xyz_to_radec"
   ],
   "note": "Conversions proved to be rotations with pinned poles/nodes, inverse both ways; precession there and back is exact."
  },
  {
   "property": "C60",
   "status": "partial",
   "theorems": [
    "C60_tan_partial",
    "C60_tan_value",
    "C60_refuted"
   ],
   "note": "Proved when the world origin has u = 0; the general value is proved and the property refuted whenever u of the world origin is not zero (finding F60)."
  },
  {
   "property": "C61",
   "status": "partial",
   "theorems": [
    "C61_tpv_partial",
    "C61_refuted",
    "C61_zero_refuted"
   ],
   "note": "Proved for orders to 7 when the top row has a coefficient in its second half; refuted otherwise (x^2 alone is lost) and for all-zero or absent PV keys (findings F61, F62)."
  },
  {
   "property": "C62",
   "status": "partial",
   "theorems": [
    "C62_shift",
    "C62_shift_back",
    "C62_pixel_sky_pixel",
    "C62_sky_pixel_sky",
    "C62_matrix_partial",
    "C62_pc_lost_refuted",
    "C62_pc_alone_refuted",
    "C62_units",
    "C62_default_units",
    "C62_projection_named",
    "C62_inversion",
    "C62_inversion_linear"
   ],
   "note": "Origin shifts, round trips without distortion, units and inversion (to second order in the 2e-12 step, exact for linear distortions) proved; the matrix is proved for the usual key sets and refuted for incomplete PC keys (finding F63)."
  },
  {
   "property": "C63",
   "status": "proved",
   "theorems": [
    "C63_wrap",
    "C63_wrap_is_the_only_one",
    "C63_wrap_idempotent",
    "C63_wrap_keeps_sin_cos",
    "C63_units",
    "C63_unit_ratios",
    "C63_unit_names",
    "C63_other_names_refused"
   ],
   "note": "wrap lands in the stated interval, is the only such multiple-of-2pi shift, idempotent, keeps sine and cosine; unit conversion factors."
  },
  {
   "property": "C64",
   "status": "proved",
   "theorems": [
    "C64_fields",
    "C64_dms_round_trip",
    "C64_hms_round_trip",
    "C64_without_separators_unreadable",
    "C64_degrees_and_minutes",
    "C64_degrees_alone"
   ],
   "note": "Separators must be free of digits, points and blanks at the ends as spelled in the statement; a one-element tuple separator is not covered (the code prints the tuple). Printing without separators gives text the parser rejects (C64_without_separators_unreadable). Finding F39 on prefixes."
  },
  {
   "property": "C65",
   "status": "partial",
   "theorems": [
    "C65_cardinal",
    "C65_even",
    "C65_range",
    "C65_delta_refuted",
    "C65_reproduces",
    "C65_smooth"
   ],
   "note": "Proved for Nearest, Sinc, Linear, Cubic, Quintic and Lanczos of any order: one at 0 and zero at other integers, even, zero outside the range (Sinc: within the accuracy), polynomials of degree 1, 2, 4 reproduced by Linear, Cubic, Quintic (constants by Nearest off the half-integers), Linear and Sinc continuous, Cubic and Quintic once continuously differentiable. Delta is a narrow box, not such a kernel: refuted with the exact behaviour stated (finding F48)."
  },
  {
   "property": "C66",
   "status": "proved",
   "theorems": [
    "C66_closed_forms",
    "C66_dc_at_integers"
   ],
   "note": "For every order n >= 1, so in particular the expanded forms for n = 1..7; the tables of K are a parameter."
  },
  {
   "property": "C67",
   "status": "partial",
   "theorems": [
    "C67_interpolates",
    "C67_pixel_centers",
    "C67_profile",
    "C67_profile_nominal",
    "C67_linear",
    "C67_local",
    "C67_nearest_partial",
    "C67_nearest_refuted"
   ],
   "note": "pixel centres, full interpolation formula, linearity and locality proved for Linear, Cubic, Quintic, Lanczos and (pixel centres, linearity) all others; Nearest is refuted away from the lower half of pixels (F52)"
  },
  {
   "property": "C68",
   "status": "proved",
   "theorems": [
    "C68_half_plane",
    "C68_any_window",
    "C68_grid"
   ],
   "note": "half plane against any Hermitian periodic plane, any window, any kernel"
  },
  {
   "property": "C69",
   "status": "partial",
   "theorems": [
    "C69_smallest",
    "C69_square_partial",
    "C69_quadrature",
    "C69_no_search",
    "C69_elongated_refuted",
    "C69_number_refuted"
   ],
   "note": "smallest enclosing square found whenever one within the smaller side encloses; refuted for elongated images (F53) and numeric calculate_stepk (F54)"
  },
  {
   "property": "C70",
   "status": "proved",
   "theorems": [
    "C70_through_data",
    "C70_smooth",
    "C70_zero_outside",
    "C70_lines",
    "C70_lookups_agree",
    "C70_host_and_device_agree",
    "C70_slopes"
   ],
   "note": "Data points, zero outside, continuously differentiable inside, straight lines reproduced, NumPy and JAX coefficients equal, both lookups equal on even tables, slopes at every point (inner ones Akima's rule). The end slopes the code uses are stated exactly (finding F46)."
  },
  {
   "property": "C71",
   "status": "partial",
   "theorems": [
    "C71_bracket_partial",
    "C71_root_partial",
    "C71_exact_hit_refuted",
    "C71_wrong_limit"
   ],
   "note": "False as stated (finding F43): when a midpoint is an exact root the search walks away from it. Proved for every function: sign-changing bracket of width (high-low)/2^n, or an exact hit; for continuous functions without exact dyadic roots the result is within (high-low)/2^n of a root; the limit in the counterexample is proved."
  },
  {
   "property": "C72",
   "status": "partial",
   "theorems": [
    "C72_equality_partial",
    "C72_equivalence",
    "C72_hash",
    "C72_keys_distinguish",
    "C72_reflexive_refuted",
    "C72_symmetric_refuted",
    "C72_never_raises_refuted"
   ],
   "note": "False as stated (finding F44): nan is not equal to itself, and a number against an array inside containers is asymmetric or raises. Proved: on values of the same layout the result is a boolean, symmetric, and true exactly for the same values, which is an equivalence on values without nan; equal values hash alike."
  },
  {
   "property": "C73",
   "status": "proved",
   "theorems": [
    "C73_horner",
    "C73_horner_other",
    "C73_horner2d",
    "C73_horner2d_errors"
   ],
   "note": "horner and horner2d for every degree, shape and the triangle option, and all rejected shapes. Dtype handling is not modelled."
  },
  {
   "property": "C74",
   "status": "partial",
   "theorems": [
    "C74_table_positive",
    "C74_table_negative_refuted",
    "C74_photons_negative_refuted"
   ],
   "note": "nu > 0: proved under the laws of the Bessel functions. nu = -1/2: refuted, the table decreases and all photons fall into the first step (finding F70)."
  },
  {
   "property": "C75",
   "status": "proved",
   "theorems": [
    "C75_binary_operators_are_pixelwise",
    "C75_inplace_agrees_with_binary",
    "C75_shape_mismatch_raises"
   ],
   "note": "Pointwise arithmetic with dtype conversion, rejected combinations leave the image unchanged."
  },
  {
   "property": "C76",
   "status": "proved",
   "theorems": [
    "C76_add",
    "C76_sub",
    "C76_neg",
    "C76_mul",
    "C76_rejects",
    "C76_only_positions",
    "C76_vector_space",
    "C76_div",
    "C76_equality",
    "C76_shear",
    "C76_round",
    "C76_construction",
    "C76_only_these_forms",
    "C76_integers_only"
   ],
   "note": "Vector-space laws, integer closure, construction forms, rejections, equality, shear and rounding for all positions."
  },
  {
   "property": "C77",
   "status": "proved",
   "theorems": [
    "C77_moments",
    "C77_shift",
    "C77_origin",
    "C77_scale",
    "C77_transpose",
    "C77_mirror",
    "C77_shape",
    "C77_g2e"
   ],
   "note": "Moments as pixel sums, shift, origin, brightness, transpose and mirror laws; positivity and the ellipticity bound; agreement with the Shear class."
  },
  {
   "property": "C78",
   "status": "partial",
   "theorems": [
    "C78_extra_noise_scales_flux_refuted"
   ],
   "note": "Refuted (F22) with the exact factor: total flux is F*(1+extra/|max_sb|); unbiased without extra noise."
  },
  {
   "property": "C79",
   "status": "partial",
   "theorems": [
    "C79_copied_photons",
    "C79_without_flux_refuted"
   ],
   "note": "Proved for copies including fluxes, any index sets. Refuted (F23) for do_flux=False: the mask is copied, so fluxes of other photons change."
  },
  {
   "property": "C80",
   "status": "proved",
   "theorems": [
    "C80_sum_photons_come_from_components"
   ],
   "note": "Components may be trees of positive profiles or single profiles of either sign."
  },
  {
   "property": "C81",
   "status": "proved",
   "theorems": [
    "C81_transform",
    "C81_round_trip"
   ],
   "note": "transform as Fourier sum and exact round trip for every non-empty image"
  },
  {
   "property": "C82",
   "status": "proved",
   "theorems": [
    "C82_photon_noise_sky"
   ],
   "note": "Per-pixel: out = draw - sky on float images; within one count on integer images."
  },
  {
   "property": "C83",
   "status": "partial",
   "theorems": [
    "C83_equality",
    "C83_equal_hash_partial",
    "C83_equal_hash_refuted",
    "C83_repr_distinguishes"
   ],
   "note": "F29: equality is value equality of the fields (proved); GSParams that compare equal but hold an int in one and a float in the other hash differently (refuted)"
  },
  {
   "property": "C84",
   "status": "proved",
   "theorems": [
    "C84_convolution_nesting"
   ],
   "note": "For the Fourier-space constructor (real_space=False) with default propagation; stepk/max_sb need non-zero component values."
  },
  {
   "property": "C85",
   "status": "proved",
   "theorems": [
    "C85_axisymmetric_is_sound"
   ],
   "note": "Sound given sound leaves; not complete (a mirrored circular profile reports False)."
  },
  {
   "property": "C86",
   "status": "partial",
   "theorems": [
    "C86_uniform_gsparams",
    "C86_with_gsparams",
    "C86_keywords_ignored_refuted",
    "C86_mixed_refuted"
   ],
   "note": "Uniformity and effect of withGSParams proved; keywords ignored when an equal GSParams object is passed (finding F35); merged non-propagating Transformation keeps old gsparams (finding F36)."
  },
  {
   "property": "C87",
   "status": "proved",
   "theorems": [
    "C87_maxk_bounds_amplitude",
    "C87_stepk_covers"
   ],
   "note": "Amplitude bound by induction for trees with positive fluxes; stepk containment for transformations and sums."
  },
  {
   "property": "C88",
   "status": "partial",
   "theorems": [
    "C88_route",
    "C88_analytic_is_drawable_partial",
    "C88_single_convolution_refuted"
   ],
   "note": "Route characterised; soundness of is_analytic_x except for Convolve of one object, refuted there (finding F37)."
  },
  {
   "property": "C89",
   "status": "proved",
   "theorems": [
    "C89_dimensions",
    "C89_vector_space",
    "C89_order",
    "C89_construction",
    "C89_equality"
   ],
   "note": "Dimensions, vector-space and order laws, construction and equality of angles and units."
  },
  {
   "property": "C90",
   "status": "proved",
   "theorems": [
    "C90_jacobian",
    "C90_at_centre"
   ],
   "note": "Except at the poles, where longitude has no derivative; also the identity at the tangent point."
  },
  {
   "property": "C91",
   "status": "proved",
   "theorems": [
    "C91_great_circle",
    "C91_great_circle_distance",
    "C91_angle_between",
    "C91_law_of_cosines"
   ],
   "note": "Great-circle point, its distance, the signed angle between sides and the spherical law of cosines."
  },
  {
   "property": "C92",
   "status": "partial",
   "theorems": [
    "C92_area_partial",
    "C92_area_refuted"
   ],
   "note": "True for excess up to pi (quarter of the sphere); false beyond: the code returns 2 pi - E (F40, C92_area_refuted)."
  },
  {
   "property": "C93",
   "status": "partial",
   "theorems": [
    "C93_epoch_ignored_refuted"
   ],
   "note": "False: the epoch is ignored (F41, C93_epoch_ignored_refuted)."
  },
  {
   "property": "C94",
   "status": "partial",
   "theorems": [
    "C94_affine_partial",
    "C94_add_line",
    "C94_scale_refuted",
    "C94_mirror_partial",
    "C94_mirror_refuted",
    "C94_last_slope_refuted"
   ],
   "note": "Adding a line proved for all tables; scaling proved when no weight crosses the threshold, refuted otherwise (F47); mirror proved between the third and third-last points, refuted near the ends (F46)."
  },
  {
   "property": "C95",
   "status": "partial",
   "theorems": [
    "C95_forms_agree",
    "C95_keyword_order",
    "C95_others",
    "C95_result",
    "C95_errors",
    "C95_always_TypeError_refuted",
    "C95_refusals"
   ],
   "note": "All accepted forms proved equivalent, errors classified; a missing further argument raises KeyError, not TypeError (refuted, F45)."
  },
  {
   "property": "C96",
   "status": "proved",
   "theorems": [
    "C96_transforms",
    "C96_sinc",
    "C96_lanczos"
   ],
   "note": "Integrals in the sense of Coquelicot's is_RInt. The interpolated table that Lanczos uses at run time is not covered, only the values it is built from without conserve_dc."
  },
  {
   "property": "C97",
   "status": "partial",
   "theorems": [
    "C97_unit_integrals",
    "C97_sinc",
    "C97_quintic_partial",
    "C97_quintic_refuted",
    "C97_fluxes"
   ],
   "note": "Exact for Nearest, Linear, Cubic and (given Si) Sinc; fluxes exact, those of Quintic to 1e-18. The stored unit integrals of Quintic are off by up to 1.6e-8 (finding F49). Lanczos tables not modelled."
  },
  {
   "property": "C98",
   "status": "partial",
   "theorems": [
    "C98_within_accuracy",
    "C98_cubic_quintic_partial",
    "C98_cubic_refuted"
   ],
   "note": "Proved for Nearest, Linear and Sinc. False for Cubic (finding F50); for Cubic and Quintic the excess is bounded by a term in 1/k^4."
  },
  {
   "property": "C99",
   "status": "partial",
   "theorems": [
    "C99_case_insensitive",
    "C99_names",
    "C99_lanczos",
    "C99_others_rejected",
    "C99_order_refuted"
   ],
   "note": "True except that a Lanczos order of 0 or above 30 raises KeyError (finding F51). Signs, blanks and underscores, which int() accepts, are outside the model."
  },
  {
   "property": "C127",
   "status": "partial",
   "theorems": [
    "C127_positions",
    "C127_table",
    "C127_photons",
    "C127_mean_flux",
    "C127_simple",
    "C127_nearest_draws",
    "C127_linear_draws",
    "C127_sinc_refused"
   ],
   "note": "Cubic and Quintic: positions in range, distributed as |kernel| up to 1/4000 of the range, table within 1e-5 and 1e-4, mean weight 1; Delta, Nearest, Linear exact; Sinc refuses. Lanczos: fluxes and positions of the photons as functions of its table only (C127_photons), its distribution is not proved"
  },
  {
   "property": "C128",
   "status": "partial",
   "theorems": [
    "C128_mean",
    "C128_mean_nonnegative",
    "C128_total",
    "C128_negative_pixels_refuted"
   ],
   "note": "mean of anything recorded, exact for images without negative pixels, and the exact total for Delta, Nearest, Linear; refuted with a negative pixel, where the mean total is too small (F79)"
  },
  {
   "property": "C129",
   "status": "partial",
   "theorems": [
    "C129_profiles",
    "C129_exact",
    "C129_structure_refuted",
    "C129_wcs"
   ],
   "note": "Holds for everything shown and, without stale params, exactly; the structure is refuted after Convolution.withGSParams (F82)."
  },
  {
   "property": "C130",
   "status": "partial",
   "theorems": [
    "C130_which_leaves",
    "C130_any_leaves",
    "C130_moffat_gradient_refuted",
    "C130_image_gradient_refuted",
    "C130_sentinel_refuted",
    "C130_wcs"
   ],
   "note": "The exact set of accepted leaves is proved; that every leaf is accepted is refuted for Moffat, InterpolatedImage and sheared coordinate systems (F80, F81)."
  },
  {
   "property": "C131",
   "status": "partial",
   "theorems": [
    "C131_gradient",
    "C131_gaussian",
    "C131_exponential",
    "C131_moffat",
    "C131_spergel_k",
    "C131_box",
    "C131_sheared_exponential",
    "C131_shear",
    "C131_spergel_nu_refuted"
   ],
   "note": "proved for every program whose operations are differentiable where performed and for the profiles named; false for Spergel's nu in real space (F86)"
  },
  {
   "property": "C132",
   "status": "partial",
   "theorems": [
    "C132_safe_sqrt",
    "C132_exponential_centre",
    "C132_sheared_exponential_refuted",
    "C132_spergel_refuted",
    "C132_zero_shear_refuted",
    "C132_min_scale_refuted"
   ],
   "note": "proved for safe_sqrt, Exponential's flux and size, Box, zero shear by e1, e2; false for sheared Exponentials and Spergels at their centre, eta at zero shear, minLinearScale (F83, F84, F85, F87)"
  },
  {
   "property": "C133",
   "status": "partial",
   "theorems": [
    "C133_flux",
    "C133_circular",
    "C133_nodes",
    "C133_half_integer",
    "C133_continuous",
    "C133_zero_flux_refuted"
   ],
   "note": "C133_flux, C133_circular, C133_nodes, C133_half_integer, C133_continuous are full. With flux 0 the value beyond maxk is nan: C133_zero_flux_refuted (F88)."
  },
  {
   "property": "C134",
   "status": "proved",
   "theorems": [
    "C134_accuracy",
    "C134_moffat"
   ],
   "note": "C134_accuracy for all tables and functions with a bounded second derivative; C134_moffat for beta = n + 3/2, n < 50, lgamma exact at half integers."
  },
  {
   "property": "C135",
   "status": "partial",
   "theorems": [
    "C135_scale",
    "C135_no_pole",
    "C135_range",
    "C135_threshold_partial",
    "C135_large_beta_refuted",
    "C135_small_threshold_refuted"
   ],
   "note": "C135_scale for all; C135_no_pole and C135_range for all beta in [1.100001, 100], thresholds in [1e-12, 0.1]. That the transform at maxk is the threshold is proved at the default threshold for beta = 3/2, 5/2, 7/2, 9/2 only (C135_threshold_partial). Outside the fit it is false: C135_large_beta_refuted (F89), C135_small_threshold_refuted (F90)."
  },
  {
   "property": "C136",
   "status": "partial",
   "theorems": [
    "C136_exact",
    "C136_bounds",
    "C136_bounded_refuted",
    "C136_decreasing_refuted"
   ],
   "note": "C136_exact, C136_bounds (n <= maxk r0) are full for half-integer beta. In general the continuation rises and exceeds the flux: C136_decreasing_refuted, C136_bounded_refuted (F91)."
  },
  {
   "property": "C137",
   "status": "proved",
   "theorems": [
    "C137_integer_images",
    "C137_fourier_sum",
    "C137_folding"
   ],
   "note": "Every pixel is the Fourier sum over the square of waves reaching maxk, for all Hermitian kValue functions; images by Poisson summation (stated for Gaussians, DrawF_Poisson proves it for any summable pair)."
  },
  {
   "property": "C138",
   "status": "proved",
   "theorems": [
    "C138_gaussian_values",
    "C138_gaussian_pixels",
    "C138_default_values",
    "C138_default_pixels"
   ],
   "note": "Explicit error from folding and truncation, with and without the pixel; default thresholds below 5e-4 and 6e-4 of the peak."
  },
  {
   "property": "C139",
   "status": "proved",
   "theorems": [
    "C139_linear",
    "C139_moved",
    "C139_half_turn",
    "C139_total",
    "C139_total_aliased",
    "C139_total_pixel"
   ],
   "note": "drawFFT on one grid: linearity, covariance under whole-pixel moves, point symmetry, exact total over a period (flux; with the pixel for every maxk), aliased total otherwise; floats are reals"
  },
  {
   "property": "C140",
   "status": "proved",
   "theorems": [
    "C140_exponential_values",
    "C140_exponential_pixels",
    "C140_default_values",
    "C140_converges"
   ],
   "note": "an Exponential drawn by drawFFT (exact transforms, real arithmetic): error bounds at points and averaged over pixels; convergence in the thresholds. The bound with default thresholds is 3/10 of the peak, since the cusp makes the waves left out fall only like 1/maxk."
  },
  {
   "property": "C141",
   "status": "partial",
   "theorems": [
    "C141_kvalues_entrywise",
    "C141_convolution_refuted",
    "C141_moved_convolution_refuted",
    "C141_mixed_sum_refuted",
    "C141_xvalues_entrywise",
    "C141_delta_refuted"
   ],
   "note": "proved for trees without a Convolution (and, for xValue, without a DeltaFunction); false with a Convolution (F92) and for DeltaFunction.xValue (F93)"
  },
  {
   "property": "C142",
   "status": "partial",
   "theorems": [
    "C142_values",
    "C142_positions_bounds",
    "C142_bounds_points",
    "C142_bounds_refuted",
    "C142_wcs",
    "C142_wcs_refused",
    "C142_wcs_own_refuted",
    "C142_images",
    "C142_image_attributes_refuted"
   ],
   "note": "Proved for angles, shears, coordinates, GSParams, positions, inhabited or undefined bounds, all WCS classes (both directions) and the pixels, dtype, bounds and WCS of images, given the contract of GalSim constructors stated in Conv_Model.v. Refuted for defined but empty bounds (F94), for from_galsim of a WCS of jax_galsim itself, which gives None (F95), and for the header and constness of images (F96)."
  },
  {
   "property": "C143",
   "status": "partial",
   "theorems": [
    "C143_expressions",
    "C143_laws",
    "C143_refused",
    "C143_products_refuted"
   ],
   "note": "Every expression of profiles (without deconvolutions, gsparams propagated) and numbers evaluates to a profile with the flux, amplitudes and surface brightnesses it stands for, by induction on the expression; sums with numbers, quotients by profiles and division by zero raise. Refuted for the product of two profiles, which is accepted (F97)."
  },
  {
   "property": "C144",
   "status": "partial",
   "theorems": [
    "C144_nothing_changes",
    "C144_flux",
    "C144_arrays_refuted"
   ],
   "note": "No sequence of scalings by numbers, or by arrays of profiles that are no Transformation, changes an array or the flux of a profile. Refuted for NumPy arrays given to a scaled profile, which are overwritten and shared (F98)."
  },
  {
   "property": "C145",
   "status": "proved",
   "theorems": [
    "C145_text",
    "C145_history",
    "C145_single",
    "C145_exact"
   ],
   "note": "Numbers are real and not written out; the text is the list of calls. Invertible matrices."
  },
  {
   "property": "C146",
   "status": "partial",
   "theorems": [
    "C146_equality",
    "C146_text",
    "C146_hash_partial",
    "C146_int_refuted",
    "C146_inverse_refuted"
   ],
   "note": "Equality is proved an equivalence on values and same text implies equal; equal hashes are proved for floats without negative zeros and refuted for ints against floats and for -0.0 (F99)."
  },
  {
   "property": "C147",
   "status": "partial",
   "theorems": [
    "C147_roundtrip_partial",
    "C147_settles",
    "C147_merged_refuted"
   ],
   "note": "Proved for all trees except when a Transformation with propagate_gsparams=False is transformed again with propagate_gsparams=True, where it is refuted (F100); without that condition only gsparams may differ and a second trip changes nothing (C147_settles)."
  },
  {
   "property": "C148",
   "status": "partial",
   "theorems": [
    "C148_equality",
    "C148_hash_partial",
    "C148_traced",
    "C148_mixed_refuted"
   ],
   "note": "Proved: reflexive, symmetric, true after jit; an equivalence with equal hashes for Python numbers only or for numbers that JAX holds exactly. Transitivity and equal hashes are refuted when Python numbers meet JAX scalars of lower precision (F101)."
  },
  {
   "property": "C149",
   "status": "partial",
   "theorems": [
    "C149_equality_partial",
    "C149_order_partial",
    "C149_strict",
    "C149_close_refuted"
   ],
   "note": "Proved: == an equivalence, < a strict order; consistency of all comparisons and of the hash if JAX holds the numbers exactly (of the comparisons also for JAX scalars or unequal angles). Refuted for Python numbers closer than the precision of JAX (F102)."
  },
  {
   "property": "C150",
   "status": "partial",
   "theorems": [
    "C150_rebuild_partial",
    "C150_text",
    "C150_real_refused",
    "C150_axis_refuted"
   ],
   "note": "Proved for shears with a second component and for the text; Shear(s.shear) raises TypeError for every shear along an axis (F103, C150_axis_refuted)."
  },
  {
   "property": "C151",
   "status": "partial",
   "theorems": [
    "C151_integer_partial",
    "C151_rises_refuted",
    "C151_sign_lost"
   ],
   "note": "Proved for nu = 0, 1, 3, 4; for every other nu in (0, 1.99) the brightness rises with radius (F104, C151_rises_refuted), because the sign of Gamma is lost (C151_sign_lost). nu = 2, nu < 0 and nu above 1.99 other than 3 and 4 are open."
  }
 ]
}