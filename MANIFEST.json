{
 "claims": [
  {
   "property": "C01",
   "status": "proved",
   "theorems": [
    "c01_check_callable",
    "c01_check_multi_scale_param",
    "c01_check_max_components",
    "c01_check_sampling",
    "c01_check_graph",
    "c01_check_algorithm_cls"
   ],
   "note": ""
  },
  {
   "property": "C02",
   "status": "partial",
   "theorems": [
    "c02_check_patch_shape_partial",
    "c02_single_patch_shape_repeated",
    "c02_patch_shape_list_kept",
    "c02_one_element_list_refuted"
   ],
   "note": "Every accepted value yields one patch shape per scale except the one-element list [p], which yields a single patch shape whatever n_scales (checks.py 229 passes 1 to the recursive call): refuted."
  },
  {
   "property": "C03",
   "status": "proved",
   "theorems": [
    "c03_exact",
    "c03_raises",
    "c03_flat_output",
    "c03_number",
    "c03_flat_unchanged",
    "c03_idempotent",
    "c03_nested_last_raises"
   ],
   "note": ""
  },
  {
   "property": "C04",
   "status": "partial",
   "theorems": [
    "c04_budget_split_partial",
    "c04_one_per_scale",
    "c04_list_verbatim",
    "c04_one_element_list",
    "c04_wrong_length",
    "c04_exact_when_divisible",
    "c04_total_refuted",
    "c04_no_iteration_refuted"
   ],
   "note": "Equal split within half an iteration per scale, lists verbatim and errors are proved; 'the total is max_iters' and 'a positive budget gives an iteration' are refuted (rounding of max_iters / n_scales, checks.py 308-313)."
  },
  {
   "property": "C05",
   "status": "proved",
   "theorems": [
    "c05_lucas_kanade",
    "c05_gauss_newton",
    "c05_gauss_newton_appearance",
    "c05_pictorial_structures",
    "c05_constrained_local_model"
   ],
   "note": ""
  },
  {
   "property": "C06",
   "status": "partial",
   "theorems": [
    "c06_aps_multi_scale",
    "c06_gauss_newton",
    "c06_gauss_newton_appearance",
    "c06_pictorial_structures",
    "c06_constrained_local_model",
    "c06_lucas_kanade_partial",
    "c06_lucas_kanade_costs_refuted"
   ],
   "note": "All algorithm families proved; c06_aps_multi_scale carries the three cost lists of pictorial structures through the multi-scale result (aps/result.py); Lucas-Kanade costs are one short (the final shape has no cost): refuted."
  },
  {
   "property": "C07",
   "status": "partial",
   "theorems": [
    "c07_single_scale",
    "c07_multi_scale",
    "c07_parameters_line_up",
    "c07_wrong_number_of_results",
    "c07_aam_appearance",
    "c07_mixed_appearance_refuted"
   ],
   "note": "Proved for all result classes; an AAM result whose first scale has appearance parameters and a later scale has none raises TypeError: refuted."
  },
  {
   "property": "C08",
   "status": "partial",
   "theorems": [
    "c08_lucas_kanade_n_iters_partial",
    "c08_n_iters_refuted"
   ],
   "note": "Refuted for every run: lk/result.py subtracts the number of scales twice; the partial theorem gives the exact value reported."
  },
  {
   "property": "C09",
   "status": "partial",
   "theorems": [
    "c09_aam_supervised_descent",
    "c09_non_parametric",
    "c09_non_parametric_multi_scale",
    "c09_parametric_refuted",
    "c09_empty_cascade_refuted"
   ],
   "note": "Proved for non-parametric and AAM supervised descent; refuted for parametric supervised descent (the shape list lacks the initial projection) and for an empty cascade (raises)."
  },
  {
   "property": "C10",
   "status": "partial",
   "theorems": [
    "c10_shapes_in_original_frame_partial",
    "c10_late_repeat_affine_refuted",
    "c10_result_classes",
    "c10_late_repeat_refuted"
   ],
   "note": "Proved when the per-scale features are all equal or never repeated after a change; refuted for features [f, g, g] (the affine of the wrong scale is used, fitter.py _prepare_image)."
  },
  {
   "property": "C11",
   "status": "partial",
   "theorems": [
    "c11_continuity_partial",
    "c11_feature_change_refuted",
    "c11_discontinuity_refuted"
   ],
   "note": "Proved for equal features or commuting transforms; refuted in general when features change (the order of the two transforms is swapped)."
  },
  {
   "property": "C12",
   "status": "partial",
   "theorems": [
    "c12_other_groups_kept_partial",
    "c12_landmarks_unchanged_partial",
    "c12_exception_leaves_group_refuted",
    "c12_existing_group_lost_refuted"
   ],
   "note": "Proved when image preparation does not raise and the temporary names are free; refuted when a resize, feature or alignment raises (the temporary group stays) and for a user's group of the same name (lost)."
  },
  {
   "property": "C13",
   "status": "partial",
   "theorems": [
    "c13_generated_boxes",
    "c13_repeated_call_partial",
    "c13_box_count",
    "c13_no_match",
    "c13_succeeds",
    "c13_unmatched_image_refuted",
    "c13_stale_boxes_refuted"
   ],
   "note": "Proved for fresh images; refuted for images without a matching group (silently no boxes) and for a second call with fewer boxes (the callable also yields old boxes)."
  },
  {
   "property": "C14",
   "status": "partial",
   "theorems": [
    "c14_dlib_every_perturbation",
    "c14_dlib_first_n_partial",
    "c14_dlib_provided_boxes_dropped_refuted",
    "c14_every_perturbation_trained_partial",
    "c14_first_n_trained_partial",
    "c14_first_scale",
    "c14_temporary_groups_removed",
    "c14_provided_boxes_dropped_refuted",
    "c14_feature_change_refuted",
    "c14_handover"
   ],
   "note": "Proved without a box glob; refuted with one (provided boxes are dropped after the first scale) and when the features change between scales."
  },
  {
   "property": "C15",
   "status": "proved",
   "theorems": [
    "c15_batches",
    "c15_batch_count",
    "c15_negative_raises",
    "c15_zero_yields_nothing"
   ],
   "note": ""
  },
  {
   "property": "C16",
   "status": "partial",
   "theorems": [
    "c16_models",
    "c16_every_sample_once",
    "c16_construct_succeeds",
    "c16_no_models_refuted",
    "c16_failed_increment_refuted",
    "c16_atm_partial",
    "c16_atm_last_template",
    "c16_atm_templates_refuted",
    "c16_linear_frames_refuted",
    "c16_linear_one_scale"
   ],
   "note": "Proved for AAM, CLM, APS and patch/holistic models over all histories of calls that succeed; refuted: no models with batch size 0 or no items, failed increments, two templates per scale in batched ATMs, one dense frame for all scales in linear models."
  },
  {
   "property": "C17",
   "status": "partial",
   "theorems": [
    "c17_reconstructions_partial",
    "c17_third_scale_refuted"
   ],
   "note": "Proved for one and two scales; refuted for three or more (aam/result.py adds the wrong offset)."
  },
  {
   "property": "C18",
   "status": "partial",
   "theorems": [
    "c18_fraction",
    "c18_laws",
    "c18_order_independent",
    "c18_empty_raises",
    "c18_empty_no_bins_refuted",
    "c18_lists_refuted"
   ],
   "note": "All laws proved for arrays; refuted for the documented argument types (two lists raise TypeError) and for an empty error list without bins (returns [])."
  },
  {
   "property": "C19",
   "status": "partial",
   "theorems": [
    "c19_double_bins_partial",
    "c19_double_overshoot_refuted",
    "c19_failure_rate",
    "c19_area",
    "c19_exact_grid_partial",
    "c19_monotone",
    "c19_overshoot_refuted",
    "c19_area_above_one_refuted",
    "c19_min_error_refuted"
   ],
   "note": "Exact formulas and monotonicity proved in general, the stated bounds when the step divides the range and it starts at 0; refuted otherwise (overshooting grid, division by max_error); in double precision the last bin may be one step too far even then (c19_double_bins_partial gives the two cases, c19_double_overshoot_refuted the case step 0.05, maximum 0.1)."
  },
  {
   "property": "C20",
   "status": "proved",
   "theorems": [
    "c20_values",
    "c20_euclidean_metric",
    "c20_rms_metric",
    "c20_rigid",
    "c20_scaling",
    "c20_box",
    "c20_normalised_invariant",
    "c20_area_not_invariant",
    "c20_bad_normaliser",
    "c20_different_sizes",
    "c20_one_point"
   ],
   "note": ""
  },
  {
   "property": "C21",
   "status": "proved",
   "theorems": [
    "c21_conversions",
    "c21_all_layouts"
   ],
   "note": ""
  },
  {
   "property": "C22",
   "status": "proved",
   "theorems": [
    "c22_corners",
    "c22_outer_eye_errors",
    "c22_other_errors",
    "c22_wrong_sizes"
   ],
   "note": ""
  },
  {
   "property": "C23",
   "status": "partial",
   "theorems": [
    "c23_pad",
    "c23_pad_too_small",
    "c23_crop_pad_partial",
    "c23_zero_margin_refuted",
    "c23_crop_size_partial"
   ],
   "note": "Proved exactly: cropping undoes padding iff at least two rows and columns were added; with zero or one the result is empty (slice stop -0): refuted."
  },
  {
   "property": "C24",
   "status": "partial",
   "theorems": [
    "c24_response_size_partial",
    "c24_small_patch_refuted",
    "c24_one_pixel_raises",
    "c24_response_size_iff"
   ],
   "note": "Proved for patches of at least 6 x 6 pixels; refuted for sides of 2 to 5 pixels (empty response); 1 pixel raises."
  },
  {
   "property": "C25",
   "status": "partial",
   "theorems": [
    "c25_train",
    "c25_increments_partial",
    "c25_increments_weighted",
    "c25_no_regularisation_refuted",
    "c25_iirl_increment_refuted",
    "c25_iirl_train",
    "c25_iirl_minimises",
    "c25_iirl_trains",
    "c25_alpha_refuted"
   ],
   "note": "Proved for alpha = 1, with the exact weighting for other alpha; refuted for alpha = 0 (the default), other alpha, and IIRLRegression (increment raises)."
  },
  {
   "property": "C26",
   "status": "partial",
   "theorems": [
    "c26_batch",
    "c26_equal_halves_partial",
    "c26_increment",
    "c26_not_batch_refuted",
    "c26_forget_all",
    "c26_history_refuted",
    "c26_ensemble_weight_refuted"
   ],
   "note": "The exact closed form of every increment history is proved; equality with batch training is refuted, and the ensemble counts the new images twice."
  },
  {
   "property": "C27",
   "status": "partial",
   "theorems": [
    "c27_returned_from_disk",
    "c27_recovers",
    "c27_empty_file",
    "c27_no_second_download",
    "c27_good_file_removed_refuted",
    "c27_concurrent_safe",
    "c27_concurrent_refuted"
   ],
   "note": "Proved for every history of crashes of one process; refuted: any loading error removes a complete file, and two concurrent processes may both fail."
  },
  {
   "property": "C28",
   "status": "partial",
   "theorems": [
    "c28_history",
    "c28_original_image",
    "c28_no_initial_shape_refuted"
   ],
   "note": "Proved for all wrapped fitters whose results have an initial shape; refuted for DlibWrapper with a preprocessing (raises)."
  },
  {
   "property": "C29",
   "status": "partial",
   "theorems": [
    "c29_pdm_in_sync",
    "c29_global_in_sync",
    "c29_ortho_in_sync",
    "c29_pdm_round_trip",
    "c29_global_round_trip",
    "c29_ortho_round_trip",
    "c29_n_parameters",
    "c29_short_vector_refuted",
    "c29_failed_call_refuted"
   ],
   "note": "Proved for vectors of the right length over all operation histories; refuted: too short vectors are accepted, too long ones leave weights and target inconsistent."
  },
  {
   "property": "C30",
   "status": "proved",
   "theorems": [
    "c30_affine_d_dp",
    "c30_affine_d_dx",
    "c30_similarity_d_dp",
    "c30_unique"
   ],
   "note": ""
  },
  {
   "property": "C31",
   "status": "proved",
   "theorems": [
    "c31_pwa_weights"
   ],
   "note": ""
  },
  {
   "property": "C32",
   "status": "partial",
   "theorems": [
    "c32_no_rotation_partial",
    "c32_rotation_refuted",
    "c32_global_pdm_refuted",
    "c32_global_columns",
    "c32_linear_partial",
    "c32_linear_rotation_refuted"
   ],
   "note": "Proved without rotation; the same for the dense transform of linear models (c32_linear_partial, c32_linear_rotation_refuted); refuted with any rotation (the linear part of the transform is applied on the wrong side, modelinstance.py d_dp)."
  },
  {
   "property": "C33",
   "status": "partial",
   "theorems": [
    "c33_inverse_ml",
    "c33_forward",
    "c33_appearance",
    "c33_inverse_map_partial",
    "c33_inverse_map_drift",
    "c33_left_by_inverse",
    "c33_left_by_forward",
    "c33_inverse_map_refuted"
   ],
   "note": "Proved for forward and for maximum likelihood inference; refuted for inverse compositional algorithms with map_inference (the prior's Hessian accumulates in the object). The exact drift is proved."
  },
  {
   "property": "C34",
   "status": "partial",
   "theorems": [
    "c34_shape_map_partial",
    "c34_shape_map_refuted",
    "c34_bidirectional",
    "c34_all_map_partial",
    "c34_all_map_refuted"
   ],
   "note": "Proved up to 256 parameters; refuted from 257 (comparison of integers with 'is')."
  },
  {
   "property": "C35",
   "status": "partial",
   "theorems": [
    "c35_varying_maps_partial",
    "c35_constant_map_refuted",
    "c35_one_pixel_refuted",
    "c35_iff"
   ],
   "note": "Proved when no map is constant; refuted for constant maps (raise) and one-pixel maps (value 1/2)."
  },
  {
   "property": "C36",
   "status": "partial",
   "theorems": [
    "c36_asm_centre_sign",
    "c36_asm_centre_iff",
    "c36_asm_gaussian_iff",
    "c36_grid",
    "c36_asm_centre_partial",
    "c36_asm_peak_partial",
    "c36_half_window",
    "c36_asm_centre_refuted"
   ],
   "note": "build_grid proved for every size; ASM: for every Gaussian kernel, a peak at the centre stays put if and only if both window sides are 1 modulo 4, and the sign of the error for the others is given (c36_asm_centre_sign); refuted for a 3 x 3 window."
  },
  {
   "property": "C37",
   "status": "partial",
   "theorems": [
    "c37_non_parametric",
    "c37_parametric_partial",
    "c37_parametric_initial_refuted",
    "c37_multi_scale_partial",
    "c37_multi_scale_no_initial_refuted",
    "c37_reconstruction_hidden_refuted",
    "c37_same_name_last_wins"
   ],
   "note": "Proved for non-parametric results and for the label variants named in the partial theorems; refuted for the other variants (numbers off by two, hidden reconstructions)."
  },
  {
   "property": "C38",
   "status": "proved",
   "theorems": [
    "c38_displacement_values",
    "c38_all_results_consistent",
    "c38_errors",
    "c38_errors_defined",
    "c38_no_ground_truth",
    "c38_reconstructed_error",
    "c38_displacements",
    "c38_to_result"
   ],
   "note": ""
  },
  {
   "property": "C39",
   "status": "partial",
   "theorems": [
    "c39_targets",
    "c39_train_resets",
    "c39_increment_untrained",
    "c39_training_succeeds",
    "c39_uneven_perturbations_refuted"
   ],
   "note": "Proved when every image has the same number of perturbations; refuted otherwise (rows never written)."
  },
  {
   "property": "C40",
   "status": "proved",
   "theorems": [
    "c40_none_changes_nothing",
    "c40_scalar",
    "c40_one_element",
    "c40_one_per_scale",
    "c40_wrong_length_untouched",
    "c40_failure"
   ],
   "note": ""
  },
  {
   "property": "C41",
   "status": "proved",
   "theorems": [
    "c41_project_out",
    "c41_cost",
    "c41_weights",
    "c41_pinv"
   ],
   "note": ""
  },
  {
   "property": "C42",
   "status": "proved",
   "theorems": [
    "c42_ml",
    "c42_map",
    "c42_simultaneous_ml",
    "c42_simultaneous_map",
    "c42_project_out_ml",
    "c42_project_out_map",
    "c42_alternating",
    "c42_modified_alternating",
    "c42_lk_forward",
    "c42_lk_inverse",
    "c42_singular"
   ],
   "note": ""
  },
  {
   "property": "C43",
   "status": "proved",
   "theorems": [
    "c43_rect_round_trip",
    "c43_truncation_unique",
    "c43_integral_boxes",
    "c43_points",
    "c43_integral_points",
    "c43_parts_kept",
    "c43_empty",
    "c43_run",
    "c43_train_examples",
    "c43_train_boxes"
   ],
   "note": ""
  },
  {
   "property": "C44",
   "status": "partial",
   "theorems": [
    "c44_mask",
    "c44_refused",
    "c44_positions",
    "c44_consistent",
    "c44_patch_consistent",
    "c44_from_step",
    "c44_from_step_used",
    "c44_from_scale",
    "c44_from_scale_refuted",
    "c44_patches_partial",
    "c44_patch_step_refuted"
   ],
   "note": "Masks, positions and holistic steps proved; patches proved for boolean patterns; refuted for integer steps on patches and for sampling from a scale (pixels outside the mask)."
  },
  {
   "property": "C45",
   "status": "proved",
   "theorems": [
    "c45_dense_shapes",
    "c45_dense_shapes_raise",
    "c45_sparse_and_dense_target"
   ],
   "note": ""
  },
  {
   "property": "C46",
   "status": "proved",
   "theorems": [
    "c46_print_progress"
   ],
   "note": ""
  },
  {
   "property": "C47",
   "status": "proved",
   "theorems": [
    "c47_r2logr",
    "c47_r2logr2",
    "c47_zero_at_centre",
    "c47_unique"
   ],
   "note": ""
  },
  {
   "property": "C48",
   "status": "partial",
   "theorems": [
    "c48_plain_refuted",
    "c48_global_partial",
    "c48_compose_at_identity"
   ],
   "note": "GlobalMDTransform: evaluates or raises LinAlgError exactly for singular Gram matrices; ModelDrivenTransform: refuted, every call raises (einsum subscripts)."
  },
  {
   "property": "C49",
   "status": "partial",
   "theorems": [
    "c49_reference",
    "c49_reference_constant",
    "c49_atm_reference",
    "c49_unified_refuted"
   ],
   "note": "Proved for AAM, CLM, ATM, APS; refuted for UnifiedAAMCLM, which ignores the given reference shape."
  },
  {
   "property": "C50",
   "status": "proved",
   "theorems": [
    "c50_reference_shape",
    "c50_defined",
    "c50_negative"
   ],
   "note": ""
  },
  {
   "property": "C51",
   "status": "partial",
   "theorems": [
    "c51_uniform_partial",
    "c51_gaussian",
    "c51_scale_unbounded_refuted",
    "c51_zero_noise",
    "c51_zero_noise_shape",
    "c51_zero_noise_from_shape",
    "c51_percentage_kept_partial",
    "c51_list_changed_refuted",
    "c51_noise_type_identity_refuted",
    "c51_noise_moves_centre"
   ],
   "note": "Rotation and translation bounds and zero noise proved; refuted: the scale is drawn from a normal distribution, one-element lists are changed, equal strings are refused."
  },
  {
   "property": "C52",
   "status": "partial",
   "theorems": [
    "c52_sampling_int_refuted",
    "c52_sampling_none_entry_refuted",
    "c52_component_range_refuted",
    "c52_diagonal"
   ],
   "note": "The diagonal rule is proved; documented int sampling and None entries are refused, out-of-range component counts accepted: refuted."
  },
  {
   "property": "C53",
   "status": "partial",
   "theorems": [
    "c53_same_size_partial",
    "c53_fft_filter_refuted",
    "c53_spectrum_agrees",
    "c53_spectrum_refuted"
   ],
   "note": "Sizes proved for filters of at least 6 x 6 pixels; refuted for smaller ones and for filters given in the frequency domain."
  },
  {
   "property": "C54",
   "status": "partial",
   "theorems": [
    "c54_forward",
    "c54_forward_shrinks",
    "c54_inverse_refuted"
   ],
   "note": "Proved for forward algorithms; refuted for inverse algorithms with map_inference (sign of the increment)."
  },
  {
   "property": "C55",
   "status": "partial",
   "theorems": [
    "c55_pdm",
    "c55_global",
    "c55_ortho_partial",
    "c55_ortho_incremented_refuted"
   ],
   "note": "Proved for PDM, GlobalPDM and OrthoPDM before increments; refuted for OrthoPDM after an increment."
  },
  {
   "property": "C56",
   "status": "proved",
   "theorems": [
    "c56_pdm_closest",
    "c56_global_closest",
    "c56_ortho_closest",
    "c56_pdm",
    "c56_ortho"
   ],
   "note": ""
  },
  {
   "property": "C57",
   "status": "proved",
   "theorems": [
    "c57_pwa_chain_rule",
    "c57_chain_rule",
    "c57_cache",
    "c57_cache_needs_unchanged_arrays"
   ],
   "note": ""
  },
  {
   "property": "C58",
   "status": "proved",
   "theorems": [
    "c58_tps_d_dl",
    "c58_tps_linear"
   ],
   "note": ""
  },
  {
   "property": "C59",
   "status": "partial",
   "theorems": [
    "c59_pwa_partial",
    "c59_pwa_refuted",
    "c59_tps_sizes_refuted",
    "c59_tps_partial",
    "c59_spline_gradient"
   ],
   "note": "Piecewise affine: derivative iff the triangle is translated; TPS: refuted unless as many points as landmarks, where the sign of the kernel part is wrong."
  },
  {
   "property": "C60",
   "status": "partial",
   "theorems": [
    "c60_dense_instances",
    "c60_sparse_best_fit",
    "c60_sparse_instances_partial",
    "c60_basis_of_constructor",
    "c60_rotated_instance_refuted",
    "c60_stale_basis_refuted"
   ],
   "note": "Dense instances and best fits proved; landmarks only: proved without rotation and with a current basis, refuted for rotated instances and for a stale basis."
  },
  {
   "property": "C61",
   "status": "proved",
   "theorems": [
    "c61_inverse",
    "c61_additive"
   ],
   "note": ""
  },
  {
   "property": "C62",
   "status": "partial",
   "theorems": [
    "c62_ssd_cost",
    "c62_ssd_increment",
    "c62_gradient_images_partial",
    "c62_stationary",
    "c62_forward_gradient_refuted"
   ],
   "note": "Proved for SSD, ECC and for the gradient residuals with the inverse algorithm; refuted for the gradient residuals with the forward algorithms, which never look at the template."
  },
  {
   "property": "C63",
   "status": "partial",
   "theorems": [
    "c63_fourier_ssd",
    "c63_transforms",
    "c63_cost",
    "c63_kernel_cost_refuted",
    "c63_kernel_cost_iff"
   ],
   "note": "Equality with SSD proved for all sizes, channels and kernels; refuted: the cost with a kernel raises ValueError for nearly all image shapes."
  },
  {
   "property": "C64",
   "status": "partial",
   "theorems": [
    "c64_cost",
    "c64_relit",
    "c64_flat",
    "c64_increase_refuted",
    "c64_increase_inverse_refuted"
   ],
   "note": "Cost, invariances and refusals proved; refuted: an ECC increment can lower the linearised correlation (forward and inverse)."
  },
  {
   "property": "C65",
   "status": "partial",
   "theorems": [
    "c65_orientation",
    "c65_cost",
    "c65_sdi_partial",
    "c65_sdi_refuted",
    "c65_sdi_other_order_refuted"
   ],
   "note": "Orientation and cost proved; the steepest descent images are right when the crossed derivatives agree, refuted in general."
  },
  {
   "property": "C66",
   "status": "proved",
   "theorems": [
    "c66_mosse",
    "c66_mccf",
    "c66_increment_solves",
    "c66_increments"
   ],
   "note": ""
  },
  {
   "property": "C67",
   "status": "partial",
   "theorems": [
    "c67_centre_of_mass",
    "c67_inside_window",
    "c67_single_response",
    "c67_scale",
    "c67_symmetric_partial",
    "c67_even_window_refuted",
    "c67_degenerate",
    "c67_unified"
   ],
   "note": "Proved for all windows and kernels; refuted: in a window with an even number of rows a uniform response moves the landmark, since the window is not centred on it."
  },
  {
   "property": "C68",
   "status": "partial",
   "theorems": [
    "c68_maximum_likelihood",
    "c68_maximum_a_posteriori",
    "c68_no_prior",
    "c68_raises",
    "c68_pose",
    "c68_upright_partial",
    "c68_half_turn_refuted"
   ],
   "note": "Optimality (ML and MAP), refusals and the exact effect of an update in any pose proved; refuted: the Jacobian is computed once, in the pose of the mean, so that after half a turn an update moves the landmarks the opposite way."
  },
  {
   "property": "C69",
   "status": "partial",
   "theorems": [
    "c69_alternating",
    "c69_alternating_prior",
    "c69_alternating_ends",
    "c69_project_out_partial",
    "c69_weight_ignored_refuted",
    "c69_half_step_refuted",
    "c69_cost"
   ],
   "note": "Proved for the alternating algorithm with and without prior; project-out without prior proved to minimise the unweighted sum; refuted: project-out ignores the weight without prior and covers half of the way with it; the reported cost does not weight the landmark term (exact characterisation proved)."
  },
  {
   "property": "C70",
   "status": "partial",
   "theorems": [
    "c70_minimum",
    "c70_masked",
    "c70_order",
    "c70_costs_partial",
    "c70_masked_cost_refuted",
    "c70_pose_cost_refuted"
   ],
   "note": "Minimum, masking and ordering proved; refuted: with a sampling mask the costs raise ValueError; the reported deformation cost depends on the pose although the objective does not."
  },
  {
   "property": "C71",
   "status": "partial",
   "theorems": [
    "c71_pcr",
    "c71_pcr_reduced_partial",
    "c71_pcr_nothing",
    "c71_optimal",
    "c71_optimal_pcr",
    "c71_optimal_reduced_partial",
    "c71_procrustes",
    "c71_procrustes_refuted",
    "c71_whiten_partial",
    "c71_pcr_kept_refuted",
    "c71_whiten_refuted"
   ],
   "note": "Least norm least squares, agreement of the two regressors, the exact kept part and Procrustes optimality proved; refuted: the kept part is always below the requested one (all predictions are zero when the first direction carries it alone); with fewer outputs than features Procrustes fits the features from the outputs, not the outputs; whitening inverts the eigenvalues instead of removing them and is not applied at prediction; principal component regression raises on a zero singular value."
  },
  {
   "property": "C72",
   "status": "partial",
   "theorems": [
    "c72_fits",
    "c72_independent_partial",
    "c72_other_count_refuted",
    "c72_same_pose_partial",
    "c72_count_refuted",
    "c72_none_refuted",
    "c72_pose_refuted"
   ],
   "note": "Fits never affect each other, for any history; constructions that keep the numbers of components do not either (both proved for every history, also of calls that raise); refuted: a construction with another number makes older fitters raise ValueError, no number means the active ones and not all, and a fitter constructed after a fit keeps the Jacobian of the pose the fit left."
  },
  {
   "property": "C73",
   "status": "partial",
   "theorems": [
    "c73_modified_alternating",
    "c73_wiberg_partial",
    "c73_simultaneous_partial",
    "c73_alternating_partial",
    "c73_wiberg_refuted",
    "c73_alternating_refuted",
    "c73_simultaneous_refuted"
   ],
   "note": "Proved for modified alternating (all runs, forward and inverse, with and without prior) and for the first parameters of every algorithm; for the others the image that the reported parameters do explain is characterised exactly, and refuted by one-turn runs: Wiberg counts the increment twice, alternating lags one turn behind, simultaneous relies on the linear prediction."
  },
  {
   "property": "C74",
   "status": "proved",
   "theorems": [
    "c74_wiberg_forward",
    "c74_simultaneous_forward"
   ],
   "note": "Proved for all runs of the forward algorithms, exceptions included."
  },
  {
   "property": "C75",
   "status": "partial",
   "theorems": [
    "c75_never_singular_partial",
    "c75_alternating_refuted",
    "c75_priors"
   ],
   "note": "Proved for project-out (forward), Wiberg, modified alternating and simultaneous with positive priors; refuted for alternating: A_m.dot and A_m.T.dot are swapped, so that every fit with map_inference raises ValueError unless there are as many pixels as components."
  },
  {
   "property": "C76",
   "status": "partial",
   "theorems": [
    "c76_retrain_non_parametric",
    "c76_retrain_partial",
    "c76_first_models_kept",
    "c76_shape_model_refuted",
    "c76_appearance_model_refuted"
   ],
   "note": "Proved for every algorithm without models of its own and whenever the kept models are those of the new data; it is proved that the models are always those of the first data; refuted with a shape model and with an appearance model, which train() does not rebuild."
  },
  {
   "property": "C77",
   "status": "partial",
   "theorems": [
    "c77_retraces_partial",
    "c77_non_parametric",
    "c77_projected_start_refuted",
    "c77_ortho_partial",
    "c77_irl_rowwise",
    "c77_other_rowwise"
   ],
   "note": "Proved in full without shape model; with a shape model proved for perturbations the model can generate (for the OrthoPDM: and estimates whose points do not coincide); refuted for other perturbations: training extracts the first features at the perturbed shape, fitting at its projection."
  },
  {
   "property": "C78",
   "status": "proved",
   "theorems": [
    "c78_verbose_changes_nothing",
    "c78_verbose_succeeds",
    "c78_non_parametric",
    "c78_ortho"
   ],
   "note": "Proved for all four families; for the OrthoPDM from the independence of set_target from the state of the model."
  },
  {
   "property": "C79",
   "status": "partial",
   "theorems": [
    "c79_torus_partial",
    "c79_interior_partial",
    "c79_given_spectrum",
    "c79_odd_partial",
    "c79_border_refuted",
    "c79_even_refuted"
   ],
   "note": "Proved exactly as a convolution on a torus, and as the linear convolution centred at the middle of the filter for every pixel not on the border and filters of odd size (at least 7); refuted on the border, where the opposite border leaks in because the extension is one pixel too short, and for filters of even size, whose centre depends on the parity of the image size."
  },
  {
   "property": "C80",
   "status": "partial",
   "theorems": [
    "c80_response_partial",
    "c80_filter",
    "c80_training",
    "c80_aligned_partial",
    "c80_odd_context_refuted",
    "c80_even_patch_refuted"
   ],
   "note": "Proved for odd patch and even context sizes (the defaults): pixels off the border are the sum of convolutions with the trained filters around their origin; refuted for odd context sizes and for patch sides that are multiples of four, where every response is moved by one pixel."
  },
  {
   "property": "C81",
   "status": "proved",
   "theorems": [
    "c81_retraces",
    "c81_retrain",
    "c81_verbose",
    "c81_verbose_succeeds",
    "c81_transform_stateless",
    "c81_transform_settles",
    "c81_transform_recovers",
    "c81_ortho",
    "c81_ortho_retrain",
    "c81_ortho_verbose"
   ],
   "note": "Proved for every stateless transform that settles and finds back what it generates, and for the OrthoMDTransform of the library unless an intermediate estimate has all its points in one place."
  },
  {
   "property": "C82",
   "status": "partial",
   "theorems": [
    "c82_inverse",
    "c82_project_out_descent",
    "c82_mean_descent",
    "c82_weights_descent",
    "c82_features",
    "c82_forward_refuted"
   ],
   "note": "Proved for project-out inverse compositional fits (with and without map_inference and costs) and project-out supervised descent (fits and training), with the converse for appearance weights; refuted for the project-out forward compositional algorithm, whose Jacobian is that of the image."
  },
  {
   "property": "C83",
   "status": "proved",
   "theorems": [
    "c83_similarity_parameters",
    "c83_global",
    "c83_ortho",
    "c83_ortho_mean",
    "c83_similarity_only"
   ],
   "note": "Proved for the GlobalPDM (targets with a best angle), the OrthoPDM (every target that can be set) and the GlobalSimilarityModel, with the closed-form Procrustes alignment over any real closed field; when no angle is best menpo picks some rotation and nothing is claimed."
  },
  {
   "property": "C84",
   "status": "proved",
   "theorems": [
    "c84_alignment",
    "c84_clm",
    "c84_sdm",
    "c84_sdm_ortho"
   ],
   "note": "Proved for gradient descent CLMs over all scales (both kinds of algorithm, with and without the prior), for supervised descent with and without an OrthoPDM, for alignments that follow shifts, which the Procrustes alignment does. What the moved image looks like around the moved shapes is a hypothesis (the sampling of patches is external)."
  },
  {
   "property": "C85",
   "status": "proved",
   "theorems": [
    "c85_lucas_kanade",
    "c85_gauss_newton",
    "c85_gauss_newton_appearance",
    "c85_pictorial_structures",
    "c85_constrained_local_model",
    "c85_last_scale"
   ],
   "note": "Proved for the five optimisation loops (Lucas-Kanade, Gauss-Newton with and without appearance, pictorial structures, constrained local models) and, over all scales, for a larger budget of the last scale. Supervised descent has no budget or tolerance."
  },
  {
   "property": "C86",
   "status": "partial",
   "theorems": [
    "c86_inverse_compositional",
    "c86_forward_compositional",
    "c86_modified_alternating",
    "c86_wiberg_forward",
    "c86_simultaneous_forward",
    "c86_alternating_refuted",
    "c86_wiberg_inverse_refuted",
    "c86_simultaneous_inverse_refuted",
    "c86_constrained_local_model"
   ],
   "note": "Proved for project-out and ATM algorithms, modified alternating, Wiberg and simultaneous forward compositional (without the prior) and for constrained local models. Refuted for the alternating algorithms: what the last shape increment explains is kept across the iterations of one call but not across calls. Refuted for Wiberg and simultaneous inverse compositional too: a new call computes the appearance parameters of the Jacobian afresh from the warped image; supervised descent has no iterations to continue."
  },
  {
   "property": "C87",
   "status": "partial",
   "theorems": [
    "c87_aam_instance",
    "c87_aam_too_many",
    "c87_aam_random_sound",
    "c87_aam_random_raises",
    "c87_aam_random_covers_iff",
    "c87_atm_instance",
    "c87_atm_random",
    "c87_aps_instance",
    "c87_aps_random",
    "c87_shape_instance",
    "c87_default_is_last",
    "c87_padding",
    "c87_aam_random_refuted",
    "c87_aam_random_raises_refuted",
    "c87_masked_atm_patch_refuted"
   ],
   "note": "instance and shape_instance proved for every class. random_instance proved for ATM and APS. Refuted for AAM and unified AAM-CLM: the number of appearance weights drawn is the number of active shape components, so every pair can be drawn exactly when the two numbers agree (c87_aam_random_covers_iff), and every draw raises ValueError when the shape model has more. MaskedATM instances are built with the list of the patch shapes of all scales (refuted). Linear AAMs and ATMs raise NotImplementedError (in the statement)."
  },
  {
   "property": "C88",
   "status": "partial",
   "theorems": [
    "c88_fitted_as_trained",
    "c88_dlib_fitted_as_trained",
    "c88_nearly_one_refuted",
    "c88_unified_sigma_refuted",
    "c88_clear_scales_iff"
   ],
   "note": "Proved for all images, features and scales outside np.allclose's tolerance around 1 and without smoothing; the code violates the rest: c88_nearly_one_refuted (a scale within the tolerance of 1 is rescaled when fitting but not in training) and c88_unified_sigma_refuted (with sigma, a unified AAM-CLM is trained on smoothed and fitted to unsmoothed images). c88_clear_scales_iff says which scales are concerned."
  },
  {
   "property": "C89",
   "status": "partial",
   "theorems": [
    "c89_least_spread",
    "c89_no_image",
    "c89_one_image",
    "c89_singular_iff",
    "c89_two_images_refuted",
    "c89_order",
    "c89_units",
    "c89_first_batch",
    "c89_batches_refuted",
    "c89_zero_weight_refuted"
   ],
   "note": "Proved for every training set without an edge of weight exactly zero, with the exact condition for LinAlgError (some pair's relative positions on a line). The code violates the rest: two images always raise (c89_two_images_refuted), trained in batches the tree is that of the first batch and not of all images (c89_first_batch, c89_batches_refuted), and a weight that is exactly zero counts as a missing edge, so that units matter (c89_zero_weight_refuted)."
  },
  {
   "property": "C90",
   "status": "proved",
   "theorems": [
    "c90_methods",
    "c90_order",
    "c90_auc_order",
    "c90_units",
    "c90_median_half",
    "c90_mad_half",
    "c90_robust",
    "c90_mean_median",
    "c90_max",
    "c90_single",
    "c90_displacements",
    "c90_determined",
    "c90_mad_is_not_the_mean_deviation"
   ],
   "note": "Over the reals (no rounding, no NaN); area under curve and failure rate on Model/Stats.v. c90_mad_is_not_the_mean_deviation records that the docstring of compute_statistical_measures, which announces the mean absolute deviation, is wrong."
  },
  {
   "property": "C91",
   "status": "partial",
   "theorems": [
    "c91_templates",
    "c91_template_stays",
    "c91_feature_change_refuted"
   ],
   "note": "c91_templates holds for all features, scales and diagonals; c91_template_stays for fitters whose scales share one kind of features, given that menpo resizes exactly, that a transform of a shape to itself does not move the image and that a matching image gives the zero increment (C61). With features that change between scales the fit leaves the template even when no iteration is performed (c91_feature_change_refuted), since the start of the next scale composes the transforms in the wrong order (C11)."
  },
  {
   "property": "C92",
   "status": "partial",
   "theorems": [
    "c92_training_images_stay",
    "c92_appearance",
    "c92_project_out_forward",
    "c92_project_out_inverse",
    "c92_template_forward",
    "c92_template_inverse",
    "c92_map_refuted"
   ],
   "note": "Proved without map_inference for all ten AAM algorithms and both ATM ones (c92_appearance, c92_project_out_*, c92_template_*) and carried through the scales of the fitter for features of one kind (c92_training_images_stay). With map_inference every algorithm leaves an exactly explained image at its first iteration unless all initial parameters, those of the similarity included, are zero (c92_map_refuted): the prior gives the similarity the weight 1, so that a perfectly explained face is pulled towards the position of the reference."
  },
  {
   "property": "C93",
   "status": "proved",
   "theorems": [
    "c93_regression",
    "c93_procrustes",
    "c93_optimal",
    "c93_reference_shape",
    "c93_tree_weights",
    "c93_filters",
    "c93_cascade",
    "c93_uneven_matter",
    "c93_models",
    "c93_batches_matter"
   ],
   "note": "c93_reference_shape, c93_models (one batch), c93_tree_weights (shapes of one length), c93_filters, c93_regression (incremental and indirect linear regression), c93_procrustes and c93_optimal (with components and pseudo-inverses that do not depend on the order), c93_cascade. Outside of the statement: with batches the order decides the reference shape (c93_batches_matter), and with uneven numbers of initial shapes training may fail in one order only (c93_uneven_matter)."
  },
  {
   "property": "C94",
   "status": "partial",
   "theorems": [
    "c94_table",
    "c94_accepts",
    "c94_one_method",
    "c94_same_name_refuted"
   ],
   "note": "proved for distinct column names (c94_table, c94_accepts, c94_one_method); c94_same_name_refuted: two statistics under one column name overwrite each other, and the table is then sorted by the wrong statistic. Arrays in place of lists and the display precision (a global pandas option) are not modelled."
  },
  {
   "property": "C95",
   "status": "proved",
   "theorems": [
    "c95_training",
    "c95_current",
    "c95_training_sample",
    "c95_template",
    "c95_warped_images",
    "c95_patch_training",
    "c95_patch_fitting",
    "c95_patch_sample",
    "c95_patch_warped_images",
    "c95_linear_sample",
    "c95_ground_truth"
   ],
   "note": "c95_training, c95_current, c95_training_sample, c95_template, c95_warped_images (holistic and masked), c95_patch_* (patch-based AAM, ATM, APS), c95_linear_sample (linear models with one scale; c16_linear_frames_refuted for several scales and batches), c95_ground_truth (with C88, from the user's image). Sampling, patch extraction and the warp itself are external functions."
  },
  {
   "property": "C96",
   "status": "partial",
   "theorems": [
    "c96_stored_partial",
    "c96_documented_partial",
    "c96_single_scale_refuted",
    "c96_nested_refuted",
    "c96_default_sd_refuted"
   ],
   "note": "Proved for all constructors when the scales are a sequence of numbers, and for a single number too in all but the ATM and CLM families. Those take len(scales) before normalising it, so a documented single number raises TypeError, and nested scales leave fewer option values than scales. The documented default sd_algorithm_cls=None of SupervisedDescentFitter is always refused. A one-element list of patch shapes is the exception of C02."
  },
  {
   "property": "C97",
   "status": "partial",
   "theorems": [
    "c97_sdm",
    "c97_models",
    "c97_atm",
    "c97_dlib_partial",
    "c97_dlib_late_partial",
    "c97_dlib_rescale_refuted",
    "c97_dlib_group_refuted",
    "c97_dlib_twice_refuted"
   ],
   "note": "Proved without restriction for supervised descent, AAM, CLM, APS, unified models and ATM. DlibERT writes the group __gt_bb on the caller's images and deletes it after rescaling: proved harmless when training returns and when it raises later; refuted when an image lacks the group or cannot be rescaled (the group stays behind), and a list holding the same image twice can never be trained on (KeyError)."
  },
  {
   "property": "C98",
   "status": "proved",
   "theorems": [
    "c98_train",
    "c98_short_shape",
    "c98_increment",
    "c98_response",
    "c98_mismatch",
    "c98_desired_response"
   ],
   "note": "An increment whose shapes have fewer points than the ensemble has experts drops the surplus experts silently (c98_increment gives the number); a single point or a single expert is broadcast by numpy in predict_response."
  },
  {
   "property": "C99",
   "status": "partial",
   "theorems": [
    "c99_window_values",
    "c99_train",
    "c99_fit_partial",
    "c99_same_patch_partial",
    "c99_channels_refuted"
   ],
   "note": "Proved for training in full, and for fitting when all channels of a window change alike. Refuted for images or features with several channels: in fitting the normalisation gets a 4-dimensional array, takes the patches for the channels and normalises all channels of a patch together, unlike in training. The behaviour of menpo's normalize_norm (statistics per entry of the first axis) is an assumption about an external function."
  },
  {
   "property": "C100",
   "status": "partial",
   "theorems": [
    "c100_newton",
    "c100_newton_fits",
    "c100_pcr",
    "c100_optimal",
    "c100_newton_ortho",
    "c100_gauss_newton_steps",
    "c100_gauss_newton_refuted",
    "c100_increment_refuted",
    "c100_procrustes_refuted"
   ],
   "note": "Proved for the ridge regressor (Newton), also for the parameters of an OrthoPDM as long as the shapes it reaches do not collapse to a point, for principal component regression given a right singular value decomposition, and for the optimal linear regressor given right decompositions. The code violates it with the Gauss-Newton regressor (it inverts a regression of features on shapes), with the Procrustes regressor (its matrix cannot scale), and in increments (the regressor also remembers the earlier batch): three refutations with exact numbers."
  },
  {
   "property": "C101",
   "status": "proved",
   "theorems": [
    "c101_upright",
    "c101_box",
    "c101_follows",
    "c101_first_scale",
    "c101_corner_order"
   ],
   "note": "Exact arithmetic; the alignment is menpo's Procrustes alignment as modelled in Model/SimilarityModel.v. Boxes whose corners are listed in another order turn the shape (c101_corner_order)."
  },
  {
   "property": "C102",
   "status": "partial",
   "theorems": [
    "c102_starts_alike_iff",
    "c102_upright_partial",
    "c102_own_box_refuted"
   ],
   "note": "The exact condition is proved: the starts agree if and only if the shape placed in the box is as large as the ground truth shape. The property itself is refuted, even for the ground truth's own box: training rescales the image by the ground truth shape, fitting by the shape placed in the box."
  },
  {
   "property": "C103",
   "status": "partial",
   "theorems": [
    "c103_history",
    "c103_returns_iff",
    "c103_one_call",
    "c103_drift",
    "c103_retry_refuted"
   ],
   "note": "Proved for all histories: the models, the reference shape, whole batches in order, when a call returns, and exactly which models have consumed the failing batch (those of lower scales, and of earlier kinds at the scale of the failure); the models differ by at most one batch per call that raised. The last clause is refuted (c103_retry_refuted). One incremental update of one statistical model (menpo's PCA increment) is taken to be atomic."
  },
  {
   "property": "C104",
   "status": "proved",
   "theorems": [
    "c104_alignment",
    "c104_shape_models",
    "c104_clm",
    "c104_sdm_newton",
    "c104_sdm_gauss_newton",
    "c104_sdm_newton_ortho",
    "c104_initial",
    "c104_errors"
   ],
   "note": "Proved for the Procrustes alignment, OrthoPDM, whole sessions with constrained local models, supervised descent without shape model (Newton and Gauss-Newton regressors) and with an OrthoPDM (Newton), initial shapes from bounding boxes, and the errors. The features are an oracle that reads the same values around a renumbered shape, in another order; the shape model of the parametric algorithm is an oracle that is built renumbered from renumbered shapes. The algorithms with a parametric appearance model and the Lucas-Kanade algorithms are not covered by this property."
  },
  {
   "property": "C105",
   "status": "proved",
   "theorems": [
    "c105_free",
    "c105_ortho"
   ],
   "note": "Proved for algorithms without a shape model (any regressors, silent and verbose) and with an OrthoPDM (silent calls, alignment following shifts, e.g. Procrustes; the shape model is built by an oracle that gives the same model whatever the positions of the annotations). The patch features are an oracle that reads the same values around the moved shapes in the moved image."
  },
  {
   "property": "C106",
   "status": "proved",
   "theorems": [
    "c106_fit",
    "c106_result_classes",
    "c106_errors",
    "c106_training",
    "c106_reference"
   ],
   "note": "The picture at another resolution is one that menpo rescales to the same image (ideal resampling, no interpolation error and no rounding to whole pixels); the least squares affine alignment is assumed to be linear in its target and rescaling to fix the origin, as menpo's are. For fits from a bounding box see also c101_follows."
  },
  {
   "property": "C107",
   "status": "proved",
   "theorems": [
    "c107_budget",
    "c107_budget_limit",
    "c107_curves",
    "c107_failure_rates"
   ],
   "note": "Binary64 rounding from Flocq (axioms of the standard library's real numbers). c107_budget_limit shows that the bound on the budget is needed. What double precision does to the bins themselves is in C19 (c19_double_bins_partial, c19_double_overshoot_refuted)."
  },
  {
   "property": "C108",
   "status": "proved",
   "theorems": [
    "c108_linear_results"
   ],
   "note": "For parameter vectors of the length of the model's; the alignment of the global transform is an arbitrary function."
  },
  {
   "property": "C109",
   "status": "partial",
   "theorems": [
    "c109_filter_images_partial",
    "c109_frequency_images_partial",
    "c109_frequency_channels_refuted",
    "c109_small_filters_refuted",
    "c109_n_sample_offsets_refuted",
    "c109_n_sample_offsets"
   ],
   "note": "Proved for filters of at least 6 x 6 pixels, in exact arithmetic.  Refuted: filters with two to five rows or columns have empty images (crop with a margin below two, C23); fftshift without axes also rotates the channels, so that with k > 1 channels no channel of a frequency image is shown in its own place; n_sample_offsets raises ValueError for every array of offsets that is not empty (truth value of an array)."
  },
  {
   "property": "C110",
   "status": "proved",
   "theorems": [
    "c110_response",
    "c110_window",
    "c110_border",
    "c110_training_patch",
    "c110_small_context"
   ],
   "note": "Real arithmetic; the density of scipy's multivariate_normal and np.hanning are modelled by their formulas."
  },
  {
   "property": "C111",
   "status": "partial",
   "theorems": [
    "c111_errors",
    "c111_errors_ends",
    "c111_displacements",
    "c111_displacements_defined",
    "c111_costs",
    "c111_last_iteration_partial",
    "c111_last_iteration_refuted",
    "c111_ced",
    "c111_ced_single",
    "c111_ced_legend",
    "c111_ced_max_refuted",
    "c111_ced_arrays_refuted",
    "c111_ced_default"
   ],
   "note": "Refuted in three places: the abscissae of parametric results run to n_iters plus the number of scales; the maximum of error_range is never an abscissa; arrays of equal lengths are drawn as one curve of height m. Rational arithmetic for the error distribution; the renderer is not modelled."
  },
  {
   "property": "C112",
   "status": "partial",
   "theorems": [
    "c112_defined",
    "c112_aligned",
    "c112_target",
    "c112_position",
    "c112_turned",
    "c112_order",
    "c112_copies",
    "c112_batches_refuted",
    "c112_single_refuted"
   ],
   "note": "Refuted for batches: every batch is aligned by itself, so that batches turned differently teach the turn as a deformation although increment documents the exact same result, and a last batch with a single shape raises. menpo's GeneralizedProcrustesAnalysis is an assumption, since menpo is not part of /repo; modelled are recursion, stopping at 1e-6 or 100 targets, refusal of a single source. Exact arithmetic in a real closed field."
  },
  {
   "property": "C113",
   "status": "partial",
   "theorems": [
    "c113_reference_shape",
    "c113_triangulation_partial",
    "c113_triangulation_refuted",
    "c113_frame",
    "c113_models"
   ],
   "note": "Refuted for the triangulation: check_trilist tests whether the transform is an object of PiecewiseAffine, but every caller passes the class, so that the documented warning never comes. The class hierarchy is modelled with single names for menpo's classes; print and the text of the warnings are not."
  },
  {
   "property": "C114",
   "status": "proved",
   "theorems": [
    "c114_own_file",
    "c114_independent",
    "c114_new_version"
   ],
   "note": "Names with directory separators (several paths for one file) are outside the model, as is the creation of the data directory."
  },
  {
   "property": "C115",
   "status": "proved",
   "theorems": [
    "c115_window",
    "c115_raises",
    "c115_pretrained"
   ],
   "note": "menpo's crop and as_greyscale are not in /repo: the former is modelled by assumption (outward rounding, clipping at the borders, refusal of empty boxes), of the latter only that it keeps the size is assumed. Exact reals; floating point rounding is outside the model."
  },
  {
   "property": "C116",
   "status": "partial",
   "theorems": [
    "c116_proportional",
    "c116_per_point_refuted",
    "c116_two_points_refuted",
    "c116_lists"
   ],
   "note": "Refuted for lists: a value per point raises for every target of three points or more, and for two points the values are those of the rows and of the columns; c116_lists says what lists do. Two-dimensional targets, exact reals; the generator's outcomes are arbitrary."
  },
  {
   "property": "C117",
   "status": "partial",
   "theorems": [
    "c117_values",
    "c117_raises",
    "c117_kept_partial",
    "c117_same_groups",
    "c117_kept_refuted"
   ],
   "note": "Refuted for the caller's lists: a list of one value is extended in place (arg *= n_objects), so that the same list raises in a later call for another number of groups (c117_kept_refuted); all other lists are kept (c117_kept_partial). Colours (menpo's _check_colours_list), labels and what is drawn are not modelled."
  }
 ]
}