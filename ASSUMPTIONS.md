# What Print Assumptions lists for each property theorem

Generated by tools/mkassumptions.py from the output of the `Props_*.v` files.

## No axioms (closed under the global context)

C01_balanced, C01_raises_iff, C02_gather_any, C02_gather_split, C02_split, C02_split_gather, C03_transpose, C03_transpose_back, C05_roundtrip, C09_neighbors, C09_ring_schedule, C09_ring_visits_once, C10_finalize_destroys, C10_finalize_raises_iff, C10_finalize_uninit_noop, C10_last_call_decides, C10_reinit_leaks_refuted, C10_sizes_after_finalize, C10_sizes_after_init, C18_constructor_decides, C18_even_splits, C18_uneven_split_refuted, C19_default_safe, C19_error_iff, C19_nyquist_refuted, C19_trapezoidal_refuted, C19_triangular_and_bounded, C19_value, C19_zero_request_refuted, C39_zernike_orders, C40_constructor_checks, C43_heads, C43_heads_back, C43_layout, C43_layout_back, C43_reference_heads, C44_scatter_is_transposed, C46_deepcopy, C46_frozen_arguments, C46_hit_skips_function, C46_leak_without_copy, C46_mutated_argument_refuted, C46_nested_types_refuted, C46_recency, C46_results_are_new, C46_size_bound, C46_transparent, C46_transparent_without_copy, C46_typed_keys, C46_unhashable_raises, C50_pde_unknown, C59_slices_ordered, C64_rows_sorted, C64_split, C64_split_sorted, C64_unsorted_split_refuted, C67_layer_chunks, C68_compact, C68_layer, C68_row_split, C69_halo_rows, C74_attention, C74_backward_contraction, C74_backward_fused, C74_backward_kpacked, C74_backward_save_x, C74_backward_transpose, C74_bias_refuted, C74_fake_attention, C74_fake_contraction, C74_fake_fused, C74_fake_fused_cuda, C74_fake_transpose, C74_fused_cpu_autocast_refuted, C74_layer, C74_path_refuted, C74_transpose_layer, C75_class_ids, C75_class_ids_total, C75_class_name, C75_classes, C75_same_class, C75_seg_item, C76_checksum, C76_folder, C76_folder_honest, C76_folder_refuted, C76_hardlink_refuted, C76_rejected_stays, C76_resume, C76_resume_refuted, C76_root_refuted, C76_symlink_refuted, C76_tar_inside, C76_tar_relative, C78_cached, C78_complete, C78_interrupted_refuted, C79_autocast_state, C79_backward, C79_converted_refuted, C79_scale, C79_scale_refuted, C79_types, C80_alias, C80_ambiguous, C80_contiguous, C80_dims, C80_ensure, C80_gradients, C80_inverse, C80_is_contiguous, C80_pointer, C80_to_nchw, C80_to_nhwc, C82_back_refuted, C82_constructed, C82_draw, C82_given, C82_left_behind, C82_moved_refuted, C82_own, C82_type_refuted

## `ClassicalDedekindReals.sig_forall_dec`

C08_halo_forward, C08_halo_too_wide_refuted, C08_halo_zero_refuted, C17_empty_slice_refuted, C17_single_entry_refuted, C18_radius_exact, C27_below_nyquist, C34_constructor, C35_empty_refuted, C35_kpack, C35_pack, C35_preprocess, C35_runs, C35_separation_exact, C35_split, C56_recomputation, C59_backward_launches, C59_fine_grid_refuted, C59_forward_launches, C59_large_batch_refuted, C64_conversion_refuted, C64_to_nchw_launches, C64_to_nhwc_launches

## `ClassicalDedekindReals.sig_forall_dec`, `ClassicalDedekindReals.sig_not_dec`, `Classical_Prop.classic`, `FunctionalExtensionality.functional_extensionality_dep`

C11_constructor_iff, C11_dist_sht, C12_constructor_iff, C12_dist_inverse_sht, C13_dist_inverse_vector_sht, C13_dist_vector_sht, C15_dist_resample, C16_dist_spectral_conv, C17_default_basis_refuted, C17_full_basis, C17_full_basis_transpose, C21_exact, C21_exact_odd, C21_sharp, C21_sphere, C21_sphere_any_grid, C21_truncation_degree, C22_equiangular, C22_equiangular_used, C22_trapezoidal, C23_fixed_points, C24_closed_form, C24_forward_inverse, C24_orthonormal, C24_parity, C24_precompute, C24_size_independent, C24_vanishes, C25_any_grid, C25_equiangular, C25_equiangular_explicit, C25_identity, C25_legendre_gauss, C26_band_limited, C26_coefficients, C26_idempotent, C27_any_grid, C27_equiangular, C27_helmholtz, C27_identity, C27_legendre_gauss, C27_nyquist_refuted, C27_tables, C28_coefficients, C28_round_trip, C29_inverse_linear, C29_inverse_rotation, C29_inverse_vector_linear, C29_inverse_vector_rotation, C29_linear, C29_rotation, C29_vector_linear, C29_vector_rotation, C30_constants, C30_expand_iff, C30_indices_and_weights, C30_maximum_principle, C30_one_longitude_refuted, C31_coincident_nodes, C31_identity, C31_shortcut_sound, C33_formula, C33_groups_independent, C33_rejects, C33_rotation, C33_rotation_with_bias_refuted, C38_bounded, C38_centre_constant, C38_constant, C38_geometric_area_refuted, C38_transposed_constant, C39_even_radial_refuted, C39_piecewise_linear, C39_zernike, C40_complete_neighborhood_is_global, C40_global_layer, C40_transposed_grid_refuted, C42_cpu, C42_reference, C47_amplitude_decreasing, C47_amplitude_squared, C47_coefficients, C47_coefficients_equiangular, C47_constructor_decides, C47_default_sigma, C47_equiangular_constructs, C47_isotropy_refuted, C47_linear, C47_orthonormal_spectrum_refuted, C47_rotation, C47_shape, C47_unexcited_modes, C47_variance, C47_zero_mean, C47_zero_mean_equiangular, C48_constant_offset, C48_empty_mask, C48_l1_below_l2, C48_losses_are_means, C48_masked_losses_are_means, C48_masked_out, C48_nonnegative_and_definite, C48_triangle, C48_weights, C48_weights_decided, C48_weights_positive, C48_weights_total, C48_width_unchecked_refuted, C49_accuracy_fraction_refuted, C49_accuracy_ignored, C49_accuracy_ignored_area_refuted, C49_accuracy_inflated, C49_accuracy_range, C49_accuracy_value, C49_iou_ignored, C49_iou_range, C49_macro_perfect, C49_macro_perfect_refuted, C49_micro_iou, C49_micro_iou_one, C49_predicted_class, C49_weights, C50_allen_cahn_constant, C50_constructs, C50_coriolis, C50_coriolis_equiangular, C50_damping, C50_ginzburg_landau_real_refuted, C50_integrals, C50_integrals_equiangular, C50_integrals_gauss, C50_integrate_grid, C50_integrate_spectrum, C50_laplacian, C50_means, C50_pde_odd, C50_pde_rotation, C50_rest, C50_rest_equiangular, C50_rotation, C50_single_degree_refuted, C50_third_order, C50_trajectory, C50_triangular, C50_wind, C50_zonal, C50_zonal_flow, C51_convolution, C51_layer, C51_piecewise_linear, C51_polar, C51_transposed, C51_zernike, C51_zernike_layer, C52_neighbours, C52_uncovered_refuted, C53_cross_entropy, C53_cross_entropy_defined, C53_cross_entropy_mean_refuted, C53_cross_entropy_nonnegative, C53_cross_entropy_uniform, C53_cross_entropy_zero, C53_depends, C53_dice_labels, C53_focal, C53_focal_between, C53_focal_decreasing, C53_focal_factor, C53_focal_weight_refuted, C53_longitude, C53_weights, C54_gradients, C54_gradients_unique, C54_latitude_exact, C54_latitude_refuted, C54_longitude_exact, C54_normal, C54_normal_l1_refuted, C54_normal_longitude, C54_normal_mask_crosses, C54_normal_mask_refuted, C54_normal_masked, C54_normal_range, C54_w11, C54_w11_blind_refuted, C54_w11_longitude, C54_w11_masked_out_refuted, C54_w11_offsets, C54_w11_pseudometric, C54_w11_size, C54_w11_zero, C55_gradients, C56_full_basis, C56_full_basis_transpose, C57_attention, C57_latlon_refuted, C57_layer_norm_refuted, C57_lsno, C57_lsno_built, C57_resampling, C57_segformer, C57_segformer_built, C57_sequence_refuted, C57_sfno, C57_sfno_built, C57_transformer, C57_transformer_built, C57_unet, C57_unet_built, C58_lsno, C58_lsno_grids, C58_lsno_residual_refuted, C58_segformer, C58_segformer_grids, C58_sfno, C58_sfno_grids, C58_sfno_grids_refuted, C58_transformer, C58_transformer_grids, C58_unet, C58_unet_grids, C58_unet_grids_refuted, C59_filters_ordered, C62_backward, C63_backward, C64_backward_sorted, C65_dist_inverse_gradient, C65_dist_inverse_vector_gradient, C65_dist_sht_gradient, C65_dist_vector_gradient, C65_inverse_gradient, C65_inverse_vector_gradient, C65_sht_gradient, C65_vector_gradient, C66_free_threads_refuted, C66_upsample_free_threads_refuted, C66_wide_block_refuted, C75_depth_item, C75_depth_item_log, C75_depth_item_refuted, C75_depth_scale, C75_depth_scale_refuted, C75_empty_target, C75_histogram, C75_input_stats, C75_max_refuted, C75_recorded_depth, C75_recorded_rgb, C75_single_refuted, C75_std_refuted, C75_target_stats, C75_uniform_depth_refuted, C77_bump, C77_constructs, C77_dimensionless_refuted, C77_galewsky, C77_galewsky_balance, C77_galewsky_normalised_refuted, C77_item, C77_jet, C77_length, C77_random_mean_refuted, C77_random_rest, C77_samples, C77_small_refuted, C77_standardised, C77_velocity_mean, C81_flag, C81_float_double, C81_half, C81_half_refuted, C81_moves, C81_rounding, C83_equiangular, C83_gauss_refuted, C83_given, C83_trapezoidal_refuted

## `ClassicalDedekindReals.sig_forall_dec`, `ClassicalDedekindReals.sig_not_dec`, `FunctionalExtensionality.functional_extensionality_dep`

C14_dist_quadrature, C14_trapezoidal_refuted, C15_few_channels_refuted, C18_any_order, C18_equals_serial, C18_runs_iff_halo_fits, C18_self_attention, C20_backend_independent, C20_irfft_ignores, C20_irfft_rfft, C20_rfft, C20_rfft_irfft, C20_rfft_irfft_general, C22_accepts_iff, C22_legendre_gauss, C22_lobatto_total_refuted, C22_sphere_area, C23_positive, C23_structure, C32_decreasing_pairs_linear, C32_documented_fallback_refuted, C32_end_points, C32_guard, C32_maximum_principle_refuted, C32_symmetry_refuted, C38_geometric, C38_mean, C38_modal, C38_modes, C38_nodal, C38_none, C38_positions, C38_support, C39_documented_size_refuted, C39_fourier_bessel, C39_harmonic, C39_rejections, C40_empty_neighborhood_refuted, C40_neighborhood_layer, C40_online_softmax, C40_operators, C41_bounds, C41_constants, C41_locality, C44_backward_agree, C44_forward_agree, C44_wrap_index, C45_layer, C45_operators, C51_fourier_bessel, C51_harmonic, C53_dice_floor, C53_dice_ignored_refuted, C53_dice_macro, C53_dice_macro_absent, C53_dice_mean_probability, C53_dice_micro, C53_dice_micro_closed, C53_dice_other, C53_dice_range, C55_equals_serial, C55_forward, C55_layer, C60_forward, C60_forward_as_library, C60_forward_launches, C60_forward_launches_generic, C60_generic_kernel_refuted, C60_large_batch_refuted, C61_forward, C61_forward_as_library, C61_forward_launches, C61_maximum, C62_backward_as_library, C62_backward_launches, C62_forward_without_backward_refuted, C63_backward_as_library, C63_backward_launches, C63_forward_without_backward_refuted, C63_generic_kernel_refuted, C64_forward_sorted, C66_rescale_lockstep, C66_same_as_sequential, C66_upsample_lockstep, C67_backward_gradients, C67_backward_statistics, C67_forward_ring, C67_forward_step, C67_maxima_stay, C68_forward_pass, C68_forward_step, C68_maxima_stay, C69_key_value_gradients, C69_row_outside_refuted, C70_backward_step, C70_first_pass, C70_maxima_stay, C71_backward, C71_exchange, C71_forward, C72_backward, C72_forward, C73_entries, C73_lmax_one_refuted, C73_round_trip, C73_round_trip_limited, C73_truncation_refuted

## `ClassicalDedekindReals.sig_forall_dec`, `FunctionalExtensionality.functional_extensionality_dep`

C04_transpose_adjoint, C06_equals_reduce_then_split, C06_reduce_scatter, C07_copy, C07_gather, C07_gather_from_copy, C07_reduce, C07_reduce_scatter, C07_scatter, C08_halo_adjoint, C17_merged_kernels_refuted, C17_reference, C17_reordered, C17_standard, C17_transpose, C17_transpose_reference, C22_periodic, C34_cpu_backward, C34_cpu_forward, C34_layer, C34_layer_paths_agree, C34_reference_forward, C34_reference_rejects_refuted, C34_reference_transpose, C34_transpose_layer, C34_transpose_paths_agree, C34_unsorted_rows_refuted, C35_merged_rows_refuted, C36_contraction_adjoint, C36_gradient_paths_agree, C36_input_gradient, C36_layers_adjoint, C36_parameter_gradient, C36_transposed_input_gradient, C36_transposed_parameter_gradient, C36_weight_gradient, C37_layer, C37_reference, C37_transpose_layer, C37_transpose_reference, C49_counts, C49_partition, C50_second_step_consistent, C50_second_step_order_refuted, C50_third_order_increment, C56_input_derivative, C56_parameter_derivative, C56_reordered, C56_standard, C56_transpose, C56_transpose_input_derivative, C56_transpose_parameter_derivative, C59_backward, C59_backward_as_cpu, C59_forward, C59_forward_as_cpu, C64_round_trip, C64_row_lengths, C64_to_nchw, C64_to_nhwc, C71_some_minus_infinity, C78_flip, C78_one_size_refuted, C78_same_size, C78_seam_refuted, C78_unique, C78_values, C78_zero_size
