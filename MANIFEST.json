{
 "claims": [
  {
   "property": "C01",
   "status": "proved",
   "theorems": [
    "C01_raises_iff",
    "C01_balanced"
   ],
   "note": "Raises exactly for size < n (or n = 0); otherwise positive, summing, balanced, non-increasing."
  },
  {
   "property": "C02",
   "status": "proved",
   "theorems": [
    "C02_split",
    "C02_split_gather",
    "C02_gather_split",
    "C02_gather_any"
   ],
   "note": "Arbitrary rank, dimension and group size; debug checks on or off; shapes supplied or exchanged."
  },
  {
   "property": "C03",
   "status": "proved",
   "theorems": [
    "C03_transpose",
    "C03_transpose_back"
   ],
   "note": "Arbitrary announced split of dim1; a mismatch of posted buffers would make the model return None."
  },
  {
   "property": "C04",
   "status": "proved",
   "theorems": [
    "C04_transpose_adjoint"
   ],
   "note": "Adjointness for arbitrary rank-local inputs and gradients of the balanced shapes."
  },
  {
   "property": "C05",
   "status": "proved",
   "theorems": [
    "C05_roundtrip"
   ],
   "note": ""
  },
  {
   "property": "C06",
   "status": "proved",
   "theorems": [
    "C06_reduce_scatter",
    "C06_equals_reduce_then_split"
   ],
   "note": ""
  },
  {
   "property": "C07",
   "status": "proved",
   "theorems": [
    "C07_copy",
    "C07_reduce",
    "C07_scatter",
    "C07_gather",
    "C07_reduce_scatter",
    "C07_gather_from_copy"
   ],
   "note": ""
  },
  {
   "property": "C08",
   "status": "proved",
   "theorems": [
    "C08_halo_forward",
    "C08_halo_adjoint",
    "C08_halo_zero_refuted",
    "C08_halo_too_wide_refuted"
   ],
   "note": "Proved for 1 <= r <= local height; the cases r = 0 and r > neighbour height are refuted (see DESIGN findings)."
  },
  {
   "property": "C09",
   "status": "proved",
   "theorems": [
    "C09_neighbors",
    "C09_ring_schedule",
    "C09_ring_visits_once"
   ],
   "note": ""
  },
  {
   "property": "C10",
   "status": "proved",
   "theorems": [
    "C10_last_call_decides",
    "C10_sizes_after_finalize",
    "C10_sizes_after_init",
    "C10_finalize_raises_iff",
    "C10_finalize_uninit_noop",
    "C10_finalize_destroys",
    "C10_reinit_leaks_refuted"
   ],
   "note": "History induction; includes when finalize raises and a refutation: re-init leaks the earlier groups."
  },
  {
   "property": "C11",
   "status": "proved",
   "theorems": [
    "C11_dist_sht",
    "C11_constructor_iff"
   ],
   "note": ""
  },
  {
   "property": "C12",
   "status": "proved",
   "theorems": [
    "C12_dist_inverse_sht",
    "C12_constructor_iff"
   ],
   "note": ""
  },
  {
   "property": "C13",
   "status": "proved",
   "theorems": [
    "C13_dist_vector_sht",
    "C13_dist_inverse_vector_sht"
   ],
   "note": ""
  },
  {
   "property": "C14",
   "status": "proved",
   "theorems": [
    "C14_dist_quadrature",
    "C14_trapezoidal_refuted"
   ],
   "note": "For the grids both accept; the documented trapezoidal grid is rejected by the distributed class (refuted)."
  },
  {
   "property": "C15",
   "status": "proved",
   "theorems": [
    "C15_dist_resample",
    "C15_few_channels_refuted"
   ],
   "note": "Needs at least as many channels as ranks per axis; with fewer the module fails (refuted)."
  },
  {
   "property": "C16",
   "status": "proved",
   "theorems": [
    "C16_dist_spectral_conv"
   ],
   "note": ""
  },
  {
   "property": "C17",
   "status": "proved",
   "theorems": [
    "C17_standard",
    "C17_reference",
    "C17_reordered",
    "C17_transpose",
    "C17_transpose_reference",
    "C17_full_basis",
    "C17_full_basis_transpose",
    "C17_merged_kernels_refuted",
    "C17_default_basis_refuted",
    "C17_single_entry_refuted",
    "C17_empty_slice_refuted"
   ],
   "note": "Under the stated condition on latitude slices (two entries, kernels kept apart); shown to hold for bases with a common support and to fail for the default basis, for one-entry and for empty slices (refuted theorems)."
  },
  {
   "property": "C18",
   "status": "proved",
   "theorems": [
    "C18_equals_serial",
    "C18_self_attention",
    "C18_runs_iff_halo_fits",
    "C18_radius_exact",
    "C18_constructor_decides",
    "C18_even_splits",
    "C18_uneven_split_refuted",
    "C18_any_order"
   ],
   "note": "Generic ring kernels of both directions; runs exactly if the halo fits into every shard. Specialised CUDA kernels are not modelled."
  },
  {
   "property": "C19",
   "status": "proved",
   "theorems": [
    "C19_triangular_and_bounded",
    "C19_value",
    "C19_default_safe",
    "C19_error_iff",
    "C19_trapezoidal_refuted",
    "C19_nyquist_refuted",
    "C19_zero_request_refuted"
   ],
   "note": "The degrees to which the latitude rules are exact are those of the literature (proved in C21 for equiangular); trapezoidal, Nyquist and request 0 are refuted."
  },
  {
   "property": "C20",
   "status": "proved",
   "theorems": [
    "C20_rfft",
    "C20_irfft_rfft",
    "C20_rfft_irfft",
    "C20_rfft_irfft_general",
    "C20_irfft_ignores",
    "C20_backend_independent"
   ],
   "note": ""
  },
  {
   "property": "C21",
   "status": "proved",
   "theorems": [
    "C21_exact",
    "C21_exact_odd",
    "C21_sharp",
    "C21_truncation_degree",
    "C21_sphere",
    "C21_sphere_any_grid"
   ],
   "note": ""
  },
  {
   "property": "C22",
   "status": "proved",
   "theorems": [
    "C22_equiangular",
    "C22_trapezoidal",
    "C22_periodic",
    "C22_legendre_gauss",
    "C22_lobatto_total_refuted",
    "C22_accepts_iff",
    "C22_equiangular_used",
    "C22_sphere_area"
   ],
   "note": "Totals, symmetry and positivity for equiangular, Legendre-Gauss (relative to numpy's rule) and trapezoidal; Lobatto total refuted."
  },
  {
   "property": "C23",
   "status": "proved",
   "theorems": [
    "C23_structure",
    "C23_positive",
    "C23_fixed_points"
   ],
   "note": ""
  },
  {
   "property": "C24",
   "status": "proved",
   "theorems": [
    "C24_closed_form",
    "C24_precompute",
    "C24_vanishes",
    "C24_parity",
    "C24_orthonormal",
    "C24_forward_inverse",
    "C24_size_independent"
   ],
   "note": ""
  },
  {
   "property": "C25",
   "status": "proved",
   "theorems": [
    "C25_any_grid",
    "C25_equiangular",
    "C25_equiangular_explicit",
    "C25_legendre_gauss",
    "C25_identity"
   ],
   "note": ""
  },
  {
   "property": "C26",
   "status": "proved",
   "theorems": [
    "C26_idempotent",
    "C26_band_limited",
    "C26_coefficients"
   ],
   "note": ""
  },
  {
   "property": "C27",
   "status": "proved",
   "theorems": [
    "C27_any_grid",
    "C27_equiangular",
    "C27_legendre_gauss",
    "C27_below_nyquist",
    "C27_identity",
    "C27_tables",
    "C27_helmholtz",
    "C27_nyquist_refuted"
   ],
   "note": "Orders below Nyquist; at the Nyquist order the round trip fails (refuted)."
  },
  {
   "property": "C28",
   "status": "proved",
   "theorems": [
    "C28_coefficients",
    "C28_round_trip"
   ],
   "note": ""
  },
  {
   "property": "C29",
   "status": "proved",
   "theorems": [
    "C29_linear",
    "C29_rotation",
    "C29_inverse_linear",
    "C29_inverse_rotation",
    "C29_vector_linear",
    "C29_vector_rotation",
    "C29_inverse_vector_linear",
    "C29_inverse_vector_rotation"
   ],
   "note": ""
  },
  {
   "property": "C30",
   "status": "proved",
   "theorems": [
    "C30_indices_and_weights",
    "C30_expand_iff",
    "C30_maximum_principle",
    "C30_constants",
    "C30_one_longitude_refuted"
   ],
   "note": "Needs at least two input longitudes (refuted otherwise)."
  },
  {
   "property": "C31",
   "status": "proved",
   "theorems": [
    "C31_coincident_nodes",
    "C31_identity",
    "C31_shortcut_sound"
   ],
   "note": ""
  },
  {
   "property": "C32",
   "status": "proved",
   "theorems": [
    "C32_end_points",
    "C32_guard",
    "C32_decreasing_pairs_linear",
    "C32_documented_fallback_refuted",
    "C32_symmetry_refuted",
    "C32_maximum_principle_refuted"
   ],
   "note": "End points and the exact guard proved; documented fallback, symmetry and maximum principle refuted."
  },
  {
   "property": "C33",
   "status": "proved",
   "theorems": [
    "C33_formula",
    "C33_groups_independent",
    "C33_rotation",
    "C33_rotation_with_bias_refuted",
    "C33_rejects"
   ],
   "note": "Rotation equivariance without bias or with zonal bias; refuted for general bias."
  },
  {
   "property": "C34",
   "status": "proved",
   "theorems": [
    "C34_cpu_forward",
    "C34_cpu_backward",
    "C34_reference_forward",
    "C34_reference_transpose",
    "C34_layer",
    "C34_layer_paths_agree",
    "C34_transpose_layer",
    "C34_transpose_paths_agree",
    "C34_constructor",
    "C34_reference_rejects_refuted",
    "C34_unsorted_rows_refuted"
   ],
   "note": "Row condition: rows sorted by output latitude and kernels separated; established for the layers' filters in C51."
  },
  {
   "property": "C35",
   "status": "proved",
   "theorems": [
    "C35_preprocess",
    "C35_runs",
    "C35_separation_exact",
    "C35_merged_rows_refuted",
    "C35_empty_refuted",
    "C35_pack",
    "C35_kpack",
    "C35_split"
   ],
   "note": "Separation of kernels stated exactly (C35_separation_exact); merged rows and empty filters refuted."
  },
  {
   "property": "C36",
   "status": "proved",
   "theorems": [
    "C36_contraction_adjoint",
    "C36_input_gradient",
    "C36_gradient_paths_agree",
    "C36_weight_gradient",
    "C36_layers_adjoint",
    "C36_transposed_input_gradient",
    "C36_transposed_parameter_gradient",
    "C36_parameter_gradient"
   ],
   "note": ""
  },
  {
   "property": "C37",
   "status": "proved",
   "theorems": [
    "C37_layer",
    "C37_reference",
    "C37_transpose_layer",
    "C37_transpose_reference"
   ],
   "note": ""
  },
  {
   "property": "C38",
   "status": "proved",
   "theorems": [
    "C38_positions",
    "C38_modes",
    "C38_nodal",
    "C38_modal",
    "C38_mean",
    "C38_support",
    "C38_geometric",
    "C38_geometric_area_refuted",
    "C38_none",
    "C38_bounded",
    "C38_constant",
    "C38_transposed_constant",
    "C38_centre_constant"
   ],
   "note": "All normalisation modes; geometric area refuted."
  },
  {
   "property": "C39",
   "status": "proved",
   "theorems": [
    "C39_piecewise_linear",
    "C39_even_radial_refuted",
    "C39_harmonic",
    "C39_zernike",
    "C39_zernike_orders",
    "C39_fourier_bessel",
    "C39_documented_size_refuted",
    "C39_rejections"
   ],
   "note": "Bessel functions and zeros are external; Zernike clamp inactive for kernel_shape <= 1e24; documented size and even isotropic rings refuted."
  },
  {
   "property": "C40",
   "status": "proved",
   "theorems": [
    "C40_online_softmax",
    "C40_operators",
    "C40_neighborhood_layer",
    "C40_global_layer",
    "C40_complete_neighborhood_is_global",
    "C40_constructor_checks",
    "C40_empty_neighborhood_refuted",
    "C40_transposed_grid_refuted"
   ],
   "note": "Non-empty neighbourhoods; the empty one is 0/0 (refuted)."
  },
  {
   "property": "C41",
   "status": "proved",
   "theorems": [
    "C41_bounds",
    "C41_constants",
    "C41_locality"
   ],
   "note": ""
  },
  {
   "property": "C42",
   "status": "proved",
   "theorems": [
    "C42_reference",
    "C42_cpu"
   ],
   "note": ""
  },
  {
   "property": "C43",
   "status": "proved",
   "theorems": [
    "C43_layout",
    "C43_layout_back",
    "C43_heads",
    "C43_heads_back",
    "C43_reference_heads"
   ],
   "note": ""
  },
  {
   "property": "C44",
   "status": "proved",
   "theorems": [
    "C44_wrap_index",
    "C44_forward_agree",
    "C44_backward_agree",
    "C44_scatter_is_transposed"
   ],
   "note": ""
  },
  {
   "property": "C45",
   "status": "proved",
   "theorems": [
    "C45_operators",
    "C45_layer"
   ],
   "note": ""
  },
  {
   "property": "C46",
   "status": "proved",
   "theorems": [
    "C46_transparent",
    "C46_results_are_new",
    "C46_transparent_without_copy",
    "C46_recency",
    "C46_size_bound",
    "C46_hit_skips_function",
    "C46_deepcopy",
    "C46_typed_keys",
    "C46_unhashable_raises",
    "C46_frozen_arguments",
    "C46_mutated_argument_refuted",
    "C46_leak_without_copy",
    "C46_nested_types_refuted"
   ],
   "note": "Arguments read through identity keys must be frozen; stale results refuted otherwise."
  },
  {
   "property": "C47",
   "status": "proved",
   "theorems": [
    "C47_constructor_decides",
    "C47_default_sigma",
    "C47_equiangular_constructs",
    "C47_shape",
    "C47_linear",
    "C47_unexcited_modes",
    "C47_coefficients",
    "C47_coefficients_equiangular",
    "C47_amplitude_squared",
    "C47_amplitude_decreasing",
    "C47_zero_mean",
    "C47_zero_mean_equiangular",
    "C47_rotation",
    "C47_variance",
    "C47_isotropy_refuted",
    "C47_orthonormal_spectrum_refuted"
   ],
   "note": "Noise is given (sampler external), tau > 0; isotropy and orthonormal spectrum refuted."
  },
  {
   "property": "C48",
   "status": "proved",
   "theorems": [
    "C48_weights",
    "C48_weights_total",
    "C48_weights_decided",
    "C48_weights_positive",
    "C48_losses_are_means",
    "C48_masked_losses_are_means",
    "C48_empty_mask",
    "C48_nonnegative_and_definite",
    "C48_masked_out",
    "C48_constant_offset",
    "C48_triangle",
    "C48_l1_below_l2",
    "C48_width_unchecked_refuted"
   ],
   "note": "Positivity of weights not claimed on Lobatto grids; the width check is missing in the code (refuted)."
  },
  {
   "property": "C49",
   "status": "proved",
   "theorems": [
    "C49_predicted_class",
    "C49_counts",
    "C49_partition",
    "C49_weights",
    "C49_iou_range",
    "C49_accuracy_range",
    "C49_micro_iou",
    "C49_micro_iou_one",
    "C49_iou_ignored",
    "C49_accuracy_ignored",
    "C49_accuracy_ignored_area_refuted",
    "C49_accuracy_value",
    "C49_accuracy_inflated",
    "C49_accuracy_fraction_refuted",
    "C49_macro_perfect",
    "C49_macro_perfect_refuted"
   ],
   "note": "Counts as areas for all labels and weights; accuracy and macro claims about ignored or absent classes refuted. Class weights of other lengths not modelled."
  },
  {
   "property": "C50",
   "status": "proved",
   "theorems": [
    "C50_constructs",
    "C50_laplacian",
    "C50_coriolis",
    "C50_coriolis_equiangular",
    "C50_trajectory",
    "C50_third_order",
    "C50_third_order_increment",
    "C50_second_step_consistent",
    "C50_second_step_order_refuted",
    "C50_damping",
    "C50_single_degree_refuted",
    "C50_means",
    "C50_integrals",
    "C50_integrals_equiangular",
    "C50_integrals_gauss",
    "C50_integrate_grid",
    "C50_integrate_spectrum",
    "C50_rotation",
    "C50_zonal",
    "C50_triangular",
    "C50_rest",
    "C50_rest_equiangular",
    "C50_zonal_flow",
    "C50_wind",
    "C50_pde_unknown",
    "C50_allen_cahn_constant",
    "C50_pde_rotation",
    "C50_pde_odd",
    "C50_ginzburg_landau_real_refuted"
   ],
   "note": "Initial conditions not modelled; second step order, lmax = 1 and the Ginzburg-Landau reality claim refuted."
  },
  {
   "property": "C51",
   "status": "proved",
   "theorems": [
    "C51_polar",
    "C51_convolution",
    "C51_transposed",
    "C51_piecewise_linear",
    "C51_harmonic",
    "C51_zernike",
    "C51_fourier_bessel",
    "C51_layer",
    "C51_zernike_layer"
   ],
   "note": ""
  },
  {
   "property": "C52",
   "status": "proved",
   "theorems": [
    "C52_neighbours",
    "C52_uncovered_refuted"
   ],
   "note": ""
  },
  {
   "property": "C53",
   "status": "proved",
   "theorems": [
    "C53_weights",
    "C53_cross_entropy",
    "C53_cross_entropy_defined",
    "C53_cross_entropy_nonnegative",
    "C53_cross_entropy_zero",
    "C53_cross_entropy_uniform",
    "C53_cross_entropy_mean_refuted",
    "C53_focal",
    "C53_focal_factor",
    "C53_focal_between",
    "C53_focal_decreasing",
    "C53_focal_weight_refuted",
    "C53_dice_micro",
    "C53_dice_macro",
    "C53_dice_other",
    "C53_dice_labels",
    "C53_dice_range",
    "C53_dice_micro_closed",
    "C53_dice_mean_probability",
    "C53_dice_floor",
    "C53_dice_ignored_refuted",
    "C53_dice_macro_absent",
    "C53_depends",
    "C53_longitude"
   ],
   "note": "Shapes torch would broadcast and negative class weights in the focal loss not modelled."
  },
  {
   "property": "C54",
   "status": "proved",
   "theorems": [
    "C54_gradients",
    "C54_gradients_unique",
    "C54_longitude_exact",
    "C54_latitude_exact",
    "C54_latitude_refuted",
    "C54_w11",
    "C54_w11_pseudometric",
    "C54_w11_offsets",
    "C54_w11_zero",
    "C54_w11_blind_refuted",
    "C54_w11_masked_out_refuted",
    "C54_w11_longitude",
    "C54_w11_size",
    "C54_normal",
    "C54_normal_masked",
    "C54_normal_mask_crosses",
    "C54_normal_mask_refuted",
    "C54_normal_range",
    "C54_normal_longitude",
    "C54_normal_l1_refuted"
   ],
   "note": "float32 casts and prd/tar of different shapes not covered."
  },
  {
   "property": "C55",
   "status": "proved",
   "theorems": [
    "C55_equals_serial",
    "C55_forward",
    "C55_gradients",
    "C55_layer"
   ],
   "note": "Generic ring kernels, halo at most as tall as every shard; backward of the 1x1 projections is plain autograd."
  },
  {
   "property": "C56",
   "status": "proved",
   "theorems": [
    "C56_standard",
    "C56_reordered",
    "C56_transpose",
    "C56_input_derivative",
    "C56_parameter_derivative",
    "C56_transpose_input_derivative",
    "C56_transpose_parameter_derivative",
    "C56_full_basis",
    "C56_full_basis_transpose",
    "C56_recomputation"
   ],
   "note": "Optimised path; same slice conditions as C17; parameter gradients are the sum over ranks, which the caller has to form."
  },
  {
   "property": "C57",
   "status": "proved",
   "theorems": [
    "C57_sfno",
    "C57_lsno",
    "C57_transformer",
    "C57_unet",
    "C57_segformer",
    "C57_sfno_built",
    "C57_lsno_built",
    "C57_transformer_built",
    "C57_unet_built",
    "C57_segformer_built",
    "C57_resampling",
    "C57_attention",
    "C57_sequence_refuted",
    "C57_latlon_refuted",
    "C57_layer_norm_refuted"
   ],
   "note": "Evaluation mode (dropout and drop path are identities), exact arithmetic; longitude-dependent embeddings and the per-pixel layer norm refuted."
  },
  {
   "property": "C58",
   "status": "proved",
   "theorems": [
    "C58_sfno",
    "C58_lsno",
    "C58_transformer",
    "C58_unet",
    "C58_segformer",
    "C58_sfno_grids",
    "C58_lsno_grids",
    "C58_transformer_grids",
    "C58_unet_grids",
    "C58_segformer_grids",
    "C58_unet_grids_refuted",
    "C58_sfno_grids_refuted",
    "C58_lsno_residual_refuted"
   ],
   "note": "Sufficient conditions for construction (NetSpec: sfno_ok etc., tables as embeddings, harmonic or Zernike filters); grid mixing in the U-Net and SFNO and residuals with unequal channels refuted."
  },
  {
   "property": "C59",
   "status": "proved",
   "theorems": [
    "C59_forward",
    "C59_backward",
    "C59_filters_ordered",
    "C59_slices_ordered",
    "C59_forward_as_cpu",
    "C59_backward_as_cpu",
    "C59_forward_launches",
    "C59_backward_launches",
    "C59_large_batch_refuted",
    "C59_fine_grid_refuted"
   ],
   "note": "Machine with interleaved single steps (sequentially consistent), exact arithmetic, no 32-bit overflow; float atomics are exact additions."
  },
  {
   "property": "C60",
   "status": "proved",
   "theorems": [
    "C60_forward",
    "C60_forward_as_library",
    "C60_forward_launches",
    "C60_forward_launches_generic",
    "C60_generic_kernel_refuted",
    "C60_large_batch_refuted"
   ],
   "note": "Same machine as C59 with lock-step warp exchanges. sortRows enters as an arbitrary permutation of the rows; zero value channels are excluded (empty output)."
  },
  {
   "property": "C61",
   "status": "proved",
   "theorems": [
    "C61_forward",
    "C61_forward_as_library",
    "C61_maximum",
    "C61_forward_launches"
   ],
   "note": "Same machine as C59 and C60; each launch starts after the previous one has ended (one stream). atomicAdd and the compare-and-swap maximum are exact atomic updates."
  },
  {
   "property": "C62",
   "status": "proved",
   "theorems": [
    "C62_backward",
    "C62_backward_as_library",
    "C62_backward_launches",
    "C62_forward_without_backward_refuted"
   ],
   "note": "As C61. Some channel counts can be run forward but not backward (C62_forward_without_backward_refuted)."
  },
  {
   "property": "C63",
   "status": "proved",
   "theorems": [
    "C63_backward",
    "C63_backward_as_library",
    "C63_backward_launches",
    "C63_forward_without_backward_refuted",
    "C63_generic_kernel_refuted"
   ],
   "note": "Exact reals; atomicAdd of a float4 is four atomic additions. Some channel counts can be run forward but not backward (C63_forward_without_backward_refuted)."
  },
  {
   "property": "C64",
   "status": "proved",
   "theorems": [
    "C64_to_nhwc",
    "C64_to_nchw",
    "C64_round_trip",
    "C64_to_nhwc_launches",
    "C64_to_nchw_launches",
    "C64_conversion_refuted",
    "C64_row_lengths",
    "C64_rows_sorted",
    "C64_forward_sorted",
    "C64_backward_sorted",
    "C64_split",
    "C64_split_sorted",
    "C64_unsorted_split_refuted"
   ],
   "note": "cub's radix sort is an external (stable, decreasing). Empty tensors and 65536 or more rings per batch are refused by the GPU conversions (C64_conversion_refuted); host and device split unsorted rows differently (C64_unsorted_split_refuted)."
  },
  {
   "property": "C65",
   "status": "proved",
   "theorems": [
    "C65_sht_gradient",
    "C65_dist_sht_gradient",
    "C65_inverse_gradient",
    "C65_dist_inverse_gradient",
    "C65_vector_gradient",
    "C65_dist_vector_gradient",
    "C65_inverse_vector_gradient",
    "C65_dist_inverse_vector_gradient"
   ],
   "note": "PyTorch's own gradient formulas of torch.fft.rfft/irfft, einsum, narrow, pad, reshape and torch.complex are taken as given (SHTGradModel); proved is that their composition is the adjoint of the modelled forward pass and that the distributed composition gives its blocks."
  },
  {
   "property": "C66",
   "status": "proved",
   "theorems": [
    "C66_rescale_lockstep",
    "C66_upsample_lockstep",
    "C66_same_as_sequential",
    "C66_wide_block_refuted",
    "C66_free_threads_refuted",
    "C66_upsample_free_threads_refuted"
   ],
   "note": "Right when the threads of a point run in lockstep; refuted for blocks of several warps (C66_wide_block_refuted) and for free-running threads (C66_free_threads_refuted, C66_upsample_free_threads_refuted). The kernels before and after the rescaling (scores, accumulation) of the long-row path are not modelled."
  },
  {
   "property": "C67",
   "status": "proved",
   "theorems": [
    "C67_forward_step",
    "C67_forward_ring",
    "C67_layer_chunks",
    "C67_maxima_stay",
    "C67_backward_statistics",
    "C67_backward_gradients"
   ],
   "note": "The rescaling launch needs the threads of a point in lockstep (see C66); the other launches hold for every schedule. Minus infinity is a number below all scores; device limits enter as a successful launch."
  },
  {
   "property": "C68",
   "status": "proved",
   "theorems": [
    "C68_forward_step",
    "C68_maxima_stay",
    "C68_forward_pass",
    "C68_layer",
    "C68_row_split",
    "C68_compact"
   ],
   "note": "Long rows need the threads of an output point in lockstep (block_width Cv <= ws; see C66). Minus infinity is a number below all scores; device limits enter as a successful launch; the compaction of the neighbour list is taken at its result (C68_compact for its arithmetic)."
  },
  {
   "property": "C69",
   "status": "proved",
   "theorems": [
    "C69_key_value_gradients",
    "C69_halo_rows",
    "C69_row_outside_refuted"
   ],
   "note": "Saved maxima are numbers (every output point has a neighbour); device limits enter as a successful launch; the compaction of the neighbour list is taken at its result (C68_compact). The rows of the chunk cover the pattern (C69_halo_rows for the layer; C69_row_outside_refuted without)."
  },
  {
   "property": "C70",
   "status": "proved",
   "theorems": [
    "C70_backward_step",
    "C70_maxima_stay",
    "C70_first_pass"
   ],
   "note": "Numbers are exact reals and minus infinity is a number below every score; device limits enter as a successful launch; the compaction of the neighbour list is taken at its result (C68_compact). With long rows the threads of one output point are taken in lockstep, as the rescale kernel needs (C66)."
  },
  {
   "property": "C71",
   "status": "proved",
   "theorems": [
    "C71_forward",
    "C71_backward",
    "C71_exchange",
    "C71_some_minus_infinity"
   ],
   "note": "Combines C68, C69 and C70 with C55 into one statement per rank: launches on empty buffers, the tensor operations around them (CudaRankModel), and the exchange of the key and value gradients. In exact arithmetic, with a number below all scores for minus infinity (one exists for all inputs: C71_some_minus_infinity). Launches that fail are excluded by hypothesis; with long rows the channels have to fit one warp or the block runs in lockstep (C66)."
  },
  {
   "property": "C72",
   "status": "proved",
   "theorems": [
    "C72_forward",
    "C72_backward"
   ],
   "note": "Combines C67 with C55 into one statement per rank: launches on empty buffers and the tensor operations around them (CudaRankUpModel); the exchange of the key and value gradients is C71_exchange, which holds in both directions. In exact arithmetic, with a number below all scores for minus infinity (one exists for all inputs: C71_some_minus_infinity). Launches that fail are excluded by hypothesis; the rescaling kernel needs its warps in lockstep (C66)."
  },
  {
   "property": "C73",
   "status": "proved",
   "theorems": [
    "C73_round_trip_limited",
    "C73_round_trip",
    "C73_entries",
    "C73_lmax_one_refuted",
    "C73_truncation_refuted"
   ],
   "note": "Exact real arithmetic; torch.fft by its defining sums; leading dimensions left out. Two findings: lmax = 1 gives nlat + 1 rows (C73_lmax_one_refuted), and for lmax < nlat the inverse puts the negative latitude frequencies at the wrong index (C73_truncation_refuted), so the round trip is stated with all latitude frequencies kept."
  },
  {
   "property": "C74",
   "status": "proved",
   "theorems": [
    "C74_layer",
    "C74_transpose_layer",
    "C74_fake_contraction",
    "C74_fake_transpose",
    "C74_fake_fused",
    "C74_fake_fused_cuda",
    "C74_backward_contraction",
    "C74_backward_transpose",
    "C74_backward_fused",
    "C74_backward_save_x",
    "C74_backward_kpacked",
    "C74_fake_attention",
    "C74_attention",
    "C74_fused_cpu_autocast_refuted",
    "C74_path_refuted",
    "C74_bias_refuted"
   ],
   "note": "Shapes and element types only. Refuted parts: fused op on the CPU under autocast, half input without autocast on the unfused path, bias under autocast (finding 47)."
  },
  {
   "property": "C75",
   "status": "proved",
   "theorems": [
    "C75_input_stats",
    "C75_target_stats",
    "C75_empty_target",
    "C75_recorded_rgb",
    "C75_recorded_depth",
    "C75_depth_scale",
    "C75_depth_scale_refuted",
    "C75_max_refuted",
    "C75_std_refuted",
    "C75_single_refuted",
    "C75_class_ids",
    "C75_class_name",
    "C75_class_ids_total",
    "C75_classes",
    "C75_same_class",
    "C75_histogram",
    "C75_seg_item",
    "C75_depth_item",
    "C75_depth_item_log",
    "C75_depth_item_refuted",
    "C75_uniform_depth_refuted"
   ],
   "note": "Exact real arithmetic; image decoding, HDF5 files and tensor transforms left out. Refuted parts: recorded maxima, recorded standard deviation of the colours, scale of the recorded depth statistics, a single sample, depth images without an invalid pixel (finding 48)."
  },
  {
   "property": "C76",
   "status": "proved",
   "theorems": [
    "C76_checksum",
    "C76_rejected_stays",
    "C76_resume",
    "C76_resume_refuted",
    "C76_folder",
    "C76_folder_honest",
    "C76_folder_refuted",
    "C76_tar_inside",
    "C76_tar_relative",
    "C76_symlink_refuted",
    "C76_hardlink_refuted",
    "C76_root_refuted"
   ],
   "note": "Contents of files as lists, the archive as a list of members; the server, the digest function and the interruptions are arbitrary. Only the fallback for Pythons without tarfile.data_filter is modelled for unpacking. Refuted parts: resuming a complete part file, an interrupted unpacking, symbolic and hard links in the archive, the root as directory (finding 49)."
  },
  {
   "property": "C77",
   "status": "proved",
   "theorems": [
    "C77_item",
    "C77_standardised",
    "C77_samples",
    "C77_small_refuted",
    "C77_constructs",
    "C77_length",
    "C77_galewsky",
    "C77_jet",
    "C77_bump",
    "C77_galewsky_balance",
    "C77_galewsky_normalised_refuted",
    "C77_velocity_mean",
    "C77_random_mean_refuted",
    "C77_random_rest",
    "C77_dimensionless_refuted"
   ],
   "note": "Exact arithmetic; the random numbers are an arbitrary tensor; division by a zero variance counts as no result. Only the shallow-water branch of PdeDataset. Refuted parts: items on two or three latitudes, the normalised Galewsky dataset, the mean of the random vorticity and divergence, dimensionless (finding 50)."
  },
  {
   "property": "C78",
   "status": "proved",
   "theorems": [
    "C78_values",
    "C78_unique",
    "C78_same_size",
    "C78_flip",
    "C78_seam_refuted",
    "C78_one_size_refuted",
    "C78_zero_size",
    "C78_cached",
    "C78_complete",
    "C78_interrupted_refuted"
   ],
   "note": "The image decoder is an arbitrary function, the interpolation exact. Refuted parts: a transfer that breaks off leaves a file all later calls fail on, the interpolation is not continued across the date line, one size alone is ignored (finding 51)."
  },
  {
   "property": "C79",
   "status": "proved",
   "theorems": [
    "C79_types",
    "C79_backward",
    "C79_scale",
    "C79_scale_refuted",
    "C79_converted_refuted",
    "C79_autocast_state"
   ],
   "note": "Proved for the layer as constructed, with or without autocast, and for any scale that does not promote the query. Refuted for a converted layer: the quadrature weights are a float32 buffer that half(), bfloat16() and double() convert, and the GPU kernels read it as float without a check (C79_converted_refuted; the CPU kernel raises). Refuted for a float64 scale tensor with dimensions without autocast: the serial layer raises, the ring kernels, which check no types, read the keys outside their array (C79_scale_refuted). Shapes and values are not part of this model; torch's conversion rules for Module.to, autocast and promotion are trusted as modelled; the torch reference path is not included."
  },
  {
   "property": "C80",
   "status": "proved",
   "theorems": [
    "C80_is_contiguous",
    "C80_pointer",
    "C80_contiguous",
    "C80_ensure",
    "C80_to_nhwc",
    "C80_to_nchw",
    "C80_inverse",
    "C80_dims",
    "C80_gradients",
    "C80_ambiguous",
    "C80_alias"
   ],
   "note": "Proved on a memory of storages, offsets, shapes and strides, for both paths. torch's contiguous(), clone() and permute() and c10's contiguity test are modelled as documented; the tiled transposition is given by its index map here and proved in CudaUtilsModel. C80_alias shows why _permuted_copy does not use permute().contiguous(). Negative strides do not exist in torch."
  },
  {
   "property": "C81",
   "status": "proved",
   "theorems": [
    "C81_rounding",
    "C81_flag",
    "C81_moves",
    "C81_float_double",
    "C81_half",
    "C81_half_refuted"
   ],
   "note": "Proved with IEEE rounding to nearest even with gradual underflow (Flocq's round; overflow left out). The last part is refuted: the precomputed values are registered buffers, which half() and bfloat16() round, and nothing recomputes them, while the reference path's psi is a plain attribute and keeps its values (C81_half_refuted); C81_half bounds the error. Module._apply is trusted as modelled; the K-packed path, which converts its copy of the values to the input's type, is not included."
  },
  {
   "property": "C82",
   "status": "proved",
   "theorems": [
    "C82_own",
    "C82_draw",
    "C82_left_behind",
    "C82_given",
    "C82_moved_refuted",
    "C82_back_refuted",
    "C82_type_refuted",
    "C82_constructed"
   ],
   "note": "Two parts are refuted: only the sampler's own to and cuda rebuild the noise distribution, so cpu() and moves of a containing module leave it on the old device and the draw raises (C82_moved_refuted, C82_back_refuted), and the eigenvalues have torch's default type whatever dtype is (C82_type_refuted). C82_draw says exactly when a draw succeeds and with what. Tensors are reduced to device and type; Module._apply and Normal are trusted as modelled."
  },
  {
   "property": "C83",
   "status": "proved",
   "theorems": [
    "C83_equiangular",
    "C83_given",
    "C83_gauss_refuted",
    "C83_trapezoidal_refuted"
   ],
   "note": "Proved for the equiangular grid and for latitudes passed by the caller. With the coordinates plot_sphere makes itself it is refuted for every Gauss-Legendre grid (C83_gauss_refuted) and for the trapezoidal grid (C83_trapezoidal_refuted). Only the mesh given to pcolormesh is modelled."
  }
 ]
}