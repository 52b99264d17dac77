- `ClassicalDedekindReals.sig_forall_dec`, `ClassicalDedekindReals.sig_not_dec`, `ClassicalEpsilon.constructive_indefinite_description`, `Classical_Prop.classic`, `FunctionalExtensionality.functional_extensionality_dep`:
  C15_cache_transparent, C15_numbers, C16_no_reset, C16_reset_S, C16_reset_all, C17_isolated_partial, C17_shared_refuted, C19_above_refuted, C19_copies_partial, C19_one_copy_partial, C19_uniform_refuted, C20_smatrix_raises, C20_smatrix_solves, C21_interior_amplitudes, C21_interior_available, C22_continuity, C23_maxwell, C24_split, C25_substrate_thickness, C26_constant_pattern, C27_flux_conserved, C27_poynting_parts, C28_energy, C29_at_most_one, C29_nonneg, C31_available, C31_complex_orders, C32_inverse, C32_mean, C33_constant, C33_entries, C33_hermitian, C33_linear, C34_synthesis, C35_get_epsilon, C35_mean, C36_jones, C36_operator, C36_pointwise, C37_exchanged_partial, C37_refuted, C47_multi_simp, C47_simp_complex, C51_constant_refuted, C51_identity, C51_linear, C51_shift, C51_weights_partial, C52_aniso_refuted, C52_rotated_partial, C53_eigensolver_efficiencies, C53_eigensolver_fields, C54_fresnel, C55_names_refuted, C56_field_flux, C57_reset_partial, C57_superstrate_refuted, C63_displaced_refuted, C63_mirror_partial, C64_constant, C64_direction, C64_normalised, C65_modulus, C67_last_partial, C67_negative_refuted, C68_height_partial, C68_inverse_rule_refuted, C68_tensor_refuted, C68_value_partial, C69_defined, C69_transverse, C70_arguments, C70_components, C70_homogeneous_refuted, C70_tensor_refuted, C70_too_small, C70_vectors, C71_power_average, C72_rows_partial, C72_vector_refuted, C73_bounds, C73_flux_down, C73_flux_in_layer, C73_no_gain, C74_translation, C74_translation_fields, C75_rotation, C75_rotation_fields, C76_scale, C76_scale_fields, C77_mirror_x, C77_mirror_x_fields, C77_mirror_y, C77_mirror_y_fields, C77_symmetric_x, C77_symmetric_y, C78_inversion, C78_inversion_fields, C78_symmetric, C79_exchange, C79_exchange_fields, C80_reorder, C80_reorder_fields, C81_reflection, C82_transmission, C83_energy, C83_no_gain, C83_orders, C84_only_numerical, C85_reproducible, C85_same_verdict, C86_reflection, C86_transmission, C87_absorption, C87_layer, C88_grating, C89_multilayer, C89_quarter_wave, C90_homogeneous, C90_patterned, C91_asked, C91_not_asked, C94_field_partial, C94_grid_refuted, C95_commute_partial, C95_constant_partial, C95_energy_partial, C95_hermitian_refuted, C97_fields, C97_half_turn, C97_natural, C97_quadratic, C97_simulation, C98_simulation, C98_supercell, C98_toeplitz
- nothing ("Closed under the global context"):
  C14_get_layer, C18_complex_refuted, C18_dict_refuted, C18_transmission_partial, C38_default_partial, C38_type_refuted, C39_block_roundtrip, C39_inverse, C39_nonsquare_refuted, C40_classify_partial, C40_shapes_partial, C40_small_grid_refuted, C45_parloop, C49_backend, C49_unknown, C50_device_refuted, C50_log_refuted, C50_settings_partial, C61_environment, C61_gpu_zero_refuted, C62_gradients, C96_fallback
- `ClassicalDedekindReals.sig_forall_dec`, `ClassicalDedekindReals.sig_not_dec`, `FunctionalExtensionality.functional_extensionality_dep`:
  C01_area, C01_available, C01_duality, C02_one_dim, C03_parallelogrammic, C04_any_lattice, C04_circular, C04_isolated, C05_shells, C06_equal_rows_partial, C06_hexagonal_refuted, C06_true_length_refuted, C07_isolated_partial, C07_zeroth_refuted, C08_one_more_partial, C08_request_refuted, C09_lookup, C10_indexing, C11_incident, C12_rejections, C13_uniform, C30_planewave, C43_matching, C44_no_over_refinement, C44_terminates, C66_sorted, C99_accepted_refuted, C99_square_partial
- `ClassicalDedekindReals.sig_forall_dec`, `FunctionalExtensionality.functional_extensionality_dep`:
  C12_layer, C41_shape_mask, C42_geometry_mask, C48_stop_refuted, C48_value_partial, C58_default_args_refuted, C58_levels, C59_grid_1D, C59_shapes_1D, C59_stripe, C60_cell_refuted, C60_periodic_refuted, C60_points_partial, C96_again, C96_answer, C96_callback, C96_method_refuted, C96_nlopt_callback, C96_nlopt_levels
- `ClassicalDedekindReals.sig_forall_dec`, `ClassicalDedekindReals.sig_not_dec`, `FunctionalExtensionality.functional_extensionality_dep`, `classic`, `constructive_indefinite_description`:
  C92_accepts_partial, C92_grid_refuted, C93_attained, C93_direction, C93_lines, C93_modulus
- `ClassicalDedekindReals.sig_forall_dec`, `ClassicalDedekindReals.sig_not_dec`, `Classical_Prop.classic`, `FunctionalExtensionality.functional_extensionality_dep`:
  C46_multi_project, C46_project, C47_simp
