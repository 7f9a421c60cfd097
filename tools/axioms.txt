C01_from_generator_closed closed
C02_from_generator_generated closed
C03_from_generator_total closed
C04_from_generator_inverses closed
C04_sym_from_generator_group closed
C05_even_perm3 closed
C05_members closed
C05_mirror_groups_partial closed
C05_named_groups closed
C05_named_groups_refuted closed
C06_operations_partial closed
C06_operations_refuted closed
C07_eq_complete_partial closed
C07_eq_refuted closed
C07_eq_sound_partial closed
C08_neighbor_lookup closed
C09_complete_neighbors_partial closed
C09_complete_neighbors_refuted closed
C100_asym_bands_grad classic functional_extensionality_dep sig_forall_dec sig_not_dec
C100_bands_grad classic functional_extensionality_dep sig_forall_dec sig_not_dec
C100_eigh_grad functional_extensionality_dep sig_forall_dec
C100_geigh functional_extensionality_dep sig_forall_dec
C100_geigh_grad functional_extensionality_dep sig_forall_dec
C101_bands_grad_hess classic functional_extensionality_dep sig_forall_dec sig_not_dec
C101_eigh_grad_hess classic functional_extensionality_dep sig_forall_dec sig_not_dec
C101_perturbation_sum classic functional_extensionality_dep sig_forall_dec sig_not_dec
C101_symmetric functional_extensionality_dep sig_forall_dec
C102_gradient_sum functional_extensionality_dep sig_forall_dec
C102_sums functional_extensionality_dep sig_forall_dec
C103_degenerate_refuted classic functional_extensionality_dep sig_forall_dec sig_not_dec
C104_constant_overlap classic functional_extensionality_dep sig_forall_dec sig_not_dec
C104_degenerate_refuted functional_extensionality_dep sig_forall_dec
C104_overlap_refuted classic functional_extensionality_dep sig_forall_dec sig_not_dec
C105_single functional_extensionality_dep sig_forall_dec
C105_single_fails functional_extensionality_dep sig_forall_dec
C105_single_hess functional_extensionality_dep sig_forall_dec
C105_single_refuted functional_extensionality_dep sig_forall_dec sig_not_dec
C106_constructor functional_extensionality_dep sig_forall_dec
C106_inversion_refuted functional_extensionality_dep sig_forall_dec
C106_symmetrizer_trivial functional_extensionality_dep sig_forall_dec
C107_bands_grad classic functional_extensionality_dep sig_forall_dec sig_not_dec
C107_bands_grad_hess classic functional_extensionality_dep sig_forall_dec sig_not_dec
C107_gamma functional_extensionality_dep sig_forall_dec sig_not_dec
C107_gradient classic functional_extensionality_dep sig_forall_dec sig_not_dec
C107_hermitian functional_extensionality_dep sig_forall_dec sig_not_dec
C107_hessian classic functional_extensionality_dep sig_forall_dec sig_not_dec
C107_periodic functional_extensionality_dep sig_forall_dec sig_not_dec
C108_same_as_asym functional_extensionality_dep sig_forall_dec sig_not_dec
C108_set_from_complex functional_extensionality_dep sig_forall_dec sig_not_dec
C109_raises functional_extensionality_dep sig_forall_dec
C109_roundtrip_refuted functional_extensionality_dep sig_forall_dec
C109_two functional_extensionality_dep sig_forall_dec
C10_r_class_size closed
C110_contracts functional_extensionality_dep sig_forall_dec sig_not_dec
C110_exact_refuted functional_extensionality_dep sig_forall_dec sig_not_dec
C110_one_sample functional_extensionality_dep sig_forall_dec sig_not_dec
C111_descent classic functional_extensionality_dep sig_forall_dec sig_not_dec
C111_gradient classic functional_extensionality_dep sig_forall_dec sig_not_dec
C111_sample_weights_refuted functional_extensionality_dep sig_forall_dec
C112_band_weights_refuted functional_extensionality_dep sig_forall_dec
C112_exact functional_extensionality_dep sig_forall_dec
C112_pinv_step functional_extensionality_dep sig_forall_dec
C113_contracts functional_extensionality_dep sig_forall_dec
C113_mask_and_origin functional_extensionality_dep sig_forall_dec
C113_one_sample functional_extensionality_dep sig_forall_dec
C113_overlap_refuted functional_extensionality_dep sig_forall_dec sig_not_dec
C113_pinv_step functional_extensionality_dep sig_forall_dec
C114_gauss_newton functional_extensionality_dep sig_forall_dec
C114_linearised classic functional_extensionality_dep sig_forall_dec sig_not_dec
C114_operator functional_extensionality_dep sig_forall_dec
C114_right_side functional_extensionality_dep sig_forall_dec
C114_symmetric functional_extensionality_dep sig_forall_dec
C115_energies functional_extensionality_dep sig_forall_dec sig_not_dec
C115_inversion_refuted functional_extensionality_dep sig_forall_dec sig_not_dec
C115_normal_form functional_extensionality_dep sig_forall_dec sig_not_dec
C115_small_refuted functional_extensionality_dep sig_forall_dec sig_not_dec
C116_f0_in_loop functional_extensionality_dep sig_forall_dec sig_not_dec
C116_k0_in_loop functional_extensionality_dep sig_forall_dec
C116_k0_refuted functional_extensionality_dep sig_forall_dec sig_not_dec
C116_keep_zeros_refuted functional_extensionality_dep sig_forall_dec sig_not_dec
C116_zeros_in_loop functional_extensionality_dep sig_forall_dec
C117_asym_refuted functional_extensionality_dep sig_forall_dec sig_not_dec
C117_count_refuted sig_forall_dec
C117_gamma functional_extensionality_dep sig_forall_dec sig_not_dec
C117_plain_refuted functional_extensionality_dep sig_forall_dec sig_not_dec
C117_window functional_extensionality_dep sig_forall_dec
C118_empty_refuted closed
C118_symmetries closed
C118_translation_refuted closed
C119_k_points functional_extensionality_dep sig_forall_dec
C119_range_refuted functional_extensionality_dep sig_forall_dec
C11_k_weight closed
C120_energies functional_extensionality_dep sig_forall_dec
C120_projections closed
C121_from_disk_partial functional_extensionality_dep sig_forall_dec
C121_from_disk_refuted functional_extensionality_dep sig_forall_dec
C122_spinor_refuted functional_extensionality_dep sig_forall_dec
C122_wavefunctions_partial functional_extensionality_dep sig_forall_dec
C123_density_refuted functional_extensionality_dep sig_forall_dec
C123_shift sig_forall_dec
C124_bandx closed
C124_truncated closed
C125_breaks functional_extensionality_dep sig_forall_dec
C126_one_atom_partial closed
C126_order_refuted closed
C127_crystal closed
C127_k_grid closed
C127_k_points closed
C127_missing closed
C127_wannier closed
C128_grid_partial functional_extensionality_dep sig_forall_dec
C128_infer closed
C128_order_refuted functional_extensionality_dep sig_forall_dec
C129_orbitals functional_extensionality_dep sig_forall_dec
C12_conjugacy_classes closed
C12_equivalence_classes closed
C130_reduction_refuted functional_extensionality_dep sig_forall_dec
C130_sphere functional_extensionality_dep sig_forall_dec sig_not_dec
C131_crystal functional_extensionality_dep sig_forall_dec sig_not_dec
C131_energies functional_extensionality_dep sig_forall_dec sig_not_dec
C131_gradient functional_extensionality_dep sig_forall_dec sig_not_dec
C131_hessian functional_extensionality_dep sig_forall_dec sig_not_dec
C131_transform functional_extensionality_dep sig_forall_dec sig_not_dec
C131_unit functional_extensionality_dep sig_forall_dec sig_not_dec
C132_free_electrons classic functional_extensionality_dep sig_forall_dec sig_not_dec
C132_hessian functional_extensionality_dep sig_forall_dec sig_not_dec
C132_hessian_refuted functional_extensionality_dep sig_forall_dec sig_not_dec
C133_append closed
C133_d2 functional_extensionality_dep sig_forall_dec
C133_d3_iff functional_extensionality_dep sig_forall_dec
C133_d3_refuted functional_extensionality_dep sig_forall_dec
C133_s_and_p closed
C134_d3_with_inversion closed
C134_p_with_inversion_wrong functional_extensionality_dep sig_forall_dec
C134_s_and_p_with_inversion_partial closed
C134_s_and_p_with_inversion_refuted functional_extensionality_dep sig_forall_dec
C134_s_with_inversion_iff functional_extensionality_dep sig_forall_dec
C134_without_inversion closed
C135_formula_partial functional_extensionality_dep sig_forall_dec sig_not_dec
C135_hermitian functional_extensionality_dep sig_forall_dec sig_not_dec
C135_identity_parity_refuted functional_extensionality_dep sig_forall_dec sig_not_dec
C135_identity_partial functional_extensionality_dep sig_forall_dec sig_not_dec
C135_identity_phase_refuted functional_extensionality_dep sig_forall_dec sig_not_dec
C136_cubic functional_extensionality_dep sig_forall_dec
C136_paths functional_extensionality_dep sig_forall_dec
C137_tetragonal functional_extensionality_dep sig_forall_dec
C138_trigonal functional_extensionality_dep sig_forall_dec sig_not_dec
C139_documented_refuted functional_extensionality_dep sig_forall_dec sig_not_dec
C139_hexagonal functional_extensionality_dep sig_forall_dec sig_not_dec
C13_rank11 closed
C13_tensor_projection closed
C140_ascending classic functional_extensionality_dep sig_forall_dec sig_not_dec
C140_batch_refuted classic functional_extensionality_dep sig_forall_dec sig_not_dec
C140_descending_refuted classic functional_extensionality_dep sig_forall_dec sig_not_dec
C140_high classic functional_extensionality_dep sig_forall_dec sig_not_dec
C140_single classic functional_extensionality_dep sig_forall_dec sig_not_dec
C141_derivative functional_extensionality_dep sig_forall_dec
C141_values functional_extensionality_dep sig_forall_dec
C141_zero_refuted functional_extensionality_dep sig_forall_dec
C142_filled_refuted classic functional_extensionality_dep sig_forall_dec sig_not_dec
C142_interior classic functional_extensionality_dep sig_forall_dec sig_not_dec
C142_value classic functional_extensionality_dep sig_forall_dec sig_not_dec
C142_zero classic functional_extensionality_dep sig_forall_dec sig_not_dec
C143_cyclic functional_extensionality_dep sig_forall_dec sig_not_dec
C143_lattice functional_extensionality_dep sig_forall_dec sig_not_dec
C143_o2 functional_extensionality_dep sig_forall_dec sig_not_dec
C143_o2_inversion functional_extensionality_dep sig_forall_dec sig_not_dec
C143_o2_inversion_refuted functional_extensionality_dep sig_forall_dec sig_not_dec
C144_dihedral functional_extensionality_dep sig_forall_dec sig_not_dec
C144_limit_refuted functional_extensionality_dep sig_forall_dec sig_not_dec
C145_alignment_refuted functional_extensionality_dep sig_forall_dec sig_not_dec
C145_icosahedral functional_extensionality_dep sig_forall_dec sig_not_dec
C146_again_refuted closed
C146_first closed
C146_imag_refuted closed
C146_labels_refuted closed
C146_parameters closed
C146_set closed
C146_sliders closed
C147_attributes_refuted closed
C147_bloch functional_extensionality_dep sig_forall_dec sig_not_dec
C147_cubic functional_extensionality_dep sig_forall_dec sig_not_dec
C147_d2_refuted functional_extensionality_dep sig_forall_dec sig_not_dec
C147_eg_refuted functional_extensionality_dep sig_forall_dec sig_not_dec
C147_hermitian functional_extensionality_dep sig_forall_dec sig_not_dec
C147_pd_refuted functional_extensionality_dep sig_forall_dec sig_not_dec
C147_time_reversal functional_extensionality_dep sig_forall_dec sig_not_dec
C147_time_reversal_refuted functional_extensionality_dep sig_forall_dec sig_not_dec
C148_mean functional_extensionality_dep sig_forall_dec
C148_symmetric functional_extensionality_dep sig_forall_dec
C149_periodic functional_extensionality_dep sig_forall_dec
C149_plain functional_extensionality_dep sig_forall_dec
C149_single_refuted functional_extensionality_dep sig_forall_dec
C149_symmetric functional_extensionality_dep sig_forall_dec
C149_unwrapped_refuted functional_extensionality_dep sig_forall_dec
C14_inversion_refuted closed
C150_covariant_partial functional_extensionality_dep sig_forall_dec sig_not_dec
C150_defined closed
C150_distinct closed
C150_orbits closed
C150_parity_refuted functional_extensionality_dep sig_forall_dec sig_not_dec
C151_alias_refuted functional_extensionality_dep sig_forall_dec sig_not_dec
C151_other functional_extensionality_dep sig_forall_dec
C151_self functional_extensionality_dep sig_forall_dec
C151_symmetric_refuted functional_extensionality_dep sig_forall_dec sig_not_dec
C151_transform_partial functional_extensionality_dep sig_forall_dec sig_not_dec
C152_degenerate_refuted functional_extensionality_dep sig_forall_dec
C152_exchange functional_extensionality_dep sig_forall_dec
C152_formula functional_extensionality_dep sig_forall_dec
C152_gauge functional_extensionality_dep sig_forall_dec
C152_grads classic functional_extensionality_dep sig_forall_dec sig_not_dec
C152_same functional_extensionality_dep sig_forall_dec
C153_raises closed
C153_supercell_refuted closed
C154_image functional_extensionality_dep sig_forall_dec
C154_nearest sig_forall_dec
C154_sample functional_extensionality_dep sig_forall_dec
C154_short sig_forall_dec
C155_continuous_partial classic functional_extensionality_dep sig_forall_dec sig_not_dec
C155_continuous_refuted classic functional_extensionality_dep sig_forall_dec sig_not_dec
C155_limit classic functional_extensionality_dep sig_forall_dec sig_not_dec
C155_monotone classic functional_extensionality_dep sig_forall_dec sig_not_dec
C155_shift functional_extensionality_dep sig_forall_dec sig_not_dec
C155_sum functional_extensionality_dep sig_forall_dec sig_not_dec
C156_assigned closed
C156_degenerate_refuted closed
C156_dropped_refuted closed
C156_exact_partial closed
C156_gamma functional_extensionality_dep sig_forall_dec sig_not_dec
C156_ordered_partial closed
C156_ordered_refuted closed
C157_commutes functional_extensionality_dep sig_forall_dec
C157_complete functional_extensionality_dep sig_forall_dec
C157_partition functional_extensionality_dep sig_forall_dec
C158_dimension_refuted functional_extensionality_dep sig_forall_dec sig_not_dec
C158_formats_refuted functional_extensionality_dep sig_forall_dec
C158_json_partial functional_extensionality_dep sig_forall_dec sig_not_dec
C158_json_symmetry_refuted functional_extensionality_dep sig_forall_dec sig_not_dec
C158_names functional_extensionality_dep sig_forall_dec
C158_python_exp_refuted functional_extensionality_dep sig_forall_dec sig_not_dec
C158_python_partial functional_extensionality_dep sig_forall_dec sig_not_dec
C158_python_refuted functional_extensionality_dep sig_forall_dec sig_not_dec
C159_json_partial functional_extensionality_dep sig_forall_dec sig_not_dec
C159_overlap_refuted functional_extensionality_dep sig_forall_dec sig_not_dec
C159_python functional_extensionality_dep sig_forall_dec sig_not_dec
C15_realize_symmetric closed
C160_errors functional_extensionality_dep sig_forall_dec sig_not_dec
C160_gauss_partial classic functional_extensionality_dep sig_forall_dec sig_not_dec
C160_points_partial classic functional_extensionality_dep sig_forall_dec sig_not_dec
C160_positive_partial classic functional_extensionality_dep sig_forall_dec sig_not_dec
C160_rule_partial classic functional_extensionality_dep sig_forall_dec sig_not_dec
C160_two_partial classic functional_extensionality_dep sig_forall_dec sig_not_dec
C160_two_refuted classic functional_extensionality_dep sig_forall_dec sig_not_dec
C161_failed_refuted functional_extensionality_dep sig_forall_dec
C161_names_refuted functional_extensionality_dep sig_forall_dec
C161_path_partial functional_extensionality_dep sig_forall_dec
C162_card_partial functional_extensionality_dep sig_forall_dec
C162_scale_refuted functional_extensionality_dep sig_forall_dec sig_not_dec
C163_cutoff functional_extensionality_dep sig_forall_dec
C163_order functional_extensionality_dep sig_forall_dec
C163_parts functional_extensionality_dep sig_forall_dec
C163_valence functional_extensionality_dep sig_forall_dec
C164_curve classic functional_extensionality_dep sig_forall_dec sig_not_dec
C164_density_refuted classic functional_extensionality_dep sig_forall_dec sig_not_dec
C164_empty classic functional_extensionality_dep sig_forall_dec sig_not_dec
C164_zero classic functional_extensionality_dep sig_forall_dec sig_not_dec
C165_integral classic functional_extensionality_dep sig_forall_dec sig_not_dec
C165_zero classic functional_extensionality_dep sig_forall_dec sig_not_dec
C166_all_refuted functional_extensionality_dep sig_forall_dec
C166_bands_refuted functional_extensionality_dep sig_forall_dec
C166_checkpoints_partial functional_extensionality_dep sig_forall_dec
C166_coefficients functional_extensionality_dep sig_forall_dec
C166_duplicate_refuted functional_extensionality_dep sig_forall_dec
C166_no_model functional_extensionality_dep sig_forall_dec
C16_reduce_partial closed
C16_reduce_refuted closed
C17_check_neighbors_refuted closed
C18_find_classes_partial closed
C18_find_classes_refuted closed
C19_contains_complete_partial closed
C19_contains_refuted closed
C19_contains_sound_partial closed
C20_check_iff_homomorphism closed
C21_multiple closed
C21_sum_defined closed
C21_sum_partial closed
C21_sum_refuted closed
C22_from_generator_refuted closed
C22_generated_representation_partial closed
C22_object_partial closed
C22_returns closed
C23_match_sym_reorders closed
C23_match_sym_succeeds_iff closed
C24_idempotent_partial closed
C24_inv_closed_same_position closed
C24_linear closed
C24_result_symmetric closed
C24_symmetric_fixed closed
C24_symmetrize_refuted closed
C25_symmetrizer_eq_symmetrize closed
C26_bsm_hermitian functional_extensionality_dep sig_forall_dec sig_not_dec
C26_hermitian functional_extensionality_dep sig_forall_dec sig_not_dec
C27_periodic functional_extensionality_dep sig_forall_dec sig_not_dec
C27_time_reversal functional_extensionality_dep sig_forall_dec sig_not_dec
C28_bsm_gradient classic functional_extensionality_dep sig_forall_dec sig_not_dec
C28_bsm_hessian classic functional_extensionality_dep sig_forall_dec sig_not_dec
C28_gradient classic functional_extensionality_dep sig_forall_dec sig_not_dec
C28_hessian classic functional_extensionality_dep sig_forall_dec sig_not_dec
C28_hessian_symmetric functional_extensionality_dep sig_forall_dec sig_not_dec
C29_convention_partial functional_extensionality_dep sig_forall_dec sig_not_dec
C29_defined functional_extensionality_dep sig_forall_dec
C29_inversion functional_extensionality_dep sig_forall_dec sig_not_dec
C29_plain functional_extensionality_dep sig_forall_dec sig_not_dec
C29_refuted functional_extensionality_dep sig_forall_dec sig_not_dec
C30_roundtrip functional_extensionality_dep sig_forall_dec
C30_roundtrip_inversion functional_extensionality_dep sig_forall_dec
C30_roundtrip_inversion_exp functional_extensionality_dep sig_forall_dec
C31_bsm_scale functional_extensionality_dep sig_forall_dec sig_not_dec
C31_bsm_shift functional_extensionality_dep sig_forall_dec sig_not_dec
C31_bsm_union_partial functional_extensionality_dep sig_forall_dec sig_not_dec
C31_bsm_union_refuted functional_extensionality_dep sig_forall_dec sig_not_dec
C31_energies_unique functional_extensionality_dep sig_forall_dec
C31_scale functional_extensionality_dep sig_forall_dec sig_not_dec
C31_shift_partial functional_extensionality_dep sig_forall_dec sig_not_dec
C31_shift_refuted functional_extensionality_dep sig_forall_dec sig_not_dec
C31_union functional_extensionality_dep sig_forall_dec sig_not_dec
C32_congruence functional_extensionality_dep sig_forall_dec sig_not_dec
C32_normalize functional_extensionality_dep sig_forall_dec sig_not_dec
C32_permute functional_extensionality_dep sig_forall_dec sig_not_dec
C33_add functional_extensionality_dep sig_forall_dec sig_not_dec
C33_add_duplicate_refuted functional_extensionality_dep sig_forall_dec sig_not_dec
C33_add_ok_iff functional_extensionality_dep sig_forall_dec sig_not_dec
C33_cleanup functional_extensionality_dep sig_forall_dec sig_not_dec
C33_limit_count functional_extensionality_dep sig_forall_dec sig_not_dec
C33_limit_count_zero_refuted functional_extensionality_dep sig_forall_dec sig_not_dec
C33_limit_neighbors functional_extensionality_dep sig_forall_dec sig_not_dec
C33_limit_neighbors_defined functional_extensionality_dep sig_forall_dec sig_not_dec
C34_supercell_partial functional_extensionality_dep sig_forall_dec sig_not_dec
C34_supercell_refuted functional_extensionality_dep sig_forall_dec sig_not_dec
C34_supercell_rejects_refuted functional_extensionality_dep sig_forall_dec sig_not_dec
C35_idempotent functional_extensionality_dep sig_forall_dec
C35_roundtrip functional_extensionality_dep sig_forall_dec sig_not_dec
C35_save_defined functional_extensionality_dep sig_forall_dec
C36_bad_line closed
C36_degeneracy closed
C36_index_zero_refuted closed
C36_load_hr functional_extensionality_dep sig_forall_dec sig_not_dec
C36_load_tb functional_extensionality_dep sig_forall_dec sig_not_dec
C36_truncated_hangs_refuted closed
C37_equal_counts_refuted functional_extensionality_dep sig_forall_dec sig_not_dec
C37_hist_equal_counts_refuted functional_extensionality_dep sig_forall_dec sig_not_dec
C37_hist_partial functional_extensionality_dep sig_forall_dec sig_not_dec
C37_last_offset_refuted functional_extensionality_dep sig_forall_dec sig_not_dec
C37_windowed_partial functional_extensionality_dep sig_forall_dec sig_not_dec
C38_abort_once closed
C38_history closed
C38_last closed
C38_last_empty closed
C39_error_criterion_partial functional_extensionality_dep sig_forall_dec sig_not_dec
C39_error_criterion_refuted functional_extensionality_dep sig_forall_dec sig_not_dec
C39_residual functional_extensionality_dep sig_forall_dec
C39_terminates functional_extensionality_dep sig_forall_dec
C40_distinct_partial functional_extensionality_dep sig_forall_dec sig_not_dec
C40_repeated_refuted functional_extensionality_dep sig_forall_dec sig_not_dec
C40_zero_iff_partial functional_extensionality_dep sig_forall_dec sig_not_dec
C41_blocks closed
C41_direct_sum_adj closed
C41_direct_sum_id closed
C41_direct_sum_mul closed
C41_eigenpairs closed
C41_kron2 closed
C41_kron_adj closed
C41_kron_mul closed
C42_consistent functional_extensionality_dep sig_forall_dec
C42_names functional_extensionality_dep sig_forall_dec
C42_sym_x functional_extensionality_dep sig_forall_dec sig_not_dec
C42_x functional_extensionality_dep sig_forall_dec sig_not_dec
C43_history_partial functional_extensionality_dep sig_forall_dec
C43_history_refuted functional_extensionality_dep sig_forall_dec
C44_fermi_surface functional_extensionality_dep sig_forall_dec
C45_faces closed
C45_materials_partial closed
C45_materials_refuted closed
C45_plot_partial closed
C46_exact_fraction classic functional_extensionality_dep sig_forall_dec sig_not_dec
C46_monotone classic functional_extensionality_dep sig_forall_dec sig_not_dec
C46_near_fraction classic functional_extensionality_dep sig_forall_dec sig_not_dec
C46_range classic functional_extensionality_dep sig_forall_dec sig_not_dec
C46_sides_partial classic functional_extensionality_dep sig_forall_dec sig_not_dec
C46_sides_refuted classic functional_extensionality_dep sig_forall_dec sig_not_dec
C46_symmetric classic functional_extensionality_dep sig_forall_dec sig_not_dec
C47_combined classic functional_extensionality_dep sig_forall_dec sig_not_dec
C47_derivative classic functional_extensionality_dep sig_forall_dec sig_not_dec
C47_nonneg classic functional_extensionality_dep sig_forall_dec sig_not_dec
C48_cube_partial classic functional_extensionality_dep sig_forall_dec sig_not_dec
C48_smearing_partial classic functional_extensionality_dep sig_forall_dec sig_not_dec
C48_sphere_derivative classic functional_extensionality_dep sig_forall_dec sig_not_dec
C48_sphere_monotone functional_extensionality_dep sig_forall_dec sig_not_dec
C48_sphere_range functional_extensionality_dep sig_forall_dec sig_not_dec
C48_sphere_volume classic functional_extensionality_dep sig_forall_dec sig_not_dec
C48_tetra_corners_partial classic functional_extensionality_dep sig_forall_dec sig_not_dec
C48_tetra_derivative_partial classic functional_extensionality_dep sig_forall_dec sig_not_dec
C48_tetra_monotone_refuted functional_extensionality_dep sig_forall_dec sig_not_dec
C48_tetra_range_refuted functional_extensionality_dep sig_forall_dec sig_not_dec
C48_tetra_volume_partial classic functional_extensionality_dep sig_forall_dec sig_not_dec
C49_convolve_bounds classic functional_extensionality_dep sig_forall_dec sig_not_dec
C49_convolve_flat classic functional_extensionality_dep sig_forall_dec sig_not_dec
C49_convolve_range classic functional_extensionality_dep sig_forall_dec sig_not_dec
C49_int_df classic functional_extensionality_dep sig_forall_dec sig_not_dec
C49_int_poly classic functional_extensionality_dep sig_forall_dec sig_not_dec
C49_int_xdf classic functional_extensionality_dep sig_forall_dec sig_not_dec
C49_int_xxdf classic functional_extensionality_dep sig_forall_dec sig_not_dec
C49_normalisation classic functional_extensionality_dep sig_forall_dec sig_not_dec
C49_second_moment classic functional_extensionality_dep sig_forall_dec sig_not_dec
C49_weight classic functional_extensionality_dep sig_forall_dec sig_not_dec
C50_bounds functional_extensionality_dep sig_forall_dec
C50_cubes classic functional_extensionality_dep sig_forall_dec sig_not_dec
C50_cubes_density classic functional_extensionality_dep sig_forall_dec sig_not_dec
C50_cubes_range functional_extensionality_dep sig_forall_dec sig_not_dec
C50_cubes_sorted functional_extensionality_dep sig_forall_dec sig_not_dec
C50_cut_indices functional_extensionality_dep sig_forall_dec
C50_density functional_extensionality_dep sig_forall_dec sig_not_dec
C50_extra_refuted classic functional_extensionality_dep sig_forall_dec sig_not_dec
C50_extremes functional_extensionality_dep sig_forall_dec
C50_fermi_insulator functional_extensionality_dep sig_forall_dec
C50_fermi_metal_partial functional_extensionality_dep sig_forall_dec
C50_fermi_zero_refuted functional_extensionality_dep sig_forall_dec
C50_monotone functional_extensionality_dep sig_forall_dec
C50_no_gap functional_extensionality_dep sig_forall_dec
C50_states_density functional_extensionality_dep sig_forall_dec
C51_conductivity functional_extensionality_dep sig_forall_dec
C51_kelvin functional_extensionality_dep sig_forall_dec
C51_peltier functional_extensionality_dep sig_forall_dec
C51_seebeck functional_extensionality_dep sig_forall_dec
C51_thermal functional_extensionality_dep sig_forall_dec
C52_distinct_partial classic functional_extensionality_dep sig_forall_dec sig_not_dec
C52_filter_refuted classic functional_extensionality_dep sig_forall_dec sig_not_dec
C52_one_point_refuted sig_forall_dec
C52_partial classic functional_extensionality_dep sig_forall_dec sig_not_dec
C52_repeated functional_extensionality_dep sig_forall_dec sig_not_dec
C52_solvable classic functional_extensionality_dep sig_forall_dec sig_not_dec
C52_zero_temperature functional_extensionality_dep sig_forall_dec sig_not_dec
C53_bcc functional_extensionality_dep sig_forall_dec
C53_cubic_volumes functional_extensionality_dep sig_forall_dec
C53_fcc functional_extensionality_dep sig_forall_dec
C53_hexagonal functional_extensionality_dep sig_forall_dec sig_not_dec
C53_monoclinic functional_extensionality_dep sig_forall_dec sig_not_dec
C53_monoclinic_base functional_extensionality_dep sig_forall_dec sig_not_dec
C53_orthorhombic functional_extensionality_dep sig_forall_dec sig_not_dec
C53_orthorhombic_base functional_extensionality_dep sig_forall_dec
C53_orthorhombic_body functional_extensionality_dep sig_forall_dec
C53_orthorhombic_face functional_extensionality_dep sig_forall_dec
C53_rhombohedral functional_extensionality_dep sig_forall_dec sig_not_dec
C53_rhombohedral_domain functional_extensionality_dep sig_forall_dec sig_not_dec
C53_sc functional_extensionality_dep sig_forall_dec sig_not_dec
C53_tetragonal functional_extensionality_dep sig_forall_dec sig_not_dec
C53_tetragonal_body functional_extensionality_dep sig_forall_dec
C53_triclinic functional_extensionality_dep sig_forall_dec sig_not_dec
C53_triclinic_domain functional_extensionality_dep sig_forall_dec sig_not_dec
C54_partial classic functional_extensionality_dep sig_forall_dec sig_not_dec
C54_refuted classic functional_extensionality_dep sig_forall_dec sig_not_dec
C55_band_name_partial closed
C55_band_name_refuted closed
C56_energies functional_extensionality_dep sig_forall_dec sig_not_dec
C56_gradients classic functional_extensionality_dep sig_forall_dec sig_not_dec
C56_same_bands functional_extensionality_dep sig_forall_dec sig_not_dec
C56_unit functional_extensionality_dep sig_forall_dec sig_not_dec
C57_bar functional_extensionality_dep sig_forall_dec
C57_perfect_fit_refuted functional_extensionality_dep sig_forall_dec
C58_default_limit functional_extensionality_dep sig_forall_dec
C58_finite_termination functional_extensionality_dep sig_forall_dec
C59_failed_to_partial functional_extensionality_dep sig_forall_dec
C59_failed_to_refuted functional_extensionality_dep sig_forall_dec sig_not_dec
C60_list_start_partial functional_extensionality_dep sig_forall_dec
C60_tuple_start_refuted functional_extensionality_dep sig_forall_dec
C61_plot_scale_refuted functional_extensionality_dep sig_forall_dec
C61_plot_shrink_partial functional_extensionality_dep sig_forall_dec
C62_corners sig_forall_dec
C62_dvolume classic functional_extensionality_dep sig_forall_dec sig_not_dec
C62_linear_band classic functional_extensionality_dep sig_forall_dec sig_not_dec
C63_extrapolation functional_extensionality_dep sig_forall_dec
C63_two_grids functional_extensionality_dep sig_forall_dec
C64_range_partial classic functional_extensionality_dep sig_forall_dec sig_not_dec
C64_range_refuted classic functional_extensionality_dep sig_forall_dec sig_not_dec
C65_area functional_extensionality_dep sig_forall_dec sig_not_dec
C65_on_plane functional_extensionality_dep sig_forall_dec sig_not_dec
C66_flat_refuted classic functional_extensionality_dep sig_forall_dec sig_not_dec
C66_monotone classic functional_extensionality_dep sig_forall_dec sig_not_dec
C66_none_partial classic functional_extensionality_dep sig_forall_dec sig_not_dec
C67_filled classic functional_extensionality_dep sig_forall_dec sig_not_dec
C67_partial classic functional_extensionality_dep sig_forall_dec sig_not_dec
C67_refuted classic functional_extensionality_dep sig_forall_dec sig_not_dec
C67_total_partial classic functional_extensionality_dep sig_forall_dec sig_not_dec
C68_segment classic functional_extensionality_dep sig_forall_dec sig_not_dec
C69_samples classic functional_extensionality_dep sig_forall_dec sig_not_dec
C70_refuted functional_extensionality_dep sig_forall_dec
C70_value_partial functional_extensionality_dep sig_forall_dec
C71_affine functional_extensionality_dep sig_forall_dec
C71_early_return functional_extensionality_dep sig_forall_dec
C71_needs_injective functional_extensionality_dep sig_forall_dec
C72_band_partial functional_extensionality_dep sig_forall_dec
C72_gradient_refuted functional_extensionality_dep sig_forall_dec
C72_total_partial functional_extensionality_dep sig_forall_dec
C73_df_rules classic functional_extensionality_dep sig_forall_dec sig_not_dec
C73_exact classic functional_extensionality_dep sig_forall_dec sig_not_dec
C73_f_constant classic functional_extensionality_dep sig_forall_dec sig_not_dec
C73_odd classic functional_extensionality_dep sig_forall_dec sig_not_dec
C74_correction classic functional_extensionality_dep sig_forall_dec sig_not_dec
C74_energy classic functional_extensionality_dep sig_forall_dec sig_not_dec
C75_partial functional_extensionality_dep sig_forall_dec
C75_refuted functional_extensionality_dep sig_forall_dec
C76_drude functional_extensionality_dep sig_forall_dec
C76_odd_moments_indefinite functional_extensionality_dep sig_forall_dec
C76_positive functional_extensionality_dep sig_forall_dec
C76_rotation functional_extensionality_dep sig_forall_dec sig_not_dec
C76_symmetric functional_extensionality_dep sig_forall_dec
C77_constant_partial functional_extensionality_dep sig_forall_dec
C77_points_partial functional_extensionality_dep sig_forall_dec
C77_refuted functional_extensionality_dep sig_forall_dec
C78_partial classic functional_extensionality_dep sig_forall_dec sig_not_dec
C78_refuted functional_extensionality_dep sig_forall_dec sig_not_dec
C79_insulator_refuted functional_extensionality_dep sig_forall_dec sig_not_dec
C79_mixed_partial functional_extensionality_dep sig_forall_dec sig_not_dec
C79_partial functional_extensionality_dep sig_forall_dec sig_not_dec
C79_refuted functional_extensionality_dep sig_forall_dec sig_not_dec
C79_zero_temperature functional_extensionality_dep sig_forall_dec sig_not_dec
C80_partial functional_extensionality_dep sig_forall_dec
C80_refuted functional_extensionality_dep sig_forall_dec
C81_order closed
C82_transform_group closed
C82_transform_object closed
C82_transform_projective_partial closed
C82_transform_projective_refuted closed
C83_dual closed
C83_transpose closed
C83_transpose_refuted closed
C84_check_partial closed
C84_check_refuted closed
C85_ignore_translation closed
C85_point_group_partial closed
C85_point_group_refuted closed
C86_strict_point_group_partial closed
C86_strict_point_group_refuted closed
C87_subgroup_inversion_partial closed
C87_subgroup_partial closed
C87_subgroup_refuted closed
C88_projective_inversion_refuted closed
C89_copy closed
C90_div_partial closed
C90_div_refuted closed
C91_inversion_only_refuted closed
C91_mirrored_refuted closed
C91_symmetrize_fixes closed
C91_symmetrize_invariant_partial closed
C91_symmetrize_open_raises closed
C91_symmetrize_plain_partial closed
C92_no_mirror_refuted closed
C92_symmetrizer_equal_partial closed
C92_symmetrizer_needs closed
C93_symmetrize2_fixes closed
C93_symmetrize2_invariant closed
C94_covariant_partial closed
C94_default_refuted closed
C94_inversion_refuted closed
C94_orbit closed
C95_permute_representation closed
C95_repeated_refuted closed
C96_product_never_returns closed
C96_product_refuted closed
C97_accepts_asymmetric_refuted closed
C97_check_symmetry_point_partial closed
C97_dimension_raises closed
C98_d3 closed
C98_one_dim closed
C98_vector_representations closed
C99_chain_rule functional_extensionality_dep sig_forall_dec sig_not_dec
C99_hall_coefficients functional_extensionality_dep sig_forall_dec sig_not_dec
C99_hall_rotation functional_extensionality_dep sig_forall_dec sig_not_dec
C99_hessian functional_extensionality_dep sig_forall_dec sig_not_dec
