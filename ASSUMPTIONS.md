# Print Assumptions for every theorem of MANIFEST.json

Written by `tools/assumptions.py`.

## Closed under the global context (484 theorems)

C01_counts_after_step, C01_defined, C02_species_lists, C02_partition, C02_dimensions, C03_active_sites, C03_np_unique, C03_active_sites_any, C03_partition, C03_restrict_laws, C04_ensemble, C04_split, C04_disjoint_cover, C04_codes_keep_species_partial, C04_light_vacancy_refuted, C04_species_groups, C04_wf_reachable, C05_flip_legal, C05_flip_total, C05_flip_probability, C05_flip_symmetric, C06_swap_legal, C06_swap_conserves, C06_swap_total, C06_swap_probability, C06_swap_symmetric, C07_multistep_chain, C07_multistep_reach, C07_multistep_inherits, C07_multistep_swap, C08_probabilities, C08_add_raises_iff, C08_delegates, C09_table_flip_legal, C09_constraints_kept, C09_table_flip_total, C15_beta_consistent, C15_multicell_temperature, C19_charge_value, C19_charge_change, C19_charge_sign, C19_hyperplane_value, C19_hyperplane_change, C19_fugacity_rejected, C20_parameters, C20_assign_complete, C20_assign_rejected, C20_chemical_work, C21_no_potentials, C21_feature_change_partial, C21_repeated_site_refuted, C23_stale_start_refuted, C24_selected, C24_zero_thin, C24_minimum, C24_minimum_occupancy_partial, C24_efficiency_bounds, C24_minimum_occupancy_walkers_refuted, C24_minimum_occupancy_single_refuted, C25_append, C25_load, C25_history, C25_dict, C25_unused_rows_refuted, C26_change, C26_value, C27_change, C28_value, C28_change, C28_symmetry_needed, C29_property, C29_change, C30_value_partial, C30_change_partial, C30_difference, C30_shapes_refuted, C30_empty_refuted, C31_encode_decode, C31_decode_encode, C31_rejects, C31_structure, C32_correlations, C32_interactions, C32_changes, C33_ids, C33_owner, C33_remove_functions, C33_remove_orbits, C33_orbits_left, C34_entry, C34_bijection, C34_loop, C35_partition, C36_fraction, C36_weighted_partial, C36_sum_refuted, C37_groups, C37_classes, C38_invert, C38_invert_twice, C38_complete, C38_cyclic_diverges, C39_forms, C39_sublattices, C39_supercells, C40_terminates, C40_bezout, C41_decomposition_partial, C41_smith_partial, C41_smith_refuted, C42_raises, C42_sound, C42_lattice_partial, C42_one_zero_partial, C42_infeasible_refuted, C42_missing_refuted, C42_default_refuted, C43_one_dim_partial, C43_one_dim_all_partial, C43_unbounded, C43_tolerance_refuted, C43_natural_partial, C43_natural_step_partial, C44_mask_exact, C44_mask_defined, C45_accept, C45_reject_partial, C45_tolerance, C45_coordinates_partial, C45_regular, C45_compositions, C45_fractions, C45_species, C45_inequality_refuted, C45_large_refuted, C45_redundant_refuted, C45_doubled_refuted, C46_string_partial, C46_refusal, C46_numbers, C46_manager_partial, C46_lost_number_refuted, C46_rounding_refuted, C46_label_refuted, C46_second_refuted, C47_duplicates_partial, C47_cutoffs_partial, C47_external_refuted, C47_matching_groups, C47_matching_partial, C47_decimals_refuted, C48_aligned_partial, C48_normalized, C48_add_properties, C48_add_weights, C48_add_entry, C48_remove_properties, C48_remove_entry, C48_indices_partial, C48_missing_property_refuted, C48_remove_stops_refuted, C48_stale_indices_refuted, C49_unique, C49_ewald, C49_minimum_kept, C49_energies_partial, C49_last_term_refuted, C49_above, C50_round_trip, C50_variables, C50_rounding, C50_rejects, C50_default_layout, C50_restricted_layout, C50_split_layout_partial, C50_light_vacancy_refuted, C51_value, C51_exact, C51_auxiliary, C51_objective, C51_products, C51_refused, C51_cutoff, C52_value, C52_groups, C52_ground_state, C52_canonical, C52_semigrand, C52_full_table, C52_narrow_table_refuted, C53_run, C53_improving, C53_continue_partial, C53_best, C53_distinct_partial, C53_first_refuted, C53_restart_refuted, C53_rows_refuted, C53_duplicates_refuted, C53_steps_refuted, C55_features, C55_change, C55_diameter_unique, C55_subspace, C56_prune_partial, C56_multiplicity_partial, C56_fixed_dropped_refuted, C57_normal, C57_translation, C57_copy, C57_equal_iff, C57_reflexive, C57_symmetric, C57_moved, C58_equality_exact_partial, C58_prefix, C58_equality_refuted, C59_set_all, C59_nothing, C59_read, C59_read_refuted, C59_threads, C59_default, C59_again, C59_processor, C59_subspace_refuted, C59_empty_refuted, C60_idempotent, C60_spelling, C60_name, C60_listed, C60_factory, C60_every_spelling, C60_separators_refuted, C60_unsplit_refuted, C60_key_refuted, C61_default_layout_partial, C61_overlap_refuted, C62_order_partial, C62_total_partial, C62_uniform_total, C62_vacancy_last_refuted, C62_total_refuted, C63_symmetric, C63_composite, C64_sublattices, C64_setter, C64_uniform_lengths_partial, C64_step_probabilities_refuted, C65_species_counts, C66_work_partial, C66_unfreeze_refuted, C69_default_cells_partial, C69_hop_periods_partial, C69_cell_probabilities_refuted, C70_no_cluster_refuted, C71_tables, C72_subspace, C72_fresh, C72_empty_refuted, C72_potts_partial, C72_potts_refuted, C73_defaults_partial, C73_features_partial, C73_weights_refuted, C73_tolerance_refuted, C74_constant, C76_components, C76_fixed, C76_space, C76_default, C77_report_partial, C77_stale_refuted, C77_cut_refuted, C78_closest, C78_number, C78_vector, C78_exact, C78_multiple, C85_uniform, C85_decodes, C87_counts_partial, C87_end_member_refuted, C87_short_refuted, C87_single_refuted, C87_tuple_refuted, C88_sound, C88_pairs, C88_complete_partial, C88_total_partial, C88_skewed_refuted, C88_missing_refuted, C89_orbit, C89_multiplicity, C89_functions, C90_excluded, C90_ignored, C90_unchanged_partial, C90_repeat_refuted, C90_zero_refuted, C91_points, C91_sites, C91_rows, C92_invariant, C92_moved, C92_translations, C93_basis_partial, C93_two_partial, C93_space_partial, C93_half_refuted, C94_added, C94_neighbours_partial, C94_line_partial, C94_single_refuted, C94_disconnected_refuted, C95_history, C95_sound, C95_complete_partial, C95_all_partial, C95_half_refuted, C96_sub, C96_choice, C96_suborbits_partial, C96_hierarchy_partial, C96_min_size_refuted, C96_missing_refuted, C97_mappings, C97_functions, C97_hierarchy, C98_moved, C98_same, C98_repeated, C98_extensive, C99_made, C99_evaluated, C99_every_site, C100_mean_between, C100_variance_square, C100_statistics_partial, C100_single_refuted, C100_walkers, C100_energies_partial, C100_minimum_energy_partial, C100_removed_refuted, C101_species_counts_partial, C101_compositions_partial, C101_mean_compositions_partial, C101_single_refuted, C101_sublattice_partial, C102_single_partial, C102_samples_refuted, C103_weights, C103_variance, C103_basis, C103_supercell, C105_independent_partial, C105_maximal_partial, C105_maximal_refuted, C105_zero_refuted, C106_selected, C106_all_refuted, C106_limit_partial, C106_limit_refuted, C108_occupancy, C108_codes, C108_order, C108_scale, C108_round_trip, C108_sampled, C109_orbit_columns, C110_refine_partial, C110_refine_refuted, C112_energy, C112_types, C112_other, C112_change, C113_sublattice, C114_load_partial, C114_unfreeze_refuted, C114_freeze_refuted, C115_by_size, C115_cutoffs, C115_select, C115_by_dict, C115_tight, C115_by_diameter, C116_copy, C116_symmetric, C116_removed, C116_contains, C117_equal_partial, C117_equal_refuted, C117_transitive_refuted, C118_total, C118_orbit, C118_function, C119_removed_partial, C119_points_refuted, C120_accepted, C120_last, C120_processors, C120_refused, C120_lengths, C120_score, C120_best, C121_target_partial, C121_processors_refuted, C122_rows_partial, C122_lattice_refuted, C123_round_trip, C123_answers, C124_features_partial, C124_loaded, C124_shared_refuted, C124_appended_refuted, C124_changed_refuted, C125_set_partial, C125_dictionary_refuted, C127_table_proposals_partial, C128_added_partial, C128_init_refuted, C129_single_partial, C129_mixed_refuted, C130_processors, C130_values, C130_composites, C130_composite_values, C131_default_partial, C131_given_refuted, C132_copy, C133_no_data_partial, C133_data_refuted, C134_values_partial, C134_saved_refuted, C135_expansion_partial, C135_decomposition_partial, C135_ewald_partial, C135_term_refuted, C136_processor, C136_composite, C136_error, C137_found_partial, C137_unseen, C137_sites_refuted, C137_raises_refuted, C138_copy_partial, C138_load_partial, C138_vacancies_partial, C138_dropped_refuted, C138_charged_refuted, C138_measure_refuted, C139_failed, C139_failed_new, C139_new, C139_append, C139_history, C140_written_partial, C140_values_refuted, C140_ensembles_refuted, C141_reads, C141_new, C141_prune, C142_stale, C142_prune_partial, C142_reads_refuted, C142_prune_refuted, C143_start, C144_partition, C144_order, C145_partition_partial, C145_partition_refuted, C146_flips, C146_swaps, C150_closest, C150_found, C150_on_grid, C151_terms, C151_injective, C151_steps, C151_basis, C152_removed, C152_error, C152_any, C152_none

## Axioms of the standard library: `ClassicalDedekindReals.sig_forall_dec`, `FunctionalExtensionality.functional_extensionality_dep` (7 theorems)

C54_constant, C54_shift, C54_tolerance, C82_verdicts, C109_similarity, C111_order_partial, C111_order_refuted

## Axioms of the standard library: `ClassicalDedekindReals.sig_forall_dec`, `ClassicalDedekindReals.sig_not_dec`, `FunctionalExtensionality.functional_extensionality_dep` (43 theorems)

C11_detailed_balance, C11_random_balance, C11_flip_balance, C11_swap_balance, C54_judged, C54_first, C54_zero_refuted, C54_smallest_refuted, C67_detailed_balance, C79_complete, C79_values, C79_polynomials, C80_orthonormal_partial, C80_again, C80_measure_refuted, C81_rotations_partial, C81_accepted, C81_binary_partial, C81_binary_refuted, C81_negative_index_refuted, C82_sinusoid, C82_indicator, C83_read_partial, C83_read_orthonormalized, C83_none_refuted, C84_once_partial, C84_invalid_id, C84_accepted, C84_prefix_refuted, C104_correlations_partial, C104_orthogonal_partial, C104_built, C104_even_refuted, C104_removed_refuted, C107_selected_partial, C107_single_refuted, C107_orthogonal_refuted, C109_gram_plain, C109_gram, C147_flips, C147_swaps, C148_flips, C148_swaps

## Axioms of the standard library: `ClassicalDedekindReals.sig_forall_dec`, `ClassicalDedekindReals.sig_not_dec`, `Classical_Prop.classic`, `FunctionalExtensionality.functional_extensionality_dep` (51 theorems)

C10_priori_factor, C11_acceptance, C11_downhill, C11_tableflip_balance, C12_step_all_or_nothing, C12_step_defined, C13_recorded_values, C13_run_defined, C14_current_cell_partial, C14_step_partial, C14_own_array_partial, C14_stored_features_refuted, C15_annealing, C15_annealing_rejects, C16_window, C16_never_raises, C17_counters, C17_monotone, C17_step, C18_mean_features_partial, C18_update_period_refuted, C19_fugacity_change, C19_fugacity_value, C22_run_stored, C22_trajectory_unique, C22_history, C22_raises, C23_stream, C23_same_samples_partial, C23_leftover_lost_refuted, C23_after_memory_run_refuted, C68_between_hops_partial, C68_hop_refuted, C75_weights, C86_neutral, C86_attempts, C86_reachable, C86_seed_refuted, C86_fixed_refuted, C126_reproducible, C126_recorded, C126_walkers, C127_table_partial, C127_composite_refuted, C127_multistep_refuted, C127_swaps_refuted, C127_recorded_refuted, C143_composition, C147_step_draws, C149_odd_partial, C149_even_refuted
