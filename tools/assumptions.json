{
"C40_normalize": [
"sig_not_dec",
"sig_forall_dec",
"functional_extensionality_dep"
],
"C40_normalize_symbolic": [],
"C40_integers_refuted": [
"sig_forall_dec",
"functional_extensionality_dep"
],
"C40_clifford_range": [
"sig_forall_dec",
"functional_extensionality_dep"
],
"C40_to_pauli_sound": [
"sig_not_dec",
"sig_forall_dec",
"functional_extensionality_dep"
],
"C40_to_pauli_complete": [
"sig_not_dec",
"sig_forall_dec",
"functional_extensionality_dep"
],
"C40_to_pauli_exact": [
"sig_not_dec",
"sig_forall_dec",
"functional_extensionality_dep"
],
"C40_to_pauli_or_bloch": [
"sig_not_dec",
"sig_forall_dec",
"functional_extensionality_dep"
],
"C40_isclose": [
"sig_forall_dec",
"functional_extensionality_dep"
],
"C40_neg": [
"sig_not_dec",
"sig_forall_dec",
"functional_extensionality_dep"
],
"C27_trace_preserving": [
"sig_forall_dec",
"functional_extensionality_dep"
],
"C27_positive": [
"sig_forall_dec",
"functional_extensionality_dep"
],
"C27_apply_succeeds": [
"sig_not_dec",
"sig_forall_dec",
"functional_extensionality_dep"
],
"C27_complete": [
"sig_not_dec",
"sig_forall_dec",
"functional_extensionality_dep"
],
"C27_dephasing": [
"sig_not_dec",
"sig_forall_dec",
"functional_extensionality_dep"
],
"C27_depolarising": [
"sig_not_dec",
"sig_forall_dec",
"functional_extensionality_dep"
],
"C27_amplitude_damping": [
"sig_not_dec",
"sig_forall_dec",
"functional_extensionality_dep"
],
"C27_two_qubit_depolarising": [
"sig_not_dec",
"sig_forall_dec",
"functional_extensionality_dep"
],
"C27_two_qubit_depolarising_tensor": [
"sig_not_dec",
"sig_forall_dec",
"functional_extensionality_dep"
],
"C27_two_qubit_amplitude_damping": [
"sig_not_dec",
"sig_forall_dec",
"functional_extensionality_dep"
],
"C27_pauli_channel_refuted": [
"sig_not_dec",
"sig_forall_dec",
"functional_extensionality_dep"
],
"C27_pauli_channel_wrong_action_refuted": [
"sig_not_dec",
"sig_forall_dec",
"functional_extensionality_dep"
],
"C30_tableau_round": [],
"C30_tableau_round_back": [],
"C30_tableau_meaning": [
"sig_forall_dec",
"functional_extensionality_dep"
],
"C30_str_round": [],
"C30_from_str": [],
"C30_out_of_range_refuted": [],
"C31_updates": [
"sig_not_dec",
"sig_forall_dec",
"functional_extensionality_dep"
],
"C31_synthesis": [
"sig_not_dec",
"sig_forall_dec",
"functional_extensionality_dep"
],
"C31_isometry": [],
"C31_empty_refuted": [
"sig_forall_dec"
],
"C32_exp_meaning": [
"sig_not_dec",
"sig_forall_dec",
"functional_extensionality_dep"
],
"C32_ladder": [
"sig_not_dec",
"sig_forall_dec",
"functional_extensionality_dep"
],
"C32_pass": [
"sig_not_dec",
"sig_forall_dec",
"functional_extensionality_dep"
],
"C32_er_to_circuit": [
"sig_not_dec",
"sig_forall_dec",
"functional_extensionality_dep"
],
"C32_incompatible": [
"sig_forall_dec",
"functional_extensionality_dep"
],
"C32_missing": [
"sig_forall_dec",
"functional_extensionality_dep"
],
"C32_docstring_refuted": [
"sig_not_dec",
"sig_forall_dec",
"functional_extensionality_dep"
],
"C20_gates": [
"sig_not_dec",
"sig_forall_dec",
"functional_extensionality_dep"
],
"C20_decomposition": [
"sig_not_dec",
"sig_forall_dec",
"functional_extensionality_dep"
],
"C20_circuit": [
"sig_not_dec",
"sig_forall_dec",
"functional_extensionality_dep"
],
"C20_total": [
"sig_forall_dec",
"functional_extensionality_dep"
],
"C23_dropped": [
"sig_forall_dec",
"functional_extensionality_dep"
],
"C23_refuted": [
"sig_not_dec",
"sig_forall_dec",
"functional_extensionality_dep"
],
"C23_no_identity_gate_partial": [
"sig_not_dec",
"sig_forall_dec",
"functional_extensionality_dep"
],
"C22_swaps": [
"sig_not_dec",
"sig_forall_dec",
"functional_extensionality_dep"
],
"C22_output_nodes_partial": [
"sig_not_dec",
"sig_forall_dec",
"functional_extensionality_dep"
],
"C22_output_nodes_keyerror": [],
"C22_output_nodes_refuted": [],
"C22_classical_outputs_refuted": [],
"C12_remove_useless_domains": [
"sig_not_dec",
"sig_forall_dec",
"functional_extensionality_dep"
],
"C12_single_qubit_domains": [
"sig_not_dec",
"sig_forall_dec",
"functional_extensionality_dep"
],
"C12_single_qubit_domains_total": [],
"C07_mul": [
"sig_not_dec",
"sig_forall_dec",
"functional_extensionality_dep"
],
"C07_conj": [
"sig_not_dec",
"sig_forall_dec",
"functional_extensionality_dep"
],
"C07_unitary": [
"sig_not_dec",
"sig_forall_dec",
"functional_extensionality_dep"
],
"C07_distinct": [
"sig_not_dec",
"sig_forall_dec",
"functional_extensionality_dep"
],
"C07_hsz": [
"sig_not_dec",
"sig_forall_dec",
"functional_extensionality_dep"
],
"C07_qasm3": [
"sig_not_dec",
"sig_forall_dec",
"functional_extensionality_dep"
],
"C07_measure": [
"sig_not_dec",
"sig_forall_dec",
"functional_extensionality_dep"
],
"C07_named": [
"sig_not_dec",
"sig_forall_dec",
"functional_extensionality_dep"
],
"C08_commute_domains": [
"sig_not_dec",
"sig_forall_dec",
"functional_extensionality_dep"
],
"C09_measurement_clifford": [
"sig_not_dec",
"sig_forall_dec",
"functional_extensionality_dep"
],
"C09_to_bloch": [
"sig_not_dec",
"sig_forall_dec",
"functional_extensionality_dep"
],
"C09_vector": [
"sig_not_dec",
"sig_forall_dec",
"functional_extensionality_dep"
],
"C10_describe_measurement": [
"sig_not_dec",
"sig_forall_dec",
"functional_extensionality_dep"
],
"C10_projector": [
"sig_not_dec",
"sig_forall_dec",
"functional_extensionality_dep"
],
"C11_pauli_product": [
"sig_forall_dec",
"functional_extensionality_dep"
],
"C11_pauli_neg": [
"sig_forall_dec",
"functional_extensionality_dep"
],
"C11_pauli_scale": [
"sig_forall_dec",
"functional_extensionality_dep"
],
"C11_unit_group": [
"sig_forall_dec",
"functional_extensionality_dep"
],
"C11_sign": [
"sig_forall_dec",
"functional_extensionality_dep"
],
"C11_axes": [
"sig_forall_dec",
"functional_extensionality_dep"
],
"C39_construct": [],
"C39_neighbors": [],
"C39_odd_neighbors": [],
"C39_unknown_node": [],
"C39_compose": [
"sig_forall_dec",
"functional_extensionality_dep"
],
"C39_sequential": [
"sig_not_dec",
"sig_forall_dec",
"functional_extensionality_dep"
],
"C39_empty_refuted": [
"sig_forall_dec",
"functional_extensionality_dep"
],
"C39_common_edge_refuted": [
"sig_not_dec",
"sig_forall_dec",
"functional_extensionality_dep"
],
"C39_clifford_refuted": [
"sig_not_dec",
"sig_forall_dec",
"functional_extensionality_dep"
],
"C48_simulation": [
"sig_not_dec",
"sig_forall_dec",
"functional_extensionality_dep"
],
"C48_probabilities": [
"sig_not_dec",
"sig_forall_dec",
"functional_extensionality_dep"
],
"C48_agrees": [
"sig_not_dec",
"sig_forall_dec",
"functional_extensionality_dep"
],
"C48_zero_noise": [
"sig_not_dec",
"sig_forall_dec",
"functional_extensionality_dep"
],
"C48_self_edge_refuted": [
"sig_not_dec",
"sig_forall_dec",
"functional_extensionality_dep"
],
"C44_to_pattern": [
"sig_not_dec",
"sig_forall_dec",
"functional_extensionality_dep"
],
"C45_round_trip": [
"sig_not_dec",
"sig_forall_dec",
"functional_extensionality_dep"
],
"C15_finder_sound_complete": [],
"C15_found_checks": [],
"C15_maximally_delayed": [],
"C15_pattern": [
"sig_not_dec",
"sig_forall_dec",
"functional_extensionality_dep"
],
"C42_pauli_flow_check_decides": [],
"C42_gflow_check_decides": [],
"C42_causal_flow_check_decides": [],
"C42_flow_hierarchy": [],
"C18_pauli_flow_deterministic": [
"sig_not_dec",
"sig_forall_dec",
"functional_extensionality_dep"
],
"C18_gflow_deterministic": [
"sig_not_dec",
"sig_forall_dec",
"functional_extensionality_dep"
],
"C18_causal_flow_deterministic": [
"sig_not_dec",
"sig_forall_dec",
"functional_extensionality_dep"
],
"C18_equal_probability": [
"sig_not_dec",
"sig_forall_dec",
"functional_extensionality_dep"
],
"C18_self_loop_refuted": [
"sig_forall_dec"
],
"C17_pauliflow_sound_complete": [],
"C17_gflow_sound_complete": [],
"C17_found_checks": [],
"C17_minimal_depth": [],
"C17_pattern": [
"sig_not_dec",
"sig_forall_dec",
"functional_extensionality_dep"
],
"C17_maximally_delayed_refuted": [
"sig_forall_dec"
],
"C17_self_loop_refuted": [],
"C43_is_focused_decides": [],
"C43_found_focused": [],
"C36_gates": [
"sig_not_dec",
"sig_forall_dec",
"functional_extensionality_dep"
],
"C36_gate_s_partial": [
"sig_not_dec",
"sig_forall_dec",
"functional_extensionality_dep"
],
"C36_gate_s_refuted": [
"sig_not_dec",
"sig_forall_dec",
"functional_extensionality_dep"
],
"C36_equivalent_graphs": [
"sig_not_dec",
"sig_forall_dec",
"functional_extensionality_dep"
],
"C36_fill_node": [
"sig_not_dec",
"sig_forall_dec",
"functional_extensionality_dep"
],
"C36_measure": [
"sig_not_dec",
"sig_forall_dec",
"functional_extensionality_dep"
],
"C36_measure_z_choice_refuted": [
"sig_not_dec",
"sig_forall_dec",
"functional_extensionality_dep"
],
"C36_extract_vops": [
"sig_not_dec",
"sig_forall_dec",
"functional_extensionality_dep"
],
"C36_apply_vops_partial": [
"sig_not_dec",
"sig_forall_dec",
"functional_extensionality_dep"
],
"C36_apply_vops_identity_refuted": [],
"C36_apply_vops_refuted": [
"sig_not_dec",
"sig_forall_dec",
"functional_extensionality_dep"
],
"C29_bijection": [],
"C29_operations": [],
"C29_duplicate_extend_refuted": [],
"C35_to_opengraph": [
"sig_not_dec",
"sig_forall_dec",
"functional_extensionality_dep"
],
"C35_remove_local_clifford": [
"sig_not_dec",
"sig_forall_dec",
"functional_extensionality_dep"
],
"C35_identity_refuted": [],
"C16_elimination": [],
"C16_rank": [],
"C16_right_inverse": [],
"C16_right_inverse_full_rank": [],
"C16_null_space": [],
"C16_mat_mul": [],
"C16_solve": [],
"C34_only_inserts": [],
"C34_commands_kept": [],
"C34_error": [],
"C34_components": [],
"C34_input_components": [],
"C34_live": [],
"C34_confuse": [
"sig_forall_dec",
"functional_extensionality_dep"
],
"C34_confuse_extreme": [
"sig_forall_dec",
"functional_extensionality_dep"
],
"C34_noiseless": [],
"C14_topological_generations": [],
"C14_layers_unique": [],
"C19_from_mapping_decides": [],
"C19_check_well_formed_decides": [],
"C19_pattern": [],
"C19_unknown_node_refuted": [
"sig_forall_dec"
],
"C19_empty_order_refuted": [],
"C26_refuted": [
"sig_forall_dec",
"functional_extensionality_dep"
],
"C26_arithmetic_partial": [
"sig_forall_dec",
"functional_extensionality_dep"
],
"C26_add_exact": [
"sig_forall_dec",
"functional_extensionality_dep"
],
"C26_with_parameter": [
"sig_forall_dec",
"functional_extensionality_dep"
],
"C26_with_parameters": [
"sig_forall_dec",
"functional_extensionality_dep"
],
"C26_substitution_total": [
"sig_forall_dec",
"functional_extensionality_dep"
],
"C26_subst_commutes_partial": [
"sig_forall_dec",
"functional_extensionality_dep"
],
"C13_cut": [
"sig_not_dec",
"sig_forall_dec",
"functional_extensionality_dep"
],
"C13_perform_pauli_pushing": [
"sig_not_dec",
"sig_forall_dec",
"functional_extensionality_dep"
],
"C46_to_pauliflow": [],
"C46_pauliflow_round_trip": [],
"C46_to_causalflow": [],
"C46_to_gflow": [],
"C46_pattern_pauliflow": [
"sig_not_dec",
"sig_forall_dec",
"functional_extensionality_dep"
],
"C46_chain_causalflow": [
"sig_not_dec",
"sig_forall_dec",
"functional_extensionality_dep"
],
"C46_chain_gflow": [
"sig_not_dec",
"sig_forall_dec",
"functional_extensionality_dep"
],
"C46_causalflow_round_trip": [],
"C46_gflow_round_trip": [],
"C46_input_x_refuted": [
"sig_not_dec",
"sig_forall_dec",
"functional_extensionality_dep"
],
"C46_missing_z_refuted": [
"sig_not_dec",
"sig_forall_dec",
"functional_extensionality_dep"
],
"C49_node_mapping": [],
"C49_reindex": [
"sig_not_dec",
"sig_forall_dec",
"functional_extensionality_dep"
],
"C25_compose": [
"sig_not_dec",
"sig_forall_dec",
"functional_extensionality_dep"
],
"C25_rejects": [],
"C25_empty_self_refuted": [],
"C37_standardized": [
"sig_not_dec",
"sig_forall_dec",
"functional_extensionality_dep"
],
"C37_all_removed": [
"sig_not_dec",
"sig_forall_dec",
"functional_extensionality_dep"
],
"C37_remove_pauli_measurements": [
"sig_not_dec",
"sig_forall_dec",
"functional_extensionality_dep"
],
"C37_isolated_refuted": [
"sig_not_dec",
"sig_forall_dec",
"functional_extensionality_dep"
],
"C37_preparations_refuted": [
"sig_not_dec",
"sig_forall_dec",
"functional_extensionality_dep"
],
"C47_z_axis": [
"sig_not_dec",
"sig_forall_dec",
"functional_extensionality_dep"
],
"C47_j_to_rzh": [
"sig_not_dec",
"sig_forall_dec",
"functional_extensionality_dep"
],
"C06_direct": [
"sig_not_dec",
"sig_forall_dec",
"functional_extensionality_dep"
],
"C06_direct_removes_signals": [
"sig_forall_dec",
"functional_extensionality_dep"
],
"C06_mc": [
"sig_not_dec",
"sig_forall_dec",
"functional_extensionality_dep"
],
"C06_rejects": [
"sig_forall_dec",
"functional_extensionality_dep"
],
"C06_direct_vice_versa_refuted": [
"sig_not_dec",
"sig_forall_dec",
"functional_extensionality_dep"
],
"C33_fixed": [
"sig_forall_dec",
"functional_extensionality_dep"
],
"C33_const": [],
"C33_random": [
"sig_forall_dec",
"functional_extensionality_dep"
],
"C33_probabilities": [
"sig_not_dec",
"sig_forall_dec",
"functional_extensionality_dep"
],
"C33_certain_zero": [
"sig_forall_dec",
"functional_extensionality_dep"
],
"C33_impossible_outcome_refuted": [
"sig_forall_dec",
"functional_extensionality_dep"
],
"C38_simulation": [
"sig_not_dec",
"sig_forall_dec",
"functional_extensionality_dep"
],
"C38_fixed_branch": [
"sig_not_dec",
"sig_forall_dec",
"functional_extensionality_dep"
],
"C41_inferred": [
"sig_not_dec",
"sig_forall_dec",
"functional_extensionality_dep"
],
"C41_accepts": [
"sig_not_dec",
"sig_forall_dec",
"functional_extensionality_dep"
],
"C41_nqubit_refuted": [
"sig_not_dec",
"sig_forall_dec",
"functional_extensionality_dep"
],
"C41_nqubit_zero_vector": [
"sig_not_dec",
"sig_forall_dec",
"functional_extensionality_dep"
],
"C24_minimize_space_preserves": [
"sig_not_dec",
"sig_forall_dec",
"functional_extensionality_dep"
],
"C24_minimize_space_default": [
"sig_not_dec",
"sig_forall_dec",
"functional_extensionality_dep"
],
"C24_space_optimal": [
"sig_not_dec",
"sig_forall_dec",
"functional_extensionality_dep"
],
"C24_causal_order_optimal": [
"sig_forall_dec",
"functional_extensionality_dep"
],
"C24_parallelize_preserves": [
"sig_not_dec",
"sig_forall_dec",
"functional_extensionality_dep"
],
"C24_parallelize_depth": [],
"C24_parallelize_no_outputs_refuted": [
"sig_forall_dec",
"functional_extensionality_dep"
],
"C24_minimize_space_states_refuted": [
"sig_forall_dec",
"functional_extensionality_dep"
],
"C28_index_convention": [],
"C28_tensor": [
"sig_forall_dec",
"functional_extensionality_dep"
],
"C28_add_plus": [
"sig_not_dec",
"sig_forall_dec",
"functional_extensionality_dep"
],
"C28_swap": [
"functional_extensionality_dep"
],
"C28_entangle": [
"sig_forall_dec",
"functional_extensionality_dep"
],
"C28_evolve_single": [
"sig_forall_dec",
"functional_extensionality_dep"
],
"C28_expectation": [
"sig_forall_dec",
"functional_extensionality_dep"
],
"C28_project": [
"sig_not_dec",
"sig_forall_dec",
"functional_extensionality_dep"
],
"C28_permute": [],
"C01_standardize_preserves_computation": [
"sig_not_dec",
"sig_forall_dec",
"functional_extensionality_dep"
],
"C01_standardize_total": [
"sig_not_dec",
"sig_forall_dec",
"functional_extensionality_dep"
],
"C01_standardize_total_without_clifford": [
"sig_not_dec",
"sig_forall_dec",
"functional_extensionality_dep"
],
"C02_standard_order": [
"sig_not_dec",
"sig_forall_dec",
"functional_extensionality_dep"
],
"C03_standardize_runnable": [
"sig_not_dec",
"sig_forall_dec",
"functional_extensionality_dep"
],
"C04_check_runnability_exact": [],
"C05_container": [],
"C05_history": [],
"C05_reorder": [],
"C21_transpile_without_swaps": [
"sig_not_dec",
"sig_forall_dec",
"functional_extensionality_dep"
],
"C21_transpile": [
"sig_not_dec",
"sig_forall_dec",
"functional_extensionality_dep"
],
"C21_transpile_unitary": [
"sig_not_dec",
"sig_forall_dec",
"functional_extensionality_dep"
],
"C21_rzz_same_qubit_refuted": [
"sig_forall_dec",
"functional_extensionality_dep"
],
"C21_identity_refuted": [
"sig_forall_dec",
"functional_extensionality_dep"
],
"C50_extract_circuit": [
"sig_not_dec",
"sig_forall_dec",
"functional_extensionality_dep"
],
"C50_pattern": [
"sig_not_dec",
"sig_forall_dec",
"functional_extensionality_dep"
],
"C50_og_to_circuit": [
"sig_not_dec",
"sig_forall_dec",
"functional_extensionality_dep"
],
"C50_minus_input_refuted": [
"sig_not_dec",
"sig_forall_dec",
"functional_extensionality_dep"
],
"C50_errors": [
"sig_forall_dec",
"functional_extensionality_dep"
],
"C51_pattern": [
"sig_not_dec",
"sig_forall_dec",
"functional_extensionality_dep"
],
"C51_exact": [
"sig_not_dec",
"sig_forall_dec",
"functional_extensionality_dep"
],
"C51_errors": [
"sig_not_dec",
"sig_forall_dec",
"functional_extensionality_dep"
],
"C52_circuit": [
"sig_not_dec",
"sig_forall_dec",
"functional_extensionality_dep"
],
"C52_exact": [
"sig_not_dec",
"sig_forall_dec",
"functional_extensionality_dep"
],
"C52_direct": [
"sig_not_dec",
"sig_forall_dec",
"functional_extensionality_dep"
],
"C52_rzz_refuted": [
"sig_not_dec",
"sig_forall_dec",
"functional_extensionality_dep"
],
"C53_run": [
"sig_not_dec",
"sig_forall_dec",
"functional_extensionality_dep"
],
"C53_statevector": [
"sig_not_dec",
"sig_forall_dec",
"functional_extensionality_dep"
],
"C53_fixed_branch": [
"sig_not_dec",
"sig_forall_dec",
"functional_extensionality_dep"
],
"C53_agrees": [
"sig_not_dec",
"sig_forall_dec",
"functional_extensionality_dep"
],
"C53_other_input": [
"sig_not_dec",
"sig_forall_dec",
"functional_extensionality_dep"
],
"C53_draws": [
"sig_not_dec",
"sig_forall_dec",
"functional_extensionality_dep"
],
"C53_probability_refuted": [
"sig_not_dec",
"sig_forall_dec",
"functional_extensionality_dep"
],
"C54_partition": [],
"C54_terminates": [],
"C54_fusion_nodes": [],
"C54_equal": [],
"C54_ghz_limit_refuted": [],
"C54_lin_limit_refuted": [],
"C54_ghz_size_refuted": [],
"C54_linear_refuted": [],
"C54_loop_refuted": [],
"C55_simulate": [
"sig_not_dec",
"sig_forall_dec",
"functional_extensionality_dep"
],
"C55_unitary": [
"sig_not_dec",
"sig_forall_dec",
"functional_extensionality_dep"
],
"C55_pattern_and_circuit": [
"sig_not_dec",
"sig_forall_dec",
"functional_extensionality_dep"
],
"C55_transpile_without_swaps": [
"sig_not_dec",
"sig_forall_dec",
"functional_extensionality_dep"
],
"C55_transpile": [
"sig_not_dec",
"sig_forall_dec",
"functional_extensionality_dep"
],
"C55_transpile_unitary": [
"sig_not_dec",
"sig_forall_dec",
"functional_extensionality_dep"
],
"C56_fidelity": [
"sig_not_dec",
"sig_forall_dec",
"functional_extensionality_dep"
],
"C56_isclose": [
"sig_not_dec",
"sig_forall_dec",
"functional_extensionality_dep"
],
"C56_unitary_invariance": [
"sig_not_dec",
"sig_forall_dec",
"functional_extensionality_dep"
],
"C56_expectation_value": [
"sig_not_dec",
"sig_forall_dec",
"functional_extensionality_dep"
],
"C56_to_dict": [
"sig_not_dec",
"sig_forall_dec",
"functional_extensionality_dep"
],
"C56_to_prob_dict": [
"sig_not_dec",
"sig_forall_dec",
"functional_extensionality_dep"
],
"C56_to_dict_no_qubit_refuted": [
"sig_not_dec",
"sig_forall_dec",
"functional_extensionality_dep"
],
"C56_dm_fidelity": [
"sig_not_dec",
"sig_forall_dec",
"functional_extensionality_dep"
],
"C56_ptrace": [
"sig_forall_dec",
"functional_extensionality_dep"
],
"C56_ptrace_product": [
"sig_forall_dec",
"functional_extensionality_dep"
],
"C56_dm_swap": [
"sig_forall_dec",
"functional_extensionality_dep"
],
"C56_dm_cnot": [
"sig_not_dec",
"sig_forall_dec",
"functional_extensionality_dep"
],
"C56_dm_expectation": [
"sig_forall_dec",
"functional_extensionality_dep"
],
"C56_expectation_mutates_refuted": [
"sig_forall_dec",
"functional_extensionality_dep"
],
"C56_evolve_repeated_refuted": [
"sig_forall_dec",
"functional_extensionality_dep"
],
"C57_rand_circuit": [
"sig_forall_dec",
"functional_extensionality_dep"
],
"C57_rand_circuit_usable": [
"sig_not_dec",
"sig_forall_dec",
"functional_extensionality_dep"
],
"C57_rand_circuit_small": [
"sig_forall_dec",
"functional_extensionality_dep"
],
"C57_rand_gate": [
"sig_forall_dec"
],
"C57_rand_gate_refuted": [
"sig_forall_dec"
],
"C57_parameters_iterator_refuted": [
"sig_forall_dec",
"functional_extensionality_dep"
],
"C57_rand_herm": [
"sig_forall_dec",
"functional_extensionality_dep"
],
"C57_rand_dm": [
"sig_forall_dec",
"functional_extensionality_dep"
],
"C57_rand_dm_qubits": [
"sig_forall_dec",
"functional_extensionality_dep"
],
"C57_rand_state_vector": [
"sig_not_dec",
"sig_forall_dec",
"functional_extensionality_dep"
],
"C57_rand_channel_kraus": [
"sig_not_dec",
"sig_forall_dec",
"functional_extensionality_dep"
],
"C57_rand_pauli_channel": [
"sig_not_dec",
"sig_forall_dec",
"functional_extensionality_dep"
],
"C57_pauli_ops": [
"sig_forall_dec"
],
"C58_recognize": [
"sig_not_dec",
"sig_forall_dec",
"functional_extensionality_dep"
],
"C58_complex": [
"sig_not_dec",
"sig_forall_dec",
"functional_extensionality_dep"
],
"C58_state": [
"sig_not_dec",
"sig_forall_dec",
"functional_extensionality_dep"
],
"C58_statevec": [
"sig_not_dec",
"sig_forall_dec",
"functional_extensionality_dep"
],
"C58_decimal_sum_refuted": [
"sig_not_dec",
"sig_forall_dec",
"functional_extensionality_dep"
],
"C58_phase_sum_refuted": [
"sig_not_dec",
"sig_forall_dec",
"functional_extensionality_dep"
],
"C58_tolerance_refuted": [
"sig_not_dec",
"sig_forall_dec",
"functional_extensionality_dep"
],
"C59_command": [
"sig_not_dec",
"sig_forall_dec",
"functional_extensionality_dep"
],
"C59_pattern": [
"sig_not_dec",
"sig_forall_dec",
"functional_extensionality_dep"
],
"C59_direction": [
"sig_not_dec",
"sig_forall_dec",
"functional_extensionality_dep"
],
"C59_limit": [
"sig_not_dec",
"sig_forall_dec",
"functional_extensionality_dep"
],
"C59_angle": [
"sig_not_dec",
"sig_forall_dec",
"functional_extensionality_dep"
],
"C59_fraction": [
"sig_not_dec",
"sig_forall_dec",
"functional_extensionality_dep"
],
"C59_flow": [],
"C59_xzcorr": [],
"C59_layers": [],
"C59_limit_refuted": [
"sig_not_dec",
"sig_forall_dec",
"functional_extensionality_dep"
],
"C59_label_refuted": [
"sig_not_dec",
"sig_forall_dec",
"functional_extensionality_dep"
],
"C60_layout": [],
"C60_layer_texts": [
"sig_forall_dec"
],
"C60_flow_arrows": [],
"C60_xz_arrows": [],
"C60_near": [
"sig_not_dec",
"sig_forall_dec",
"functional_extensionality_dep"
],
"C60_control_point": [
"sig_not_dec",
"sig_forall_dec",
"functional_extensionality_dep"
],
"C60_curve": [
"sig_forall_dec",
"functional_extensionality_dep"
],
"C60_drawing": [
"sig_not_dec",
"sig_forall_dec",
"functional_extensionality_dep"
],
"C60_arrow": [
"sig_not_dec",
"sig_forall_dec",
"functional_extensionality_dep"
],
"C60_self_loop": [
"sig_not_dec",
"sig_forall_dec",
"functional_extensionality_dep"
],
"C60_shorten": [
"sig_not_dec",
"sig_forall_dec",
"functional_extensionality_dep"
],
"C60_distance_refuted": [
"sig_not_dec",
"sig_forall_dec",
"functional_extensionality_dep"
],
"C61_fields": [],
"C61_fields_determine": [],
"C61_exceptions": [],
"C61_identity": [],
"C61_compose": [],
"C61_history": [],
"C61_copy": [],
"C61_in_place": [],
"C61_rename": [
"sig_not_dec",
"sig_forall_dec",
"functional_extensionality_dep"
],
"C61_rename_builds": [],
"C61_rename_refuted": [],
"C61_active": [],
"C61_active_refuted": [],
"C61_whole_turns": [
"sig_not_dec",
"sig_forall_dec",
"functional_extensionality_dep"
],
"C61_replace_parameter": [
"sig_forall_dec",
"functional_extensionality_dep"
],
"C61_replace_parameters": [
"sig_forall_dec",
"functional_extensionality_dep"
],
"C61_all_numbers": [
"sig_forall_dec",
"functional_extensionality_dep"
],
"C61_is_parameterized": [],
"C61_is_parameterized_sound": [],
"C61_is_parameterized_refuted": [
"sig_forall_dec"
],
"C62_axes": [],
"C62_from_axes": [],
"C62_from_axes_error": [],
"C62_from_axes_sym": [],
"C62_polar": [
"sig_not_dec",
"sig_forall_dec",
"functional_extensionality_dep"
],
"C62_density": [
"sig_not_dec",
"sig_forall_dec",
"functional_extensionality_dep"
],
"C62_mean": [
"sig_not_dec",
"sig_forall_dec",
"functional_extensionality_dep"
],
"C62_born": [
"sig_not_dec",
"sig_forall_dec",
"functional_extensionality_dep"
],
"C62_measure_own": [
"sig_not_dec",
"sig_forall_dec",
"functional_extensionality_dep"
],
"C62_eigenstate": [
"sig_not_dec",
"sig_forall_dec",
"functional_extensionality_dep"
],
"C62_eigenstate_identity": [
"sig_not_dec",
"sig_forall_dec",
"functional_extensionality_dep"
],
"C62_eigenstate_orthogonal": [
"sig_not_dec",
"sig_forall_dec",
"functional_extensionality_dep"
],
"C62_eigenstate_error": [
"sig_forall_dec",
"functional_extensionality_dep"
],
"C62_pauli_measurement": [
"sig_not_dec",
"sig_forall_dec",
"functional_extensionality_dep"
],
"C62_iterate": [],
"C62_iterate_measurements": [],
"C62_clifford_plane": [],
"C62_clifford_compose": [],
"C62_clifford_axis": [
"sig_not_dec",
"sig_forall_dec",
"functional_extensionality_dep"
],
"C63_apply": [],
"C63_map": [],
"C63_map_runnable": [],
"C63_same_computation": [
"sig_not_dec",
"sig_forall_dec",
"functional_extensionality_dep"
],
"C63_runnable": [],
"C63_blochify": [
"sig_not_dec",
"sig_forall_dec",
"functional_extensionality_dep"
],
"C63_downcast": [],
"C63_infer": [
"sig_not_dec",
"sig_forall_dec",
"functional_extensionality_dep"
],
"C63_infer_exact": [
"sig_not_dec",
"sig_forall_dec",
"functional_extensionality_dep"
],
"C63_present": [],
"C63_space_list": [],
"C63_space_list_refuted": [],
"C63_max_space": [],
"C63_graph": [
"sig_forall_dec",
"functional_extensionality_dep"
],
"C63_isolated": [
"sig_forall_dec",
"functional_extensionality_dep"
],
"C63_connected": [
"sig_not_dec",
"sig_forall_dec",
"functional_extensionality_dep"
],
"C63_connected_error": [
"sig_forall_dec",
"functional_extensionality_dep"
],
"C63_connected_refuted": [
"sig_forall_dec",
"functional_extensionality_dep"
],
"C63_corrections": [],
"C64_structural": [],
"C64_structural_equivalence": [],
"C64_isclose": [
"sig_forall_dec",
"functional_extensionality_dep"
],
"C64_isclose_sym": [
"sig_forall_dec",
"functional_extensionality_dep"
],
"C64_exact": [
"sig_forall_dec",
"functional_extensionality_dep"
],
"C64_exact_map": [
"sig_not_dec",
"sig_forall_dec",
"functional_extensionality_dep"
],
"C64_map": [],
"C64_map_same_computation": [
"sig_not_dec",
"sig_forall_dec",
"functional_extensionality_dep"
],
"C64_to_bloch": [
"sig_not_dec",
"sig_forall_dec",
"functional_extensionality_dep"
],
"C64_downcast": [
"sig_forall_dec",
"functional_extensionality_dep"
],
"C64_infer": [
"sig_not_dec",
"sig_forall_dec",
"functional_extensionality_dep"
],
"C64_infer_exact": [
"sig_not_dec",
"sig_forall_dec",
"functional_extensionality_dep"
],
"C65_is_qubitop": [],
"C65_ilog2": [],
"C65_ilog2_floor": [],
"C65_ilog2_floor_refuted": [],
"C65_kraus_data": [],
"C65_channel": [
"sig_not_dec",
"sig_forall_dec",
"functional_extensionality_dep"
],
"C65_channel_exact": [
"sig_not_dec",
"sig_forall_dec",
"functional_extensionality_dep"
],
"C65_channel_model": [
"sig_not_dec",
"sig_forall_dec",
"functional_extensionality_dep"
],
"C65_is_hermitian": [
"sig_not_dec",
"sig_forall_dec",
"functional_extensionality_dep"
],
"C65_is_psd": [
"sig_not_dec",
"sig_forall_dec",
"functional_extensionality_dep"
],
"C65_is_unit_trace": [
"sig_not_dec",
"sig_forall_dec",
"functional_extensionality_dep"
],
"C66_tensor_in_bounds": [
"sig_forall_dec"
],
"C66_add_default_in_bounds": [
"sig_not_dec",
"sig_forall_dec",
"functional_extensionality_dep"
],
"C66_swap_in_bounds": [],
"C66_entangle_in_bounds": [
"sig_forall_dec"
],
"C66_evolve_in_bounds": [
"sig_forall_dec"
],
"C66_project_in_bounds": [
"sig_not_dec",
"sig_forall_dec",
"functional_extensionality_dep"
],
"C66_ensure_capacity": [],
"C66_constructor": [
"sig_not_dec",
"sig_forall_dec",
"functional_extensionality_dep"
],
"C66_copy": [],
"C66_add_plus": [
"sig_not_dec",
"sig_forall_dec",
"functional_extensionality_dep"
],
"C66_tensor": [
"sig_forall_dec",
"functional_extensionality_dep"
],
"C66_methods": [
"sig_not_dec",
"sig_forall_dec",
"functional_extensionality_dep"
],
"C66_history": [
"sig_not_dec",
"sig_forall_dec",
"functional_extensionality_dep"
],
"C66_no_reallocation": [
"sig_not_dec",
"sig_forall_dec",
"functional_extensionality_dep"
],
"C66_swap_signed": [],
"C66_swap_unchecked_refuted": []
}