{
 "claims": [
  {
   "property": "C01",
   "status": "proved",
   "theorems": [
    "C01_partial_product_entries",
    "C01_contracts_determines",
    "C01_partial_product_none",
    "C01_partial_product_refuses",
    "C01_reshape_variant_agrees"
   ],
   "note": ""
  },
  {
   "property": "C02",
   "status": "proved",
   "theorems": [
    "C02_different_axes_commute",
    "C02_same_axis_composes",
    "C02_identity_acts_trivially"
   ],
   "note": ""
  },
  {
   "property": "C03",
   "status": "proved",
   "theorems": [
    "C03_partial_trace_entries",
    "C03_full_scalar_product",
    "C03_mixed_axes_rejected"
   ],
   "note": ""
  },
  {
   "property": "C04",
   "status": "proved",
   "theorems": [
    "C04_global_inner_product",
    "C04_global_square"
   ],
   "note": "Axis lengths are positive (predicate fits); the square root of global_norm is not modelled."
  },
  {
   "property": "C05",
   "status": "proved",
   "theorems": [
    "C05_matrix_element",
    "C05_expection",
    "C05_symmetric_matrices",
    "C05_differs_for_a_hermitian_matrix"
   ],
   "note": ""
  },
  {
   "property": "C06",
   "status": "proved",
   "theorems": [
    "C06_queries_after_reset",
    "C06_old_value_without_reset"
   ],
   "note": "Queries are at objects of the tree, at no axis or at a linked axis; 'recomputing' is the same query on the heap with all stored values dropped. What that value is: C07."
  },
  {
   "property": "C07",
   "status": "proved",
   "theorems": [
    "C07_result_is_environment",
    "C07_taken_exactly_when"
   ],
   "note": ""
  },
  {
   "property": "C08",
   "status": "proved",
   "theorems": [
    "C08_vectorize",
    "C08_lone_leaf",
    "C08_slice_of_tensor",
    "C08_slices_disjoint",
    "C08_slices_inside",
    "C08_tensorize",
    "C08_tensorize_vectorize",
    "C08_vectorize_tensorize",
    "C08_tail_ignored",
    "C08_short_vector_raises"
   ],
   "note": "shape_dict is not modelled; a tensor without axes (np.prod(()) is a float) is treated as having length 1, where Python's slice would raise TypeError. A vector that is too short raises ValueError (C08_short_vector_raises)."
  },
  {
   "property": "C09",
   "status": "proved",
   "theorems": [
    "C09_link_free_slots",
    "C09_unlink_removes_pair",
    "C09_unlink_absent_raises",
    "C09_refused_unlink_changes_nothing",
    "C09_history_symmetric",
    "C09_link_occupied_dangles",
    "C09_unlink_to_missing"
   ],
   "note": "Slots linked to themselves ((a,i) = (b,j)) are excluded; there unlink pops once and then raises KeyError."
  },
  {
   "property": "C10",
   "status": "proved",
   "theorems": [
    "C10_accepts_exactly_complete"
   ],
   "note": ""
  },
  {
   "property": "C11",
   "status": "proved",
   "theorems": [
    "C11_visits_subtree_once",
    "C11_no_object_twice",
    "C11_parents_first",
    "C11_whole_network",
    "C11_tree_is_reachable_set"
   ],
   "note": "'Tree network' is the predicate hangs (the links unfold to a finite tree); that no object occurs twice is derived for networks in which no axis is linked to itself."
  },
  {
   "property": "C12",
   "status": "proved",
   "theorems": [
    "C12_linkage_visitor",
    "C12_edges_once",
    "C12_decorated_is_euler_tour",
    "C12_directed_only_at_start"
   ],
   "note": "'Exactly once' follows from C12_edges_once with C11_no_object_twice."
  },
  {
   "property": "C13",
   "status": "proved",
   "theorems": [
    "C13_realises_graph",
    "C13_names_bijection",
    "C13_leaves_are_the_other_names",
    "C13_complete",
    "C13_visitor_order",
    "C13_unknown_root"
   ],
   "note": "Tree-shaped: the graph unfolds to a finite tree with distinct names. An example shows that a child name listed twice gives an incomplete network."
  },
  {
   "property": "C14",
   "status": "proved",
   "theorems": [
    "C14_split_unite_keeps_links",
    "C14_unite_split_keeps_links",
    "C14_split_unite_needs_root",
    "C14_unite_needs_root"
   ],
   "note": "Premises: complete tensors joined by exactly one link, no axis of length zero, a name on both (at most one '+', none for unite_split); the decomposition returns three matrices of matching shapes; the operation run in between leaves links, names and other arrays alone (it may write arrays of leaves). The detached intermediate tensor is a new object. Started away from the root, split_unite stops with RuntimeError; unite stops when neither end is the root."
  },
  {
   "property": "C15",
   "status": "proved",
   "theorems": [
    "C15_split_unite_keeps_state",
    "C15_unite_split_keeps_state",
    "C15_moves_keep_state",
    "C15_untruncated_svd_is_exact"
   ],
   "note": "The premise on the SVD (exact_svd) is derived for the untruncated compressed_svd from a LAPACK factorisation in C15_untruncated_svd_is_exact. Networks are trees with parent axes pointing to the root, no axis of length zero and names without '+'. C15_moves_keep_state covers any sequence of moves."
  },
  {
   "property": "C16",
   "status": "proved",
   "theorems": [
    "C16_split_then_unite",
    "C16_single_axis_restored"
   ],
   "note": "The order of the axes after uniting is explicit. It is the identity for one axis with default positions united from the child (C16_single_axis_restored); united from the root that axis comes last (C16_example)."
  },
  {
   "property": "C17",
   "status": "proved",
   "theorems": [
    "C17_contraction_is_dense_state"
   ],
   "note": "Every tensor needs a name: unite raises TypeError otherwise."
  },
  {
   "property": "C18",
   "status": "proved",
   "theorems": [
    "C18_forward_sweep",
    "C18_backward_sweep"
   ],
   "note": ""
  },
  {
   "property": "C19",
   "status": "proved",
   "theorems": [
    "C19_second_order_symmetric"
   ],
   "note": ""
  },
  {
   "property": "C20",
   "status": "proved",
   "theorems": [
    "C20_forward_two_site",
    "C20_single_tensor_not_propagated"
   ],
   "note": ""
  },
  {
   "property": "C21",
   "status": "proved",
   "theorems": [
    "C21_backward_two_site_raises",
    "C21_second_order_two_site_raises"
   ],
   "note": ""
  },
  {
   "property": "C22",
   "status": "proved",
   "theorems": [
    "C22_first_order_is_the_sweep",
    "C22_totals",
    "C22_second_order_symmetric_iff_chain"
   ],
   "note": ""
  },
  {
   "property": "C23",
   "status": "proved",
   "theorems": [
    "C23_stored_environments_do_not_matter",
    "C23_entries_are_fresh",
    "C23_diff_keeps_arrays"
   ],
   "note": "Programs are arbitrary sequences of _form_env, propagations of the root and moves of the root to inner tensors, starting with _form_env; the calls made by the ODE solver and their vectors are arbitrary. The SVDs may truncate. An exception raised inside diff ends the modelled run (log_inner_product would swallow it)."
  },
  {
   "property": "C24",
   "status": "proved",
   "theorems": [
    "C24_entries_of_f_list_are_kept",
    "C24_time_dependent_terms_stale"
   ],
   "note": "Witness: one split_step on two tensors with one (constant) time-dependent term; C23 gives the claim for an empty f_list."
  },
  {
   "property": "C25",
   "status": "proved",
   "theorems": [
    "C25_time_grid",
    "C25_method",
    "C25_second_order",
    "C25_unknown_method"
   ],
   "note": "Steps, solver, root and energy are oracles on an arbitrary world; the theorem gives the pairs and the world at each pair for any number of calls of next, with steps=None too. Method names are ASCII strings. Steps that raise are C26."
  },
  {
   "property": "C26",
   "status": "proved",
   "theorems": [
    "C26_solver_finishes",
    "C26_limit_reached",
    "C26_at_most",
    "C26_direct_stops",
    "C26_swallowed",
    "C26_split_goes_on"
   ],
   "note": "The scipy solver, updater and reformer are arbitrary actions. The limit counts rounds of the loop: at the first positive multiple N of cmf_steps with N >= max_ode_steps, so at most N-1 solver steps are made. Splitting steps are blocks of guarded propagations and of moves that raise no RuntimeWarning."
  },
  {
   "property": "C27",
   "status": "proved",
   "theorems": [
    "C27_error_bound_minimal",
    "C27_small_matrix_keeps_one",
    "C27_rank_only",
    "C27_rank_and_loose_error",
    "C27_nonpositive_rank_rejected",
    "C27_rank_is_upper_bound_refuted"
   ],
   "note": ""
  },
  {
   "property": "C28",
   "status": "proved",
   "theorems": [
    "C28_untruncated_reproduces",
    "C28_truncation_loses_dropped_triplets",
    "C28_dmrg_compress_svd"
   ],
   "note": ""
  },
  {
   "property": "C29",
   "status": "proved",
   "theorems": [
    "C29_every_number_once",
    "C29_by_total_degree",
    "C29_starts_with_zero"
   ],
   "note": ""
  },
  {
   "property": "C30",
   "status": "proved",
   "theorems": [
    "C30_entries",
    "C30_orthonormal",
    "C30_root",
    "C30_excitation_equal_dimensions",
    "C30_excitation_unequal_dimensions_refuted"
   ],
   "note": ""
  },
  {
   "property": "C31",
   "status": "proved",
   "theorems": [
    "C31_least_cost",
    "C31_least_cost_full_trees",
    "C31_least_cost_any_number_refuted",
    "C31_tree_over_all_sources",
    "C31_too_few_branches_never_ends",
    "C31_empty_rejected"
   ],
   "note": "Importances are added and compared exactly (an ordered ring)."
  },
  {
   "property": "C32",
   "status": "proved",
   "theorems": [
    "C32_constant_names_lose_sources",
    "C32_default_counter_constant",
    "C32_spin_boson_update_dangling",
    "C32_spin_boson_update_single_leaf_dropped"
   ],
   "note": ""
  },
  {
   "property": "C33",
   "status": "proved",
   "theorems": [
    "C33_yields_reachable_once",
    "C33_stops_on_finite_graphs",
    "C33_breadth_first_by_distance",
    "C33_other_method_rejected"
   ],
   "note": ""
  },
  {
   "property": "C34",
   "status": "proved",
   "theorems": [
    "C34_computed_at_most_once",
    "C34_value_of_first_read",
    "C34_other_name_not_cached"
   ],
   "note": ""
  },
  {
   "property": "C35",
   "status": "proved",
   "theorems": [
    "C35_convert_keeps_value_in_au",
    "C35_convert_back",
    "C35_convert_idempotent",
    "C35_arithmetic",
    "C35_comparison",
    "C35_comparison_with_zero",
    "C35_comparison_with_number_rejected",
    "C35_inverse_temperature"
   ],
   "note": ""
  },
  {
   "property": "C36",
   "status": "proved",
   "theorems": [
    "C36_accepted_names",
    "C36_other_names_rejected",
    "C36_wavenumber_alias_refuted",
    "C36_no_dimension_check"
   ],
   "note": ""
  },
  {
   "property": "C37",
   "status": "proved",
   "theorems": [
    "C37_plain",
    "C37_scaled_transposed",
    "C37_scaled",
    "C37_h_list",
    "C37_scaled_hermitian_refuted"
   ],
   "note": "eom2 for all matrices; hierachy (basis=None) with transposed left factors, the standard equations for symmetric matrices, and a Hermitian witness where they fail. np.sqrt and 1/hbar are parameters."
  },
  {
   "property": "C38",
   "status": "proved",
   "theorems": [
    "C38_plain_trace",
    "C38_scaled_trace",
    "C38_scaled_trace_hermitian_refuted"
   ],
   "note": "eom2 for all matrices; hierachy for symmetric ones, with a Hermitian witness against."
  },
  {
   "property": "C39",
   "status": "proved",
   "theorems": [
    "C39_zeroth_tier_decoupled",
    "C39_no_bath"
   ],
   "note": "Tier zero evolves by -i[H, .] for every extended density, and every power of the generator; other tiers stay zero."
  },
  {
   "property": "C40",
   "status": "proved",
   "theorems": [
    "C40_similar",
    "C40_same_tier0"
   ],
   "note": "Generators and all their powers are related by the diagonal scaling; equal on tier zero from any initial state rho x e_0."
  },
  {
   "property": "C41",
   "status": "proved",
   "theorems": [
    "C41_gen_extended_rho",
    "C41_simple_heom",
    "C41_tensor_train",
    "C41_train_three_states_refuted",
    "C41_train_one_mode_refuted",
    "C41_tensor_tree_any_scalars",
    "C41_tensor_tree",
    "C41_tensor_tree_rank_refused"
   ],
   "note": "gen_extended_rho, simple_heom and tensor_tree_template for all sizes they admit (two or more modes for the tree; with one mode its leaf has rank tiers), tensor_train_template for two states and two or more modes. For other sizes the statement is false of tensor_train_template: C41_train_three_states_refuted, C41_train_one_mode_refuted."
  },
  {
   "property": "C42",
   "status": "proved",
   "theorems": [
    "C42_pade_fractions",
    "C42_brownian_roots",
    "C42_brownian_terms_refuted",
    "C42_drude",
    "C42_decompositions",
    "C42_brownian",
    "C42_modes",
    "C42_generator_drude",
    "C42_generator_brownian_refuted"
   ],
   "note": "Real parameters. For Brownian (gamma^2 < omega^2) the attribute k_max is the argument plus 2 while there are max(2, k+1) exponents, so they agree for argument 0 only, and the generator raises IndexError otherwise (C42_generator_brownian_refuted). For Pade the eigenvalues are an oracle of the right number. C42_brownian_terms_refuted: the Matsubara terms of Brownian are not residues of the density unless omega^2 = 2 gamma^2."
  },
  {
   "property": "C43",
   "status": "proved",
   "theorems": [
    "C43_ladder",
    "C43_hermitian",
    "C43_energy",
    "C43_matrix_free",
    "C43_matrix_free_ladder",
    "C43_matrix_free_creation_refuted",
    "C43_wrong_length",
    "C43_no_states_refuted"
   ],
   "note": "At least one state; for none the ladder operators have one row (C43_no_states_refuted). The matrix-free ladder operators are exchanged (C43_matrix_free_creation_refuted)."
  },
  {
   "property": "C44",
   "status": "proved",
   "theorems": [
    "C44_orthogonal",
    "C44_inverse_matrices",
    "C44_inverse_vectors",
    "C44_kinetic",
    "C44_derivative",
    "C44_derivative_integral",
    "C44_grid",
    "C44_interpolation",
    "C44_fast",
    "C44_fast_wrong_length"
   ],
   "note": "The sine transform of scipy is an oracle with the DST-I formula. The potential is a function applied point by point."
  },
  {
   "property": "C45",
   "status": "proved",
   "theorems": [
    "C45_subindex",
    "C45_diagonal",
    "C45_product",
    "C45_two_axes",
    "C45_unequal_sizes_refuted",
    "C45_one_dimensional",
    "C45_transform",
    "C45_transform_refuted",
    "C45_dipole"
   ],
   "note": "Sizes are not zero. The product is refused unless all sizes from the second axis on are equal (C45_unequal_sizes_refuted); _partial_transform then gives a wrong shape (C45_transform_refuted)."
  },
  {
   "property": "C46",
   "status": "proved",
   "theorems": [
    "C46_heisenberg",
    "C46_shapes",
    "C46_documented_coupling_refuted",
    "C46_short_chains",
    "C46_states",
    "C46_energy"
   ],
   "note": "0.5 is a parameter half of any commutative ring with involution, J/2 is J*half. The documented coupling Jz fails for any ring with half+half=1 and 1<>0 (C46_documented_coupling_refuted). N<=1 gives the operator of two sites."
  },
  {
   "property": "C47",
   "status": "proved",
   "theorems": [
    "C47_dmrg1",
    "C47_dmrg2",
    "C47_two_sites",
    "C47_one_site_problem",
    "C47_two_site_problem",
    "C47_moves_keep_state",
    "C47_split_keeps_state"
   ],
   "note": "eigsh returns any vector of the right length and np.linalg.svd any factors of matching shapes with at least one term; energies and debug output are left out. The matrices handed to eigsh are proved to be the operator projected on the active site(s). dmrg2 on two sites does nothing (C47_two_sites)."
  },
  {
   "property": "C48",
   "status": "proved",
   "theorems": [
    "C48_mat_element",
    "C48_overlap",
    "C48_from_right",
    "C48_coarse_graining"
   ],
   "note": "The chain fits: equal bonds at neighbours and bonds of length one at the ends. No conjugation, as in the code."
  },
  {
   "property": "C49",
   "status": "proved",
   "theorems": [
    "C49_all_cycles",
    "C49_bounded",
    "C49_overfull",
    "C49_restart_forgets",
    "C49_last_cycle_refuted"
   ],
   "note": "C49_last_cycle_refuted: with n_vals > max_space and vectors that stay independent every third cycle restarts; max_cycle is 99."
  },
  {
   "property": "C50",
   "status": "proved",
   "theorems": [
    "C50_projected",
    "C50_search_projected",
    "C50_complex_refuted"
   ],
   "note": "Premises: orth gives an orthonormal list (eigenvalue mode), a vector above the threshold can be normalised (search mode). C50_complex_refuted: entries that the real array cannot hold are wrong."
  },
  {
   "property": "C51",
   "status": "proved",
   "theorems": [
    "C51_rows_any_scalars",
    "C51_rows",
    "C51_root",
    "C51_orthonormal_unchanged",
    "C51_skipped"
   ],
   "note": "Over the complex numbers on pairs of reals, with the real norm and principal square root; also over any ring with an involution for norms that can normalise nonzero rows. numpy's division is multiplication by the inverse. The root also gets aux overwritten."
  },
  {
   "property": "C52",
   "status": "proved",
   "theorems": [
    "C52_fresh",
    "C52_conj",
    "C52_transform",
    "C52_roundtrip",
    "C52_norm",
    "C52_spacing_refuted"
   ],
   "note": "C52_spacing_refuted: the spacings of the two grids are not those of the transform."
  },
  {
   "property": "C53",
   "status": "proved",
   "theorems": [
    "C53_names",
    "C53_second",
    "C53_entry_lost",
    "C53_types"
   ],
   "note": "The second construction fails with KeyError when no leaf is itself called Leaf_...; C53_second_other_leaf shows it silently taking another leaf otherwise. A missing name also removes one entry from the caller's term."
  },
  {
   "property": "C54",
   "status": "proved",
   "theorems": [
    "C54_collect",
    "C54_none_refuted",
    "C54_absorbed"
   ],
   "note": ""
  },
  {
   "property": "C55",
   "status": "proved",
   "theorems": [
    "C55_constructor",
    "C55_leaves_refuted",
    "C55_leaf_template",
    "C55_items"
   ],
   "note": ""
  },
  {
   "property": "C56",
   "status": "proved",
   "theorems": [
    "C56_projector_entries",
    "C56_projector_idempotent",
    "C56_projector_hermitian"
   ],
   "note": ""
  },
  {
   "property": "C57",
   "status": "proved",
   "theorems": [
    "C57_unzip_columns",
    "C57_unzip_empty_rejected"
   ],
   "note": ""
  },
  {
   "property": "C58",
   "status": "proved",
   "theorems": [
    "C58_true_amount",
    "C58_convert_keeps_amount",
    "C58_meV_factor_refuted"
   ],
   "note": ""
  },
  {
   "property": "C59",
   "status": "proved",
   "theorems": [
    "C59_first_term",
    "C59_later_terms_refuted"
   ],
   "note": "sin and cos of beta gamma / 2 nonzero for the first term; the later terms differ (C59_later_terms_refuted)."
  },
  {
   "property": "C60",
   "status": "proved",
   "theorems": [
    "C60_trotter",
    "C60_phase_refuted"
   ],
   "note": "eigh is an oracle giving an exact orthogonal eigendecomposition. For hbar other than 1 the phases are not those of the evolution operator (C60_phase_refuted)."
  },
  {
   "property": "C61",
   "status": "proved",
   "theorems": [
    "C61_replaced",
    "C61_first",
    "C61_stale_refuted"
   ],
   "note": "The coupling of an earlier call stays (C61_stale_refuted)."
  },
  {
   "property": "C62",
   "status": "proved",
   "theorems": [
    "C62_galerkin",
    "C62_search"
   ],
   "note": "Orthonormality in search mode is C50_search_projected."
  },
  {
   "property": "C63",
   "status": "proved",
   "theorems": [
    "C63_hamiltonian",
    "C63_no_modes"
   ],
   "note": "Documented as 1/2 sum (p^2 + w^2 (q - 2c/w^2 P)^2); the theorem is about its expansion, with the oscillator Hamiltonian truncated to the basis."
  },
  {
   "property": "C64",
   "status": "proved",
   "theorems": [
    "C64_always_a_field"
   ],
   "note": ""
  },
  {
   "property": "C65",
   "status": "proved",
   "theorems": [
    "C65_vectorize_tensorize",
    "C65_tensorize_vectorize",
    "C65_copy",
    "C65_partial_env_refuted"
   ],
   "note": ""
  },
  {
   "property": "C66",
   "status": "proved",
   "theorems": [
    "C66_variational",
    "C66_variational_in_a_run"
   ],
   "note": ""
  },
  {
   "property": "C67",
   "status": "proved",
   "theorems": [
    "C67_real_time",
    "C67_imaginary_time",
    "C67_hermitian_terms_real_time",
    "C67_hermitian_terms_shifted",
    "C67_hermitian_terms_imaginary_time",
    "C67_shifted_real_time",
    "C67_heom_imaginary_time",
    "C67_documented_terms_refuted"
   ],
   "note": ""
  },
  {
   "property": "C68",
   "status": "proved",
   "theorems": [
    "C68_matrix_element",
    "C68_hermitian",
    "C68_antihermitian_raises"
   ],
   "note": ""
  },
  {
   "property": "C69",
   "status": "proved",
   "theorems": [
    "C69_gauge",
    "C69_dirac_frenkel",
    "C69_newton_step"
   ],
   "note": ""
  },
  {
   "property": "C70",
   "status": "proved",
   "theorems": [
    "C70_derivative_of_state",
    "C70_rates_determined",
    "C70_real_time",
    "C70_imaginary_time",
    "C70_heom_imaginary_time",
    "C70_shift_refuted"
   ],
   "note": ""
  },
  {
   "property": "C71",
   "status": "proved",
   "theorems": [
    "C71_sub_vectors",
    "C71_all_vectors",
    "C71_mean_fields",
    "C71_mean_fields_refuted",
    "C71_energy",
    "C71_norm",
    "C71_equations",
    "C71_variational",
    "C71_two_modes",
    "C71_energy_refuted",
    "C71_three_modes_refuted"
   ],
   "note": ""
  },
  {
   "property": "C72",
   "status": "proved",
   "theorems": [
    "C72_pade_bose",
    "C72_pade_bose_2",
    "C72_pade_fermi",
    "C72_fermi_2_refuted",
    "C72_pade_drude",
    "C72_pade_converges",
    "C72_matsubara",
    "C72_matsubara_error",
    "C72_arguments"
   ],
   "note": ""
  },
  {
   "property": "C73",
   "status": "proved",
   "theorems": [
    "C73_wfn_transposed",
    "C73_wfn",
    "C73_wfn_norm",
    "C73_do",
    "C73_do_hermitian_refuted",
    "C73_heom",
    "C73_heom2",
    "C73_heom_lengths",
    "C73_heom_indices"
   ],
   "note": ""
  },
  {
   "property": "C74",
   "status": "proved",
   "theorems": [
    "C74_residues_outcome",
    "C74_matsubara",
    "C74_matsubara_2_refuted",
    "C74_function",
    "C74_accepted",
    "C74_zero_temperature",
    "C74_zero_temperature_negative_refuted",
    "C74_drude",
    "C74_brownian"
   ],
   "note": ""
  },
  {
   "property": "C75",
   "status": "proved",
   "theorems": [
    "C75_dense_hamiltonian",
    "C75_matrix_element",
    "C75_adjoint",
    "C75_other_outcomes"
   ],
   "note": ""
  },
  {
   "property": "C76",
   "status": "proved",
   "theorems": [
    "C76_autocorr",
    "C76_fast",
    "C76_fast_complex_refuted"
   ],
   "note": ""
  },
  {
   "property": "C77",
   "status": "proved",
   "theorems": [
    "C77_rk4_step",
    "C77_first_slope",
    "C77_mean_field",
    "C77_refreshed_refuted"
   ],
   "note": ""
  },
  {
   "property": "C78",
   "status": "proved",
   "theorems": [
    "C78_solver",
    "C78_derivative",
    "C78_unflagged",
    "C78_flagged",
    "C78_course"
   ],
   "note": ""
  },
  {
   "property": "C79",
   "status": "proved",
   "theorems": [
    "C79_terms_are_mixed",
    "C79_matrix_elements",
    "C79_right_if_terms_agree",
    "C79_right_for_one_term_or_tensor",
    "C79_entries",
    "C79_vector_stays",
    "C79_derivative_of_the_terms_refuted"
   ],
   "note": "C79_derivative_of_the_terms_refuted: with two terms the derivative is not that of the terms."
  },
  {
   "property": "C80",
   "status": "proved",
   "theorems": [
    "C80_equations",
    "C80_other_coefficients",
    "C80_imaginary_part",
    "C80_norm_grows"
   ],
   "note": "The sign of the 0.5j term makes tiers grow instead of decay under i hbar dc/dt = (terms) c (C80_norm_grows)."
  },
  {
   "property": "C81",
   "status": "proved",
   "theorems": [
    "C81_stored_hamiltonian",
    "C81_solve",
    "C81_hamiltonian",
    "C81_initial_state",
    "C81_energy",
    "C81_stationary",
    "C81_product_state"
   ],
   "note": "Sizes must satisfy C71's and C45's condition (equal from the second axis on, true for one and two axes)."
  },
  {
   "property": "C82",
   "status": "proved",
   "theorems": [
    "C82_linear",
    "C82_derivative",
    "C82_step_polynomial",
    "C82_propagation",
    "C82_autocorrelation",
    "C82_dvr_matrix",
    "C82_end_of_generators_refuted",
    "C82_values",
    "C82_finish",
    "C82_spectrum",
    "C82_spectrum_values",
    "C82_const_energy",
    "C82_mctdh_autocorrelation",
    "C82_mctdh_autocorrelation_refuted",
    "C82_normalizer",
    "C82_kept_derivative",
    "C82_kept_derivative_refuted"
   ],
   "note": "The refuted theorems describe the actual behaviour named in the statement: the end of the generators, complex matrices, the kept derivative."
  },
  {
   "property": "C83",
   "status": "proved",
   "theorems": [
    "C83_leaves",
    "C83_refused",
    "C83_terms",
    "C83_full",
    "C83_mctdh",
    "C83_mctdh_refuted",
    "C83_not_with_bath",
    "C83_autograph",
    "C83_autograph_bath",
    "C83_autograph_complete",
    "C83_with_aux"
   ],
   "note": "C83_mctdh_refuted and the completeness theorems describe the actual behaviour named in the statement."
  },
  {
   "property": "C84",
   "status": "proved",
   "theorems": [
    "C84_fresh",
    "C84_one",
    "C84_timed",
    "C84_many",
    "C84_norm",
    "C84_norm_many",
    "C84_reverse",
    "C84_renormalize",
    "C84_range",
    "C84_drift_refuted",
    "C84_simpson_refuted"
   ],
   "note": "The refuted theorems describe the actual behaviour named in the statement: Simpson's norm and the speed of a drift."
  },
  {
   "property": "C85",
   "status": "proved",
   "theorems": [
    "C85_terms",
    "C85_transform",
    "C85_trace",
    "C85_sine",
    "C85_sine_refuted",
    "C85_commutator_refuted"
   ],
   "note": "The refuted theorems describe the actual behaviour named in the statement: the missing eig_mat, and the commutator on a grid."
  },
  {
   "property": "C86",
   "status": "proved",
   "theorems": [
    "C86_same",
    "C86_oscillators",
    "C86_bath",
    "C86_sum",
    "C86_isolated",
    "C86_product_refuted",
    "C86_missing"
   ],
   "note": "The refuted theorem describes the actual behaviour named in the statement: factors are added."
  },
  {
   "property": "C87",
   "status": "proved",
   "theorems": [
    "C87_local",
    "C87_action",
    "C87_plain",
    "C87_search",
    "C87_padding_refuted",
    "C87_state_any_scalars",
    "C87_state",
    "C87_thermal",
    "C87_refused",
    "C87_leftover_refuted",
    "C87_first_axis",
    "C87_axis_refuted"
   ],
   "note": "The refuted theorems describe the actual behaviour named in the statement: completion by unit vectors, the axis of the parent, the leftover number of states."
  },
  {
   "property": "C88",
   "status": "proved",
   "theorems": [
    "C88_one_site_step",
    "C88_second_order_step",
    "C88_backward_two_site_step_raises",
    "C88_two_site_step",
    "C88_second_order_two_site_raises",
    "C88_propagator",
    "C88_propagator_two_site",
    "C88_propagator_two_site_second_order_fails",
    "C88_other_methods_refused"
   ],
   "note": ""
  },
  {
   "property": "C89",
   "status": "proved",
   "theorems": [
    "C89_split_step",
    "C89_second_order_step",
    "C89_recursive_step",
    "C89_backward_unite_step_raises",
    "C89_unite_step",
    "C89_second_order_unite_step_raises"
   ],
   "note": ""
  },
  {
   "property": "C90",
   "status": "proved",
   "theorems": [
    "C90_norm_of_canonical_network",
    "C90_one_site_step",
    "C90_second_order_step",
    "C90_two_site_step",
    "C90_propagator",
    "C90_split_step",
    "C90_ml_second_order_step",
    "C90_recursive_step",
    "C90_unite_step",
    "C90_norm_with_cut_bonds_refuted"
   ],
   "note": ""
  },
  {
   "property": "C91",
   "status": "proved",
   "theorems": [
    "C91_one_site_step",
    "C91_split_step",
    "C91_recursive_step",
    "C91_generator",
    "C91_generator_normalised"
   ],
   "note": ""
  },
  {
   "property": "C92",
   "status": "proved",
   "theorems": [
    "C92_answers",
    "C92_moments",
    "C92_empty_bin",
    "C92_positive",
    "C92_densities",
    "C92_discretised",
    "C92_plain_refuted",
    "C92_bath_refuted",
    "C92_construct"
   ],
   "note": "The refuted theorems describe the actual behaviour named in the statement: plain beyond its end, and models with a bath."
  },
  {
   "property": "C93",
   "status": "proved",
   "theorems": [
    "C93_angle",
    "C93_missing",
    "C93_real_angle",
    "C93_phase_refuted"
   ],
   "note": "C93_phase_refuted describes the actual behaviour named in the statement."
  },
  {
   "property": "C94",
   "status": "proved",
   "theorems": [
    "C94_hermite",
    "C94_stationary",
    "C94_ladder",
    "C94_stretched",
    "C94_first",
    "C94_stationary_refuted",
    "C94_mass_refuted"
   ],
   "note": "C94_stationary_refuted and C94_mass_refuted describe the actual behaviour named in the statement."
  },
  {
   "property": "C95",
   "status": "proved",
   "theorems": [
    "C95_repr",
    "C95_position",
    "C95_kinetic",
    "C95_derivative_refuted",
    "C95_dvr",
    "C95_isometry",
    "C95_box",
    "C95_kinetic_refuted"
   ],
   "note": "C95_kinetic_refuted and C95_derivative_refuted describe the actual behaviour named in the statement."
  },
  {
   "property": "C96",
   "status": "proved",
   "theorems": [
    "C96_windows",
    "C96_cutoff_refuted",
    "C96_w_well",
    "C96_square_well",
    "C96_linear_corr"
   ],
   "note": "C96_cutoff_refuted describes the actual behaviour named in the statement."
  },
  {
   "property": "C97",
   "status": "proved",
   "theorems": [
    "C97_basis",
    "C97_extension_refuted",
    "C97_refuses"
   ],
   "note": "C97_extension_refuted describes the actual behaviour named in the statement."
  },
  {
   "property": "C98",
   "status": "proved",
   "theorems": [
    "C98_position",
    "C98_momentum",
    "C98_whole_unique"
   ],
   "note": ""
  },
  {
   "property": "C99",
   "status": "proved",
   "theorems": [
    "C99_h_mat",
    "C99_expectation",
    "C99_solve",
    "C99_stale",
    "C99_stale_refuted"
   ],
   "note": "C99_stale_refuted describes the actual behaviour named in the statement."
  },
  {
   "property": "C100",
   "status": "proved",
   "theorems": [
    "C100_adjoint",
    "C100_real",
    "C100_eigenvector",
    "C100_product_state",
    "C100_refused",
    "C100_stale_refuted"
   ],
   "note": "C100_stale_refuted describes the actual behaviour named in the statement."
  },
  {
   "property": "C101",
   "status": "proved",
   "theorems": [
    "C101_settings",
    "C101_config",
    "C101_checks_refuted"
   ],
   "note": "C101_checks_refuted describes the actual behaviour named in the statement."
  },
  {
   "property": "C102",
   "status": "proved",
   "theorems": [
    "C102_ml_is_checked",
    "C102_value",
    "C102_antihermitian_imaginary"
   ],
   "note": ""
  }
 ]
}