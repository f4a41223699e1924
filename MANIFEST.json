{
 "claims": [
  {
   "property": "C01",
   "status": "proved",
   "theorems": [
    "C01_plus_assign",
    "C01_minus_assign",
    "C01_mult_assign",
    "C01_self_op",
    "C01_scale_assign",
    "C01_plus",
    "C01_minus",
    "C01_mult",
    "C01_scale",
    "C01_size_mismatch",
    "C01_outcome_exists",
    "C01_equal_field",
    "C01_equal_value",
    "C01_always_ends",
    "C01_value_size_mismatch"
   ],
   "note": ""
  },
  {
   "property": "C02",
   "status": "proved",
   "theorems": [
    "C02_fill_range",
    "C02_map_range",
    "C02_setField_range",
    "C02_fill_whole",
    "C02_assign_value",
    "C02_new_value",
    "C02_always_ends"
   ],
   "note": ""
  },
  {
   "property": "C03",
   "status": "proved",
   "theorems": [
    "C03_value_semantics",
    "C03_unique_owner",
    "C03_no_leak"
   ],
   "note": ""
  },
  {
   "property": "C04",
   "status": "proved",
   "theorems": [
    "C04_resize",
    "C04_assign",
    "C04_copyToExecutor",
    "C04_copy_round_trip",
    "C04_always_ends"
   ],
   "note": ""
  },
  {
   "property": "C05",
   "status": "proved",
   "theorems": [
    "C05_own_slot",
    "C05_schedule_independent",
    "C05_each_index_once",
    "C05_always_ends",
    "C05_serial_schedule"
   ],
   "note": ""
  },
  {
   "property": "C06",
   "status": "proved",
   "theorems": [
    "C06_reduce_from_identity",
    "C06_sum",
    "C06_initial_value",
    "C06_always_ends"
   ],
   "note": ""
  },
  {
   "property": "C07",
   "status": "proved",
   "theorems": [
    "C07_prefix_sums",
    "C07_partition",
    "C07_misuse",
    "C07_past_the_values",
    "C07_construct"
   ],
   "note": ""
  },
  {
   "property": "C08",
   "status": "proved",
   "theorems": [
    "C08_reports",
    "C08_abort"
   ],
   "note": ""
  },
  {
   "property": "C09",
   "status": "proved",
   "theorems": [
    "C09_finite_map",
    "C09_typed_access",
    "C09_exceptions",
    "C09_nested"
   ],
   "note": ""
  },
  {
   "property": "C10",
   "status": "proved",
   "theorems": [
    "C10_next",
    "C10_other_operations",
    "C10_default_constructed",
    "C10_in_order_without_removal"
   ],
   "note": ""
  },
  {
   "property": "C11",
   "status": "proved",
   "theorems": [
    "C11_div_from_dictionary",
    "C11_laplacian_from_dictionary",
    "C11_from_tokens",
    "C11_repeatable",
    "C11_direct_dictionary_repeatable",
    "C11_direct_dictionary_entries"
   ],
   "note": ""
  },
  {
   "property": "C12",
   "status": "proved",
   "theorems": [
    "C12_create_last_registered",
    "C12_entries",
    "C12_order_irrelevant",
    "C12_factories_independent",
    "C12_base_documentation"
   ],
   "note": ""
  },
  {
   "property": "C13",
   "status": "proved",
   "theorems": [
    "C13_first_request_builds",
    "C13_later_requests_share",
    "C13_types_kept_apart",
    "C13_entries_never_replaced",
    "C13_other_names_unaffected",
    "C13_built_once"
   ],
   "note": ""
  },
  {
   "property": "C14",
   "status": "proved",
   "theorems": [
    "C14_finite_map",
    "C14_insert_keeps_first",
    "C14_typed_access"
   ],
   "note": ""
  },
  {
   "property": "C15",
   "status": "proved",
   "theorems": [
    "C15_ids_distinct",
    "C15_construction"
   ],
   "note": ""
  },
  {
   "property": "C16",
   "status": "proved",
   "theorems": [
    "C16_register_field",
    "C16_creators",
    "C16_default_index",
    "C16_failures",
    "C16_valid_documents",
    "C16_wrong_type_leaves_document"
   ],
   "note": ""
  },
  {
   "property": "C17",
   "status": "proved",
   "theorems": [
    "C17_first_request",
    "C17_later_requests",
    "C17_unregistered_fields_throw",
    "C17_const_request_creates_nothing",
    "C17_chains",
    "C17_nothing_disturbed"
   ],
   "note": ""
  },
  {
   "property": "C18",
   "status": "proved",
   "theorems": [
    "C18_idempotent",
    "C18_succeeds"
   ],
   "note": ""
  },
  {
   "property": "C19",
   "status": "proved",
   "theorems": [
    "C19_tag_range",
    "C19_same_everywhere",
    "C19_posted_tags"
   ],
   "note": ""
  },
  {
   "property": "C20",
   "status": "proved",
   "theorems": [
    "C20_windows",
    "C20_retype_keeps_counts",
    "C20_never_shrinks"
   ],
   "note": ""
  },
  {
   "property": "C21",
   "status": "proved",
   "theorems": [
    "C21_busy",
    "C21_refuses",
    "C21_reusable",
    "C21_posts",
    "C21_complete",
    "C21_full_duplex"
   ],
   "note": ""
  },
  {
   "property": "C22",
   "status": "proved",
   "theorems": [
    "C22_delivers",
    "C22_no_deadlock",
    "C22_terminates",
    "C22_isComplete"
   ],
   "note": ""
  },
  {
   "property": "C23",
   "status": "proved",
   "theorems": [
    "C23_sound",
    "C23_sorted",
    "C23_write",
    "C23_construct"
   ],
   "note": ""
  },
  {
   "property": "C24",
   "status": "proved",
   "theorems": [
    "C24_contents",
    "C24_host",
    "C24_system_host",
    "C24_convert"
   ],
   "note": ""
  },
  {
   "property": "C25",
   "status": "proved",
   "theorems": [
    "C25_spmv",
    "C25_empty_row",
    "C25_reset",
    "C25_reset_runs",
    "C25_empty_system"
   ],
   "note": ""
  },
  {
   "property": "C26",
   "status": "proved",
   "theorems": [
    "C26_transpose",
    "C26_symmetric"
   ],
   "note": ""
  },
  {
   "property": "C27",
   "status": "proved",
   "theorems": [
    "C27_parse",
    "C27_kinds",
    "C27_unsupported"
   ],
   "note": ""
  },
  {
   "property": "C28",
   "status": "proved",
   "theorems": [
    "C28_uniform_1d_mesh",
    "C28_uniform_1d_mesh_defined",
    "C28_zero_cells_undefined",
    "C28_single_cell_mesh"
   ],
   "note": ""
  },
  {
   "property": "C29",
   "status": "proved",
   "theorems": [
    "C29_pattern",
    "C29_rows_any_size",
    "C29_update_again"
   ],
   "note": ""
  },
  {
   "property": "C30",
   "status": "proved",
   "theorems": [
    "C30_sorted_serial",
    "C30_lookup",
    "C30_parallel_order_varies"
   ],
   "note": ""
  },
  {
   "property": "C31",
   "status": "proved",
   "theorems": [
    "C31_stencil",
    "C31_each_once"
   ],
   "note": ""
  },
  {
   "property": "C32",
   "status": "proved",
   "theorems": [
    "C32_explicit_div",
    "C32_paths_agree",
    "C32_conservation"
   ],
   "note": ""
  },
  {
   "property": "C33",
   "status": "proved",
   "theorems": [
    "C33_div_target_exact",
    "C33_grad_target_exact",
    "C33_laplacian_target_exact",
    "C33_zero_target",
    "C33_grad_zero_target",
    "C33_laplacian_zero_target"
   ],
   "note": ""
  },
  {
   "property": "C34",
   "status": "proved",
   "theorems": [
    "C34_residual",
    "C34_matches_explicit"
   ],
   "note": ""
  },
  {
   "property": "C35",
   "status": "proved",
   "theorems": [
    "C35_div_schedule_independent",
    "C35_laplacian_schedule_independent"
   ],
   "note": ""
  },
  {
   "property": "C36",
   "status": "proved",
   "theorems": [
    "C36_residual",
    "C36_symmetric",
    "C36_interior_rows",
    "C36_conservation",
    "C36_matches_laplacian",
    "C36_matches_explicit_unit_gamma"
   ],
   "note": ""
  },
  {
   "property": "C37",
   "status": "proved",
   "theorems": [
    "C37_gradient",
    "C37_constant_field",
    "C37_boundary_integral",
    "C37_surface_integrate",
    "C37_surface_integrate_conservation"
   ],
   "note": ""
  },
  {
   "property": "C38",
   "status": "proved",
   "theorems": [
    "C38_source_explicit",
    "C38_source_implicit",
    "C38_source_agreement",
    "C38_ddt_implicit",
    "C38_ddt_explicit",
    "C38_ddt_agreement"
   ],
   "note": ""
  },
  {
   "property": "C39",
   "status": "proved",
   "theorems": [
    "C39_explicit",
    "C39_implicit",
    "C39_unbuilt_explicit",
    "C39_unbuilt_implicit",
    "C39_ddt_implicit",
    "C39_user_operators",
    "C39_user_operators_implicit"
   ],
   "note": ""
  },
  {
   "property": "C40",
   "status": "proved",
   "theorems": [
    "C40_interpolation",
    "C40_bounded",
    "C40_constant"
   ],
   "note": ""
  },
  {
   "property": "C41",
   "status": "proved",
   "theorems": [
    "C41_weights",
    "C41_exchange",
    "C41_linear_exact",
    "C41_interpolation_bounded",
    "C41_delta_coeffs",
    "C41_nonOrth_delta_coeffs"
   ],
   "note": ""
  },
  {
   "property": "C42",
   "status": "proved",
   "theorems": [
    "C42_face_normal_gradient",
    "C42_constant",
    "C42_linear_exact",
    "C42_linear_exact_1d"
   ],
   "note": ""
  },
  {
   "property": "C43",
   "status": "proved",
   "theorems": [
    "C43_volume",
    "C43_surface",
    "C43_volume_idempotent",
    "C43_surface_idempotent",
    "C43_volume_all",
    "C43_volume_order",
    "C43_surface_order",
    "C43_patches",
    "C43_mixed_condition",
    "C43_volume_selection",
    "C43_surface_selection",
    "C43_calculated"
   ],
   "note": ""
  },
  {
   "property": "C44",
   "status": "proved",
   "theorems": [
    "C44_value",
    "C44_multiplication",
    "C44_scalar_multiplication",
    "C44_toField"
   ],
   "note": ""
  },
  {
   "property": "C45",
   "status": "proved",
   "theorems": [
    "C45_explicit",
    "C45_implicit",
    "C45_field_products",
    "C45_independent",
    "C45_order"
   ],
   "note": ""
  },
  {
   "property": "C46",
   "status": "proved",
   "theorems": [
    "C46_assemble",
    "C46_assemble_any",
    "C46_solve_system",
    "C46_set_reference"
   ],
   "note": ""
  },
  {
   "property": "C47",
   "status": "proved",
   "theorems": [
    "C47_step",
    "C47_steps",
    "C47_time_loop"
   ],
   "note": ""
  },
  {
   "property": "C48",
   "status": "proved",
   "theorems": [
    "C48_system",
    "C48_step",
    "C48_serial_pattern",
    "C48_time_loop"
   ],
   "note": "About a linear solver that returns solutions of the system it is given; see C118 and C119 for when the two bundled ones do."
  },
  {
   "property": "C49",
   "status": "proved",
   "theorems": [
    "C49_method",
    "C49_first_step_needs_forward_euler",
    "C49_steps",
    "C49_time_loop",
    "C49_matches_forward_euler"
   ],
   "note": ""
  },
  {
   "property": "C50",
   "status": "proved",
   "theorems": [
    "C50_courant",
    "C50_linear"
   ],
   "note": ""
  },
  {
   "property": "C51",
   "status": "proved",
   "theorems": [
    "C51_data",
    "C51_domain",
    "C51_geometric",
    "C51_exec_same",
    "C51_new",
    "C51_new_exists"
   ],
   "note": ""
  },
  {
   "property": "C52",
   "status": "proved",
   "theorems": [
    "C52_vector_space",
    "C52_inner_product",
    "C52_equality",
    "C52_componentwise",
    "C52_mag"
   ],
   "note": ""
  },
  {
   "property": "C53",
   "status": "proved",
   "theorems": [
    "C53_time_loop",
    "C53_counter",
    "C53_exact_model"
   ],
   "note": ""
  },
  {
   "property": "C54",
   "status": "proved",
   "theorems": [
    "C54_equality",
    "C54_assign_guard",
    "C54_mixed_operation"
   ],
   "note": ""
  },
  {
   "property": "C55",
   "status": "proved",
   "theorems": [
    "C55_patch_slice",
    "C55_patches_cover",
    "C55_patches_disjoint",
    "C55_accessors"
   ],
   "note": ""
  },
  {
   "property": "C56",
   "status": "proved",
   "theorems": [
    "C56_ginkgo_matrix"
   ],
   "note": ""
  },
  {
   "property": "C57",
   "status": "proved",
   "theorems": [
    "C57_end_zero_means_end",
    "C57_empty_range_refuted"
   ],
   "note": "REFUTED (the unrestricted claim is false of the code): {0,0} is taken as 'no range' (end==0 sentinel) and the whole field is written; C02 holds for every other range. What holds for all inputs (the statement): C57_end_zero_means_end; the _refuted theorems show the natural unrestricted claim false."
  },
  {
   "property": "C58",
   "status": "proved",
   "theorems": [
    "C58_leaks_exactly",
    "C58_no_leak_refuted"
   ],
   "note": "REFUTED (the unrestricted claim is false of the code): shrinking to 0 and growing again leaks a block when realloc(p,0) returns one; C03_no_leak is the claim for allocators returning null. What holds for all inputs (the statement): C58_leaks_exactly; the _refuted theorems show the natural unrestricted claim false."
  },
  {
   "property": "C59",
   "status": "proved",
   "theorems": [
    "C59_agree_exactly",
    "C59_initial_value_refuted"
   ],
   "note": "REFUTED (the unrestricted claim is false of the code): the Serial path adds the initial value, the Kokkos path overwrites it; C06_initial_value states exactly the difference. What holds for all inputs (the statement): C59_agree_exactly; the _refuted theorems show the natural unrestricted claim false."
  },
  {
   "property": "C60",
   "status": "proved",
   "theorems": [
    "C60_reports_exactly",
    "C60_empty_view_refuted"
   ],
   "note": "REFUTED (the unrestricted claim is false of the code): failureIndex 0 doubles as 'no failure'; C08 covers non-empty views. What holds for all inputs (the statement): C60_reports_exactly; the _refuted theorems show the natural unrestricted claim false."
  },
  {
   "property": "C61",
   "status": "proved",
   "theorems": [
    "C61_in_order_refuted",
    "C61_next_after_removal"
   ],
   "note": "REFUTED (the unrestricted claim is false of the code): popFront/remove do not move the cursor, so tokens are skipped; C10 covers histories without removal. What holds for all inputs (the statement): C61_next_after_removal; the _refuted theorems show the natural unrestricted claim false."
  },
  {
   "property": "C62",
   "status": "proved",
   "theorems": [
    "C62_direct_construction_refuted",
    "C62_direct_construction_reads_on"
   ],
   "note": "REFUTED (the unrestricted claim is false of the code): the const token list is advanced through its mutable cursor; C11 shows that building through the dictionary copies it. What holds for all inputs (the statement): C62_direct_construction_reads_on; the _refuted theorems show the natural unrestricted claim false."
  },
  {
   "property": "C63",
   "status": "proved",
   "theorems": [
    "C63_base_documentation_refuted",
    "C63_last_factory_wins",
    "C63_unknown_base"
   ],
   "note": "REFUTED (the unrestricted claim is false of the code): factories with the same base name overwrite each other's entry; C12_base_documentation holds for unshared names. What holds for all inputs (the statement): C63_last_factory_wins, C63_unknown_base; the _refuted theorems show the natural unrestricted claim false."
  },
  {
   "property": "C64",
   "status": "proved",
   "theorems": [
    "C64_ids_distinct_refuted",
    "C64_distinct_iff"
   ],
   "note": "REFUTED (the unrestricted claim is false of the code): the counter is 32 bits wide and wraps; C15_ids_distinct is the claim up to 2^32 documents. What holds for all inputs (the statement): C64_distinct_iff; the _refuted theorems show the natural unrestricted claim false."
  },
  {
   "property": "C65",
   "status": "proved",
   "theorems": [
    "C65_duplicate_id_refuted",
    "C65_duplicate_exactly"
   ],
   "note": "REFUTED (the unrestricted claim is false of the code): with a document under the empty id, the duplicate silently hands out that document's field; C16_failures otherwise. What holds for all inputs (the statement): C65_duplicate_exactly; the _refuted theorems show the natural unrestricted claim false."
  },
  {
   "property": "C66",
   "status": "proved",
   "theorems": [
    "C66_all_names_refuted",
    "C66_empty_name_refuted",
    "C66_names_exactly"
   ],
   "note": "REFUTED (the unrestricted claim is false of the code): a field collection named like the old-time collection of another blocks it; in a collection with the empty name fields count as unregistered. What holds for all inputs (the statement): C66_names_exactly; the _refuted theorems show the natural unrestricted claim false."
  },
  {
   "property": "C67",
   "status": "proved",
   "theorems": [
    "C67_same_tag_iff",
    "C67_capacity",
    "C67_collision",
    "C67_distinct_refuted"
   ],
   "note": "REFUTED (the unrestricted claim is false of the code): the tag range has 32757 values, so any 32758 names collide (C67_collision), whatever the hash. What holds for all inputs (the statement): C67_same_tag_iff, C67_capacity; the _refuted theorems show the natural unrestricted claim false."
  },
  {
   "property": "C68",
   "status": "proved",
   "theorems": [
    "C68_release_refuses_nothing",
    "C68_no_requests_refuted",
    "C68_release_refuted"
   ],
   "note": "REFUTED (the unrestricted claim is false of the code): isComplete of an unsized buffer returns an uninitialised variable; NF_DEBUG_ASSERT vanishes in release builds. What holds for all inputs (the statement): C68_release_refuses_nothing; the _refuted theorems show the natural unrestricted claim false."
  },
  {
   "property": "C69",
   "status": "proved",
   "theorems": [
    "C69_exactly",
    "C69_second_name_dangles",
    "C69_concurrent_refuted"
   ],
   "note": "REFUTED (the unrestricted claim is false of the code): a second startComm moves the buffers, leaving the first name's view dangling (C69_second_name_dangles). What holds for all inputs (the statement): C69_exactly; the _refuted theorems show the natural unrestricted claim false."
  },
  {
   "property": "C70",
   "status": "proved",
   "theorems": [
    "C70_lookup_exactly",
    "C70_unsorted_refuted"
   ],
   "note": "REFUTED (the unrestricted claim is false of the code): the search stops at the first larger column; C23_sorted is the claim for sorted rows. What holds for all inputs (the statement): C70_lookup_exactly; the _refuted theorems show the natural unrestricted claim false."
  },
  {
   "property": "C71",
   "status": "proved",
   "theorems": [
    "C71_destination_exactly",
    "C71_destination_refuted",
    "C71_convert_gpu_refuted"
   ],
   "note": "REFUTED (the unrestricted claim is false of the code): copyToExecutor always copies to the host (SerialExecutor) unless the executors agree; convert on the GPU reads device memory as host memory. What holds for all inputs (the statement): C71_destination_exactly; the _refuted theorems show the natural unrestricted claim false."
  },
  {
   "property": "C72",
   "status": "proved",
   "theorems": [
    "C72_faithful_exactly",
    "C72_nonsymmetric_refuted",
    "C72_empty_row_refuted"
   ],
   "note": "REFUTED (the unrestricted claim is false of the code): rows and columns are exchanged and empty rows shift all later rows; C26_transpose states what arrives. What holds for all inputs (the statement): C72_faithful_exactly; the _refuted theorems show the natural unrestricted claim false."
  },
  {
   "property": "C73",
   "status": "proved",
   "theorems": [
    "C73_single_cell_holds_areas",
    "C73_single_cell_cn_refuted"
   ],
   "note": "REFUTED (the unrestricted claim is false of the code): the array holds area vectors instead of cell centres. What holds for all inputs (the statement): C73_single_cell_holds_areas; the _refuted theorems show the natural unrestricted claim false."
  },
  {
   "property": "C74",
   "status": "proved",
   "theorems": [
    "C74_located_exactly",
    "C74_offset_overflow",
    "C74_large_cells_refuted"
   ],
   "note": "REFUTED (the unrestricted claim is false of the code): offsets are stored in 8 bits; C29_rows_any_size: the rows themselves are right. What holds for all inputs (the statement): C74_located_exactly; the _refuted theorems show the natural unrestricted claim false."
  },
  {
   "property": "C75",
   "status": "proved",
   "theorems": [
    "C75_div_exactly",
    "C75_laplacian_exactly",
    "C75_grad_exactly",
    "C75_div_value_exactly",
    "C75_dirty_target_refuted",
    "C75_div_value_uninitialised_refuted"
   ],
   "note": "REFUTED (the unrestricted claim is false of the code): the division by V is applied to the previous contents too; the value-returning div starts from uninitialised memory. C33 gives the exact formula. What holds for all inputs (the statement): C75_div_exactly, C75_laplacian_exactly, C75_grad_exactly, C75_div_value_exactly; the _refuted theorems show the natural unrestricted claim false."
  },
  {
   "property": "C76",
   "status": "proved",
   "theorems": [
    "C76_gradient_boundary_refuted",
    "C76_scheme_ignored_refuted",
    "C76_gradient_difference"
   ],
   "note": "REFUTED (the unrestricted claim is false of the code): the implicit form always uses upwind and treats a gradient condition as zero gradient; C34 states what it is. What holds for all inputs (the statement): C76_gradient_difference; the _refuted theorems show the natural unrestricted claim false."
  },
  {
   "property": "C77",
   "status": "proved",
   "theorems": [
    "C77_div_race_refuted",
    "C77_laplacian_race_refuted",
    "C77_div_exactly",
    "C77_laplacian_exactly"
   ],
   "note": "REFUTED (the unrestricted claim is false of the code): boundary kernels update the diagonal and right-hand side without atomics; C35 covers cells with at most one boundary face. What holds for all inputs (the statement): C77_div_exactly, C77_laplacian_exactly; the _refuted theorems show the natural unrestricted claim false."
  },
  {
   "property": "C78",
   "status": "proved",
   "theorems": [
    "C78_explicit_gamma_refuted",
    "C78_agree_exactly"
   ],
   "note": "REFUTED (the unrestricted claim is false of the code): the explicit form never reads gamma; C36_matches_explicit_unit_gamma for gamma = 1. What holds for all inputs (the statement): C78_agree_exactly; the _refuted theorems show the natural unrestricted claim false."
  },
  {
   "property": "C79",
   "status": "proved",
   "theorems": [
    "C79_ddt_explicit_scaling_refuted",
    "C79_scaling_exactly"
   ],
   "note": "REFUTED (the unrestricted claim is false of the code): the explicit form multiplies by V and never reads the scaling; C38_ddt_explicit states what it adds. What holds for all inputs (the statement): C79_scaling_exactly; the _refuted theorems show the natural unrestricted claim false."
  },
  {
   "property": "C80",
   "status": "proved",
   "theorems": [
    "C80_source_term_explicit_refuted",
    "C80_source_term_implicit_refuted",
    "C80_vector_divergence_refuted",
    "C80_source_terms_ignored",
    "C80_vector_divergence_ignored"
   ],
   "note": "REFUTED (the unrestricted claim is false of the code): SourceTerm declares no FieldValueType, and DivOperator<Vector>::explicitOperation takes a Field<scalar>, so the wrapper drops both; C39 covers the others. What holds for all inputs (the statement): C80_source_terms_ignored, C80_vector_divergence_ignored; the _refuted theorems show the natural unrestricted claim false."
  },
  {
   "property": "C81",
   "status": "proved",
   "theorems": [
    "C81_weight_exactly",
    "C81_small_cells_refuted"
   ],
   "note": "REFUTED (the unrestricted claim is false of the code): the degenerate case is detected by an absolute threshold 1e-18 on area*distance; C41_weights above it. What holds for all inputs (the statement): C81_weight_exactly; the _refuted theorems show the natural unrestricted claim false."
  },
  {
   "property": "C82",
   "status": "proved",
   "theorems": [
    "C82_patch_end_refuted",
    "C82_surface_extrapolated_refuted",
    "C82_patch_end_exactly",
    "C82_surface_extrapolated_exactly"
   ],
   "note": "REFUTED (the unrestricted claim is false of the code): patchEnd() returns the start; 'extrapolated' is not registered for surface fields. What holds for all inputs (the statement): C82_patch_end_exactly, C82_surface_extrapolated_exactly; the _refuted theorems show the natural unrestricted claim false."
  },
  {
   "property": "C83",
   "status": "proved",
   "theorems": [
    "C83_ddt_coefficient_refuted",
    "C83_explicit_ddt_assembly_refuted",
    "C83_scaling_ignored",
    "C83_explicit_ddt_assembly_exactly"
   ],
   "note": "REFUTED (the unrestricted claim is false of the code): DdtOperator::explicitOperation ignores its coefficient and multiplies by V, and assemble multiplies by V again. What holds for all inputs (the statement): C83_scaling_ignored, C83_explicit_ddt_assembly_exactly; the _refuted theorems show the natural unrestricted claim false."
  },
  {
   "property": "C84",
   "status": "proved",
   "theorems": [
    "C84_solve_fresh_pattern_refuted",
    "C84_solve_exactly",
    "C84_backward_euler_exactly",
    "C84_backward_euler_fresh_pattern_refuted"
   ],
   "note": "REFUTED (the unrestricted claim is false of the code): the step and solve() build a new pattern whose parallel slot order can differ from the cached one the operators use; C46_solve_system, C48 for the same pattern. What holds for all inputs (the statement): C84_solve_exactly, C84_backward_euler_exactly; the _refuted theorems show the natural unrestricted claim false."
  },
  {
   "property": "C85",
   "status": "proved",
   "theorems": [
    "C85_only_explicit_operators",
    "C85_implicit_operators_refuted",
    "C85_ddt_coefficient_refuted"
   ],
   "note": "REFUTED (the unrestricted claim is false of the code): only the explicit spatial operators are evaluated; C47 states the step. What holds for all inputs (the statement): C85_only_explicit_operators; the _refuted theorems show the natural unrestricted claim false."
  },
  {
   "property": "C86",
   "status": "proved",
   "theorems": [
    "C86_explicit_operators_ignored",
    "C86_boundary_unchanged",
    "C86_solution_dictionary_ignored",
    "C86_explicit_operators_refuted",
    "C86_boundary_refuted",
    "C86_solver_dictionary_refuted"
   ],
   "note": "REFUTED (the unrestricted claim is false of the code): the explicit source is computed and not used, boundary conditions are not corrected, the solver is built from fvSchemes; C48 for implicit operators. What holds for all inputs (the statement): C86_explicit_operators_ignored, C86_boundary_unchanged, C86_solution_dictionary_ignored; the _refuted theorems show the natural unrestricted claim false."
  },
  {
   "property": "C87",
   "status": "proved",
   "theorems": [
    "C87_continues_from_own_copy",
    "C87_boundary_unchanged",
    "C87_boundary_refuted",
    "C87_external_change_refuted"
   ],
   "note": "REFUTED (the unrestricted claim is false of the code): boundary values are not corrected; a retained integrator continues from its own copy; C49 for cell values. What holds for all inputs (the statement): C87_continues_from_own_copy, C87_boundary_unchanged; the _refuted theorems show the natural unrestricted claim false."
  },
  {
   "property": "C88",
   "status": "proved",
   "theorems": [
    "C88_no_cells_refuted",
    "C88_courant_exactly"
   ],
   "note": "REFUTED (the unrestricted claim is false of the code): on a mesh without cells the lowest representable number is returned; C50 otherwise. What holds for all inputs (the statement): C88_courant_exactly; the _refuted theorems show the natural unrestricted claim false."
  },
  {
   "property": "C89",
   "status": "proved",
   "theorems": [
    "C89_exec_refuted",
    "C89_geometric_field_exec_refuted",
    "C89_range_gpu_refuted",
    "C89_exec_exactly",
    "C89_geometric_field_exactly",
    "C89_range_exactly"
   ],
   "note": "REFUTED (the unrestricted claim is false of the code): exec_ is copied from the source; data of a domain field stay where they were; ranges dereference device memory. C51_data: the arrays themselves are placed right. What holds for all inputs (the statement): C89_exec_exactly, C89_geometric_field_exactly, C89_range_exactly; the _refuted theorems show the natural unrestricted claim false."
  },
  {
   "property": "C90",
   "status": "proved",
   "theorems": [
    "C90_ginkgo_exactly",
    "C90_overflow_refuted"
   ],
   "note": "REFUTED (the unrestricted claim is false of the code): indices are narrowed to int; C56 for systems that fit. What holds for all inputs (the statement): C90_ginkgo_exactly; the _refuted theorems show the natural unrestricted claim false."
  },
  {
   "property": "C91",
   "status": "proved",
   "theorems": [
    "C91_implicit_transport",
    "C91_implicit_complete"
   ],
   "note": "About a linear solver that returns solutions of the system it is given. Of the two bundled ones, PETSc is one for symmetric systems only (C118) and Ginkgo's constructor rejects fvSchemes, which backward Euler gives it (C119_transport_throws)."
  },
  {
   "property": "C92",
   "status": "proved",
   "theorems": [
    "C92_implicit_conservation",
    "C92_implicit_closed"
   ],
   "note": ""
  },
  {
   "property": "C93",
   "status": "proved",
   "theorems": [
    "C93_comparison",
    "C93_bounded",
    "C93_constant"
   ],
   "note": ""
  },
  {
   "property": "C94",
   "status": "proved",
   "theorems": [
    "C94_unique_result"
   ],
   "note": ""
  },
  {
   "property": "C95",
   "status": "proved",
   "theorems": [
    "C95_explicit_transport",
    "C95_explicit_conservation",
    "C95_explicit_bounded"
   ],
   "note": ""
  },
  {
   "property": "C96",
   "status": "proved",
   "theorems": [
    "C96_div_any_order",
    "C96_laplacian_any_order",
    "C96_surfaceIntegrate_any_order",
    "C96_every_order",
    "C96_serial_reproducible",
    "C96_two_faces_reproducible",
    "C96_order_matters"
   ],
   "note": ""
  },
  {
   "property": "C97",
   "status": "proved",
   "theorems": [
    "C97_div_error",
    "C97_laplacian_error",
    "C97_surfaceIntegrate_error",
    "C97_executors_agree",
    "C97_one_dimension_bitwise"
   ],
   "note": ""
  },
  {
   "property": "C98",
   "status": "proved",
   "theorems": [
    "C98_new_operator",
    "C98_explicit",
    "C98_implicit",
    "C98_ddt",
    "C98_empty_equation"
   ],
   "note": ""
  },
  {
   "property": "C99",
   "status": "proved",
   "theorems": [
    "C99_steady_solve",
    "C99_steady_complete"
   ],
   "note": ""
  },
  {
   "property": "C100",
   "status": "proved",
   "theorems": [
    "C100_divergence_free",
    "C100_every_solution",
    "C100_compatible",
    "C100_level"
   ],
   "note": ""
  },
  {
   "property": "C101",
   "status": "proved",
   "theorems": [
    "C101_coefficients",
    "C101_gradient_linear",
    "C101_laplacian_quadratic",
    "C101_series",
    "C101_poisson"
   ],
   "note": ""
  },
  {
   "property": "C102",
   "status": "proved",
   "theorems": [
    "C102_explicit_diffusion",
    "C102_conservation",
    "C102_bounded",
    "C102_sharp",
    "C102_unique_result"
   ],
   "note": ""
  },
  {
   "property": "C103",
   "status": "proved",
   "theorems": [
    "C103_max_norm",
    "C103_distance"
   ],
   "note": ""
  },
  {
   "property": "C104",
   "status": "proved",
   "theorems": [
    "C104_advection",
    "C104_exact_shift",
    "C104_diffusion_limit"
   ],
   "note": ""
  },
  {
   "property": "C105",
   "status": "proved",
   "theorems": [
    "C105_sum_error",
    "C105_executors_agree",
    "C105_two_terms",
    "C105_max_exact",
    "C105_order_matters"
   ],
   "note": ""
  },
  {
   "property": "C106",
   "status": "proved",
   "theorems": [
    "C106_same_on_all_ranks",
    "C106_accepted",
    "C106_integers",
    "C106_sum_that_fits",
    "C106_bool",
    "C106_scalars",
    "C106_vector",
    "C106_product_accuracy"
   ],
   "note": ""
  },
  {
   "property": "C107",
   "status": "proved",
   "theorems": [
    "C107_throws",
    "C107_fields_kept",
    "C107_solver_exception",
    "C107_retry"
   ],
   "note": ""
  },
  {
   "property": "C108",
   "status": "proved",
   "theorems": [
    "C108_fields",
    "C108_time_loop",
    "C108_buffers"
   ],
   "note": ""
  },
  {
   "property": "C109",
   "status": "proved",
   "theorems": [
    "C109_divergence",
    "C109_laplacian",
    "C109_every_order",
    "C109_divergence_reproducible",
    "C109_laplacian_reproducible",
    "C109_source",
    "C109_ddt",
    "C109_diagonal_error",
    "C109_one_dimension_bitwise"
   ],
   "note": ""
  },
  {
   "property": "C110",
   "status": "proved",
   "theorems": [
    "C110_value_semantics",
    "C110_independent",
    "C110_copy",
    "C110_assign",
    "C110_move",
    "C110_no_sharing",
    "C110_no_leak",
    "C110_copy_old_time",
    "C110_volume_copy",
    "C110_unregistered",
    "C110_existing_executor"
   ],
   "note": ""
  },
  {
   "property": "C111",
   "status": "proved",
   "theorems": [
    "C111_segments",
    "C111_mesh_labels",
    "C111_wide_labels",
    "C111_patches",
    "C111_messages",
    "C111_sizes"
   ],
   "note": ""
  },
  {
   "property": "C112",
   "status": "proved",
   "theorems": [
    "C112_right_data",
    "C112_kept",
    "C112_mesh_of",
    "C112_same_object",
    "C112_safe",
    "C112_dangling",
    "C112_no_leak"
   ],
   "note": ""
  },
  {
   "property": "C113",
   "status": "proved",
   "theorems": [
    "C113_steady_balanced",
    "C113_bounded",
    "C113_comparison",
    "C113_unique",
    "C113_paths",
    "C113_pressure_unique",
    "C113_pressure_exactly",
    "C113_pressure_level",
    "C113_every_solution"
   ],
   "note": ""
  },
  {
   "property": "C114",
   "status": "proved",
   "theorems": [
    "C114_implicit_exists",
    "C114_steady_exists",
    "C114_pressure_exists",
    "C114_pressure_compatible"
   ],
   "note": ""
  },
  {
   "property": "C115",
   "status": "proved",
   "theorems": [
    "C115_interpolation_same_bits",
    "C115_gradient_same_bits",
    "C115_interpolation_error",
    "C115_interpolation_bounds",
    "C115_upwind_exact",
    "C115_constant_exact",
    "C115_constant_not_exact",
    "C115_gradient_error",
    "C115_gradient_sign",
    "C115_laplacian_total",
    "C115_div_total"
   ],
   "note": ""
  },
  {
   "property": "C116",
   "status": "proved",
   "theorems": [
    "C116_linear_solver",
    "C116_solver_called",
    "C116_integrator",
    "C116_missing_entries",
    "C116_fields_seen"
   ],
   "note": ""
  },
  {
   "property": "C117",
   "status": "proved",
   "theorems": [
    "C117_forward_euler",
    "C117_backward_euler",
    "C117_runge_kutta_later",
    "C117_copy",
    "C117_copy_runge_kutta_fails",
    "C117_move",
    "C117_solver",
    "C117_solver_copy_unusable",
    "C117_create"
   ],
   "note": ""
  },
  {
   "property": "C118",
   "status": "proved",
   "theorems": [
    "C118_steady",
    "C118_complete",
    "C118_time_loop",
    "C118_pressure",
    "C118_transport",
    "C118_convection"
   ],
   "note": ""
  },
  {
   "property": "C119",
   "status": "proved",
   "theorems": [
    "C119_executor",
    "C119_system",
    "C119_steady",
    "C119_unsupported",
    "C119_time_loop",
    "C119_backward_throws",
    "C119_transport_throws"
   ],
   "note": ""
  },
  {
   "property": "C120",
   "status": "proved",
   "theorems": [
    "C120_snapshot",
    "C120_construction",
    "C120_system_kept",
    "C120_copy",
    "C120_solve_never_returns"
   ],
   "note": ""
  },
  {
   "property": "C121",
   "status": "proved",
   "theorems": [
    "C121_serial",
    "C121_two_faces",
    "C121_one_dimension",
    "C121_step",
    "C121_exact_integrator",
    "C121_exact_solve"
   ],
   "note": ""
  },
  {
   "property": "C122",
   "status": "proved",
   "theorems": [
    "C122_initialised_vector_returns_the_field",
    "C122_vectors_are_independent",
    "C122_a_copy_shares_the_vector",
    "C122_unusable_until_initialised",
    "C122_fresh_objects_are_unusable",
    "C122_a_copy_dies_with_the_original",
    "C122_a_copy_of_a_copy_shares_neither",
    "C122_a_move_hands_the_vector_over",
    "C122_other_executors_are_undefined",
    "C122_instance"
   ],
   "note": ""
  },
  {
   "property": "C123",
   "status": "proved",
   "theorems": [
    "C123_correct_programs",
    "C123_one_session",
    "C123_errors",
    "C123_rank_and_size",
    "C123_instance"
   ],
   "note": ""
  },
  {
   "property": "C124",
   "status": "proved",
   "theorems": [
    "C124_exact_program",
    "C124_close",
    "C124_range",
    "C124_executors",
    "C124_content"
   ],
   "note": ""
  },
  {
   "property": "C125",
   "status": "proved",
   "theorems": [
    "C125_serial",
    "C125_ends",
    "C125_step",
    "C125_exact",
    "C125_exact_loop"
   ],
   "note": ""
  },
  {
   "property": "C126",
   "status": "proved",
   "theorems": [
    "C126_upwind",
    "C126_diffusion",
    "C126_implicit"
   ],
   "note": ""
  },
  {
   "property": "C127",
   "status": "proved",
   "theorems": [
    "C127_meaning",
    "C127_upwind",
    "C127_diffusion",
    "C127_implicit"
   ],
   "note": ""
  },
  {
   "property": "C128",
   "status": "proved",
   "theorems": [
    "C128_courant",
    "C128_executors",
    "C128_limit",
    "C128_mean",
    "C128_underflow",
    "C128_exact"
   ],
   "note": ""
  }
 ]
}