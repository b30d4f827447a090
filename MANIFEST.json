{
 "claims": [
  {
   "property": "C01",
   "status": "proved",
   "theorems": [
    "C01_morton_interleaves_bits"
   ],
   "note": ""
  },
  {
   "property": "C02",
   "status": "proved",
   "theorems": [
    "C02_morton_round_trip"
   ],
   "note": ""
  },
  {
   "property": "C03",
   "status": "proved",
   "theorems": [
    "C03_code_prefix_is_cell"
   ],
   "note": ""
  },
  {
   "property": "C04",
   "status": "proved",
   "theorems": [
    "C04_levels"
   ],
   "note": ""
  },
  {
   "property": "C05",
   "status": "proved",
   "theorems": [
    "C05_discretisation_range"
   ],
   "note": "Any IEEE precision >= 2 and exponent range above cbits; fused and unfused multiply-add."
  },
  {
   "property": "C06",
   "status": "proved",
   "theorems": [
    "C06_discretisation_monotone"
   ],
   "note": "Fused and unfused multiply-add."
  },
  {
   "property": "C07",
   "status": "proved",
   "theorems": [
    "C07_exact_discretisation"
   ],
   "note": ""
  },
  {
   "property": "C08",
   "status": "proved",
   "theorems": [
    "C08_accepted_inside_box_refuted"
   ],
   "note": "The property is false of the code; the refutation is proved. The true weaker statement is C57."
  },
  {
   "property": "C09",
   "status": "proved",
   "theorems": [
    "C09_deduced_box_exact",
    "C09_deduced_box_accepts"
   ],
   "note": "IEEE part for deduced sizes from 2^(10-emax) to 2^(emax-2)."
  },
  {
   "property": "C10",
   "status": "proved",
   "theorems": [
    "C10_box_schedule_independent"
   ],
   "note": ""
  },
  {
   "property": "C11",
   "status": "proved",
   "theorems": [
    "C11_construction_stores_permutation"
   ],
   "note": "The sort is an arbitrary function returning a sorted permutation."
  },
  {
   "property": "C12",
   "status": "proved",
   "theorems": [
    "C12_ordered_views_follow_history"
   ],
   "note": "Any sequence of successful updates; failing ones are C41."
  },
  {
   "property": "C13",
   "status": "proved",
   "theorems": [
    "C13_last_permutation"
   ],
   "note": ""
  },
  {
   "property": "C14",
   "status": "proved",
   "theorems": [
    "C14_node_holds_its_cell"
   ],
   "note": "Tree construction on any sorted code list, any split threshold and publication order."
  },
  {
   "property": "C15",
   "status": "proved",
   "theorems": [
    "C15_which_cells_are_nodes"
   ],
   "note": ""
  },
  {
   "property": "C16",
   "status": "proved",
   "theorems": [
    "C16_depth_first_layout"
   ],
   "note": ""
  },
  {
   "property": "C17",
   "status": "proved",
   "theorems": [
    "C17_leaves_partition"
   ],
   "note": ""
  },
  {
   "property": "C18",
   "status": "proved",
   "theorems": [
    "C18_critical_nodes_partition"
   ],
   "note": ""
  },
  {
   "property": "C19",
   "status": "proved",
   "theorems": [
    "C19_parallel_build_deterministic"
   ],
   "note": "Concurrency enters as an arbitrary permutation of the published partial trees and critical lists; memory-model effects are not modelled."
  },
  {
   "property": "C20",
   "status": "proved",
   "theorems": [
    "C20_node_mass_and_centre"
   ],
   "note": "Exact arithmetic; scalar and SIMD code paths; every tree reachable by any history."
  },
  {
   "property": "C21",
   "status": "proved",
   "theorems": [
    "C21_node_cells"
   ],
   "note": "Exact arithmetic."
  },
  {
   "property": "C22",
   "status": "proved",
   "theorems": [
    "C22_no_index_overflow"
   ],
   "note": "Node properties are an arbitrary oracle."
  },
  {
   "property": "C23",
   "status": "proved",
   "theorems": [
    "C23_every_particle_once"
   ],
   "note": "Any arithmetic, any acceptance function. Oversized shifts have an arbitrary value (see C31)."
  },
  {
   "property": "C24",
   "status": "proved",
   "theorems": [
    "C24_accepted_for_every_target",
    "C25_barnes_hut_sums"
   ],
   "note": "The first theorem is about the comparison made by the code in any arithmetic, the second gives the geometric criterion in exact arithmetic."
  },
  {
   "property": "C25",
   "status": "proved",
   "theorems": [
    "C25_barnes_hut_sums"
   ],
   "note": "Exact arithmetic (exact inverse square root)."
  },
  {
   "property": "C26",
   "status": "proved",
   "theorems": [
    "C26_small_theta_is_exact"
   ],
   "note": "Exact arithmetic."
  },
  {
   "property": "C27",
   "status": "proved",
   "theorems": [
    "C27_potential_error_bound"
   ],
   "note": "Exact arithmetic."
  },
  {
   "property": "C28",
   "status": "proved",
   "theorems": [
    "C28_same_trees",
    "C28_same_results",
    "C28_negative_masses_refuted"
   ],
   "note": "Exact arithmetic, every batch size: same trees for every program; same results and failures of every force call for trees with non-negative masses. For negative masses the refutation is proved (single precision, opposite signs). That accesses stay within the buffers is part of C61 (no undefined behaviour)."
  },
  {
   "property": "C29",
   "status": "proved",
   "theorems": [
    "C29_ordered_results"
   ],
   "note": "Any arithmetic."
  },
  {
   "property": "C30",
   "status": "proved",
   "theorems": [
    "C30_written_once",
    "C30_order_independent"
   ],
   "note": "Any arithmetic. Critical nodes are processed one after the other in an arbitrary order; the first theorem shows that their writes are disjoint and do not depend on the output."
  },
  {
   "property": "C31",
   "status": "proved",
   "theorems": [
    "C31_shift_refuted"
   ],
   "note": "The property is false; the refutation is proved."
  },
  {
   "property": "C32",
   "status": "proved",
   "theorems": [
    "C32_parameters_checked"
   ],
   "note": "Any arithmetic; build without accelerator support."
  },
  {
   "property": "C33",
   "status": "proved",
   "theorems": [
    "C33_exact_sums"
   ],
   "note": "Exact arithmetic."
  },
  {
   "property": "C34",
   "status": "proved",
   "theorems": [
    "C34_momentum_conserved"
   ],
   "note": "Exact arithmetic."
  },
  {
   "property": "C35",
   "status": "proved",
   "theorems": [
    "C35_edges_are_overlaps",
    "C35_float_edges",
    "C35_no_false_edges",
    "C35_float_refuted",
    "C35_deep_leaf_refuted"
   ],
   "note": "Equivalence in exact arithmetic, and in IEEE arithmetic for sizes that are not a few roundings below a cell size; without that condition, and for leaves of maximum depth on machines with masked shifts, edges are missed: refutations proved."
  },
  {
   "property": "C36",
   "status": "proved",
   "theorems": [
    "C36_well_formed"
   ],
   "note": "Any arithmetic. That the previous content is discarded is part of C37_schedule_independent."
  },
  {
   "property": "C37",
   "status": "proved",
   "theorems": [
    "C37_schedule_independent"
   ],
   "note": "Any arithmetic; concurrent appends are arbitrary permutations."
  },
  {
   "property": "C38",
   "status": "proved",
   "theorems": [
    "C38_relabelled"
   ],
   "note": "Any arithmetic."
  },
  {
   "property": "C39",
   "status": "proved",
   "theorems": [
    "C39_refuted",
    "C39_defined_otherwise"
   ],
   "note": "The property is false; the refutation is proved, and the absence of undefined shifts under the complementary condition."
  },
  {
   "property": "C40",
   "status": "proved",
   "theorems": [
    "C40_bad_sizes_rejected",
    "C40_empty"
   ],
   "note": "IEEE arithmetic; sizes of particles only (the row-size check of the range iterators is not modelled)."
  },
  {
   "property": "C41",
   "status": "proved",
   "theorems": [
    "C41_failing_update_gives_default_tree"
   ],
   "note": "Allocation failures are part of the schedule."
  },
  {
   "property": "C42",
   "status": "proved",
   "theorems": [
    "C42_copies_and_moves",
    "C42_independence"
   ],
   "note": "A throwing copy constructor creates no object and is not an operation of the model."
  },
  {
   "property": "C43",
   "status": "proved",
   "theorems": [
    "C43_invariants_hold_after_every_history"
   ],
   "note": "The debug check that coordinates lie inside the box is not an invariant, see C08 and C57."
  },
  {
   "property": "C44",
   "status": "proved",
   "theorems": [
    "C44_mass_update_is_rebuild",
    "C44_mass_update_succeeds_iff_rebuild"
   ],
   "note": ""
  },
  {
   "property": "C45",
   "status": "proved",
   "theorems": [
    "C45_linear_in_G"
   ],
   "note": "Exact arithmetic."
  },
  {
   "property": "C46",
   "status": "proved",
   "theorems": [
    "C46_accelerations_agree",
    "C46_scalar_potentials_agree",
    "C46_exact_potentials_agree",
    "C46_vector_potentials_refuted"
   ],
   "note": "The bitwise claim is refuted for the potentials of the vector code path in single precision."
  },
  {
   "property": "C47",
   "status": "proved",
   "theorems": [
    "C47_split_covers_every_particle",
    "C47_split_scheduling",
    "C47_split_orders",
    "C47_split_succeeds",
    "C47_split_defined",
    "C47_split_sums",
    "C47_split_direct",
    "C47_split_error",
    "C47_count_exact",
    "C47_split_sum_overflow_refuted"
   ],
   "note": "Coverage, scheduling and orders in any arithmetic; success and absence of undefined behaviour in IEEE arithmetic (with CUDA if the sum of the split values is finite; otherwise refuted); sums, direct sums and error bound in exact arithmetic."
  },
  {
   "property": "C48",
   "status": "proved",
   "theorems": [
    "C48_kernel_accounts_for_all",
    "C48_kernel_sums",
    "C48_no_self_interaction"
   ],
   "note": "Any arithmetic, exact arithmetic, and IEEE arithmetic respectively; every warp size."
  },
  {
   "property": "C49",
   "status": "proved",
   "theorems": [
    "C49_indices_bounded",
    "C49_rocm_index_bounded",
    "C49_indices_bounded_refuted"
   ],
   "note": "True if the number of particles is exactly representable; refuted for single precision and more than 2^24 particles."
  },
  {
   "property": "C50",
   "status": "proved",
   "theorems": [
    "C50_duplicates_refuted",
    "C50_same_type_rejected",
    "C50_first_one_counts"
   ],
   "note": "The property is false; the refutation is proved, and what holds instead."
  },
  {
   "property": "C51",
   "status": "proved",
   "theorems": [
    "C51_lvalue_masses_refuted",
    "C51_lvalues_unchanged",
    "C51_only_moved_objects_change",
    "C51_masses_lost"
   ],
   "note": "The property is false for the masses; the refutation is proved, and that nothing else changes."
  },
  {
   "property": "C52",
   "status": "proved",
   "theorems": [
    "C52_inconsistent_sizes_rejected",
    "C11_construction_stores_permutation"
   ],
   "note": "Out-of-bounds reads are excluded by C58."
  },
  {
   "property": "C53",
   "status": "proved",
   "theorems": [
    "C53_enough_memory",
    "C53_alignments",
    "C53_vectors",
    "C53_direct_calls_refuted"
   ],
   "note": "Any width of size_t. The allocator itself does not refuse sizes above max_size(): refuted; containers do."
  },
  {
   "property": "C54",
   "status": "proved",
   "theorems": [
    "C54_printed_nodes",
    "C54_stream",
    "C54_printed_codes",
    "C54_node_text"
   ],
   "note": "Text of floating-point numbers is a parameter."
  },
  {
   "property": "C55",
   "status": "proved",
   "theorems": [
    "C55_views_refreshed_refuted",
    "C55_views_fresh_without_mass_updates"
   ],
   "note": "The property is false of the code; the refutation and the true remainder are proved."
  },
  {
   "property": "C56",
   "status": "proved",
   "theorems": [
    "C56_checked_addition",
    "C56_concurrent_additions",
    "C56_counts_are_differences",
    "C56_large_counts_rejected"
   ],
   "note": "Any width for the additions; difference types of 64 bits for the counts."
  },
  {
   "property": "C57",
   "status": "proved",
   "theorems": [
    "C57_accepted_near_box"
   ],
   "note": ""
  },
  {
   "property": "C58",
   "status": "proved",
   "theorems": [
    "C58_no_undefined_behaviour"
   ],
   "note": "Operations of the tree object; traversal and collision queries are separate properties."
  },
  {
   "property": "C59",
   "status": "proved",
   "theorems": [
    "C59_box_follows_particles",
    "C59_box_value_exact"
   ],
   "note": "First theorem in any arithmetic."
  },
  {
   "property": "C60",
   "status": "proved",
   "theorems": [
    "C60_valid_data_accepted"
   ],
   "note": "Exact arithmetic; allocation always succeeds."
  },
  {
   "property": "C61",
   "status": "proved",
   "theorems": [
    "C61_no_undefined_behaviour"
   ],
   "note": "Any arithmetic."
  },
  {
   "property": "C62",
   "status": "proved",
   "theorems": [
    "C62_any_order",
    "C62_accepted_calls",
    "C62_accepted_force_calls",
    "C62_constructor_values",
    "C62_force_values",
    "C62_other_keywords_ignored"
   ],
   "note": "Conversions of numbers (boost::numeric_cast) are given with the objects."
  },
  {
   "property": "C63",
   "status": "proved",
   "theorems": [
    "C63_structure",
    "C63_exact_nodes",
    "C63_exact_forces",
    "C63_exact_collisions",
    "C63_float_refuted"
   ],
   "note": "Structure in any arithmetic; masses and results in exact arithmetic; that the masses may differ in single precision is proved with a witness."
  },
  {
   "property": "C64",
   "status": "proved",
   "theorems": [
    "C64_parameters",
    "C64_updates_keep_parameters",
    "C64_update_is_rebuild",
    "C64_exact_rebuild"
   ],
   "note": "Structure in IEEE arithmetic, equal nodes in exact arithmetic."
  },
  {
   "property": "C65",
   "status": "proved",
   "theorems": [
    "C65_potential_second_order",
    "C65_acceleration_second_order",
    "C65_split_second_order"
   ],
   "note": "Exact arithmetic."
  },
  {
   "property": "C66",
   "status": "proved",
   "theorems": [
    "C66_node_mass_rounding",
    "C66_node_centre_rounding"
   ],
   "note": "Bounds explicit in the precision, the number of particles and the vector size; 2 <= prec."
  },
  {
   "property": "C67",
   "status": "proved",
   "theorems": [
    "C67_moderate_data_accepted",
    "C67_small_masses_refuted"
   ],
   "note": "Sufficient ranges; that data outside of them can be rejected is shown with witnesses in single precision."
  },
  {
   "property": "C68",
   "status": "proved",
   "theorems": [
    "C68_rejected_calls",
    "C68_out_of_memory",
    "C68_overloads_agree",
    "C68_unchanged_if_failed_refuted"
   ],
   "note": "CPU path; that a failed call can leave a mixture of old and new values is shown with a witness."
  },
  {
   "property": "C69",
   "status": "proved",
   "theorems": [
    "C69_exact_sums_rounding"
   ],
   "note": "Bound explicit in the precision and the number of particles; 8 <= prec, moderate data."
  },
  {
   "property": "C70",
   "status": "proved",
   "theorems": [
    "C70_forces_rounding"
   ],
   "note": "CPU path; bound explicit in the precision, the number of particles and the vector size; 8 <= prec, moderate data; the accuracy of the platform's reciprocal square root before the Newton step is a hypothesis."
  },
  {
   "property": "C71",
   "status": "proved",
   "theorems": [
    "C71_total_error"
   ],
   "note": "CPU path; combines the rounding errors of C66 and C70 with the second-order bounds of C65; same hypotheses as C70, no extremely small nodes."
  },
  {
   "property": "C72",
   "status": "proved",
   "theorems": [
    "C72_split_rounding",
    "C72_split_total_error"
   ],
   "note": "CPU and accelerators; same hypotheses as C70 and C71; the square root and the division of the devices are assumed correctly rounded, and the whole device arithmetic IEEE with or without fused operations."
  },
  {
   "property": "C73",
   "status": "proved",
   "theorems": [
    "C73_construction_interleavings",
    "C73_update_interleavings",
    "C73_merge_interleavings",
    "C73_masses_interleavings",
    "C73_force_interleavings"
   ],
   "note": "Small-step interleaving semantics with element accesses as atomic steps; the parallel sort, the parallel reduction of the box size and exceptions in loops are not part of the programs; the recursive tasks of the tree construction are the subject of C78 (their merging is included here)."
  },
  {
   "property": "C74",
   "status": "proved",
   "theorems": [
    "C74_size_of_trees"
   ],
   "note": ""
  },
  {
   "property": "C75",
   "status": "proved",
   "theorems": [
    "C75_constructor_units",
    "C75_deduced_box_units",
    "C75_node_units",
    "C75_force_units"
   ],
   "note": "Exact arithmetic; the acceptance by the constructor is stated for given boxes."
  },
  {
   "property": "C76",
   "status": "proved",
   "theorems": [
    "C76_structure",
    "C76_distinct_cells",
    "C76_distinct_forces",
    "C76_exact_forces",
    "C76_exact_collisions"
   ],
   "note": "Any arithmetic if no two particles share a smallest cell; exact arithmetic otherwise (C63 shows why)."
  },
  {
   "property": "C77",
   "status": "proved",
   "theorems": [
    "C77_collision_interleavings"
   ],
   "note": "Calls that return a graph; element accesses and appends are atomic steps, exceptions thrown by tasks are in C86."
  },
  {
   "property": "C78",
   "status": "proved",
   "theorems": [
    "C78_construction_interleavings"
   ],
   "note": "Constructions that succeed; element accesses, appends and additions are atomic steps, exceptions thrown by tasks are not part of the program."
  },
  {
   "property": "C79",
   "status": "proved",
   "theorems": [
    "C79_coincident_particles",
    "C79_coincident_exact"
   ],
   "note": "CPU path and exact functions; the platform's reciprocal square root of zero is assumed not to be finite."
  },
  {
   "property": "C80",
   "status": "proved",
   "theorems": [
    "C80_criterion_compares_numbers",
    "C80_same_decision"
   ],
   "note": "The equality of the decisions is stated for the scalar check; the vector code adds the squares in another order."
  },
  {
   "property": "C81",
   "status": "proved",
   "theorems": [
    "C81_buffers_do_not_matter",
    "C81_no_uninitialised_value"
   ],
   "note": "CPU path (a split with more than one entry is refused in this model, as without accelerators)."
  },
  {
   "property": "C82",
   "status": "proved",
   "theorems": [
    "C82_potentials_not_positive",
    "C82_massless_particle",
    "C82_no_masses",
    "C82_exact_sums",
    "C82_flushed_rsqrt_refuted"
   ],
   "note": "The sign of potentials needs an assumption on the platform's approximate inverse square root; the refuted form shows that it is needed. NaN is not excluded (see C71, C79)."
  },
  {
   "property": "C83",
   "status": "proved",
   "theorems": [
    "C83_concurrent_calls",
    "C83_shared_outputs_refuted"
   ],
   "note": "Calls on the CPU that return; element accesses are atomic steps, the work buffers are local to the threads (their contents do not matter: C81), and the sharing of worker threads between calls is covered as far as a task runs to its end on its thread."
  },
  {
   "property": "C84",
   "status": "proved",
   "theorems": [
    "C84_masses_failure",
    "C84_positions_failure",
    "C84_box_failure"
   ],
   "note": "The loops for the masses, the Morton codes and the box size; the tasks of the tree construction are in C85. Cancellation is allowed at any access, TBB only does it between chunks."
  },
  {
   "property": "C85",
   "status": "proved",
   "theorems": [
    "C85_construction_failure",
    "C85_update_failure",
    "C85_ordered_updates"
   ],
   "note": "Constructor with a given box, updates through the views of any reachable tree (those in the original order are reduced to those in Morton order); allocations that succeed; the codes and the sorted columns are the premises Hcodes0, Hcodes, Hcols'. Size limit: number of particles times levels below 2^64-1. Cancellation is allowed at any access, TBB only does it between chunks."
  },
  {
   "property": "C86",
   "status": "proved",
   "theorems": [
    "C86_collision_failure"
   ],
   "note": "Platforms whose shift by the full width is defined as in C40 (full_shift); allocations succeed; the number of particles times levels is below the largest iterator difference. Cancellation is allowed at any access, TBB only does it between chunks."
  }
 ]
}