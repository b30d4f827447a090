# Design: a machine-checked model of rakau

Source: `/repo` (bluescarni/rakau, pinned). Model and proofs: `rocq/theories`, Coq 8.16.1.
All line numbers refer to `/repo`; `tree.hpp` means `include/rakau/tree.hpp`, and so on.

## 1. Approach

* Every function of the library that is modelled becomes one total Gallina function, in the same
  order of operations as the C++ code, with a comment citing file and lines.
* **Outcomes.** Functions that can throw or invoke undefined behaviour return
  `outcome A := Ok a | Throw e | UB`. Out-of-bounds reads/writes and out-of-range float-to-integer
  conversions are `UB`. Shifts by the width of the type or more are delegated to a parameter of the
  platform (`k_ovs`): `UB` on a strict machine, the shift by the masked amount on x86/ARM
  (`benign_shift`). Fuel exhaustion in loops is `UB` too, so proofs of `Ok` exclude it.
* **Integers.** Codes are `N` with explicit `mod 2^w` (w = width of the code type). Indices and
  sizes are `nat`; where overflow is the question, they are compared against `2^64 - 1` in `N`, or
  the arithmetic is on `N` modulo `2^w` (`Util.v`).
* **Floating point.** All numeric code is generic over a record of operations `fops F` (a plain
  Gallina record, no module types). It is instantiated
  - with the reals (`Rops`), "exact arithmetic", for the algebraic properties, and
  - with Flocq's IEEE-754 binary floats (any precision/exponent range; float and double are
    instances), for range, rounding and NaN/infinity properties and for executable examples.
  Theorems said to hold "in any arithmetic" quantify over `F` and `O : fops F` without any law.
* **Parallelism.** TBB loops over disjoint data are modelled by their sequential effect; C73 justifies this with an
  interleaving semantics (`Par.v`, `ParTree.v`) for the loops of the constructor, the updates and the CPU force
  computation, C77 (`ParBag.v`, `ParColl.v`) for the collision graph, and C78 (`ParBuild.v`) for the recursive construction of the nodes.
  Schedule-dependent behaviour (publication order of concurrent tasks, unstable parallel sort,
  reduction trees, processing order of critical nodes, order of appends to shared lists, interleaving
  of CPU and device results) is an explicit universally quantified parameter.
* **User callbacks** (update functors) are arbitrary functions that may also throw.
* **Object histories.** `Tree.v` has a state machine of tree objects (`op`, `step`, `run`); the
  invariants are proved for all `reachable` trees, i.e. after every sequence of operations,
  including failing ones.
* **Compile-time decisions** (keyword arguments) are Booleans; `None` is a call that does not compile.

## 2. Layout

Model of the code:

| file | content | source |
|---|---|---|
| `Base.v` | outcome monad, checked arrays, monadic list functions | - |
| `Config.v` | dimension/width configuration, cbits, clz, tree_level, node_compare | detail/tree_fwd.hpp 141-228, tree.hpp 432-743 |
| `MortonLUT.v`, `Morton.v` | lookup tables (copied by script), encoders, decoders | detail/libmorton, tree.hpp 217-683 |
| `FOps.v` | float interface; instances: reals, IEEE | - |
| `Disc.v` | discretisation, box size deduction, node geometry | tree.hpp 381-482, 1240-1319 |
| `Build.v` | serial and parallel tree construction, critical nodes, checked counters | tree.hpp 510-528, 745-1060 |
| `NodeProps.v` | node properties, scalar and vector loops | tree.hpp 1116-1237 |
| `Tree.v` | tree object: constructors, updates, copy/move, views, histories | tree.hpp 493-507, 1248-1262, 1329-1904, 3618-3884 |
| `Kernels.v`, `Force.v` | traversal, kernels (scalar and vector), force API, exact functions | tree.hpp 1960-3022, 3260-3535, detail/simd.hpp 75-122 |
| `Gpu.v` | splits, ROCm and CUDA kernels, device copies | tree.hpp 3023-3257, src/rakau_cuda.cu, src/rakau_rocm.cpp |
| `Coll.v` | collision graph | detail/tree_coll.hpp, tree.hpp (compute_cgraph) |
| `Kw.v` | keyword arguments | detail/igor.hpp, tree.hpp 1530-1733, 3375-3403 |
| `Out.v` | outputs of the force functions, failed allocations | tree.hpp 2872-3022, 3293-3497 |
| `Util.v` | checked additions, aligned allocator | tree.hpp 510-528, detail/di_aligned_allocator.hpp |
| `Print.v` | printing | tree.hpp 1906-1957 |
| `Par.v` | programs with shared memory: interleavings, data races, `parallel_for`, `task_group` | (TBB, C++ memory model) |
| `ParBag.v` | the same with atomic updates (concurrent vectors) | (TBB, C++ memory model) |
| `ParColl.v` | the collision graph as such a program | detail/tree_coll.hpp 231-583 |
| `ParBuild.v` | the recursive construction of the nodes as such a program | tree.hpp 841-983 |
| `Scratch.v` | the CPU force computation once more, with the persistent work buffers of the threads | tree.hpp 1967-3022 |
| `ParTree.v`, `ParLast.v` (`force_task`) | the parallel loops and task groups as such programs | tree.hpp 493-507, 951-1058, 1255-1262, 1417-1485, 2923-3022, 3694-3733, 3795-3799 |

Vocabulary of the statements (models no code): `TreeSpec.v`, `BuildSpec.v`, `TreeInv.v`, `RSum.v`, `Geometry.v`.

Proofs: `MortonProofs`, `CodesProofs`, `FOpsProofs`, `DiscProofs`, `BoxProofs`, `BoxMore`, `BoxAccept`, `BoxInv`,
`BuildProofs`, `BuildProps`, `TreeProofs`, `TreeProps`, `TreeSafe`, `NodeGeom`, `NodesR`, `TravProofs`,
`KernLoops`, `KernR`, `SelfSum`, `ForceGen`, `ForceOut`, `ForceTop`, `ForceR`, `ForceRTop`, `ForceMore`, `ForceAcc`, `Unique`, `UniqueR`, `UniqueColl`, `Rebuild`, `Round`, `RoundNode`, `RoundFin`, `RoundCtor`, `SelfShape`, `RoundNear`, `RoundKern`, `RoundSum`, `RoundExact`, `TreeShape`, `RoundTree`, `RoundRsqrt`, `RoundSrc`, `RoundMac`, `RoundGeo`, `RoundForce`, `RoundCell`, `Expand`, `RoundTotal`, `RoundAll`, `RoundLane`, `RoundDev`, `RoundDevEx`, `ForceQ`, `ForceProps`, `ForceLast`,
`SimdTree`, `SimdForce`, `GpuKernel`, `GpuOut`, `GpuTop`, `GpuSplit`, `GpuR`, `GpuSelf`, `GpuMain`,
`CollSearch`, `CollCover`, `CollProofs`, `CollR`, `CollFloat`, `CollShift`, `CollProps`, `CollLast`,
`KwProofs`, `OutProofs`, `MiscProofs`, `ParProofs`, `ParTop`, `ParTop2`, `ParLast`, `Size`, `Scale`, `ScaleEx`, `Relabel`, `OrderEx`,
`ParCollProofs`, `ParCollEx`, `ParBuildProofs`, `ParBuildEx`, `Coincide`, `MacNan`, `ScratchProofs`, `Sign`, `ParCalls` (which also has the definitions of concurrent calls), `ParExn` (programs with exceptions), `ParExnTop` (which also has the loops that can throw), `ParBagExn` (the programs of `ParBag` with exceptions), `ParBuildExn` (which also has the construction with tasks that throw), `ParBuildExnTop`, `ParSpec`, `ParCollExn` (which also has the collision graph with tasks that throw).

Examples (concrete trees, nothing models code): `TreeEx`, `NodesEx`, `ForceEx`, `SimdEx`, `GpuEx`, `CollEx`, `CollWit`, `KwEx`, `OutEx`, `RoundEx`.

`Prop_*.v` contain only the property theorems, each closed by one lemma, followed by
`Print Assumptions` and an example that meets the hypotheses.

## 3. Per property: what is modelled and how it is proved

| property | how |
|---|---|
| C01-C03 | Lookup tables checked by computation over their index range; the byte loops are related to `N.testbit` for all inputs. |
| C04 | Arithmetic on `N.log2`; the order of nodes is lexicographic order of cells. |
| C05, C06 | Flocq correctness theorems for multiplication and fma, monotonicity of rounding. |
| C07 | Exact arithmetic, `Ztrunc` on reals. |
| C08 | False: refuted by a concrete double, computed with Flocq. True remainder: C57, by error analysis. |
| C09 | Exact part by algebra; IEEE part by rounding-error analysis, sizes from 2^(10-emax) to 2^(emax-2). |
| C10 | The reduction is an arbitrary binary tree; max on finite floats is associative, commutative, idempotent up to the sign of zero. |
| C11-C13, C41-C44, C52, C55, C58 | State machine of tree objects; the sort is an arbitrary function returning a sorted permutation; refinement to a plain array of particles in original order. C55 is false (ROCm copies are stale after a mass update): refuted. |
| C14-C19, C22 | The builders are related to a declarative description of the tree by induction on the remaining levels; the parallel builder equals the serial one for every permutation of the published parts. |
| C20, C21, C59, C60 | Sums over lists of reals; convexity; invariants of histories. |
| C23, C24, C31, C61 | Traversal over the node array with an arbitrary acceptance oracle; the ranges accounted for partition the particles by the subtree-size property. C31 is false for nodes of maximal depth: refuted; C61 is what holds. |
| C25-C27, C33, C34, C45 | Kernels over the reals; C27 by the triangle inequality and the acceptance criterion. |
| C28 | Two executions of the same program with different batch sizes compute the same trees and results in exact arithmetic. For negative masses refuted. |
| C29, C30, C32 | Any arithmetic: disjointness of the written ranges. |
| C35-C40 | Any two zoomed-out cells containing a common point are nested; binary search of leaves; IEEE part by error analysis of the level computation. Refutations by concrete trees. |
| C46 | Lockstep execution for two quantities, in any arithmetic; bitwise claim for vector potentials refuted. |
| C47-C49 | Split arithmetic in IEEE double; warps with votes; interleaving of CPU and device tasks arbitrary. |
| C50, C51, C62 | Igor's parser as functions on argument lists; properties by permutation and case analysis. |
| C53, C54, C56 | Arithmetic modulo `2^w`; strings. |
| C63, C64 | Sorted lists of codes are unique; the position of a particle in one tree as a function of its position in the other; node sums are permuted; deduced boxes are functions of the set of coordinates. |
| C65 | Expansion of one source about the centre of mass with explicit remainders; first moments about the centre of mass vanish. |
| C66 | The scalar and vector loops add every term once, with at most n + B roundings per term; relative error of sums and subnormal terms of fused products (Flocq). |
| C67 | Ranges of all intermediate results of discretisation and of node properties; no overflow, hence no NaN, in either. |
| C68 | The parallel loop performs a sublist of the nodes; every node writes its own places, after everything in it that can throw. |
| C69 | Relative errors of each interaction as products of factors between (1-u) and 1/(1-u); absolute errors of sums of terms of either sign. |
| C70 | Rounding errors of the padding, of the acceptance test, of the node data and centres, of the Newton step and of the sums along the traversal; the list of the sources is the one of C25 (tiling of the particles by the events of the traversal). |
| C71 | Particles of a node lie in its cell up to the roundings of the discretisation; the expansion of C65 about a point that is only approximately the centre of mass, with an approximate total mass; the partition of C70 splits the exact direct sum. |
| C72 | One lane of a warp adds one term per event of its warp; the term of the particle itself has zero displacement, a unit added to its squared distance, and zero mass in the potential, so it vanishes; the votes of the lanes replace the acceptance test; then as C70 and C71. |
| C73 | Each task has a footprint (locations read and written when it runs alone); tasks with footprints that do not conflict commute, so no reachable state has a race and every interleaving ends in the memory of the sequential run (induction over the steps). The footprints of the iterations are disjoint because the index arrays are permutations and the critical nodes tile the particles. |
| C74 | Nodes of one level have disjoint ranges, so the pairs (level, particle) covered by the nodes are counted; every node but the root is one of the 2^NDim children of a node with more than max_leaf_n particles. |
| C75 | The tree with multiplied columns, nodes and box satisfies the invariant (closed form of the node sums, codes unchanged); the traversal takes the same decisions; every interaction is homogeneous; C63 for any other tree with the same particles. |
| C76 | The second tree with its permutation composed with the reordering satisfies the invariant with the view of the first; then the uniqueness of C63. If codes are distinct the position of a particle is determined by its code. |
| C77 | Every interleaving of a program whose concurrent tasks only read or only append to the locations they share, and that does not depend on the order of what was appended, ends with the memory of the sequential execution up to the order of the appends; sorting removes the order. |
| C78 | `ParBag` again, by induction on the levels: the tasks of different children use partial trees, lists and counters of their own, and share the two concurrent vectors and the counter of the parent, which they only update. The vectors end as permutations of the sequential ones, any permutation is the effect of a schedule of `build_tree`, and the sort removes it. |
| C79 | Induction over the accumulation of a result row (as for C70): the difference vector of coincident particles is a vector of zeros, the quotient is not finite, zero times it is NaN, and NaN and non-finite values survive every later step; equal real coordinates have equal codes, so both particles are in the same critical node. |
| C80 | Differences of finite numbers are not NaN, squares of such differences and their sums are not negative or are infinite; the bound is a product of finite numbers or a square; the code of a particle shifted to the level of a node tells whether it is inside. |
| C81 | Simulation: for every function of the force computation, the columns of the buffers hold the rows of the row-based model whatever is beyond them (`ScratchProofs.v`). |
| C82 | Sign classes of floating-point numbers closed under the operations (Flocq), induction over the interactions of a particle (`racc`) and over the sums of the nodes. |
| C83 | The program of a call is renamed to output locations of its own; footprints, safety and effect are preserved; parts with disjoint writes arranged in series or parallel behave as the parts alone. |
| C84 | A language with exceptions and cancellation; the sequential execution and its list of exceptions determine all the interleavings of a program without conflicting accesses; every exception of the loops is the same one. |
| C85 | Programs with atomic appends and exceptions; accesses, exceptions and lengths of the tasks are bounded without executing them; tasks without failure are simulated by those of C78, a task with a failing node must throw. |
| C86 | As C85; what tasks read in arrays that nobody writes is replaced by its value, which gives programs whose accesses and exceptions do not depend on the memory. |

All properties are proved in the form stated in `MANIFEST.json`; where the property is false of
the code the theorem with suffix `_refuted` gives a witness and another theorem the true remainder.

## 4. Trusted base

* Coq's kernel (and its VM, for `vm_compute`).
* The axioms that `Print Assumptions` shows for each theorem. Only axioms of the standard library
  occur: **D** `ClassicalDedekindReals.sig_forall_dec`, **N** `ClassicalDedekindReals.sig_not_dec`,
  **E** `FunctionalExtensionality.functional_extensionality_dep`, **C** `Classical_Prop.classic`.

  | axioms | theorems |
  |---|---|
  | none | C01_morton_interleaves_bits, C02_morton_round_trip, C03_code_prefix_is_cell, C04_levels, C11_construction_stores_permutation, C12_ordered_views_follow_history, C13_last_permutation, C14_node_holds_its_cell, C15_which_cells_are_nodes, C16_depth_first_layout, C17_leaves_partition, C18_critical_nodes_partition, C19_parallel_build_deterministic, C22_no_index_overflow, C23_every_particle_once, C24_accepted_for_every_target, C35_no_false_edges, C36_well_formed, C37_schedule_independent, C38_relabelled, C40_empty, C42_copies_and_moves, C42_independence, C43_invariants_hold_after_every_history, C44_mass_update_is_rebuild, C44_mass_update_succeeds_iff_rebuild, C48_kernel_accounts_for_all, C50_first_one_counts, C50_same_type_rejected, C51_lvalues_unchanged, C51_masses_lost, C51_only_moved_objects_change, C52_inconsistent_sizes_rejected, C53_alignments, C53_direct_calls_refuted, C53_enough_memory, C53_vectors, C54_node_text, C54_printed_codes, C54_printed_nodes, C54_stream, C55_views_fresh_without_mass_updates, C56_checked_addition, C56_concurrent_additions, C56_counts_are_differences, C59_box_follows_particles, C62_accepted_calls, C62_accepted_force_calls, C62_any_order, C62_constructor_values, C62_force_values, C62_other_keywords_ignored, C63_structure, C64_parameters, C64_updates_keep_parameters, C73_construction_interleavings, C73_masses_interleavings, C73_merge_interleavings, C73_update_interleavings, C74_size_of_trees, C76_distinct_cells, C76_structure, C77_collision_interleavings, C78_construction_interleavings, C85_ordered_updates |
  | D, E | C29_ordered_results, C30_order_independent, C30_written_once, C32_parameters_checked, C46_accelerations_agree, C46_scalar_potentials_agree, C47_split_covers_every_particle, C47_split_orders, C47_split_scheduling, C61_no_undefined_behaviour, C68_out_of_memory, C68_overloads_agree, C68_rejected_calls, C73_force_interleavings, C76_distinct_forces, C81_buffers_do_not_matter, C81_no_uninitialised_value, C83_concurrent_calls |
  | D, N, E | C07_exact_discretisation, C09_deduced_box_exact, C20_node_mass_and_centre, C21_node_cells, C25_barnes_hut_sums, C26_small_theta_is_exact, C27_potential_error_bound, C28_same_results, C28_same_trees, C33_exact_sums, C34_momentum_conserved, C35_edges_are_overlaps, C45_linear_in_G, C46_exact_potentials_agree, C47_split_direct, C47_split_error, C47_split_sums, C48_kernel_sums, C59_box_value_exact, C60_valid_data_accepted, C63_exact_collisions, C63_exact_forces, C63_exact_nodes, C64_exact_rebuild, C65_acceleration_second_order, C65_potential_second_order, C65_split_second_order, C75_constructor_units, C75_deduced_box_units, C75_force_units, C75_node_units, C76_exact_collisions, C76_exact_forces |
  | D, N, C, E | C05_discretisation_range, C06_discretisation_monotone, C08_accepted_inside_box_refuted, C09_deduced_box_accepts, C10_box_schedule_independent, C28_negative_masses_refuted, C31_shift_refuted, C35_deep_leaf_refuted, C35_float_edges, C35_float_refuted, C39_defined_otherwise, C39_refuted, C40_bad_sizes_rejected, C41_failing_update_gives_default_tree, C46_vector_potentials_refuted, C47_count_exact, C47_split_defined, C47_split_succeeds, C47_split_sum_overflow_refuted, C48_no_self_interaction, C49_indices_bounded, C49_indices_bounded_refuted, C49_rocm_index_bounded, C50_duplicates_refuted, C51_lvalue_masses_refuted, C55_views_refreshed_refuted, C56_large_counts_rejected, C57_accepted_near_box, C58_no_undefined_behaviour, C63_float_refuted, C64_update_is_rebuild, C66_node_centre_rounding, C66_node_mass_rounding, C67_moderate_data_accepted, C67_small_masses_refuted, C68_unchanged_if_failed_refuted, C69_exact_sums_rounding, C70_forces_rounding, C71_total_error, C72_split_rounding, C72_split_total_error, C79_coincident_exact, C79_coincident_particles, C80_criterion_compares_numbers, C80_same_decision, C82_exact_sums, C82_flushed_rsqrt_refuted, C82_massless_particle, C82_no_masses, C82_potentials_not_positive, C83_shared_outputs_refuted, C84_box_failure, C84_masses_failure, C84_positions_failure, C85_construction_failure, C85_update_failure, C86_collision_failure |

* The faithfulness of the hand-written model to the C++ code (comments give the lines).

### Modelled

The CPU code of `tree.hpp` (construction, updates, queries, force computation, exact
computations, printing), `detail/tree_coll.hpp`, `detail/igor.hpp`, the aligned allocator, libmorton's table-driven
functions, and the device code of `src/rakau_cuda.cu` and `src/rakau_rocm.cpp`.

### Not modelled or simplified

* The C++ memory model. In C73 threads interleave reads and writes of single array elements (sequential consistency). C++
  guarantees this for programs without data races, and C73 shows that no interleaving reaches a race. The move of the new
  vector in `apply_isort` is a copy of its elements there, tasks may read more than the code does (all particles, all nodes),
  and `parallel_sort`, `parallel_reduce` and exceptions in loops are not part of these programs.
  C77 does the same for the collision graph (without the checks of debug builds); there a `push_back` on a concurrent vector is one
  atomic step, and a write of a vector or row stands for sorting, clearing or resizing it. C78 does it for the recursive build
  tasks; a subtree below the threshold is built by one task in memory of its own and is one write there. In the work that the CPU and the
  devices do together races are excluded only as far as writes are shown to be disjoint (C47).
* TBB, Boost and xsimd internals: `parallel_sort` is any function returning a sorted permutation,
  `parallel_reduce` any reduction tree, `numeric_cast` a range check, batches are lists of lanes;
  the order of the additions in `xsimd::hadd` is arbitrary (`e_hadd`).
* The approximate inverse square root of the vector code is a platform parameter (`k_rsqrt`), constrained to be exact
  in statements about exact arithmetic, and otherwise arbitrary.
* Allocation failures are modelled where the library catches exceptions (constructor, updates) and in the force
  computation on the CPU (`Out.v`); not in the collision graph, which changes nothing but its result.
* Timers, logging output (`simple_timer`), the serialisation of `std::ostream` formatting of floats (a parameter), debug-only
  assertions, `RAKAU_WITH_*` build plumbing, the benchmark and test programs.
* Device runtime: allocation and launch failures are one optional exception; launch errors that the code does not check are not modelled.
* Thread-local buffers of the force computation: `Force.v` models them by their contents during one critical node; `Scratch.v` models them as arrays that
  persist between nodes, calls and trees, with elements without value, and C81 proves both models equal.
* `long double` is an instance of the IEEE model; 80-bit padding is irrelevant. Non-IEEE types are not covered.

## 5. Mutation tests

`seeded/LOG.jsonl` has one line per wrong edit of a definition in a scratch copy. Lines with `lemmas_failed` are precise: every
proof that breaks is replaced by `Admitted` there, the build goes on, and `theorems_failed` are the property theorems that
depend on a broken proof according to `Print Assumptions`. In the other lines `theorems_failed` lists all property theorems in
files that do not build any more, and `first_failure` is where the build stops; this list is larger than the set of theorems
affected. In both cases a broken proof does not imply that the statement is false in the edited model. Edits that do not
type-check are not listed.

## 6. Findings

Behaviour of the code found while modelling. Those with a theorem are proved of the model.

* Accepted coordinates can lie outside of the box by one rounding error (`C08_accepted_inside_box_refuted`).
* Nodes of maximal depth make the traversal and the collision search shift by the width of the code type
  (`C31_shift_refuted`, `C39_refuted`), and on machines that mask the shift collisions are missed (`C35_deep_leaf_refuted`).
* Rounding of the cell size can hide collisions (`C35_float_refuted`).
* The potentials of the vector code depend on whether accelerations are computed too (`C46_vector_potentials_refuted`).
* With masses of opposite signs vector and scalar code can differ in success (`C28_negative_masses_refuted`).
* ROCm copies are stale after `update_masses` (`C55_views_refreshed_refuted`).
* With CUDA an overflow of the sum of the split values is undefined behaviour (`C47_split_sum_overflow_refuted`); in single
  precision the split index can exceed the number of particles (`C49_indices_bounded_refuted`).
* Keyword arguments given twice with different types are accepted and the first one counts (`C50_duplicates_refuted`); unknown
  keywords are ignored; masses given as lvalue are emptied if all coordinates are rvalues (`C51_lvalue_masses_refuted`).
* `allocate` of the aligned allocator does not check `max_size()` (`C53_direct_calls_refuted`).
* (C63) Two trees with the same particles and parameters can have different node masses in floating-point arithmetic: particles with equal codes are summed in the order left by the sort (witness: masses 2^24, 1, 1).
* (C67) Positive masses are rejected with invalid_argument if the sum of a node is so small that its inverse overflows (single precision: 2^-149), and so is a particle in a box of size 2^64 in single precision, as the square of the size overflows.
* (C82) With `rsqrtps`, which takes subnormal numbers as zero, the refined inverse square root of a subnormal number is minus infinity: in single precision with AVX two particles at a distance below about 1e-19 without softening get the potential plus infinity (`C82_flushed_rsqrt_refuted`).
Not proved, only observed: `rocm_init_state` is noexcept but uses a throwing cast; kernel launch errors are not checked. The acceptance test
would take a NaN distance as accepted on the CPU and as rejected on devices, but there is none (C80). Output vectors are resized before
the parameters are checked (modelled, C68).
