{"id": "C01", "title": "Morton codes interleave the coordinate bits", "statement": "For the four supported (dimension, code type) combinations, encoding discretised coordinates c_0..c_{d-1}, each below 2^cbits, gives the integer whose bit d*i+k is bit i of c_k and which has no other bit set; in particular the code is below 2^(d*cbits), so the leading 1 of a nodal code always fits in the code type.", "quantifier": "all tuples of coordinates below 2^cbits, d in {2,3}, code width in {32,64}", "why_tests_cant": "There are up to 2^63 coordinate tuples; a wrong entry in a 256-entry lookup table or a wrong shift only shows for particular bit patterns.", "anchors": ["include/rakau/tree.hpp:morton_encoder (217-299)", "include/rakau/detail/libmorton/morton3D.h:m3D_e_sLUT (37-49)", "include/rakau/detail/libmorton/morton2D.h:m2D_e_sLUT (36-47)", "include/rakau/detail/libmorton/morton3D_LUTs.h", "include/rakau/detail/libmorton/morton2D_LUTs.h", "include/rakau/detail/tree_fwd.hpp:compute_cbits_v (141-147)"]}
{"id": "C02", "title": "Morton encode/decode round trip", "statement": "Decoding the Morton code of any in-range coordinate tuple returns that tuple, and encoding the decoding of any in-range code returns that code; hence distinct cells always have distinct codes.", "quantifier": "all in-range tuples and all in-range codes for the four supported (dimension, code type) combinations", "why_tests_cant": "The domain has up to 2^63 elements and the decoder's table has 512 entries used at seven different offsets.", "anchors": ["include/rakau/tree.hpp:morton_encoder, morton_decoder (217-372)", "include/rakau/detail/libmorton/morton3D.h:m3D_d_sLUT (165-181)", "include/rakau/detail/libmorton/morton2D.h:m2D_d_sLUT (153-168)"]}
{"id": "C03", "title": "Code prefixes are spatial cells", "statement": "For every tree level l, two particles' codes agree on their top d*l bits exactly when every one of their discretised coordinates agrees on its top l bits, i.e. when they lie in the same cell of the 2^l-per-side grid.", "quantifier": "all pairs of in-range coordinate tuples and all levels 0..cbits", "why_tests_cant": "It is a statement about all pairs of bit patterns at all levels.", "anchors": ["include/rakau/tree.hpp:code_shifter (704-714)", "include/rakau/tree.hpp:morton_encoder (217-299)"]}
{"id": "C04", "title": "Level and tree depth arithmetic", "statement": "The number of bits per coordinate is the largest c with d*c < number of bits of the code type, and the level computed from a nodal code (cell prefix with a leading 1) is the level it was built for, for every level and every cell of that level.", "quantifier": "all code widths, all dimensions with d < width, all levels 0..cbits and all cells of the level", "why_tests_cant": "There are up to 2^63 cells per level; tests look at a few.", "anchors": ["include/rakau/detail/tree_fwd.hpp:compute_cbits_v (141-147), clz (153-209), tree_level (212-228)"]}
{"id": "C05", "title": "Discretisation never yields an out-of-range cell nor an undefined conversion", "statement": "For every floating-point coordinate and inverse box size (including NaN, infinities, subnormals), discretising a coordinate either throws std::invalid_argument or returns an integer in [0, 2^cbits); the float-to-integer conversion is never applied outside the range of the integer type; the clamping variant throws only for non-finite intermediate values.", "quantifier": "all IEEE-754 binary floats x and inv_box_size (any precision and exponent range wide enough to hold 2^cbits, in particular float and double), all cbits", "why_tests_cant": "2^128 pairs of inputs in double precision; rounding at the box edges is where it could fail.", "anchors": ["include/rakau/tree.hpp:disc_single_coord (381-429)"]}
{"id": "C06", "title": "Discretisation is monotone", "statement": "If two coordinates x <= y are both accepted for the same positive box size, the cell index of x is <= the cell index of y; the same for the clamping variant used by collision detection.", "quantifier": "all IEEE-754 float pairs x <= y and all positive inverse box sizes, with correctly rounded arithmetic and fused multiply-add", "why_tests_cant": "Quantifies over all pairs of floats; rounding could break it only at special points.", "anchors": ["include/rakau/tree.hpp:disc_single_coord (381-429)"]}
{"id": "C07", "title": "In exact arithmetic a coordinate is accepted iff it is inside the box and is put in the right cell", "statement": "With exact arithmetic, for box size b > 0, coordinate x is accepted iff -b/2 <= x < b/2, and then its cell index k satisfies -b/2 + k*b/2^cbits <= x < -b/2 + (k+1)*b/2^cbits.", "quantifier": "all real x and b > 0", "why_tests_cant": "Uncountable domain; tests sample random interior points.", "anchors": ["include/rakau/tree.hpp:disc_single_coord (381-429)"]}
{"id": "C08", "title": "With IEEE rounding every accepted particle is inside the box", "statement": "Every particle accepted by the constructor satisfies -box_size/2 <= x < box_size/2 (this is asserted by the debug destructor). REFUTED by the code: with rounding, coordinates strictly below -box_size/2 can be accepted.", "quantifier": "all floats x and box sizes", "why_tests_cant": "The failing inputs are isolated ulp-neighbours of the box edge that random tests essentially never hit.", "anchors": ["include/rakau/tree.hpp:disc_single_coord (381-429)", "include/rakau/tree.hpp:~tree (1828-1881)"]}
{"id": "C09", "title": "The deduced box contains all the particles", "statement": "When the box size is not given, the deduced box size is 2.1 times the largest absolute coordinate (exact arithmetic) and every particle is then accepted by discretisation, provided some coordinate is non-zero; with IEEE arithmetic the same acceptance holds for all data whose deduced size and its inverse are normal finite numbers. When all coordinates are zero construction throws std::invalid_argument.", "quantifier": "all finite particle sets", "why_tests_cant": "All particle sets of all sizes; worst case is at the extreme particle and depends on rounding.", "anchors": ["include/rakau/tree.hpp:determine_box_size (1278-1319)", "include/rakau/tree.hpp:construct_impl (1329-1487)", "include/rakau/tree.hpp:disc_single_coord (381-429)"]}
{"id": "C10", "title": "Box deduction does not depend on the parallel schedule", "statement": "However the reduction range is split and however partial results are combined, the deduced box size is bit-for-bit the same, and it throws for one schedule iff it throws for all.", "quantifier": "all particle data (IEEE floats incl. NaN/inf) and all binary splittings of the particle range", "why_tests_cant": "The scheduler's splits cannot be enumerated by tests and are not reproducible.", "anchors": ["include/rakau/tree.hpp:determine_box_size (1278-1319)"]}
{"id": "C11", "title": "Construction stores a permutation of the input", "statement": "After construction, perm() is a permutation of 0..n-1, the i-th particle in tree order is the perm()[i]-th input particle (all coordinates and mass), the codes in tree order are the codes of the stored particles and are sorted, and inv_perm() is the inverse permutation; whatever order the (unstable, parallel) sort gives to equal codes.", "quantifier": "all inputs, all outcomes of the sort that are sorted permutations", "why_tests_cant": "All inputs of all sizes and every tie-breaking of a parallel unstable sort.", "anchors": ["include/rakau/tree.hpp:construct_impl (1329-1487), indirect_code_sort (1266-1274), apply_isort (493-507), perm_to_inv_perm (1248-1262)"]}
{"id": "C12", "title": "Ordered views always show the particles in the user's original order", "statement": "After any sequence of successful particle and mass updates (ordered or unordered, by arbitrary user functions), the ordered iterators present the same particles, in the original order of construction, as a plain array to which the same updates had been applied.", "quantifier": "all initial particle sets, all histories of updates, all tie-breakings of every sort", "why_tests_cant": "Arbitrary-length histories; bugs in composing permutations only show after two or more different reorderings.", "anchors": ["include/rakau/tree.hpp:sync (3678-3743)", "include/rakau/tree.hpp:ord_p_its_impl/p_its_o (3621-3657)", "include/rakau/tree.hpp:update_particles_dispatch (3746-3765)", "include/rakau/tree.hpp:update_masses_dispatch (3782-3805)"]}
{"id": "C13", "title": "last_perm() relates the current tree order to the previous one", "statement": "After a successful particle update, the i-th particle in the new tree order is the last_perm()[i]-th particle of the tree order the update functor saw; perm() is updated accordingly and inv_perm() stays its inverse.", "quantifier": "all histories, all updates", "why_tests_cant": "Arbitrary histories and tie-breakings.", "anchors": ["include/rakau/tree.hpp:sync (3678-3743)", "include/rakau/tree.hpp:members (3840-3884)"]}
{"id": "C14", "title": "Each node holds exactly the particles of its cell", "statement": "For every node of the tree, the particle range [begin,end) is non-empty and contains exactly the particles (in tree order) whose code has the node's cell as prefix; the stored level is the level of the nodal code.", "quantifier": "all sorted code sequences, all nodes, all max_leaf_n and ncrit", "why_tests_cant": "All particle configurations; the ranges come from nested binary searches.", "anchors": ["include/rakau/tree.hpp:build_tree_ser_impl (723-833), build_tree_par_impl (841-931), build_tree (932-1111)"]}
{"id": "C15", "title": "Which cells are nodes", "statement": "A cell of level l is a node of the tree exactly when it contains at least one particle and every strictly larger enclosing cell contains more than max_leaf_n particles; no node occurs twice. Therefore leaves have at most max_leaf_n particles unless they are at the maximum depth.", "quantifier": "all sorted code sequences and all max_leaf_n >= 1", "why_tests_cant": "All particle configurations, including many coincident particles reaching the maximum depth.", "anchors": ["include/rakau/tree.hpp:build_tree_ser_impl (723-833), build_tree (932-1111)"]}
{"id": "C16", "title": "Nodes are stored depth-first and the child count is the subtree size", "statement": "The node array is in depth-first preorder: for every node, the n_children nodes following it are exactly its strict descendants, so skipping n_children+1 entries lands on the next node outside of the subtree; a node with n_children = 0 is a leaf.", "quantifier": "all trees built from any particle set", "why_tests_cant": "Structural invariant over all trees; wrong counts only corrupt traversals of particular shapes.", "anchors": ["include/rakau/tree.hpp:build_tree_ser_impl (723-833), build_tree_par_impl (841-931)", "include/rakau/detail/tree_fwd.hpp:base_tree_node_t (77-89)", "include/rakau/tree.hpp:node_compare (432-441)"]}
{"id": "C17", "title": "Leaves partition the particles", "statement": "Listed in array order, the leaf nodes' particle ranges are consecutive and cover 0..nparts-1 exactly once.", "quantifier": "all trees built from any particle set", "why_tests_cant": "All particle sets.", "anchors": ["include/rakau/tree.hpp:build_tree_ser_impl (723-833)", "include/rakau/detail/tree_coll.hpp:coll_leaves_permutation (182-208)"]}
{"id": "C18", "title": "Critical nodes partition the particles", "statement": "The critical nodes are exactly the tree nodes that have at most ncrit particles (or are leaves) and none of whose ancestors has that property; their ranges, in list order, are consecutive and cover 0..nparts-1 exactly once.", "quantifier": "all trees, all ncrit >= 1 and max_leaf_n >= 1", "why_tests_cant": "All particle sets and parameter values.", "anchors": ["include/rakau/tree.hpp:build_tree_ser_impl (723-833), build_tree (932-1111)", "include/rakau/detail/tree_fwd.hpp:tree_cnode_t (119-125)"]}
{"id": "C19", "title": "Parallel tree construction is deterministic", "statement": "For every order in which concurrent tasks publish their partial trees and critical-node lists, and whatever the size threshold separating parallel from serial tasks, the resulting node array and critical-node list are those of the sequential depth-first construction.", "quantifier": "all particle sets, all publication orders, all split thresholds", "why_tests_cant": "Thread schedules cannot be enumerated by tests.", "anchors": ["include/rakau/tree.hpp:build_tree_par_impl (841-931), build_tree (932-1111), node_compare (432-441)"]}
{"id": "C20", "title": "Node masses and centres of mass", "statement": "With exact arithmetic every node's stored mass is the sum of the masses of its particles, and if that is non-zero the stored centre is the mass-weighted mean of their positions; if it is zero the stored centre is the geometric centre of the node's cell.", "quantifier": "all particle sets (any signs of masses), all nodes", "why_tests_cant": "All particle sets.", "anchors": ["include/rakau/tree.hpp:compute_node_properties (1116-1237)"]}
{"id": "C21", "title": "Node centres lie in the node's cell", "statement": "With exact arithmetic: the node centre computed from a nodal code is the centre of the cube of side box_size/2^level the code denotes; each particle of a node is in that cube; with non-negative masses the centre of mass is in the cube.", "quantifier": "all cells of all levels, all particle sets", "why_tests_cant": "All cells at all levels.", "anchors": ["include/rakau/tree.hpp:get_node_dim, get_node_centre (444-482)", "include/rakau/tree.hpp:compute_node_properties (1116-1237)"]}
{"id": "C22", "title": "Construction never runs out of index range", "statement": "The number of nodes is at most 1 + nparts*cbits; so whenever nparts*cbits < 2^64 - 1, the overflow checks on node counters never fire and tree construction can fail only on non-finite node properties.", "quantifier": "all particle sets", "why_tests_cant": "Sizes at which counters overflow cannot be tested.", "anchors": ["include/rakau/tree.hpp:checked_uinc (510-528)", "include/rakau/tree.hpp:build_tree_ser_impl (723-833), build_tree (932-1111)"]}
{"id": "C23", "title": "Every target accounts for every other particle exactly once", "statement": "In the acceleration/potential computation, for every critical node, the sources accounted for (accepted nodes, leaves computed pairwise, and the critical node's own particles) cover all particles of the system exactly once, for every outcome of the acceptance test at every node.", "quantifier": "all trees, all critical nodes, all outcomes of the multipole acceptance test", "why_tests_cant": "The traversal's control flow depends on floating-point geometry; all 2^nodes outcomes are covered by the theorem.", "anchors": ["include/rakau/tree.hpp:tree_acc_pot (2798-2849), tree_acc_pot_mac_check (2597-2793), tree_acc_pot_leaf (2327-2471), tree_self_interactions (2073-2321)"]}
{"id": "C24", "title": "A node is approximated only if the acceptance criterion holds for every particle of the target", "statement": "A source node is replaced by its multipole for a critical node only if the acceptance criterion (node size < theta * distance, with the offset for bh_geom) holds between the node and every particle of the critical node, and never if the source node is an ancestor of the critical node or the critical node itself.", "quantifier": "all trees, thetas, critical nodes", "why_tests_cant": "All geometric configurations.", "anchors": ["include/rakau/tree.hpp:tree_acc_pot_mac_check (2597-2793)"]}
{"id": "C25", "title": "Accelerations and potentials are the sums the Barnes-Hut scheme defines", "statement": "With exact arithmetic, the acceleration (potential) returned for particle i is G times the sum over directly treated particles j of m_j (x_j-x_i)/(|x_j-x_i|^2+eps^2)^(3/2) (resp. -m_i m_j/(...)^(1/2)) plus the same terms for the accepted nodes with the node mass and centre of mass, where directly treated particles, accepted nodes' particles and i itself partition all particles.", "quantifier": "all particle sets, theta, G, eps, all three result kinds, scalar and SIMD code paths of any width", "why_tests_cant": "All inputs; the tests only compare against a loose tolerance.", "anchors": ["include/rakau/tree.hpp:tree_self_interactions (2073-2321), tree_acc_pot_leaf (2327-2471), tree_acc_pot_src_com (2477-2590), acc_pot_impl (2853-3265)"]}
{"id": "C26", "title": "Small theta gives the exact result", "statement": "With exact arithmetic, if no node is accepted (e.g. theta small enough that theta times the diameter of the box is below the smallest node size) the computed accelerations and potentials are exactly the direct-summation ones, i.e. those of exact_acc/exact_pot.", "quantifier": "all particle sets, G, eps", "why_tests_cant": "Tests check only a tolerance on random data.", "anchors": ["include/rakau/tree.hpp:tree_acc_pot (2798-2849)", "include/rakau/tree.hpp:exact_acc_pot_impl (3531-3569)"]}
{"id": "C27", "title": "Error bound of the Barnes-Hut potential", "statement": "With exact arithmetic, non-negative masses and any softening length (zero only if the positions are distinct), the Barnes-Hut potential of each particle differs from the exact one by at most theta*sqrt(d) times the absolute value of the exact one, d being the number of dimensions.", "quantifier": "all particle sets with non-negative masses, all theta > 0, all eps >= 0, both acceptance criteria", "why_tests_cant": "The accuracy tests check hard-coded tolerances for a few random sets.", "anchors": ["include/rakau/tree.hpp:tree_acc_pot_mac_check (2597-2793), tree_acc_pot_src_com (2477-2590)"]}
{"id": "C28", "title": "SIMD and scalar code paths agree", "statement": "With exact arithmetic the vectorised computations (self interactions, leaf interactions, node interactions, acceptance test, node properties) give the same results as the scalar ones for every batch width and every number of particles; padding lanes contribute nothing to any real particle and all buffer accesses stay within the padded buffers. REFUTED by the code if masses can be negative (they are accepted): the centre of mass of a node can be close to the padding point, so that a padding lane makes the vector code open a node that the scalar code accepts.", "quantifier": "all batch widths >= 1, all target/leaf sizes, all particle data", "why_tests_cant": "Remainder handling has width-many cases per loop and the padded lanes are invisible to tests.", "anchors": ["include/rakau/tree.hpp:tree_self_interactions (2073-2321), tree_acc_pot_leaf (2327-2471), tree_acc_pot_src_com (2477-2590), tree_acc_pot_mac_check (2597-2793), compute_node_properties (1116-1237), acc_pot_impl (2853-3022)"]}
{"id": "C29", "title": "Ordered results are the unordered results in original order", "statement": "For accelerations, potentials and both, the ordered variants return for original particle perm()[i] exactly the value the unordered variants return for tree particle i.", "quantifier": "all trees after any history, all parameters", "why_tests_cant": "All permutations.", "anchors": ["include/rakau/tree.hpp:acc_pot_dispatch (3293-3357)", "include/rakau/tree.hpp:accs_o/pots_o/accs_pots_o (3405-3497)"]}
{"id": "C30", "title": "Every output element is written exactly once", "statement": "An acceleration/potential computation writes each of the nparts output elements of each output array exactly once and nothing else, whatever order the critical nodes are processed in by the parallel loop (so no data race and a schedule-independent result).", "quantifier": "all trees, all orders of processing critical nodes", "why_tests_cant": "Schedules cannot be enumerated.", "anchors": ["include/rakau/tree.hpp:acc_pot_impl (2853-3022)"]}
{"id": "C31", "title": "Traversal performs no undefined shift", "statement": "During acceleration/potential traversal every bit shift has an amount below the width of the code type. REFUTED by the code: when a visited source node is deeper than the target critical node the shift amount wraps around to a huge value, which is undefined behaviour in C++ (masked and harmless on x86).", "quantifier": "all trees and thetas", "why_tests_cant": "The result is right on the test machines, whose shift instruction masks the amount.", "anchors": ["include/rakau/tree.hpp:tree_acc_pot (2798-2849), line 2828"]}
{"id": "C32", "title": "Parameters of the force computation are validated exactly", "statement": "accs/pots calls throw std::domain_error exactly for non-finite or negative eps or non-finite eps^2 or non-finite G or a theta that is non-finite, non-positive or whose derived MAC value is not finite and positive, before touching tree data. With valid parameters they throw std::invalid_argument exactly if the split contains a non-finite or negative number, only zeros, or more than one entry (build without accelerator support), or if the coordinate given to padding particles is not finite. In all other cases they succeed.", "quantifier": "all floats theta, G, eps", "why_tests_cant": "All float values incl. overflow/underflow of theta^-2 and eps^2.", "anchors": ["include/rakau/tree.hpp:compute_eps2 (3268-3281), check_G_const (3283-3289), acc_pot_dispatch (3293-3357)"]}
{"id": "C33", "title": "Exact accelerations and potentials are the direct sums", "statement": "exact_acc/exact_pot for particle i equal G times the sum over all j != i of the pair term, and the ordered variants use the particle's original index.", "quantifier": "all particle sets, all indices i < nparts", "why_tests_cant": "All inputs.", "anchors": ["include/rakau/tree.hpp:exact_acc_pot_impl (3531-3569) and wrappers (3571-3616)"]}
{"id": "C34", "title": "Total momentum is conserved by direct interactions", "statement": "With exact arithmetic, if no node is accepted the mass-weighted sum of all accelerations is zero.", "quantifier": "all particle sets, eps, G", "why_tests_cant": "Tests only see it up to rounding on random data.", "anchors": ["include/rakau/tree.hpp:tree_self_interactions (2073-2321)"]}
{"id": "C35", "title": "Collision graph is sound and complete", "statement": "compute_cgraph returns an edge between two distinct particles exactly when both have a non-zero AABB size and their closed axis-aligned cubes of those sizes overlap.", "quantifier": "all trees, all AABB sizes (finite, non-negative), in exact arithmetic; and in any arithmetic in which discretisation is monotone and an AABB spans at most two adjacent cells per axis at its own level", "why_tests_cant": "Misses depend on the position of boxes relative to empty tree regions; tests use random data with a few sizes.", "anchors": ["include/rakau/detail/tree_coll.hpp:compute_cgraph_impl (210-601), tree_coll_get_aabb_codes (79-153), tree_coll_size_to_level (46-74), tree_coll_node_range (159-175)"]}
{"id": "C36", "title": "Collision graph is symmetric, irreflexive, sorted and duplicate-free", "statement": "The returned graph has one row per particle, each row is strictly increasing, does not contain its own index, and j is in row i iff i is in row j; any previous content of a graph passed in is discarded.", "quantifier": "all trees, sizes, previous contents", "why_tests_cant": "Particles appear in several leaves' lists, so duplicates depend on geometry.", "anchors": ["include/rakau/detail/tree_coll.hpp:compute_cgraph_impl (210-601)"]}
{"id": "C37", "title": "Collision graph does not depend on the schedule", "statement": "For every order in which concurrent tasks append to the per-leaf extra-particle lists and to the rows of the graph, the result is the same.", "quantifier": "all interleavings of the appends", "why_tests_cant": "Schedules cannot be enumerated.", "anchors": ["include/rakau/detail/tree_coll.hpp:compute_cgraph_impl (210-601)"]}
{"id": "C38", "title": "Ordered collision graph is the relabelled unordered one", "statement": "compute_cgraph_o with sizes in original order equals compute_cgraph_u with the sizes permuted to tree order, with vertices renamed through perm().", "quantifier": "all trees after any history, all sizes", "why_tests_cant": "All permutations.", "anchors": ["include/rakau/tree.hpp:compute_cgraph_u/o (3504-3528)", "include/rakau/detail/tree_coll.hpp:compute_cgraph_impl (210-601)"]}
{"id": "C39", "title": "Collision detection performs no undefined shift", "statement": "Every shift in collision detection has an amount below the width of the code type. REFUTED by the code: the code range of a cell at the maximum level shifts by the full width; it is reached by any AABB smaller than the smallest cell that straddles a leaf boundary, or by any leaf at the maximum depth.", "quantifier": "all trees and AABB sizes", "why_tests_cant": "Needs AABBs below box_size/2^cbits or coincident particles; on x86 the masked shift gives an empty range and silently drops the leaf.", "anchors": ["include/rakau/detail/tree_coll.hpp:tree_coll_node_range (159-175), line 172"]}
{"id": "C40", "title": "Invalid AABB sizes are rejected", "statement": "compute_cgraph throws std::invalid_argument if some AABB size is negative or non-finite, and an empty tree gives an empty graph.", "quantifier": "all size sequences", "why_tests_cant": "Any position of the invalid value.", "anchors": ["include/rakau/detail/tree_coll.hpp:compute_cgraph_impl (210-601), tree_coll_get_aabb_codes (79-153)"]}
{"id": "C41", "title": "A failing update leaves an empty default tree", "statement": "If the user functor throws during update_particles/update_masses, or the updated data is invalid, the exception propagates and the tree is left indistinguishable from a default-constructed one; it can be used afterwards.", "quantifier": "all trees, functors, points of failure", "why_tests_cant": "All points of failure in all histories.", "anchors": ["include/rakau/tree.hpp:update_particles_dispatch (3746-3765)", "include/rakau/tree.hpp:update_masses_dispatch (3782-3805)", "include/rakau/tree.hpp:clear (1883-1904)"]}
{"id": "C42", "title": "Copies are equal and independent; moved-from trees are empty defaults", "statement": "Copy construction/assignment yields a tree with identical observables which later operations on either do not affect in the other; move construction/assignment transfers the state and leaves the source equal to a default-constructed tree; self-assignment changes nothing; a failing copy assignment leaves the target as a default-constructed tree.", "quantifier": "all reachable trees, all later operations", "why_tests_cant": "All histories and points of failure.", "anchors": ["include/rakau/tree.hpp:copy/move constructors and assignments (1735-1827)", "include/rakau/tree.hpp:clear (1883-1904)"]}
{"id": "C43", "title": "Tree invariants hold after every history", "statement": "After any sequence of constructions, copies, moves, assignments, clears, successful or failing updates, every tree object satisfies all the invariants checked by the debug destructor: equal sizes, perm/last_perm/inv_perm valid, sorted codes matching particle positions, and node/critical-node structure matching the codes.", "quantifier": "all operation sequences on any number of tree objects", "why_tests_cant": "Arbitrary-length histories.", "anchors": ["include/rakau/tree.hpp:~tree (1828-1881)", "include/rakau/tree.hpp:whole public mutating API (1523-1904, 3678-3805)"]}
{"id": "C44", "title": "Mass updates are equivalent to rebuilding", "statement": "After update_masses the tree is identical to the one obtained by building from the same positions with the new masses: the node array's structure, the particle order and permutations are unchanged and all node properties are those of the new masses.", "quantifier": "all trees, all mass functors", "why_tests_cant": "All trees and functors.", "anchors": ["include/rakau/tree.hpp:update_masses_dispatch (3782-3805)", "include/rakau/tree.hpp:compute_node_properties (1116-1237)"]}
{"id": "C45", "title": "G scales results linearly", "statement": "With exact arithmetic, results computed with gravitational constant G are G times those computed with G = 1, for every code path.", "quantifier": "all trees, G, parameters", "why_tests_cant": "All inputs.", "anchors": ["include/rakau/tree.hpp:acc_pot_impl (2853-3022), exact_acc_pot_impl (3531-3569)"]}
{"id": "C46", "title": "Accelerations and potentials computed together or separately agree", "statement": "accs_pots returns bit for bit the accelerations of accs for the same parameters, on the scalar code path also bit for bit the potentials of pots, and in exact arithmetic the potentials of pots on every code path; both calls fail in the same cases. (REFUTED for floating-point potentials of the vector code path, which differ in the last bit.)", "quantifier": "all trees, parameters", "why_tests_cant": "All inputs.", "anchors": ["include/rakau/tree.hpp:tree_self_interactions (2073-2321), tree_acc_pot_leaf (2327-2471), tree_acc_pot_src_com (2477-2590)"]}
{"id": "C47", "title": "CPU/GPU work split covers every particle exactly once", "statement": "For every accepted split vector, the CPU part (whole critical nodes) and the GPU parts are disjoint index ranges covering 0..nparts-1.", "quantifier": "all split vectors, particle counts, critical-node lists", "why_tests_cant": "Hardware-dependent code, any number of devices and fractions.", "anchors": ["include/rakau/tree.hpp:acc_pot_impl (3023-3257)"]}
{"id": "C48", "title": "GPU kernel accounts for every source exactly once", "statement": "In the GPU kernels, for every warp and every outcome of the acceptance vote, each lane's particle accounts for all other particles of the system exactly once and for itself never.", "quantifier": "all trees, warps, vote outcomes", "why_tests_cant": "No GPU in CI; control flow depends on votes.", "anchors": ["src/rakau_cuda.cu:acc_pot_kernel (152-335)", "src/rakau_rocm.cpp (100-325)"]}
{"id": "C49", "title": "Single-precision split index can exceed the particle count", "statement": "Split indices never exceed the number of particles. REFUTED by the code for single-precision trees: the particle count is rounded to float, so with a trailing zero split and nparts not representable in float the computed index exceeds nparts.", "quantifier": "all split vectors and particle counts", "why_tests_cant": "Needs more than 2^24 particles and several GPUs.", "anchors": ["include/rakau/tree.hpp:acc_pot_impl CUDA branch (3131-3257)"]}
{"id": "C50", "title": "Repeated keyword arguments are rejected at compile time", "statement": "Passing the same keyword argument twice is rejected. REFUTED by the code: the duplicate check compares full argument types, so the same keyword with values of different type or value category is silently accepted and the first one is used.", "quantifier": "all argument lists", "why_tests_cant": "Compile-time behaviour over all type combinations.", "anchors": ["include/rakau/detail/igor.hpp:is_repeated_named_argument/has_duplicates (167-179)"]}
{"id": "C51", "title": "Constructors do not modify lvalue arguments", "statement": "Constructing from caller-owned containers passed as lvalues leaves them unchanged. REFUTED by the code: if the coordinates are rvalue f_vectors and the masses are a non-const lvalue f_vector, the masses are silently moved from.", "quantifier": "all combinations of value categories", "why_tests_cant": "Tests only try all-lvalue and all-rvalue.", "anchors": ["include/rakau/tree.hpp:gc_check_move_pdata (1565-1569), generic constructor (1573-1733)"]}
{"id": "C52", "title": "Inconsistent input sizes are rejected", "statement": "Construction from ranges of different lengths throws std::invalid_argument and never reads out of bounds; otherwise all elements are stored.", "quantifier": "all lengths of the coordinate and mass ranges", "why_tests_cant": "All length combinations.", "anchors": ["include/rakau/tree.hpp:generic constructor (1658-1733)"]}
{"id": "C53", "title": "Aligned allocator never under-allocates", "statement": "For every element count up to max_size(), the number of bytes requested is a multiple of the alignment, is at least count*sizeof(T) and does not wrap around; above max_size() allocation is refused.", "quantifier": "all counts, element sizes and alignments", "why_tests_cant": "Counts near 2^64 cannot be allocated.", "anchors": ["include/rakau/detail/di_aligned_allocator.hpp:max_size, allocate (51-80)"]}
{"id": "C54", "title": "Printing shows the requested prefix of nodes", "statement": "pprint with limit k prints all nodes if k = 0 or k >= number of nodes, otherwise exactly the first k nodes in order followed by an ellipsis. The stream operator does the same with the limit 20. A tree without nodes is printed as the box size and two zero counts.", "quantifier": "all trees and limits", "why_tests_cant": "All sizes.", "anchors": ["include/rakau/tree.hpp:pprint (1906-1953)"]}
{"id": "C55", "title": "GPU views are refreshed after every change of the data", "statement": "With ROCm enabled, after every operation that changes particle or node data the device views are re-created. REFUTED by the code: update_masses modifies masses and node properties without refreshing them.", "quantifier": "all operation histories", "why_tests_cant": "Needs a discrete ROCm GPU and a history with a mass update between two computations.", "anchors": ["include/rakau/tree.hpp:update_masses_dispatch (3782-3805)", "include/rakau/tree.hpp:sync (3678-3743)", "include/rakau/tree.hpp:construct_impl (1329-1487)"]}
{"id": "C56", "title": "Iterator-range and count arithmetic cannot wrap", "statement": "Every particle count accepted by the constructor can be used as an iterator difference: counts above the maximum difference are rejected with std::overflow_error.", "quantifier": "all counts", "why_tests_cant": "Counts above 2^63 cannot be allocated.", "anchors": ["include/rakau/tree.hpp:it_diff_check (533-554)", "include/rakau/tree.hpp:checked_uinc (510-528)"]}
{"id": "C57", "title": "Accepted coordinates are inside the box up to one rounding error", "statement": "For every box size for which box size and inverse are normal numbers, a coordinate x accepted by the discretisation satisfies |x| < box_size/2 * (1 + 2^(2-prec)); if multiply-add is fused (std::fma) it satisfies -box_size/2 <= x < box_size/2 exactly.", "quantifier": "all IEEE-754 formats of precision >= 8, all floats x, all box sizes from 2^(10-emax) to 2^(emax-2)", "why_tests_cant": "The extreme case is at the ulp-neighbours of the box edge of each of the 2^64 box sizes.", "anchors": ["include/rakau/tree.hpp:disc_single_coord (381-429)", "include/rakau/tree.hpp:fma_wrap (182-207)", "include/rakau/tree.hpp:construct_impl (1329-1487)"]}
{"id": "C58", "title": "No operation on trees has undefined behaviour", "statement": "Any program made of constructions, copies, moves, assignments, clears and updates of any number of tree objects performs no out-of-bounds access, no oversized shift and no out-of-range float-to-integer conversion, provided that the objects exist, that the iterators given to the constructor are valid for the stated number of particles, and that the user functors are themselves well defined; failures are only exceptions.", "quantifier": "all programs, all particle data (NaN, infinities, out of box), all schedules, all IEEE formats", "why_tests_cant": "Undefined behaviour may go unnoticed in a test that triggers it, and the inputs range over all floats.", "anchors": ["include/rakau/tree.hpp:construct_impl (1329-1487)", "include/rakau/tree.hpp:sync (3678-3743)", "include/rakau/tree.hpp:update_masses_dispatch (3782-3805)", "include/rakau/tree.hpp:build_tree (932-1111)"]}
{"id": "C59", "title": "The box size follows the particles", "statement": "If the box size was deduced at construction, then after every later history the box size of the tree is the one deduced from its current particles; in exact arithmetic 2.1 times the largest coordinate in absolute value. A box size given by the user is never changed by an update.", "quantifier": "all histories, all data, all schedules", "why_tests_cant": "Histories and particle data are unbounded.", "anchors": ["include/rakau/tree.hpp:sync (3678-3743)", "include/rakau/tree.hpp:determine_box_size (1278-1319)", "include/rakau/tree.hpp:construct_impl (1329-1487)"]}
{"id": "C60", "title": "Valid particle data is always accepted", "statement": "In exact arithmetic and with enough memory, construction with a positive box size b succeeds if and only if every coordinate is in [-b/2, b/2), and throws std::invalid_argument otherwise; with a deduced box size it succeeds for every data set with a non-zero coordinate.", "quantifier": "all particle data (any masses, coincident particles), all leaf sizes and critical sizes >= 1, all schedules", "why_tests_cant": "All data sets; includes degenerate ones (coincident particles, zero or cancelling masses).", "anchors": ["include/rakau/tree.hpp:construct_impl (1329-1487)", "include/rakau/tree.hpp:compute_node_properties (1116-1237)", "include/rakau/tree.hpp:build_tree (932-1111)"]}
{"id": "C61", "title": "No force computation has undefined behaviour", "statement": "A call of accs/pots/accs_pots on any reachable tree performs no out-of-bounds access and no invalid conversion, whatever the parameters, provided that the output ranges hold nparts elements and that oversized shifts have some value (see C31).", "quantifier": "all trees after any history, all parameter values including NaN and infinities, all batch sizes, all orders of the parallel loop", "why_tests_cant": "Out-of-bounds accesses depend on sizes relative to the batch size and on the position in the tree; a test may not notice them.", "anchors": ["include/rakau/tree.hpp:acc_pot_impl (2853-3265)", "include/rakau/tree.hpp:tree_acc_pot (2798-2849)", "include/rakau/tree.hpp:tree_self_interactions (2073-2321)"]}
{"id": "C62", "title": "Keyword arguments can be given in any order and have the documented defaults", "statement": "A constructor or force call with distinct keywords compiles iff the particle data is complete, of one type, and nparts is given exactly for iterators; its outcome does not depend on the order of the arguments and is that of the call with the given values and the defaults for the others (deduced box, default leaf and critical sizes, G = 1, eps = 0, no split); keywords of other functions are ignored.", "quantifier": "all argument lists, all value categories and types, all objects", "why_tests_cant": "Argument lists are template parameters: every list is a different program.", "anchors": ["include/rakau/detail/igor.hpp:parser (187-240)", "include/rakau/tree.hpp:generic constructor (1530-1733)", "include/rakau/tree.hpp:parse_accpot_kwargs (3375-3403)"]}
{"id": "C63", "title": "A tree is determined by its particles and parameters", "statement": "Two trees with the same particles in the original order, the same box size, max_leaf_n and ncrit have the same codes, the same nodes up to mass and centre of mass, and the same critical nodes, whatever operations and schedules led to them. In exact arithmetic the nodes are equal, and ordered accelerations, potentials and collision graphs are equal. In floating-point arithmetic the masses of the nodes may differ.", "quantifier": "all pairs of histories of operations, all schedules of threads and sorts, all particle data, all parameters of the calls", "why_tests_cant": "Relates all pairs of histories and schedules; a test compares two of them.", "anchors": ["include/rakau/tree.hpp:construct_impl (1329-1487)", "include/rakau/tree.hpp:sync (3678-3743)", "include/rakau/tree.hpp:build_tree (932-1111)", "include/rakau/tree.hpp:acc_pot_dispatch (3293-3334)", "include/rakau/detail/tree_coll.hpp:compute_cgraph_impl"]}
{"id": "C64", "title": "Updating a tree is the same as constructing it anew", "statement": "A constructed tree has the given max_leaf_n, ncrit and box size or the defaults, and updates keep them. After a successful update_particles the tree has the same box, codes, node structure and critical nodes as a new tree with the updated particles and the same parameters (box deduced in both cases, or given in both); in exact arithmetic constructing the tree anew succeeds and gives equal nodes.", "quantifier": "all histories, all functors, all schedules of the update and of the construction, every floating-point format", "why_tests_cant": "Quantifies over functors and histories; the deduced box goes through parallel reductions of different shapes.", "anchors": ["include/rakau/tree.hpp:update_particles (3745-3800)", "include/rakau/tree.hpp:sync (3678-3743)", "include/rakau/tree.hpp:generic constructor (1530-1733)", "include/rakau/tree.hpp:determine_box_size (1278-1319)"]}
{"id": "C65", "title": "The error of the approximation is of second order in the opening angle", "statement": "In exact arithmetic, for particles with non-negative masses that do not coincide (or with softening), the error of a computed potential is at most k^2(3+k)/2 times the exact potential, k being theta times the square root of the number of dimensions; if k < 1 the error of every component of an acceleration is at most k^2(3(1+k)^2/2+4(1+k)+3+2/(1-k)) times the sum of G m/(r^2+eps^2) over all the other particles. The bounds hold for both acceptance criteria, on the CPU and when the particles are split between CPU and accelerators.", "quantifier": "all trees, all particles, all opening angles, softening lengths, schedules and splits", "why_tests_cant": "A bound over all configurations; tests compare with direct sums for some random particles.", "anchors": ["include/rakau/tree.hpp:tree_acc_pot_mac_check (2597-2793), tree_acc_pot_src_com (2477-2590)", "include/rakau/tree.hpp:acc_pot_dispatch (3293-3334)", "include/rakau/tree.hpp:compute_node_properties (1113-1237)"]}
{"id": "C66", "title": "Masses and centres of mass of nodes are accurate", "statement": "In IEEE arithmetic with p-bit significands the mass of a node with n particles differs from the exact sum T of their masses by at most ((1-2^-p)^-(n+B) - 1) times the sum of the absolute masses (B: vector size); with non-negative masses the relative error is bounded by the same factor. If the mass is positive and at most 2^(emax-2), every coordinate of the centre of mass differs from the exact one by at most ((1-2^-p)^-(2(n+B)+3) - 1) times the mean of |x| plus terms of the size of the smallest subnormal number. All the masses and coordinates of the particles of such nodes are finite.", "quantifier": "all formats, with and without fused operations, all trees after any history, all vector sizes, all orders of the particles left by the sort", "why_tests_cant": "Rounding errors depend on every bit of the data and on the order of the sums; the tests use tolerances.", "anchors": ["include/rakau/tree.hpp:compute_node_properties (1113-1237)", "include/rakau/detail/simd.hpp"]}
{"id": "C67", "title": "Data of moderate size are accepted", "statement": "In IEEE arithmetic (precision p >= 8, exponents up to emax >= 64) the constructor succeeds if memory suffices, the masses are zero or at least 2^(4-emax) with a sum of at most 2^(emax/2), there are fewer than 2^(p-1) particles, and either a box size between 2^(10-emax) and 2^(emax/2-7) is given and the coordinates are at most 31/64 of it in absolute value, or the box is deduced from coordinates at most 2^(emax/2-9), one of which is at least 2^(9-emax). Some positive masses and some finite box sizes outside of these ranges are rejected.", "quantifier": "all formats, particle data, parameters, schedules and ways to pass the particles", "why_tests_cant": "No finite set of inputs shows that no intermediate result overflows or becomes a NaN.", "anchors": ["include/rakau/tree.hpp:generic constructor (1530-1733)", "include/rakau/tree.hpp:construct_impl (1329-1487)", "include/rakau/tree.hpp:compute_node_properties (1113-1237)", "include/rakau/tree.hpp:determine_box_size (1278-1319)"]}
{"id": "C68", "title": "Failed computations of accelerations and potentials do not corrupt their output", "statement": "A call of accs, pots or accs_pots that throws anything but bad_alloc has written nothing to the output iterators; vectors passed as output have been resized to the number of particles (keeping their first values, new values zero) unless a keyword argument could not be converted. If memory runs out during the computation, every value of the output is the one before the call or the one that a successful call writes. A list with the wrong number of iterators is rejected with invalid_argument. The overloads for arrays of iterators, lists and vectors produce the same values whatever the vectors held before.", "quantifier": "all trees, parameters, keyword arguments, output sizes and contents, orders of the threads, allocation failures at any point and any set of tasks still executed after a failure", "why_tests_cant": "Allocation failures and the set of cancelled tasks cannot be enumerated by tests.", "anchors": ["include/rakau/tree.hpp:acc_pot_dispatch (3293-3357)", "include/rakau/tree.hpp:acc_pot_ilist_to_array (3359-3373)", "include/rakau/tree.hpp:accs_u ... accs_pots_o (3405-3497)", "include/rakau/tree.hpp:acc_pot_impl (2853-3022)"]}
{"id": "C69", "title": "Direct sums are accurate", "statement": "In IEEE arithmetic with p-bit significands, for coordinates at most 2^k in absolute value, masses, G and eps zero or between 2^-k and 2^k, softened distances at least 2^-k (5k+16 and p+4k+4 at most emax) and fewer than 2^(p-1)-27 particles, exact_acc, exact_pot and exact_acc_pot (both orders) succeed, all the results are finite, and each differs from the exact sum of the interactions with the n-1 other particles by at most ((1-2^-p)^-(26+n) - 1) times the sum of their absolute values plus n times the smallest positive number (times (1-2^-p)^-(26+n)).", "quantifier": "all formats, with and without fused operations, all trees after any history, all particles, both orders, all quantities", "why_tests_cant": "Rounding errors depend on every bit of the data; the tests use tolerances.", "anchors": ["include/rakau/tree.hpp:exact_acc_pot_impl (3531-3569)"]}
{"id": "C70", "title": "Accelerations and potentials are accurate sums over accepted nodes", "statement": "In IEEE arithmetic with p-bit significands and data of moderate size (box, theta, masses, total mass, G, eps and softened distances between about 2^-k and 2^k, masses and eps possibly zero; 5k+16 and p+4k+4 at most emax; 2(n+B)+56 at most 2^(p-1) for n particles and vector size B) accs, pots and accs_pots succeed and all the results are finite. The particles of a critical node are attracted by the other particles of the node, by a list of particles and by a list of nodes which together contain every particle exactly once. Each of these nodes meets the acceptance criterion for every particle of the critical node up to a few rounding errors, unless the node is extremely small. Each result differs from the exact sum of these interactions by at most ((1-2^-p)^-(n+B+54) - 1) times the sum of their absolute values plus a multiple of the smallest positive number.", "quantifier": "all formats, with and without fused operations, all trees after any history, both criteria, all vector sizes, scalar and vectorised code, all orders of the threads, all reciprocal square roots with 2^(1-p/2) relative error before the Newton step, all quantities, both orders", "why_tests_cant": "Rounding errors depend on every bit of the data; the tests use tolerances, and compare with few references.", "anchors": ["include/rakau/tree.hpp:tree_acc_pot_mac_check (2597-2793), tree_acc_pot_src_com (2477-2590), tree_self_interactions (2073-2300), tree_acc_pot_leaf (2327-2470)", "include/rakau/tree.hpp:acc_pot_impl (2853-3022)", "include/rakau/detail/simd.hpp:inv_sqrt (75-83)"]}
{"id": "C71", "title": "Floating-point results approximate the exact direct sums", "statement": "In IEEE arithmetic with p-bit significands and data of moderate size as in C70, let n be the number of particles, B the vector size, z at most 1/4 an upper bound of 4 (n+B+27) 2^-p 2^l for the levels l of all nodes, theta at most 3, and k = theta sqrt(dimension) (1 + 4z). Every potential written by pots or accs_pots differs from the exact potential of all the other particles by at most (k^2 (3+k)/2 + 2 (1+k)^2 z) times its absolute value plus underflows of at most 2 (|G| (n+B) + 1) times the smallest positive number. If k < 1, every component of an acceleration written by accs or accs_pots differs from the exact one by at most (k^2 (3/2 (1+k)^2 + 4 (1+k) + 3 + 2/(1-k)) + (1+k)^2 (2+6k) z) times the sum of the strengths |G| m / (r^2 + eps^2) of the attractions by all the other particles, plus the same underflows.", "quantifier": "all formats, with and without fused operations, all trees after any history, both criteria, all vector sizes, all orders of the threads, all sufficiently accurate reciprocal square roots, all quantities, both orders", "why_tests_cant": "The errors of the truncated expansion and of the roundings of all the steps interact; tests compare with a direct sum for a few configurations and tolerances.", "anchors": ["include/rakau/tree.hpp:acc_pot_impl (2853-3022), tree_acc_pot_mac_check (2597-2793)", "include/rakau/tree.hpp:compute_node_properties (1113-1237)", "include/rakau/detail/simd.hpp:inv_sqrt (75-83)"]}
{"id": "C72", "title": "Floating-point results of calls with accelerators approximate the exact direct sums", "statement": "In IEEE arithmetic and for data of moderate size as in C70 and C71, whenever a call with the work divided between the CPU and the accelerators returns, every result is finite, and it is the sum of the interactions of the particle with a list of particles and a list of nodes which contain every other particle exactly once, up to the rounding errors of C70; the nodes meet the acceptance criterion for this particle up to a few rounding errors. The results satisfy the bounds of C71 relative to the exact direct sums, whichever particles are given to the devices and however these are grouped in warps.", "quantifier": "all formats, with and without fused operations, all trees after any history, ROCm and CUDA, all splits, warp sizes, numbers of devices, orders of the threads and of the tasks, all quantities, both orders", "why_tests_cant": "The device code uses other formulas (division, square root, warp votes) than the CPU code; tests need the hardware and use tolerances.", "anchors": ["src/rakau_cuda.cu (150-330)", "src/rakau_rocm.cpp (120-310)", "include/rakau/tree.hpp:acc_pot_impl (2853-3022), acc_pot_dispatch (3293-3357)"]}
{"id": "C73", "title": "Parallel loops and task groups are free of data races and deterministic", "statement": "However tbb::parallel_for divides the ranges of the loops and however the accesses of the threads interleave, no data race is possible in the constructor, update_particles, update_masses and the CPU computation of accelerations and potentials; every interleaving terminates, and leaves in the arrays of codes, coordinates and masses, in the three permutations, in the nodes and critical nodes, in the node properties and in the output arrays the values the library documents (those of the sequential model). The threads write to the output arrays through a permutation without ever writing the same element.", "quantifier": "all trees, particles, schedules of the loops, and all interleavings of single reads and writes of array elements", "why_tests_cant": "The number of interleavings is exponential, and a race detector only sees the schedules that happen.", "anchors": ["include/rakau/tree.hpp:construct_impl (1417-1485), apply_isort (493-507), perm_to_inv_perm (1255-1262)", "include/rakau/tree.hpp:sync (3694-3733)", "include/rakau/tree.hpp:build_tree (966-1058)", "include/rakau/tree.hpp:update_masses_impl (3795-3799)", "include/rakau/tree.hpp:acc_pot_impl (2923-3022)"]}
{"id": "C74", "title": "The size of a tree is bounded linearly in the number of particles", "statement": "A tree of n particles has at most n leaves and n critical nodes, at most 1 + L n nodes, where L is the number of levels the codes can resolve (21 or 10 in three dimensions, 31 or 15 in two), and at most 1 + 2^NDim L n / (max_leaf_n + 1) nodes; no node is deeper than L, also if particles coincide.", "quantifier": "all trees after any history, all particles, coincident or not, all max_leaf_n and ncrit", "why_tests_cant": "Worst cases of the depth and of the memory use depend on clustering; tests use a few distributions.", "anchors": ["include/rakau/tree.hpp:build_tree (745-1060)", "include/rakau/tree.hpp:operator<< (1906-1957)"]}
{"id": "C75", "title": "Results follow a change of the units of length and mass", "statement": "In exact arithmetic, multiplying all coordinates, the box size and the softening length by a > 0 and all masses by b (not zero), with theta, G, max_leaf_n and ncrit unchanged: the constructor accepts the particles again; a deduced box size is multiplied by a; the tree has the same codes, nodes and critical nodes, with masses multiplied by b and centres of mass by a; in the original order every acceleration is multiplied by b/a^2 and every potential (an energy in this library) by b^2/a.", "quantifier": "all trees after any history, all particles, units, parameters, both criteria, all vector sizes, both schedules, all quantities", "why_tests_cant": "A relation between two runs for a continuum of factors; a threshold with a hidden absolute length or mass shows only for particular data.", "anchors": ["include/rakau/tree.hpp:get_node_centre (452-482), disc_single_coord (380-415)", "include/rakau/tree.hpp:compute_node_properties (1113-1237)", "include/rakau/tree.hpp:acc_pot_impl (2853-3022), tree_acc_pot_mac_check (2597-2793)", "include/rakau/tree.hpp:determine_box_size (1264-1327)"]}
{"id": "C76", "title": "Results do not depend on the order in which the particles are given", "statement": "Let two trees hold the same particles in different original orders, with the same box size, max_leaf_n and ncrit, reached by any histories. In any arithmetic they have the same codes, the same ranges, child counts, codes and levels of nodes and the same critical nodes. If no two particles share a smallest cell, the stored particles, the node masses and centres of mass are identical too, perm() of one composed with the reordering is perm() of the other, and the ordered acceleration and potential functions write for every particle the same value, bit for bit. In exact arithmetic the values (and the collision graphs, up to the renaming of the particles) agree even if particles share cells.", "quantifier": "all trees after any history, all particles and reorderings, all parameters, all arithmetics (resp. exact), all vector sizes, schedules, splits and quantities", "why_tests_cant": "There are n! orders; a dependence on input order shows only for particular data, and with equal codes only in the last bits.", "anchors": ["include/rakau/tree.hpp:indirect_code_sort (1267-1280), construct_impl (1330-1501)", "include/rakau/tree.hpp:perm / ordered iterators (3619-3800)", "include/rakau/tree.hpp:acc_pot_impl (2853-3022)"]}
{"id": "C77", "title": "The collision graph is computed without data races and deterministically", "statement": "However tbb::parallel_for divides the loops of compute_cgraph_o and compute_cgraph_u and however the accesses of the threads interleave, including the appends to the concurrent vectors of the leaves and of the rows of the graph and the clearing of an old graph while the first appends happen, no data race is possible, every interleaving terminates, and all of them leave the same graph (the one of the sequential model), although the vectors receive their elements in different orders.", "quantifier": "all trees after any history, particles, sizes, previous contents of the graph, both orders, all divisions of the loops and all interleavings of single accesses and appends", "why_tests_cant": "The number of interleavings is exponential; a missing sort or barrier shows only for particular schedules.", "anchors": ["include/rakau/detail/tree_coll.hpp:compute_cgraph_impl (231-583)"]}
{"id": "C78", "title": "The nodes are constructed without data races and deterministically", "statement": "However the recursive tasks of the tree construction are divided among threads, whatever the threshold below which subtrees are built serially, and however their accesses interleave (appends to the concurrent vectors of partial trees and of lists of critical nodes, additions to the atomic counters of children, the root properties computed by another task), no data race is possible, every interleaving terminates, and what the tasks leave behind is assembled to the same nodes and critical nodes: those of the tree.", "quantifier": "all non-empty trees after any history, all thresholds, all divisions of the loops at every level of the recursion, and all interleavings of single accesses, appends and additions", "why_tests_cant": "The number of interleavings is exponential, the tasks are nested up to the depth of the tree, and the order in which partial trees are appended differs from run to run.", "anchors": ["include/rakau/tree.hpp:build_tree_par_impl (841-931), build_tree (932-1060)"]}
{"id": "C79", "title": "Coincident particles without softening give NaN accelerations and non-finite potentials", "statement": "If two particles of a tree have the same coordinates (zeros of different signs included) and the square of the softening length is zero (including by underflow), a CPU call that returns writes NaN into all the acceleration components of both particles and a value that is not finite into their potentials; so do the exact functions. This holds for all masses, also zero ones: coincident particles are never silently skipped or given a finite value.", "quantifier": "all trees after any history, all floating-point formats (IEEE, with or without fused operations), all parameters, masses, vector sizes, schedules, orders and quantities", "why_tests_cant": "A pair may be treated by the self-interaction kernel in either role and in a vector lane or in the scalar remainder, and NaN must survive every later addition; tests use distinct random positions.", "anchors": ["include/rakau/tree.hpp:tree_self_interactions (2074-2317), tree_acc_pot_leaf (2328-2460)", "include/rakau/tree.hpp:acc_pot_impl (2853-3022)", "include/rakau/tree.hpp:exact_acc_pot_impl (3531-3569)", "include/rakau/detail/simd.hpp:inv_sqrt (75-122)"]}
{"id": "C80", "title": "The acceptance criterion compares numbers, and CPU and accelerators decide alike", "statement": "For every node and every particle of a tree and every theta that is accepted, neither the squared distance from the centre of mass nor the bound it is compared with is NaN (overflow to infinity is possible). Hence the test of the CPU (refuse if d2 <= bound) and the test of the accelerators (accept if bound < d2), which differ on NaN, are opposite, and the threads of an accelerator accept a node for a group of particles outside of it exactly if the scalar check of the CPU accepts it for the same group.", "quantifier": "all trees after any history, all floating-point formats (fused or not), both criteria, all theta, nodes, particles and groups", "why_tests_cant": "The two tests agree on all ordinary data; only data near the limits of the format could make them differ.", "anchors": ["include/rakau/tree.hpp:tree_acc_pot_mac_check (2597-2793)", "include/rakau/tree.hpp:compute_node_properties (1116-1237)", "src/rakau_cuda.cu:acc_pot_kernel (250-262)", "src/rakau_rocm.cpp:(231-242)"]}
{"id": "C81", "title": "Results do not depend on what earlier computations left in the work buffers", "statement": "The force computation keeps its temporary arrays in thread-local buffers that survive from node to node, from call to call and from tree to tree, and enlarges them without initialising the new elements. Whatever the sizes and contents of these buffers before a call (values of other nodes, other quantities, other trees, NaN, elements that were never given a value), whatever thread processes which critical node and in which order, a call has the same outcome as one that computes without reused memory: the same values bit for bit, or the same exception; it never uses an element that was not written by the same computation.", "quantifier": "all trees after any history, all arithmetics, quantities, parameters, vector sizes, both orders, all assignments of critical nodes to threads, all previous contents of the buffers", "why_tests_cant": "A read of a stale element would show only after particular earlier calls on the same thread and often yields plausible numbers; tests run in fresh processes with zeroed memory.", "anchors": ["include/rakau/tree.hpp:tmp_vecs, tmp_res, tmp_tgt (1975-2006)", "include/rakau/tree.hpp:tree_self_interactions (2074-2317), tree_acc_pot_leaf (2328-2460), tree_acc_pot_bh_com (2463-2594), tree_acc_pot_mac_check (2597-2793)", "include/rakau/tree.hpp:acc_pot_impl (2853-3022)", "include/rakau/detail/di_aligned_allocator.hpp:default initialisation"]}
{"id": "C82", "title": "Potentials of non-negative masses are never positive, and massless particles have no potential and exert no force", "statement": "In floating-point arithmetic: if no mass is negative and G is not negative, no potential written by the tree or by the exact functions is positive (it is <= 0 or NaN). The potential of a particle of mass zero is zero (or NaN), whatever the other masses. If all masses are zero, all accelerations and potentials are zero (or NaN). For the vector code with fast inverse square root this needs that the refined approximation is not negative; with an instruction that treats subnormal numbers as zero it is not, and two particles at a distance whose square is subnormal get the potential +infinity.", "quantifier": "all trees after any history, all IEEE formats (fused or not), masses, parameters, quantities, vector sizes, schedules and orders", "why_tests_cant": "Tests with zero masses use one random configuration with ordinary magnitudes; sign errors appear only at the limits of the format, in particular lanes or code paths.", "anchors": ["include/rakau/tree.hpp:tree_self_interactions (2074-2317), tree_acc_pot_leaf (2328-2460), tree_acc_pot_src_com (2477-2590)", "include/rakau/tree.hpp:compute_node_properties (1116-1237)", "include/rakau/tree.hpp:exact_acc_pot_impl (3531-3569)", "include/rakau/detail/simd.hpp:inv_sqrt_newton_iter (75-83)"]}
{"id": "C83", "title": "Threads may compute accelerations and potentials of one tree at the same time", "statement": "Any number of CPU calls that compute accelerations or potentials of the same tree, with any arguments and each with output arrays of its own, may be made by concurrent threads in any arrangement (one after the other, one beside the other, nested): no interleaving of their accesses has a data race or is stuck or endless, the tree is not changed, and every call writes the results that it writes when it is made alone. If two concurrent calls have the same output arrays there is a data race.", "quantifier": "all trees after any history, all arithmetics, numbers of calls, arguments, quantities, orders, divisions of the loops among threads, series-parallel arrangements and interleavings", "why_tests_cant": "The functions are const but nothing in the tests calls them concurrently, and a run shows one interleaving only.", "anchors": ["include/rakau/tree.hpp:acc_pot_impl (2853-3022)", "include/rakau/tree.hpp:tmp_vecs, tmp_res, tmp_tgt (1975-2006)", "include/rakau/tree.hpp:acc_pot_dispatch (3293-3350)"]}
{"id": "C84", "title": "Failures in parallel loops do not depend on the schedule", "statement": "When particles leave the box, masses are not finite or coordinates are not finite, the loops over the particles or nodes throw from some of their tasks, possibly from several at once. Whatever the order in which the tasks run, and wherever the other tasks are when they are cancelled: an update of the masses or of the positions, or the deduction of the box size, either always ends normally with the same result, or always ends with std::invalid_argument; there is no data race and no deadlock; after a failed update the tree is the one of the default constructor.", "quantifier": "all trees, new masses or positions, divisions of the ranges into tasks, shapes of the reduction, interleavings of single accesses, and moments of cancellation", "why_tests_cant": "Which tasks run before the first exception is chosen by the scheduler; a test sees one choice. If two kinds of exceptions could be thrown, or if one order of the tasks could miss the failure, tests would only see it occasionally.", "anchors": ["include/rakau/tree.hpp:determine_box_size (1278-1319)", "include/rakau/tree.hpp:construct_impl (1441-1450)", "include/rakau/tree.hpp:sync (3694-3701)", "include/rakau/tree.hpp:update_masses_dispatch (3782-3805)"]}
{"id": "C85", "title": "Failures in the concurrent construction of the nodes do not depend on the schedule", "statement": "The nodes of a tree are built by concurrent tasks that append to shared containers and that throw if a node has a mass or a centre of mass that is not finite; several tasks may throw, and the others are cancelled at any moment. The constructor either always succeeds, and the containers then hold exactly the nodes and critical nodes of the tree, or always ends with std::invalid_argument, for the same input: which tasks are run concurrently, how the loops over the children are divided, and the order of the accesses make no difference. The same holds for updates of the positions of a tree: a failed update always leaves an empty tree with the default parameters. No interleaving has a data race, is stuck or goes on for ever, also while tasks are being cancelled.", "quantifier": "all non-empty inputs (constructor: with a given box; updates: of trees after any history), IEEE formats, configurations, divisions into tasks, interleavings of single accesses, and moments of cancellation", "why_tests_cant": "Which subtrees were under construction when the first task failed is chosen by the scheduler; tests with invalid masses are serial or see one interleaving.", "anchors": ["include/rakau/tree.hpp:build_tree_ser_impl, build_tree_par_impl (724-931)", "include/rakau/tree.hpp:build_tree (932-1040)", "include/rakau/tree.hpp:construct_impl (1436-1500)", "include/rakau/tree.hpp:sync (3678-3743)", "include/rakau/tree.hpp:update_particles_dispatch (3746-3765)"]}
{"id": "C86", "title": "Failures in the concurrent computation of the collision graph do not depend on the schedule", "statement": "A size that is negative or not finite, or a cube whose extent overflows, is found by the task that processes the leaf of the particle, while other tasks add particles to shared vectors and clear the rows of the graph; several tasks may throw, after part of their additions, and the others are cancelled at any moment. For given arguments the function either returns the same graph in every interleaving, or ends with std::invalid_argument in every interleaving; no interleaving has a data race, is stuck or goes on for ever, also while tasks are being cancelled.", "quantifier": "all trees after any history, IEEE formats, sizes, previous contents of the graph, both orders, divisions of the loops, interleavings of single accesses and appends, and moments of cancellation", "why_tests_cant": "Which leaves were processed before the first failure is chosen by the scheduler; a test with an invalid size sees one interleaving.", "anchors": ["include/rakau/detail/tree_coll.hpp:compute_cgraph_impl (210-601)"]}
