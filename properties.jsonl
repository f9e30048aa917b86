{"id": "C01", "title": "Crystal router delivers every message exactly once", "statement": "Calling the crystal router with counts n, payload data and targets (all targets valid device ids) returns on every device q exactly the multiset of payloads data[p,j], j < n[p], whose target was q; the returned count equals the size of that multiset, all payload leaves are permuted together, and with return_source each payload is paired with the device it came from. Nothing is lost, duplicated or misdirected.", "quantifier": "all device counts P >= 2 (and P = 1 separately), all static buffer widths, all counts, payloads and target arrays with targets in [0,P)", "why_tests_cant": "The routing tree shape depends on P and the traffic pattern decides buffer overflow and retries; the only test uses P=12 and one random seed.", "anchors": ["swirl_fem/communication/crystal_router.py:crystal_router_setup", "swirl_fem/communication/crystal_router.py:_crystal_router_loop", "swirl_fem/communication/crystal_router.py:_crystal_router_stage", "swirl_fem/communication/crystal_router.py:CrystalData"]}
{"id": "C02", "title": "Crystal router round trip", "statement": "Feeding the output (n_out, data_out, source) of one crystal router call back into a second call using source as the targets gives every device back the multiset of (payload, original target) pairs it started with.", "quantifier": "all P >= 2, all initial counts, payloads and valid targets", "why_tests_cant": "It is a relation between two data-dependent runs; tests compare one sampled pair.", "anchors": ["swirl_fem/communication/crystal_router.py:crystal_router_setup"]}
{"id": "C03", "title": "Crystal router buffer growth is transparent and bounded", "statement": "The delivered data do not depend on the static buffer width of the input arrays or on how often the transfer buffer overflowed: with any padding the same multisets are delivered in the same order, the returned arrays have width exactly the maximal per-device count, and the regrow loop makes at most one retry per routing stage before it terminates.", "quantifier": "all P >= 2, all widths at least max n, all traffic patterns", "why_tests_cant": "Overflow at a given stage needs an adversarial hot-spot traffic pattern at that stage; a test hits only some of the stage/overflow combinations.", "anchors": ["swirl_fem/communication/crystal_router.py:crystal_router_setup", "swirl_fem/communication/crystal_router.py:_bit_ceil", "swirl_fem/communication/crystal_router.py:_crystal_router_loop"]}
{"id": "C04", "title": "Collective shuffle schedules are permutations", "statement": "Every shuffle issued by the crystal router, pscan and preduce is given a valid permutation of the devices of the axis (each device is read by exactly one device), so the collective is never rejected and never drops a device; within a stage devices only talk to devices of their own group.", "quantifier": "all axis sizes P >= 1 and every stage of the schedule", "why_tests_cant": "A bad permutation can appear for a single unlucky axis size at one depth of the recursion.", "anchors": ["swirl_fem/communication/crystal_router.py:_crystal_router_stage", "swirl_fem/communication/pscan.py:_fanin_fanout_flat"]}
{"id": "C05", "title": "pscan computes the exclusive prefix in device order", "statement": "pscan(x, op) gives device i the ordered product unit op x_0 op ... op x_{i-1} (the unit on device 0), for every associative op with the unit as identity; commutativity is not needed, so operands are never reordered.", "quantifier": "all axis sizes P >= 1, all device values, all monoids", "why_tests_cant": "The combination tree changes shape with P; order bugs are invisible to commutative test operators.", "anchors": ["swirl_fem/communication/pscan.py:pscan", "swirl_fem/communication/pscan.py:_fanin_fanout_flat"]}
{"id": "C06", "title": "pscan(reduction=True)/preduce give every device the full ordered reduction", "statement": "With reduction=True every device additionally receives x_0 op ... op x_{P-1}, and preduce returns the same value on all devices, for every associative op with unit; asking for the reduction does not change the scan.", "quantifier": "all axis sizes P >= 1, all device values, all monoids", "why_tests_cant": "Same as for the scan: the fan-out has to reach every leaf of a tree whose shape depends on P.", "anchors": ["swirl_fem/communication/pscan.py:preduce", "swirl_fem/communication/pscan.py:pscan", "swirl_fem/communication/pscan.py:_fanin_fanout_flat"]}
{"id": "C07", "title": "The unit used for each pscan operator is an identity", "statement": "For each supported operator and dtype the value used to initialise the scan is a two-sided identity of the operator on all values of the dtype (add 0, multiply 1, max lowest, min highest, and/or/xor bit patterns), so an exclusive scan never mixes in a spurious value.", "quantifier": "all operators in the unit table, all integer widths, all float values including infinities", "why_tests_cant": "Identity is a statement about all values of a dtype, including the infinities.", "anchors": ["swirl_fem/communication/pscan.py:unit_table", "swirl_fem/communication/pscan.py:_dtype_range"]}
{"id": "C08", "title": "Semi-traced scalars agree with their global table", "statement": "Any expression built from semi-traced scalars (comparisons, arithmetic, boolean operators, where) has a local value on each device equal to the entry of its host-side global table at that device's axis index.", "quantifier": "all expressions, all axis sizes, all devices", "why_tests_cant": "It is an invariant over all expression trees.", "anchors": ["swirl_fem/communication/semi_traced_scalar.py:SemiTracedScalar", "swirl_fem/communication/semi_traced_scalar.py:where"]}
{"id": "C09", "title": "jit_distributed calls the function with the caller's arguments", "statement": "For every call that binds to f's signature, the wrapped function runs f on each device with each parameter bound to the value the direct call would bind (static parameters whole, sharded parameters by their device slice), including defaults, and never drops or duplicates a parameter.", "quantifier": "all signatures of positional, positional-or-keyword and keyword-only parameters with defaults, all static_argnames choices, all call shapes", "why_tests_cant": "Signatures and call shapes form an infinite family; tests use three.", "anchors": ["swirl_fem/communication/jit_distributed.py:jit_distributed"]}
{"id": "C10", "title": "exchange sums all copies of a degree of freedom (unpartitioned)", "statement": "exchange(u) replaces each nodal value by the sum of u over all nodes with the same unique node index, and leaves nodes that are the only copy unchanged.", "quantifier": "all node counts, all index arrays, all value vectors over a commutative ring", "why_tests_cant": "Index patterns are unbounded; tests try a handful of periodic grids.", "anchors": ["swirl_fem/core/gather_scatter.py:get_exchange_indices", "swirl_fem/core/gather_scatter.py:exchange", "swirl_fem/core/gather_scatter.py:_get_exchange_indices_unpartitioned"]}
{"id": "C11", "title": "exchange sums all copies across partitions (partitioned)", "statement": "With partitioned node indices, exchange on all devices replaces every nodal value by the sum over all (partition, slot) pairs with the same global index; padding slots (sentinel) and unshared nodes keep their value; index sets where a partition holds the same global node twice are rejected with NotImplementedError.", "quantifier": "all partition counts, paddings, index arrays and value arrays", "why_tests_cant": "Needs all partition layouts, including padding in any partition; an off-by-one at sentinel -1 only shows for particular layouts.", "anchors": ["swirl_fem/core/gather_scatter.py:get_exchange_indices", "swirl_fem/core/gather_scatter.py:exchange", "swirl_fem/core/gather_scatter.py:_get_exchange_indices_partitioned"]}
{"id": "C12", "title": "exchange is symmetric and consistent", "statement": "exchange is linear and self-adjoint in the plain dot product, its output agrees on all copies of a node, and applying it to a vector that already agrees on copies multiplies each entry by its number of copies.", "quantifier": "all index arrays and all pairs of vectors", "why_tests_cant": "Quantifies over all pairs of vectors; CG's convergence relies on it as preconditioner.", "anchors": ["swirl_fem/core/gather_scatter.py:exchange", "swirl_fem/core/mesh.py:Mesh.exchange"]}
{"id": "C13", "title": "Distributed exchange equals serial exchange", "statement": "For a mesh split into partitions, gathering the local copies, exchanging across devices and reading any local copy gives the same value as summing contributions per global node in the unpartitioned mesh.", "quantifier": "all meshes, all assignments of elements to partitions, all local contributions", "why_tests_cant": "Requires agreement for every partitioning, not just the sampled ones.", "anchors": ["swirl_fem/core/premesh.py:Premesh.finalize", "swirl_fem/core/gather_scatter.py:exchange", "swirl_fem/core/gather_scatter.py:get_local_elements"]}
{"id": "C14", "title": "Periodic identification is exactly connectivity", "statement": "After finalisation two nodes share a unique index iff they are connected by a chain of periodic links; the unique index is the smallest node id of the class, nodes not in any link and sentinels are unchanged, and the operation is idempotent.", "quantifier": "all node index arrays and all periodic link arrays (any number of links, any chains)", "why_tests_cant": "Chains of links of unbounded length (corners of multiply periodic domains).", "anchors": ["swirl_fem/core/gather_scatter.py:get_unique_node_indices", "swirl_fem/core/gather_scatter.py:_get_periodic_mapping"]}
{"id": "C15", "title": "gather and scatter are adjoint", "statement": "For all nodal vectors u and element-local arrays v: <gather(u), v> = <u, scatter(v)>; scatter(gather(u)) multiplies each entry by the number of element slots referring to it; padding slots contribute nothing and gather to the fill value.", "quantifier": "all element arrays (with sentinels), all vectors over a commutative ring", "why_tests_cant": "An identity over all vectors and all connectivity arrays.", "anchors": ["swirl_fem/core/gather_scatter.py:gather", "swirl_fem/core/gather_scatter.py:scatter", "swirl_fem/core/mesh.py:Mesh.gather", "swirl_fem/core/mesh.py:Mesh.scatter"]}
{"id": "C16", "title": "group_by_partitions is a partition of the element ids", "statement": "Each element id appears exactly once, in the row of its partition, rows are increasing, all rows have the same length and are padded at the end only with the sentinel.", "quantifier": "all partition arrays", "why_tests_cant": "Quantifies over all assignments including unbalanced and empty partitions.", "anchors": ["swirl_fem/core/gather_scatter.py:group_by_partitions", "swirl_fem/core/gather_scatter.py:_pad_evenly"]}
{"id": "C17", "title": "Local renumbering round trip", "statement": "get_local_elements returns per partition sorted distinct global node ids and local element arrays such that looking the local indices up in the node list restores the original global element arrays, with padding preserved, and every listed node is used by some element of the partition.", "quantifier": "all element arrays and partitions", "why_tests_cant": "Round trip over all connectivity arrays.", "anchors": ["swirl_fem/core/gather_scatter.py:get_local_elements"]}
{"id": "C18", "title": "Premesh finalisation keeps element geometry", "statement": "mesh.element_coords() of a finalised mesh equals node_coords[elements] of the premesh for every element (in its partition slot when partitioned).", "quantifier": "all premeshes: unpartitioned ones with or without periodic links, partitioned ones without periodic links (with them the statement is false: see the refutation theorem; there element_coords reads the class representative)", "why_tests_cant": "Depends on the interplay of partition layout and periodic identification.", "anchors": ["swirl_fem/core/premesh.py:Premesh.finalize", "swirl_fem/core/mesh.py:Mesh.element_coords"]}
{"id": "C19", "title": "Physical masks mark exactly the nodes of the group", "statement": "After finalisation the mask of a physical group is true exactly at the (local) nodes that belong to one of its facets; padding slots are false.", "quantifier": "all premeshes, partitioned or not, and all groups that contain all or none of the nodes identified by periodic links (in particular all groups without periodic links; otherwise false: see the refutation theorem)", "why_tests_cant": "All combinations of groups, partitions and periodic links.", "anchors": ["swirl_fem/core/premesh.py:Premesh.finalize", "swirl_fem/core/premesh.py:_mask"]}
{"id": "C20", "title": "Serial and distributed assembly agree", "statement": "For any element-local operator, scatter(local(gather(u))) followed by exchange on a partitioned mesh gives at every local node the value the serial mesh computes for that global node.", "quantifier": "all meshes without intra-partition periodicity, all partitionings, all element operators", "why_tests_cant": "Quantifies over all partitionings and operators; this is what makes a distributed solve equal the serial one.", "anchors": ["swirl_fem/core/mesh.py:Mesh.gather", "swirl_fem/core/mesh.py:Mesh.scatter", "swirl_fem/core/mesh.py:Mesh.exchange", "swirl_fem/core/premesh.py:Premesh.finalize"]}
{"id": "C21", "title": "Facet interiors tile the element", "statement": "The interior slices of the 3^n facet types are pairwise disjoint and cover all m^n nodes of an n-dimensional element with m >= 2 points per dimension; there are C(n,k) 2^(n-k) facet types of dimension k.", "quantifier": "all dimensions n and point counts m", "why_tests_cant": "All n and m.", "anchors": ["swirl_fem/common/facet_util.py:slice_from_facet_type", "swirl_fem/common/facet_util.py:get_facet_types"]}
{"id": "C22", "title": "Orderings mapping is the hypercube symmetry group acting on refined nodes", "statement": "get_orderings_mapping has 2^d d! distinct keys; each value is a permutation of the m^d refined nodes, and the pair (key, value) describes the same axis permutation and flips on the corner nodes and on the refined nodes.", "quantifier": "all d and m", "why_tests_cant": "All d and m; tests check three entries.", "anchors": ["swirl_fem/common/facet_util.py:get_orderings_mapping"]}
{"id": "C23", "title": "Refinement structure", "statement": "refine_premesh keeps the number of elements, gives each element m^n nodes, assigns every node slot, uses only valid node ids, uses every node id, keeps the corner node ids and their coordinates; different elements share node ids only on common facets; discontinuous gridpoints give fully disjoint elements.", "quantifier": "all first-order premeshes whose elements list distinct valid node ids, all m >= 2, every run that does not raise; runs on meshes whose elements meet along whole facets do not raise", "why_tests_cant": "All meshes; in particular the deduplication map has history-dependent contents.", "anchors": ["swirl_fem/core/mesh_refiner.py:refine_premesh", "swirl_fem/core/mesh_refiner.py:_MeshRefiner._refine_facets", "swirl_fem/core/mesh_refiner.py:_MeshRefiner._add_nodes"]}
{"id": "C24", "title": "Refined coordinates equal interpolated coordinates", "statement": "For every element of the refined premesh the coordinates of its nodes are the tensor-product interpolation of the first-order corner coordinates at the gridpoints, also on facets shared with elements listed earlier in another orientation.", "quantifier": "all first-order meshes and symmetric gridpoints with at most 3 points per direction, or in at most 2 dimensions, or in which elements sharing a face list its corners with exchanged positions (flips, transposes and half turns, not quarter turns); refuted for quarter turns with 4 points in 3 dimensions", "why_tests_cant": "Needs all relative orientations of neighbours; the tests exercise flips and transposes at order 2 only, where the order of interior points cannot matter.", "anchors": ["swirl_fem/core/mesh_refiner.py:_MeshRefiner._refine_facets", "swirl_fem/core/mesh_refiner.py:_MeshRefiner._refine_elements"]}
{"id": "C25", "title": "Refined physical groups and periodic links follow their facets", "statement": "Refined physical groups and periodic links contain exactly the refined nodes of the original facets, paired position by position; facets that are not facets of any element are rejected and empty groups raise ValueError.", "quantifier": "all premeshes with groups and links; the facet check for dimensions >= 2; the position-by-position statement under the condition of C24 and refuted without it", "why_tests_cant": "All meshes and groups.", "anchors": ["swirl_fem/core/mesh_refiner.py:_MeshRefiner.refine", "swirl_fem/core/mesh_refiner.py:_MeshRefiner._refine_facets"]}
{"id": "C26", "title": "unit_cube_mesh enumerates the grid", "statement": "unit_cube_mesh(n, d) has (n+1)^d nodes at the lexicographic grid coordinates i/n and n^d elements, element e listing in lexicographic order the 2^d corners of grid cell e; each node id is valid and interior nodes belong to 2^d elements.", "quantifier": "all n >= 1, d >= 1", "why_tests_cant": "All n, d.", "anchors": ["swirl_fem/common/premesh_commons.py:unit_cube_mesh"]}
{"id": "C27", "title": "unit_cube_mesh boundary and periodic links", "statement": "The boundary group consists of exactly the grid facets on the two sides of each non-periodic dimension; each periodic link pairs facets whose nodes differ only in the periodic coordinate (0 versus n), and every facet of a periodic side is linked exactly once.", "quantifier": "all n >= 1, d >= 1, all sets of periodic dimensions", "why_tests_cant": "All n, d and periodic sets.", "anchors": ["swirl_fem/common/premesh_commons.py:unit_cube_mesh", "swirl_fem/common/premesh_commons.py:_unit_cube_facet_elements"]}
{"id": "C28", "title": "unit_cube_mesh partition layout", "statement": "With a d-dimensional partition array whose sides divide n, the element at cell (i_1..i_d) is assigned partitions[i_1 // (n/s_1), ...]; sides that do not divide n are rejected.", "quantifier": "all n, d, partition arrays", "why_tests_cant": "All n, d and arrays.", "anchors": ["swirl_fem/common/premesh_commons.py:unit_cube_mesh"]}
{"id": "C29", "title": "Gmsh elements are reordered to tensor-product order", "statement": "The node reordering applied by the mesh reader is a permutation mapping Gmsh's line, quadrilateral and hexahedron corner numbering to the lexicographic corner numbering assumed everywhere else, keeps the node set and number of elements; unsupported dimensions and missing element types raise.", "quantifier": "all element arrays of the three supported types", "why_tests_cant": "All element arrays.", "anchors": ["swirl_fem/common/mesh_reader.py:read", "swirl_fem/common/mesh_reader.py:_NODE_ORDERING_PERMUTATIONS"]}
{"id": "C30", "title": "Mesh reader periodic links pair periodic facets", "statement": "Each periodic link returned by the reader pairs a slave facet with the facet formed by the master nodes of the same periodic relation, position by position.", "quantifier": "all lists of periodic relations and facets in which no node has two different masters; refuted for nodes in several relations with different masters", "why_tests_cant": "All combinations of overlapping relations (edges and corners of doubly periodic meshes).", "anchors": ["swirl_fem/common/mesh_reader.py:_get_periodic_links"]}
{"id": "C31", "title": "Partitioner adjacency is node sharing", "statement": "The adjacency handed to the graph partitioner lists for each element exactly the other elements sharing at least one node; the relation is symmetric and irreflexive, and the rest of the premesh is unchanged by partition().", "quantifier": "all element arrays with non-negative node ids and at least one node per element", "why_tests_cant": "All meshes.", "anchors": ["swirl_fem/common/mesh_partitioner.py:partition"]}
{"id": "C32", "title": "Barycentric interpolation reproduces polynomials", "statement": "For n distinct gridpoints and the barycentric weights used by the code, each row of the 1D interpolation matrix evaluates the degree n-1 interpolant: it is exact for all polynomials of degree < n at every evaluation point, rows sum to 1, and at a gridpoint the row is the unit vector.", "quantifier": "all n, all distinct nodes in a field, all evaluation points (including those that coincide with a node) and all polynomials", "why_tests_cant": "All polynomials and points.", "anchors": ["swirl_fem/core/interpolation.py:BarycentricInterpolator._interpolation_matrix_1d"]}
{"id": "C33", "title": "The closed-form barycentric weights are the right ones", "statement": "The closed forms used for Newton-Cotes ((-1)^i binomial), Gauss-Legendre ((-1)^i sqrt((1-x^2) w)) and Gauss-Lobatto-Legendre ((-1)^i sqrt(w)) nodes are a common multiple of 1/prod_{j != i}(x_i - x_j).", "quantifier": "all numbers of points", "why_tests_cant": "All n.", "anchors": ["swirl_fem/core/interpolation.py:BarycentricInterpolator._barycentric_weights_1d"]}
{"id": "C34", "title": "The differentiation matrix differentiates polynomials exactly", "statement": "The 1D differentiation matrix applied to nodal values of a polynomial of degree < n gives the nodal values of its derivative; rows sum to zero; composed with interpolation it gives the derivative at any evaluation point.", "quantifier": "all n, distinct nodes, polynomials", "why_tests_cant": "All polynomials.", "anchors": ["swirl_fem/core/interpolation.py:BarycentricInterpolator._differentiation_matrix_1d", "swirl_fem/core/interpolation.py:BarycentricInterpolator.interpolation_matrix_grad"]}
{"id": "C35", "title": "Tensor-product interpolation", "statement": "In d dimensions the interpolation matrix is the Kronecker product in lexicographic node order: it evaluates tensor-product polynomials exactly, and entry k of the gradient matrix differentiates in direction k only.", "quantifier": "all d >= 1, all created 1D node sets, all sums of products of polynomials of degree below n in each variable", "why_tests_cant": "All d and node sets; ordering mistakes cancel on symmetric test functions.", "anchors": ["swirl_fem/core/interpolation.py:BarycentricInterpolator.interpolation_matrix", "swirl_fem/core/interpolation.py:BarycentricInterpolator.interpolation_matrix_grad"]}
{"id": "C36", "title": "Quadrature exactness", "statement": "The Newton-Cotes rule integrates affine functions exactly with weights summing to 2 for all n >= 2; Gauss-Legendre with n points is exact up to degree 2n-1 and Gauss-Lobatto-Legendre up to degree 2n-3; in d dimensions the weights are products and sum to 2^d.", "quantifier": "all n, all polynomials within the degree bound, all d", "why_tests_cant": "All n and polynomials.", "anchors": ["swirl_fem/core/interpolation.py:Quadrature1D.create", "swirl_fem/core/interpolation.py:Quadrature1D.weights_nd"]}
{"id": "C37", "title": "interpolate is consistent with its matrix", "statement": "interpolate(x) equals interpolation_matrix() @ x also when it takes the same-gridpoints shortcut; Nodes1D equality is an equivalence for named node types.", "quantifier": "all created (named) node sets and value vectors; refuted for single points", "why_tests_cant": "All vectors.", "anchors": ["swirl_fem/core/interpolation.py:BarycentricInterpolator.interpolate", "swirl_fem/core/interpolation.py:Nodes1D.__eq__"]}
{"id": "C38", "title": "Integration is exact for the volume and linear", "statement": "integrate is linear in the integrand; integrating 1 over a mesh of parallelepiped elements gives the sum of element volumes; integration does not depend on element order.", "quantifier": "all affine meshes in all dimensions, all quadratures with weights summing to 2^d, all integrands", "why_tests_cant": "All meshes.", "anchors": ["swirl_fem/core/fespace.py:FiniteElementSpace.integrate", "swirl_fem/core/fespace.py:FiniteElementSpace.create"]}
{"id": "C39", "title": "Gradients are physical gradients", "statement": "grad of the coordinate functions is the identity on every element with invertible Jacobian, grad of a constant is 0 and grad is linear; on affine elements the gradient of any affine function is its slope.", "quantifier": "all elements with invertible Jacobians, all nodal fields", "why_tests_cant": "All element geometries; transposed Jacobians are invisible on axis-aligned test meshes.", "anchors": ["swirl_fem/core/fespace.py:FiniteElementSpace.create", "swirl_fem/core/fespace.py:grad"]}
{"id": "C40", "title": "local_covector represents the form", "statement": "For a form linear in its test function, <local_covector(form), v> = integrate(form(v)) for every test function v; exactly one placeholder is required, otherwise ValueError; a symmetric form gives a symmetric operator, a positive semidefinite form a positive semidefinite operator.", "quantifier": "all linear forms, all test vectors, all argument positions of the placeholder", "why_tests_cant": "All vectors and forms.", "anchors": ["swirl_fem/core/fespace.py:FiniteElementSpace.local_covector"]}
{"id": "C41", "title": "CG returns a consistent residual and stopping status", "statement": "cg returns x with info such that the residual recorded is <r, M r> for r = b - A x exactly, the number of iterations is at most maxiter, and either gamma <= max(tol^2 <b,b>, atol^2) or the iteration limit was hit; a starting point already within tolerance is returned unchanged.", "quantifier": "all linear operators, preconditioners, right-hand sides, tolerances, starting points and iteration limits (exact arithmetic)", "why_tests_cant": "All operators and iteration counts; an invariant of the loop.", "anchors": ["swirl_fem/linalg/cg.py:cg"]}
{"id": "C42", "title": "CG converges in at most dim steps", "statement": "For a symmetric positive definite operator and preconditioner in exact arithmetic the residuals are mutually M-orthogonal, the directions A-conjugate, and r is zero after at most dim iterations, so with tol = atol = 0 and the default maxiter cg returns the solution.", "quantifier": "all dimensions, all SPD A and M, all b and x0", "why_tests_cant": "All dimensions and operators.", "anchors": ["swirl_fem/linalg/cg.py:cg"]}
{"id": "C43", "title": "Extrapolation coefficients are exact", "statement": "extk_coeffs(k) extrapolates every polynomial of degree <= k one step ahead exactly, with coefficients (-1)^(k-i) C(k+1,i).", "quantifier": "all k >= 1, all polynomials of degree <= k", "why_tests_cant": "All k and polynomials.", "anchors": ["swirl_fem/navier_stokes/navier_stokes.py:extk_coeffs"]}
{"id": "C44", "title": "BDF coefficients are exact", "statement": "bdfk_coeffs(k) applied to k+1 equally spaced samples gives exactly step times the derivative at the last sample for all polynomials of degree <= k; the coefficients sum to 0 and the last one is the harmonic number H_k > 0.", "quantifier": "all k >= 1, all polynomials of degree <= k", "why_tests_cant": "All k and polynomials.", "anchors": ["swirl_fem/navier_stokes/navier_stokes.py:bdfk_coeffs"]}
{"id": "C45", "title": "A Stokes step yields a discretely divergence-free velocity", "statement": "The divergence D u of the velocity returned by stokes_one_step is the residual of its pressure solve, so D u = 0 if that solve is exact, for every history, forcing, filter strength and boundary lift. The tentative velocity solves the BDF momentum equation if the momentum solve is exact, and the returned pressure is the extrapolated one plus the correction. With the package's cg and no preconditioner the norm of D u is within the tolerance or the iteration limit was reached.", "quantifier": "all linear operators D, D^T, B, A, exchange, all histories and parameters", "why_tests_cant": "All states and operators; it is an algebraic consequence of the step's structure.", "anchors": ["swirl_fem/navier_stokes/navier_stokes.py:StokesSEM.stokes_one_step", "swirl_fem/navier_stokes/navier_stokes.py:StokesSEM.E", "swirl_fem/navier_stokes/navier_stokes.py:StokesSEM.Q"]}
{"id": "C46", "title": "Pressure nullspace projection", "statement": "For order > 2 the projection removes exactly the constant component: the result has zero integral, constants map to 0, pressures with zero integral are unchanged and the map is idempotent; the integral is the quadrature over the mesh of the interpolating polynomials. With order 2 the projection divides zero by zero.", "quantifier": "all pressures and mass operators with nonzero total mass", "why_tests_cant": "All vectors.", "anchors": ["swirl_fem/navier_stokes/navier_stokes.py:_pressure_project_out_nullspace"]}
{"id": "C47", "title": "Dirichlet mask", "statement": "The interior mask is 0 exactly on nodes in some Dirichlet group and 1 elsewhere, independent of the order and repetition of the boundary conditions; Neumann groups have no effect and an unknown Dirichlet group raises KeyError. All operators (mass, stiffness, convection, discrete gradient) return 0 in Dirichlet rows, and the inverse mass keeps zero Dirichlet rows zero.", "quantifier": "all dictionaries of boundary conditions and masks", "why_tests_cant": "All dictionaries.", "anchors": ["swirl_fem/navier_stokes/navier_stokes.py:dirichlet_bc", "swirl_fem/examples/poisson.py:solve_poisson"]}
{"id": "C48", "title": "Discrete divergence and gradient are adjoint", "statement": "For order > 2 and velocity fields vanishing on Dirichlet nodes, <D u, p> = <u, D^T p>; E = D Q D^T is symmetric, and positive semidefinite when the elements are positively oriented. With order 2, D, E and the pressure mass are all zero.", "quantifier": "all meshes, velocity and pressure fields", "why_tests_cant": "All vectors.", "anchors": ["swirl_fem/navier_stokes/navier_stokes.py:StokesSEM.D", "swirl_fem/navier_stokes/navier_stokes.py:StokesSEM.Dt", "swirl_fem/navier_stokes/navier_stokes.py:StokesSEM.E"]}
{"id": "C49", "title": "The stabilising filter keeps low modes", "statement": "filter mixes a field with the average, over the elements of a node, of the polynomials of one degree less that agree with it at the lower Gauss-Lobatto points. So alpha = 0 is the identity, for every alpha constants and fields that are elementwise polynomials of the lower degree are unchanged, and the filter is linear.", "quantifier": "all fields, alphas and meshes", "why_tests_cant": "All fields.", "anchors": ["swirl_fem/navier_stokes/navier_stokes.py:StokesSEM.filter"]}
{"id": "C50", "title": "Time histories roll correctly", "statement": "In the data generation loop, with the unpacking of the step repaired, the velocity, pressure and advection histories always have the lengths they started with, are ordered oldest to newest and hold the values of the last steps; the advection history always is C of the velocity history; snapshots are recorded at step 0 and every tenth step, and consecutive files repeat a snapshot when the steps per cycle are a multiple of ten. As written the loop raises ValueError at its first step and writes no file. In the training rollout the histories roll likewise, and the loss is 0 for a model that reproduces the snapshots.", "quantifier": "all numbers of steps and cycles, all solver behaviours", "why_tests_cant": "A loop invariant over all numbers of steps.", "anchors": ["swirl_fem/niles/datagen/datagen.py:one_cycle", "swirl_fem/niles/train.py:compute_mse_loss"]}
{"id": "C51", "title": "sdeint output times and segmentation", "statement": "sdeint returns one state per output time; integrating to t_2 through t_1 equals integrating to t_1 and restarting there with the remaining noise; each segment consumes an equal consecutive share of the noise and executes all its steps if its time interval is positive. A segment that does not move forward in time returns its state unchanged.", "quantifier": "all drift/diffusion functions, time grids with increasing times, noise paths whose length is divisible by the number of outputs", "why_tests_cant": "All functions and step counts.", "anchors": ["swirl_fem/sde/sdeint.py:sdeint", "swirl_fem/sde/sdeint.py:_sdeint"]}
{"id": "C52", "title": "sdeint step scheme", "statement": "With zero diffusion the solver is forward Euler; with zero drift and state-independent diffusion it adds up the noise; linear drift and diffusion give the product of the one-step Euler-Heun factors.", "quantifier": "all coefficients, states and noise paths", "why_tests_cant": "All step counts.", "anchors": ["swirl_fem/sde/sdeint.py:_sdeint"]}
{"id": "C53", "title": "sdeint gradient for linear SDEs", "statement": "For an SDE whose drift and diffusion are affine in state and arguments, with time-independent drift, the custom backward pass returns exactly the transposed-Jacobian product of the forward map with respect to y0 and to the arguments, for several outputs too. For time-dependent drift or nonlinear SDEs it does not.", "quantifier": "all matrices, step counts, noise paths and cotangents", "why_tests_cant": "All step counts and matrices; order of noise in the backward pass matters.", "anchors": ["swirl_fem/sde/sdeint.py:_sdeint_rev"]}
{"id": "C54", "title": "Multiscale element permutation", "statement": "make_multiscale_perm is a permutation of the size^2 elements (for compatible patch sizes and factors), and applying its argsort afterwards restores the original element order; elements of the same patch are contiguous.", "quantifier": "all sizes, patch size lists and matching factors", "why_tests_cant": "All sizes.", "anchors": ["swirl_fem/niles/train.py:make_multiscale_perm"]}
{"id": "C55", "title": "Windowing of snapshots", "statement": "Windowing a trajectory yields all windows starting at multiples of the stride that fit, each of the same length with the requested step, and their number is (len - size) // stride + 1.", "quantifier": "all lengths, sizes, strides, steps", "why_tests_cant": "All lengths.", "anchors": ["swirl_fem/niles/input_pipeline.py:_read_and_parse"]}
{"id": "C56", "title": "Number of examples matches the data", "statement": "get_num_examples equals the number of windows the pipeline builds exactly for one shard, in debug mode, and when no window is lost at shard ends; otherwise it is larger. The per-process slices partition the first get_num_examples windows in order, and when it overcounts the last process gets fewer windows than the others were promised.", "quantifier": "all shard counts, window sizes and strides, process counts", "why_tests_cant": "All parameters.", "anchors": ["swirl_fem/niles/input_pipeline.py:get_num_examples", "swirl_fem/niles/input_pipeline.py:create_split"]}
{"id": "C57", "title": "Training resumes after a crash at any point", "statement": "Whatever the crash history, every checkpoint and every state held is the result of optimiser steps numbered 0, 1, 2, ... each used once and in order; restarting continues from the newest checkpoint, which is at most one period behind and never lost; saving never fails as outdated; a run that is not killed ends, and training that returns has a checkpoint at num_steps. Each run of at least one period makes progress, shorter ones never do. Without data training returns the initial state silently; a period that rounds down to zero raises at the first step. Periods given in epochs are the largest numbers of steps not longer than them. If the validation data ends, training that starts at the beginning and is not killed returns exactly when there are batches for all its evaluations, and otherwise raises StopIteration. The data order is not resumed, so the result differs from uninterrupted training.", "quantifier": "all crash points, numbers of crashes and checkpoint periods", "why_tests_cant": "All crash histories.", "anchors": ["swirl_fem/niles/train.py:train_and_evaluate", "swirl_fem/niles/train.py:save_checkpoint", "swirl_fem/niles/train.py:restore_checkpoint"]}
{"id": "C58", "title": "The diagonal mass is the assembled mass", "statement": "The mass diagonal of StokesSEM is positive on positively oriented meshes, and applying B is the whole assembled mass matrix: <B u, v> equals the quadrature integral of u . v for every v vanishing on Dirichlet nodes.", "quantifier": "all meshes, orders, velocity fields", "why_tests_cant": "Diagonality is a property of collocated quadrature for all fields on all meshes.", "anchors": ["swirl_fem/navier_stokes/navier_stokes.py:268-322"]}
{"id": "C59", "title": "A time step with conjugate gradients always ends, and is exact with zero tolerances", "statement": "Call a velocity conforming if it is zero on Dirichlet nodes and all periodic copies of a node have the same value. For a discretisation of order at least 3 with positively oriented elements, dt > 0, mu >= 0, any time order, any histories (at least two pressures), any tolerances, and a force that is zero on Dirichlet nodes, stokes_one_step with cg as the solver never divides by zero and returns fields, provided that the filter maps conforming velocities to conforming ones (it does for alpha = 0), that a lift of boundary values has a divergence that conforming velocities can balance, and that the null space projection is only used if conforming velocities have no net flux. With tol = atol = 0 the velocity it returns has divergence exactly zero and is conforming up to the filtered lift, and the tentative velocity solves the assembled momentum equation exactly.", "quantifier": "all meshes, orders, dimensions, boundary groups, histories, forces, tolerances, time orders", "why_tests_cant": "Absence of breakdown and exactness for all inputs.", "anchors": ["swirl_fem/navier_stokes/navier_stokes.py:NavierStokesSEM.stokes_one_step", "swirl_fem/linalg/cg.py:cg"]}
{"id": "C60", "title": "Which Stokes discretisations can be created", "statement": "StokesSEM.create on a first-order, unpartitioned, conforming premesh returns a discretisation for every order from 2 on, except order 2 in three or more dimensions, exactly when every Dirichlet condition names a physical group of the premesh. It raises ValueError for a premesh of another order, for orders below 2, for partitioned premeshes (finalize is called without an axis name) and for order 2 in three or more dimensions. The velocity and pressure meshes have the elements of the premesh, each the multilinear image of the reference cube, with nodes at the images of the gridpoints.", "quantifier": "all conforming premeshes, dimensions, orders, overintegration orders and boundary conditions", "why_tests_cant": "All meshes, orders and sets of boundary conditions.", "anchors": ["swirl_fem/navier_stokes/navier_stokes.py:StokesSEM.create", "swirl_fem/navier_stokes/navier_stokes.py:StokesPressure.create", "swirl_fem/navier_stokes/navier_stokes.py:StokesVelocity.create", "swirl_fem/core/mesh_refiner.py:refine_premesh"]}
{"id": "C61", "title": "Discretising a generated cube", "statement": "For every mesh made by unit_cube_mesh without partitions, in any dimension, with any number of elements, interval a < b and periodic axes, StokesSEM.create succeeds for orders from 3 on (from 2 on below three dimensions) when Dirichlet conditions only name the boundary group and some axis is not periodic. The elements are positively oriented, the velocity mass of each component adds up to (b-a)^d, the integral of the pressure 1 is (b-a)^d, the mass is positive, the pressure operator is symmetric positive semidefinite and projected pressures have mean zero.", "quantifier": "all dimensions, sizes, intervals, periodic axes, orders", "why_tests_cant": "Composition of generator, refiner, finalisation, quadrature and operators for all sizes and orders.", "anchors": ["swirl_fem/common/premesh_commons.py:unit_cube_mesh", "swirl_fem/navier_stokes/navier_stokes.py:StokesSEM.create"]}
{"id": "C62", "title": "solve_poisson solves the Galerkin equations", "statement": "For a mesh from Mesh.create with at least two gridpoints per direction, solve_poisson raises ValueError for a forcing of the wrong size, NotImplementedError at the first boundary value that is not the number 0, KeyError at the first Dirichlet group the mesh does not have, and otherwise returns one number per node. The result is exactly zero on the Dirichlet groups, and unless the iteration limit was reached its residual in every test function is bounded by the tolerances. If the elements are positively oriented and every node is connected through elements to a Dirichlet node, the solver stops after at most as many steps as there are nodes, and with zero tolerances the result is the unique nodal function with a(u,v) = l(f,v) for all test functions. Without Dirichlet nodes on a connected mesh, there is a solution exactly when the integral of the forcing vanishes; then the result is the one whose nodal values sum to zero, and the others differ from it by constants.", "quantifier": "all meshes, orders, dimensions, forcings, boundary conditions, tolerances", "why_tests_cant": "All meshes and forcings; uniqueness and termination.", "anchors": ["swirl_fem/examples/poisson.py:solve_poisson", "swirl_fem/linalg/cg.py:cg"]}
{"id": "C63", "title": "Conjugate gradients on singular systems and on unassembled residuals", "statement": "The iterates of cg differ from the start by elements of any space that contains the preconditioned residuals. For a symmetric positive semidefinite operator and a right-hand side whose first residual is in its range, cg without preconditioner never breaks down, stops after at most as many steps as the dimension of the space, and with zero tolerances solves the system; the correction is in the range of the operator. With a symmetric preconditioner whose values lie in a subspace on which it and the operator are positive definite, cg does the same for residuals that are not in the subspace, and with zero tolerances solves the equations tested with the subspace. For a symmetric positive semidefinite operator, a right-hand side orthogonal to its kernel and a preconditioner that changes residuals by elements of the kernel only, cg from zero never breaks down, stops after at most as many steps as there are unknowns, and with zero tolerances solves the system.", "quantifier": "all operators, preconditioners, right-hand sides, starts, inner products, tolerances and iteration limits", "why_tests_cant": "All operators and subspaces; exact termination.", "anchors": ["swirl_fem/linalg/cg.py:cg"]}
{"id": "C64", "title": "Filtered and projected time steps on generated cubes", "statement": "On a discretisation of a mesh made by unit_cube_mesh without partitions, in any dimension and with any periodic axes, velocity nodes are one node exactly if they have the same position on the global grid, and carry a Dirichlet condition exactly if the boundary group has one and the node is on a side of a non-periodic axis. A velocity is conforming exactly if it is zero on these nodes and equal at positions that the periodic axes identify. The filter maps conforming velocities to conforming velocities for every alpha. The divergences of all conforming velocities sum to zero exactly if the boundary group has a Dirichlet condition or every axis is periodic. Hence stokes_one_step with cg, any filter strength and the null space projection (when that condition holds) always returns, and with zero tolerances its velocity is conforming and exactly divergence free and the tentative velocity solves the momentum equation.", "quantifier": "all dimensions, numbers of elements, intervals, periodic axes, orders from 3 on, boundary conditions, filter strengths, histories, forces", "why_tests_cant": "Node identification, the discrete divergence theorem and solvability hold for all meshes, orders and inputs.", "anchors": ["swirl_fem/navier_stokes/navier_stokes.py:NavierStokesSEM.stokes_one_step", "swirl_fem/navier_stokes/navier_stokes.py:filter", "swirl_fem/common/premesh_commons.py:unit_cube_mesh"]}
{"id": "C65", "title": "No spurious pressure modes on generated cubes", "statement": "On a discretisation of a mesh made by unit_cube_mesh without partitions, call the cube closed if the boundary group has a Dirichlet condition or every axis is periodic. The pressures that no conforming velocity's divergence can see are exactly the constants if the cube is closed, and only zero otherwise: there are no checkerboard or other spurious modes. The divergences D(u) of conforming velocities are exactly all vectors on an open cube and exactly the vectors with sum zero on a closed one. Two pressures have the same image under the pressure operator E exactly if they are equal, or on a closed cube differ by a constant. Hence stokes_one_step with cg and a lift u_bc whose filtered net flux is zero if the cube is closed always returns, and with zero tolerances its velocity is exactly divergence free and equals the filtered lift plus a conforming velocity.", "quantifier": "all dimensions, numbers of elements, intervals, periodic axes, orders from 3 on, boundary conditions, right-hand sides, lifts, histories, forces", "why_tests_cant": "Injectivity and surjectivity up to constants of the discrete divergence hold for all meshes, orders and dimensions; a test computes the rank of one matrix.", "anchors": ["swirl_fem/navier_stokes/navier_stokes.py:NavierStokesSEM.stokes_one_step", "swirl_fem/navier_stokes/navier_stokes.py:D", "swirl_fem/navier_stokes/navier_stokes.py:E", "swirl_fem/common/premesh_commons.py:unit_cube_mesh"]}
{"id": "C66", "title": "Learning-rate and KL schedules", "statement": "create_learning_rate_fn succeeds exactly if an epoch has at least one step. Its rate grows linearly from 0 to the base rate during the warm-up, equals the base rate at its end, never grows afterwards, lies between 0 and the base rate at all times, and is 0 from the end of the last epoch on if at least one epoch follows the warm-up; with less, the decay still takes a whole epoch. The triangular schedule rises to the base rate during the warm-up, falls back over as many steps and is 0 afterwards. The KL penalty is 0 in the first epochs, then grows linearly to its full value and stays there. It is not so if kl_transition_epochs is 0: then the penalty is 0 for ever. With the base rate of the training loop the peak times 256 is the configured rate times the batch size.", "quantifier": "all configurations with nonnegative warm-up, base rates, numbers of steps per epoch, steps", "why_tests_cant": "The statements hold for every step and configuration; a test evaluates a schedule at a few steps.", "anchors": ["swirl_fem/niles/train.py:create_learning_rate_fn", "swirl_fem/niles/train.py:create_updown_learning_rate_fn", "swirl_fem/niles/train.py:create_kl_penalty_fn"]}
{"id": "C67", "title": "Latent SDE and its KL term", "statement": "A trajectory of the latent SDE exists exactly if there is a grid point. Its latent part is what the solver makes of the posterior drift and diffusion alone, and its KL part is the sum over the steps of step size times half the squared difference of posterior and prior drift in units of the noise, over the coordinates whose noise exceeds the tolerance. The KL part is never negative, and zero exactly if the drifts agree at every state in these coordinates; drifts that differ only where the noise is at most the tolerance give zero. The initial KL term is half the squared norm of the state in units of the prior scale. The divergence it is computed with is never negative, zero for equal distributions, and positive for different means. Each sample is the trajectory from its own initial state with its own noise and that state as context. VariationalDriftDiffusion does not integrate an SDE: its diffusion is multiplied by zero, so the result is Euler's method for the posterior drift and independent of the noise. While parameters are created, the result has as many states as an integration. The KL term of a batch entry is the mean of those of its samples.", "quantifier": "all drifts, diffusions, initial states, noise paths, contexts, sizes", "why_tests_cant": "The networks are arbitrary functions and the paths arbitrarily long; a test runs one network on one path.", "anchors": ["swirl_fem/niles/transformer.py:Dynamics", "swirl_fem/niles/transformer.py:VariationalDriftDiffusion", "swirl_fem/niles/transformer.py:LatentSDE.sample_sde", "swirl_fem/sde/flax_nn_sde.py:nn_sdeint"]}
{"id": "C68", "title": "Accepted configurations of the closure model", "statement": "With pooling kernel (1, k), k > 1, strides (1, s) and repetitions (r, 1), Model applied to an array of shape (batch, length, channels) returns an array of that shape exactly if depth is 0, or: the number of initial heads (doubled if layer 0 pools) divides the width; the decoder restores the lengths (with residual connections, r times the pooled length is the length before pooling, or 1, at each pooling layer; without, the product over all layers is the input length); and the processor is off without mean_after_decoder, or samples at least twice with a transformer whose latent size equals the final channels, is greater than 1 and even unless it has no layers, with at least one grid point. If heads or processor do not fit, it raises. If r = s > 1, the lengths are restored exactly if s to the number of pooling layers divides the length. The shipped configuration, with any depth above 4 and any width, runs exactly if num_samples is not 1 and 16 divides the length. One sample, a processor without transformer, and mean_after_decoder without samples always raise.", "quantifier": "all batch sizes, lengths, channels, depths, widths, heads, pooling layers, kernels, strides, repetitions, processor settings", "why_tests_cant": "The set of accepted configurations is infinite and described exactly in both directions; a test runs a few configurations.", "anchors": ["swirl_fem/niles/transformer.py:Model.__call__", "swirl_fem/niles/transformer.py:MultiscaleEncoder", "swirl_fem/niles/transformer.py:MultiscaleDecoder", "swirl_fem/niles/transformer.py:LatentSDE.__call__", "swirl_fem/niles/config/niles.py"]}
{"id": "C69", "title": "Training loss, metrics and training on several devices", "statement": "compute_mse_loss succeeds exactly if the batch is not empty and every window has time_order plus the number of steps states. Its loss is the mean over the batch of half the squared distances between predictions and the data after the initial states, summed over steps, nodes and components, plus the penalty times all KL terms of all steps. It is not negative for nonnegative penalty and KL terms, and without penalty it is zero exactly if all predictions are the data. prepare_tf_data succeeds exactly if the number of devices divides the batch, and gives the devices consecutive parts of equal size. The mean over devices of the means over their parts is the mean over the batch, for numbers and for vectors such as gradients, so that training on several devices has the loss and penalty of the whole batch. The metric mse@k is the error of step k if there are k steps; with fewer steps it is the error of the last step, so with at most 64 steps mse@64 and mse@128 are equal. mse@1to8 is the mean error of the first eight steps, or of all if there are fewer.", "quantifier": "all batches, numbers of devices, predictions, windows, KL terms, penalties, steps", "why_tests_cant": "The equality of parallel and serial means and the exact zeros hold for all batches; a test compares one batch on one number of devices, up to rounding.", "anchors": ["swirl_fem/niles/train.py:compute_mse_loss", "swirl_fem/niles/train.py:compute_metrics", "swirl_fem/niles/train.py:prepare_tf_data", "swirl_fem/niles/train.py:train_step"]}
{"id": "C70", "title": "Energy spectrum", "statement": "get_energy_spectrum on an n by n array succeeds for every positive n. With m the largest wave number, m^2 = 2 floor(n/2)^2, entry b of its 18 entries is the sum over exactly the modes (kx, ky) with b m / 19 <= sqrt(kx^2 + ky^2) < (b + 1) m / 19, where kx and ky run over the integer frequencies of the shifted transform, and abscissa b is the upper end (b + 1) m / 19. Each mode counts at most once, and all entries together count exactly the modes below 18/19 of the largest wave number, so energy is not conserved: the mode of the highest frequencies is never counted. Entries are nonnegative for nonnegative energies, and transposing the array does not change the spectrum.", "quantifier": "all grid sizes, arrays", "why_tests_cant": "Bins are compared with square roots at all modes of all grid sizes; a test checks one grid.", "anchors": ["swirl_fem/niles/train.py:get_energy_spectrum"]}
{"id": "C71", "title": "Attention, upsampling and pooling of the transformer", "statement": "The attention weights of a query over a nonempty sequence are positive and have sum 1, so every component of the result lies between the smallest and largest component of the values. A DecoderBlock that tiles r times gives r copies of the sequence that the same block without tiling gives, and a decoder without residual connections gives as many copies as the product of its repetitions: positions that differ by a multiple of the coarse length have equal values. A DecoderBlock that does not tile commutes with every reordering of the tokens. Average pooling gives at token c the sum of the tokens under its window divided by the size of the window; if the stride divides the length and is at most the window, position p is under the window of token p div s. Tiling gives position p token p mod m instead, and agrees with p div s exactly if s = 1 or there is at most one token. With the configured window 5 and stride 4, constants are kept by all tokens but the last, which is 4/5 of them.", "quantifier": "all layers (arbitrary dense, norm and MLP functions), sequences, repetitions, windows, strides", "why_tests_cant": "The claims hold for all weights and sequences; a test runs one initialisation and sees only shapes.", "anchors": ["swirl_fem/niles/transformer.py:attention_pooling", "swirl_fem/niles/transformer.py:MultiScaleAttentionUpsample", "swirl_fem/niles/transformer.py:DecoderBlock", "swirl_fem/niles/transformer.py:MultiscaleDecoder"]}
{"id": "C72", "title": "Transfer to the uniform mesh", "statement": "transfer_perm gives every target node that coincides with a source node the index of a source node at the same place. If both meshes have the same nodes, no two at one place, the result is a permutation of the source nodes, whichever nearest node the search returns. This holds for the meshes that training builds: the cube with n elements per direction (periodic or not), refined with order + 1 equispaced points, and the uniform cube with n * order elements have the same nodes, for every n, order and dimension. So indexing the nodal values of a function with the result and reshaping to n * order + 1 entries per direction gives the array of its values at the points of the uniform grid.", "quantifier": "all meshes; all sizes, orders, dimensions, periodic directions, intervals, functions", "why_tests_cant": "The nodes of all pairs of meshes coincide; a test compares one pair, with rounding.", "anchors": ["swirl_fem/niles/train.py:transfer_perm", "swirl_fem/niles/train.py:get_tke"]}
{"id": "C73", "title": "Advection and vorticity", "statement": "For velocities u and v given on each element by polynomials of the mesh order, with v zero at Dirichlet nodes: the pairing of v with C(u) is the sum over elements of the quadrature, with order + overint + 1 Gauss-Lobatto points, of ((u.grad) u).v times the Jacobian determinant, the gradients being physical ones. C of a constant flow is zero. On meshes whose elements have constant Jacobians, in particular generated cubes, the pairing is the exact integral as long as order < 2 * overint; with the default overint = 2 that is orders up to 3. vorticity is at each node the average over the elements containing it of d_1 u_0 - d_0 u_1. For an affine flow it is that constant. Its sign is the opposite of the usual curl: the rotation (-y, x) has vorticity -2.", "quantifier": "all meshes of the family, dimensions, orders, over-integrations, velocities, boundary conditions", "why_tests_cant": "A test takes one flow on one mesh; exactness depends on the order, which the tests do not vary.", "anchors": ["swirl_fem/navier_stokes/navier_stokes.py:StokesSEM.C", "swirl_fem/navier_stokes/navier_stokes.py:StokesSEM.C_local", "swirl_fem/navier_stokes/navier_stokes.py:StokesSEM.vorticity"]}
{"id": "C74", "title": "Flows that a time step keeps", "statement": "With zero solver tolerances, order > 2 and positively oriented elements: if (U, P) has the boundary values of the lift, zero discrete divergence, P is the extrapolated pressure, and U solves the BDF momentum equation with P tested with velocities that vanish at Dirichlet nodes and agree on periodic copies, and the filter keeps U, then stokes_one_step returns exactly (U, P). With histories made of copies of U and P: every solution of the stationary discrete Stokes equations is kept, for every time step and BDF order, and without filter and lift nothing else is. Patch test: on meshes where such velocities have no net outflow, with zero force, every affine flow a + S x with trace S = 0 together with a constant pressure is kept, for every filter strength, viscosity and time step. On generated cubes with fixed walls this includes flows not varying along the periodic axes with only their wall values as lift (Couette flow); on cubes periodic in all directions it includes uniform flows without lift.", "quantifier": "all meshes of the family, dimensions, orders, BDF orders, time steps, viscosities, filter strengths, affine flows, pressures", "why_tests_cant": "A test steps one flow with one set of parameters and a tolerance; that exactly the stationary solutions are kept is about all velocities.", "anchors": ["swirl_fem/navier_stokes/navier_stokes.py:StokesSEM.stokes_one_step", "swirl_fem/navier_stokes/navier_stokes.py:StokesSEM.filter"]}
{"id": "C75", "title": "The Navier-Stokes step and the rollout of the learned closure", "statement": "_solve_one_step of train.py passes the Stokes step the force mass * (closure + Kolmogorov force sin(8 pi y) in x - drag * u) masked at Dirichlet nodes, minus the advection terms of the last k states extrapolated with the coefficients (-1)^(k-1-j) C(k, j), where k is time_order; the extrapolation is exact for advection terms that are polynomials in time of degree below k. On generated squares, if nothing can leave and k >= 2: a step ends for all tolerances; with zero tolerances the new velocity has zero discrete divergence, agrees on periodic copies, vanishes at Dirichlet nodes and comes from a solution of the momentum equation with that force. Whatever shape-preserving network is used, the rollout returns a state for every step, and with zero tolerances all predicted velocities have these properties. Stationary discrete Navier-Stokes flows kept by the filter are predicted for ever, for example uniform flow on the periodic square with the closure that balances drag and Kolmogorov force. With time_order 1 every step raises ZeroDivisionError, and in dimensions other than 2 no step returns.", "quantifier": "all generated squares, orders, configurations with time_order >= 2, networks, numbers of steps, histories of the right shapes", "why_tests_cant": "A rollout test runs one network for a few steps with a tolerance; these statements are about all networks and any number of steps.", "anchors": ["swirl_fem/niles/train.py:_solve_one_step", "swirl_fem/niles/train.py:_kolmogorov_forcing", "swirl_fem/niles/train.py:compute_mse_loss"]}
{"id": "C76", "title": "From the network output to the nodes", "statement": "In the rollout of train.py the network gets one row per element with the velocities at its nodes, node by node, the elements in the order of the permutation if permute_elements is set. The output row for an element is added to the nodes of this element: the closure term at a node is the sum, over the elements the node belongs to, of the entries returned for it. For networks that commute with permutations of the rows permute_elements has no effect. The code calls this 'ungather', but it is not the inverse of the gather: with the identity network the closure term at a node is the velocity multiplied by the number of its occurrences in elements, and on every generated cube with two or more elements along an axis some node gets at least twice the value.", "quantifier": "all meshes of the family, velocities, networks that keep the shape, permutations of the elements", "why_tests_cant": "A shape test does not see which element an output row goes to, and a test of one element has no shared nodes.", "anchors": ["swirl_fem/niles/train.py:compute_mse_loss"]}
{"id": "C77", "title": "Which configurations start a training run", "statement": "A setting on the command line of a locked configuration is accepted exactly for an existing field that is no dictionary and a value of its type (or an integer for a float field); it changes this field only, and the set of fields and their types stay. create_model makes a model exactly if the name is right and its fourteen settings are there, and the model gets their values. The shipped file lacks num_layers, num_heads and freeze_encoder, so with it create_model raises AttributeError whichever settings are given on the command line and whichever numbers are edited in the file. The runs of the sweep are accepted and have the configuration that the file gives with their depth. If the keys are added, the processor still raises for its own missing num_layers whenever there are samples; if this is added too, the model starts for every depth above 4, every width and every number of samples except one, whatever the values of the added keys. Settings on the command line do not update what the file computed from them: depth alone works exactly for 0 and from 4 on, width alone for 48 only, the number of samples alone exactly from 2 on. The training and evaluation steps pass a keyword that the model does not take, so they raise TypeError for every model and input.", "quantifier": "all sequences of command-line settings, all edited numbers, all configurations", "why_tests_cant": "A test starts one configuration; that no sequence of settings starts the shipped one, and which values of a setting work, are statements about all of them.", "anchors": ["swirl_fem/niles/config/niles.py:get_config", "swirl_fem/niles/config/niles.py:sweep", "swirl_fem/niles/main.py:main", "swirl_fem/niles/train.py:create_model", "swirl_fem/niles/train.py:initialized", "swirl_fem/niles/transformer.py:LatentSDE"]}
{"id": "C78", "title": "The settings, the data and the mesh fit together", "statement": "For time_order 3 and however the numbers of steps and window_step are edited in the file, every window that the input pipeline cuts from a trajectory gives the training (evaluation) step three states of history, window_step frames apart, followed by exactly num_steps (eval_num_steps) targets at the same spacing; there is one sample for every multiple of the stride that leaves room. The 3 is written into the window sizes: for other time orders there are samples exactly if the order is at most 3. The closure term exists exactly if num_elements and num_channels describe the mesh and, if elements are permuted, the mesh has as many elements as the permutation (144). Hence the file works for element_grid_size 12 only, although it computes other numbers from this setting, and with another order on the command line the closure term raises.", "quantifier": "all edited numbers, trajectories, meshes of the family, shape-preserving networks, velocities", "why_tests_cant": "The dependence between settings shows only when one is changed, and a test has one configuration.", "anchors": ["swirl_fem/niles/config/niles.py:get_config", "swirl_fem/niles/input_pipeline.py:create_split", "swirl_fem/niles/train.py:compute_mse_loss"]}
{"id": "C79", "title": "Polynomial solutions of the Stokes equations are reproduced exactly", "statement": "On the generated cubes that nothing can leave (Dirichlet condition on the walls or all axes periodic), let velocity and pressure be polynomials of degree at most order and order - 2 along every axis that do not vary along periodic axes. Then the viscous operator is minus the mass matrix times the Laplacian, the adjoint divergence of the pressure is the mass matrix times its gradient, both seen from the conforming velocities, and a pointwise divergence of zero gives a discrete divergence of zero. If the velocity has the given boundary values (a lift or zero) and together with the extrapolated pressure satisfies the discrete-time momentum equation at the nodes without Dirichlet condition, stokes_one_step returns exactly these values, for any history, order, time step, viscosity, body force, and filter (strength 0, or degree below order). Hence solutions of the unsteady equations whose node values are polynomials of degree at most the order of the scheme in time (pressure: at most one) are continued exactly, and steady solutions are kept. The Dirichlet nodes are exactly the nodes whose coordinate along a nonperiodic axis is one of the ends of the interval.", "quantifier": "all dimensions, grids, intervals, periodic axes, orders above 2, polynomials, forces, histories, time steps, viscosities", "why_tests_cant": "Convergence tests see small errors on a few grids; that the error is exactly zero for all polynomials of these degrees, for every order in time and space, is out of reach of them.", "anchors": ["swirl_fem/navier_stokes/navier_stokes.py:StokesSEM.stokes_one_step", "swirl_fem/navier_stokes/navier_stokes.py:StokesSEM.A", "swirl_fem/navier_stokes/navier_stokes.py:StokesSEM.D", "swirl_fem/navier_stokes/navier_stokes.py:StokesSEM.B"]}
{"id": "C80", "title": "Fourier energies of a velocity field and the error of the spectra", "statement": "Entry (i, j) of get_tke is half the sum over both components of the squared modulus of the discrete Fourier mode whose wave numbers are the ones get_energy_spectrum gives to row i and column j. The entries are nonnegative, add up to n^2/2 times the sum of squared velocities on the grid (Parseval), are equal at opposite wave numbers, hold the mean flow at the centre, and a wave with whole periods in n points is seen at its wave numbers and the opposite ones only, a uniform flow only at the centre. The energy spectrum of the result exists, is nonnegative and does not exceed this energy. The spectrum of the averaged energies used in tke_err is the average of the spectra over the second half of the steps; the error is a sum of squares, zero exactly when the logarithms of the averaged spectra agree, and is zero for predictions that are the target moved along the grid, by different distances in different steps. A cosine wave of the period sampled at n points that include both ends of the period, as on the grid of the program, has energy at every wave number along its direction except the highest one of even n.", "quantifier": "all grid sizes, fields, permutations, interpolations, waves, phases, wave numbers, shifts, numbers of steps", "why_tests_cant": "Spectra are judged by eye; conservation of energy, exact support of waves and the leak from the doubled end point concern all fields and all sizes.", "anchors": ["swirl_fem/niles/train.py:get_tke", "swirl_fem/niles/train.py:get_energy_spectrum", "swirl_fem/niles/train.py:transfer_perm"]}
{"id": "C81", "title": "Polynomial solutions of the Navier-Stokes equations are reproduced", "statement": "On generated square, cube and hypercube meshes with elements of order at least 3, the advection operator of StokesSEM applied to a flow of polynomials of degree at most the order, whose advection (u . grad) u has degree less than the order along every axis, equals the mass matrix times that advection when tested with any conforming velocity. The step with advection extrapolated from the history returns the polynomial velocity and pressure that solve the Navier-Stokes equations at the nodes, with the difference formula in time. In the training program (_solve_one_step, Kolmogorov force, drag, closure term) a solution that is polynomial of degree at most k in time, with advection of degree below k, drag taken from the last step, is continued exactly; steady solutions are kept for any number of steps of the rollout. With the drag of the equation, at the new time, the step is off by drag dt^2 / beta on the uniformly accelerated flow, for every order of the scheme.", "quantifier": "all dimensions (two for the training program), meshes, orders, polynomial flows and pressures, forces, time steps, Reynolds numbers, time orders, histories, numbers of steps", "why_tests_cant": "Tests of the solver compare one flow at one resolution to a tolerance; exactness for all polynomial flows and the order of the scheme in time are statements about all of them.", "anchors": ["swirl_fem/navier_stokes/navier_stokes.py:StokesSEM.C", "swirl_fem/navier_stokes/navier_stokes.py:StokesSEM.stokes_one_step", "swirl_fem/niles/train.py:_solve_one_step", "swirl_fem/niles/train.py:_kolmogorov_forcing"]}
{"id": "C82", "title": "The data generator's step, resolution and CFL number", "statement": "compute_dx of datagen.py gives the smallest distance of two different nodes of one element; on a generated square, cube or hypercube it is half the edge of an element times the smallest gap of the Gauss-Lobatto points, a positive number. On the periodic unit square the initial velocity is that of u_init_fn at every node and is continuous and periodic. With the results of the solver unpacked as in train.py, the simulation runs for all its cycles with any tolerances, every state is computed by the step of the training program with zero closure term from the last TIME_ORDER states, and with exact solves all velocities are continuous and periodic and all computed ones have zero discrete divergence. As written the program ends with ValueError in the first step and writes no file. The CFL number it logs is right when the entry of largest modulus is not negative, but is negative for a flow with negative components, however fast.", "quantifier": "all dimensions, numbers of elements, orders above 2, box limits (for compute_dx); all constants with TIME_ORDER at least 2, solver tolerances, numbers of cycles and steps, functions sin and cos of period 2 pi", "why_tests_cant": "The generator has no tests; runs take hours and would check one resolution, one set of constants and a few steps.", "anchors": ["swirl_fem/niles/datagen/datagen.py:compute_dx", "swirl_fem/niles/datagen/datagen.py:u_init_fn", "swirl_fem/niles/datagen/datagen.py:forcing", "swirl_fem/niles/datagen/datagen.py:_solve_one_step", "swirl_fem/niles/datagen/datagen.py:run_simulation"]}
{"id": "C83", "title": "The Poisson solver on a divided interval against the exact solution", "statement": "Take an interval divided into elements at any points, with Gauss-Lobatto nodes of any order in every element, and homogeneous Dirichlet conditions at both ends or at the left end only (the right end is then free). For every forcing array there is exactly one function U, polynomial on every element and continuously differentiable, with -U'' equal to the interpolated forcing, U zero at the Dirichlet ends and U' zero at a free end. With zero tolerances solve_poisson finishes within as many iterations as there are nodes, and its result equals U at all points where elements meet. If U has at most the degree of the elements, the result equals U at every node. In general the result is the best approximation of U: no other continuous, piecewise polynomial function of that degree satisfying the Dirichlet conditions has a smaller integral of the squared error of the derivative. At nodes inside an element the result need not be exact.", "quantifier": "all numbers of elements, division points, orders, forcing arrays, both kinds of conditions", "why_tests_cant": "The test solves one problem on one mesh to a tolerance; exactness where elements meet and the best approximation are statements on all forcings, meshes and competing functions.", "anchors": ["swirl_fem/examples/poisson.py:solve_poisson", "swirl_fem/core/fespace.py:FiniteElementSpace.local_covector", "swirl_fem/core/fespace.py:FiniteElementSpace.integrate"]}
{"id": "C84", "title": "The closure network as a whole, and the rollout before training", "statement": "If the strides of the pooling layers divide the number of elements, the network gives one row for each element with as many numbers as asked for, whatever its parameters and whatever samples its processor draws. Max pooling in the skip connections gives at every entry the largest one of the tokens under the window; with stride s dividing the length these are the tokens of the group and the first one of the next. The encoder is the composition of its blocks, with query stride and window of the configuration in the pooling layers, key and value stride the first one halved once for each pooling layer reached (at least 1), and the skip of a pooling layer is the input of that layer. In a block every head of a token is its own pooled query plus a value between the smallest and the largest pooled value. While the kernel of the last layer is zero, as it is initialised, every row of the output is the bias of that layer: the closure term is the same force in every step and for every flow, and the rollout is that of the solver with this force. With bias zero it is the rollout of the plain solver, so data that are a trajectory of the solver are predicted exactly: on the mesh and with the constants of the data generator, the rollout from any states of a simulation gives the states that follow in it, and the loss of a batch of windows of it is its KL penalty alone. Without residual connections rows whose numbers agree modulo the coarsest length are equal. Without pooling (window 1, no pooling layers, equal positional embeddings, no processor) permuted input rows give permuted output rows. Not true: that removing the pooling layers is enough for this (windows longer than 1 mix neighbours in every layer), and that the embedded input reaches the last layer directly (the sum with it is computed and dropped, so a decoder that gives zeros leaves the bias only).", "quantifier": "all parameters, depths, pooling layers, windows, strides, processors, inputs, meshes, numbers of steps", "why_tests_cant": "There are no tests of the network; the claims are about all parameters, inputs and samples, and about rollouts of any length.", "anchors": ["swirl_fem/niles/transformer.py:Model.__call__", "swirl_fem/niles/transformer.py:MultiscaleEncoder.__call__", "swirl_fem/niles/transformer.py:EncoderBlock.__call__", "swirl_fem/niles/transformer.py:attention_pooling", "swirl_fem/niles/transformer.py:MultiscaleDecoder.__call__", "swirl_fem/niles/train.py:compute_mse_loss", "swirl_fem/niles/datagen/datagen.py:run_simulation"]}
