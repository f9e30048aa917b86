{"claims": [
{"property": "C01", "status": "proved", "theorems": ["C01_crystal_router_delivers", "C01_crystal_router_single_device", "C01_crystal_router_single_device_refuted"], "note": "P >= 2 proved; P = 1 fails (arrays are cut to width 0), proved as such and refuted."},
{"property": "C02", "status": "proved", "theorems": ["C02_crystal_router_round_trip"], "note": ""},
{"property": "C03", "status": "proved", "theorems": ["C03_crystal_router_width_independent", "C01_crystal_router_delivers"], "note": "The bound on retries is in C01."},
{"property": "C04", "status": "proved", "theorems": ["C04_crystal_router_shuffles", "C04_pscan_shuffles"], "note": ""},
{"property": "C05", "status": "proved", "theorems": ["C05_pscan_exclusive_prefix", "C05_pscan_integers", "C05_pscan_float_max_refuted"], "note": "Any monoid; float max/min with infinities is not a monoid with the code's unit, refuted."},
{"property": "C06", "status": "proved", "theorems": ["C06_pscan_reduction", "C06_preduce"], "note": "psum/pmax/pmin are modelled as the library all-reduce."},
{"property": "C07", "status": "proved", "theorems": ["C07_units_integers", "C07_units_booleans", "C07_units_floats", "C07_unit_negative_zero", "C07_units_infinities_refuted"], "note": "False for max on -inf and min on +inf (refuted); proved for all other values."},
{"property": "C08", "status": "proved", "theorems": ["C08_semi_traced_agree", "C08_schedule_tables"], "note": ""},
{"property": "C09", "status": "proved", "theorems": ["C09_jit_distributed_binding", "C09_jit_distributed_default_static", "C09_jit_distributed_rejects", "C09_positional_only_refuted", "C09_static_first_refuted"], "note": "False when positional-only parameters mix static and sharded, and (with a positional-only shard_map) when a sharded parameter follows a static one; both refuted. *args/**kwargs parameters not modelled."},
{"property": "C10", "status": "proved", "theorems": ["C10_exchange_sums_copies", "C10_exchange_only_copy", "C10_exchange_without_indices"], "note": "any commutative group; sentinel entries keep their value"},
{"property": "C11", "status": "proved", "theorems": ["C11_exchange_partitioned", "C11_exchange_shape", "C11_rejects_intra_partition"], "note": "rejected iff some partition lists a non-padding id twice"},
{"property": "C12", "status": "proved", "theorems": ["C12_exchange_linear", "C12_exchange_self_adjoint", "C12_exchange_consistent", "C12_exchange_multiplicity", "C12_exchange_linear_partitioned", "C12_exchange_self_adjoint_partitioned", "C12_exchange_consistent_partitioned", "C12_exchange_multiplicity_partitioned"], "note": ""},
{"property": "C13", "status": "proved", "theorems": ["C13_distributed_sum", "C13_distributed_equals_serial"], "note": "through premesh finalisation, periodic links between partitions included"},
{"property": "C14", "status": "proved", "theorems": ["C14_same_index_iff_linked", "C14_smallest_of_class", "C14_unlinked_unchanged", "C14_sentinel_unchanged", "C14_idempotent"], "note": ""},
{"property": "C15", "status": "proved", "theorems": ["C15_gather_scatter_adjoint", "C15_scatter_gather", "C15_scatter_entries", "C15_gather_entries"], "note": ""},
{"property": "C16", "status": "proved", "theorems": ["C16_group_by_partitions", "C16_each_element_once"], "note": ""},
{"property": "C17", "status": "proved", "theorems": ["C17_local_nodes", "C17_local_elements"], "note": ""},
{"property": "C18", "status": "proved", "theorems": ["C18_element_coords_serial", "C18_element_coords_partitioned", "C18_element_coords_representative", "C18_finalize_succeeds", "C18_axis_name_required", "C18_periodic_partitioned_refuted"], "note": "false for partitioned periodic premeshes: nodes get the coordinates of their class representative"},
{"property": "C19", "status": "proved", "theorems": ["C19_masks_serial", "C19_masks_partitioned", "C19_masks_padding", "C19_periodic_refuted"], "note": "false for periodic premeshes with a group containing only part of an identified class"},
{"property": "C20", "status": "proved", "theorems": ["C20_assembly"], "note": "includes periodicity between different partitions, for nodal vectors that agree on identified nodes"},
{"property": "C21", "status": "proved", "theorems": ["C21_facet_interiors_tile", "C21_facet_interiors_disjoint_cover", "C21_facet_counts"], "note": "All n and m >= 2; slices are modelled on multi-indices with row-major flattening."},
{"property": "C22", "status": "proved", "theorems": ["C22_orderings_mapping", "C22_tables"], "note": "All d and m; keys and values are the tables of the same signed permutation."},
{"property": "C23", "status": "proved", "theorems": ["C23_structure", "C23_slots_distinct", "C23_sharing_only_on_common_facets", "C23_common_facets_shared", "C23_refinement_succeeds", "C23_low_dim_conforming", "C23_order_rejected", "C23_discontinuous", "C23_single_gridpoint_rejected"], "note": "Every successful run; success is proved for conforming meshes (all meshes in one and two dimensions). One gridpoint in three or more dimensions is rejected."},
{"property": "C24", "status": "proved", "theorems": ["C24_coordinates", "C24_coordinates_low_dim", "C24_linear_weights", "C24_quarter_turn_refuted"], "note": "Proved for at most 3 gridpoints, or at most 2 dimensions, or meshes whose neighbours list common faces with exchanged positions. Refuted for quarter turns with 4 gridpoints."},
{"property": "C25", "status": "proved", "theorems": ["C25_groups_follow_facets", "C25_only_element_facets", "C25_links_paired", "C25_empty_group_rejected", "C25_empty_group_value_error", "C25_link_quarter_turn_refuted"], "note": "Node sets proved for all element facets; positions under the same condition as C24, refuted for quarter turns. In one dimension no facet check is made by the code."},
{"property": "C26", "status": "proved", "theorems": ["C26_nodes", "C26_cells", "C26_elements_around_node", "cube_refinement_succeeds", "cube_refined_coordinates", "cube_refined_sharing", "cube_refined_num_nodes"], "note": "Exact arithmetic. Also composed with the refiner model: refining the cube succeeds, gives the expected coordinates and one node per refined grid point."},
{"property": "C27", "status": "proved", "theorems": ["C27_boundary_group", "C27_links", "C27_links_pair_nodes"], "note": "For n >= 1 and d >= 1."},
{"property": "C28", "status": "proved", "theorems": ["C28_partition_layout", "C28_not_dividing_rejected", "C28_too_few_axes_rejected"], "note": "The partition array has d axes; arrays with fewer axes are rejected."},
{"property": "C29", "status": "proved", "theorems": ["C29_reorder", "C29_accepts", "C29_rejects"], "note": "Exact; rows of the element array have 2^ndim entries."},
{"property": "C30", "status": "proved", "theorems": ["C30_links_follow_relations", "C30_same_relation", "C30_same_relation_refuted", "C30_one_dimensional_rejected", "C30_hexahedral_links_refuted"], "note": "Proved when no node has two different masters; refuted for nodes in several relations (the later relation overwrites). In three dimensions the link facets stay in Gmsh order and the refiner raises on them."},
{"property": "C31", "status": "proved", "theorems": ["C31_adjacency_is_node_sharing", "C31_empty_element_rejected"], "note": "Node ids are non-negative and every element has a node; pymetis is an arbitrary function of the adjacency."},
{"property": "C32", "status": "proved", "theorems": ["C32_interpolation_exact", "C32_created"], "note": "Exact arithmetic with explicit infinities and NaN; any distinct nodes with weights proportional to the barycentric ones, and all node sets the code creates."},
{"property": "C33", "status": "proved", "theorems": ["C33_newton_cotes", "C33_weights", "C33_creates", "C33_single", "C33_gauss_nodes", "C33_lobatto_nodes"], "note": "leggauss and roots_jacobi are modelled by their documentation: increasing roots of the polynomials given by the three-term recurrences, over any real closed field."},
{"property": "C34", "status": "proved", "theorems": ["C34_differentiation_exact", "C34_created"], "note": ""},
{"property": "C35", "status": "proved", "theorems": ["C35_tensor_exact", "C35_gradient_exact", "C35_interpolate_grad", "C35_no_dimension"], "note": "Sums of products of polynomials of degree below n in each variable, d >= 1; d = 0 raises."},
{"property": "C36", "status": "proved", "theorems": ["C36_gauss_legendre", "C36_gauss_lobatto", "C36_newton_cotes", "C36_exact", "C36_newton_cotes_quadratic_refuted", "C36_weights_nd"], "note": "Also d-dimensional exactness on sums of products. The rule called Newton-Cotes is the composite trapezoidal rule."},
{"property": "C37", "status": "proved", "theorems": ["C37_interpolate_matrix", "C37_wrong_length", "C37_equality", "C37_single_not_transitive", "C37_single_shortcut_refuted"], "note": "Created (named) node sets; refuted for single points."},
{"property": "C38", "status": "proved", "theorems": ["C38_linear", "C38_creates", "C38_volume", "C38_polynomials", "C38_quad_coords", "C38_element_order", "C38_padding"], "note": "Volumes are signed: an element whose axes are negatively oriented counts negatively."},
{"property": "C39", "status": "proved", "theorems": ["C39_linear", "C39_coordinates", "C39_chain_rule", "C39_constant", "C39_affine", "C39_vector_identity"], "note": "jnp.linalg.inv is any function that inverts invertible matrices."},
{"property": "C40", "status": "proved", "theorems": ["C40_represents", "C40_placeholder", "C40_symmetric", "C40_positive", "C40_assembly", "C40_global_symmetric", "C40_global_positive", "C40_mass_stiffness", "C40_stiffness_constants"], "note": "jax.linear_transpose of a linear functional is modelled by its values on unit vectors; forms see the values and first derivatives of their arguments at the point. Also the assembled operator on global scalar vectors."},
{"property": "C41", "status": "proved", "theorems": ["C41_residual", "C41_start"], "note": "Exact arithmetic on pytrees; a division by zero is a distinguished outcome. The preconditioner may be any shape-preserving function."},
{"property": "C42", "status": "proved", "theorems": ["C42_solves", "C42_orthogonal", "C42_optimal", "C42_subspace", "C42_default_dot"], "note": "Also energy-norm optimality and singular operators that are definite on an invariant subspace."},
{"property": "C43", "status": "proved", "theorems": ["C43_exact", "C43_values", "C43_zero"], "note": "Any starting time and step; k = 0 divides by zero."},
{"property": "C44", "status": "proved", "theorems": ["C44_exact", "C44_values", "C44_sum", "C44_last", "C43_zero"], "note": ""},
{"property": "C45", "status": "proved", "theorems": ["C45_residual", "C45_divergence_free", "C45_momentum", "C45_momentum_assembled", "C45_cg", "C45_cg_plain"], "note": "For any solver; also with the conjugate gradient solver of the package, where the divergence is within the tolerance or the iteration limit was reached. Exact arithmetic."},
{"property": "C46", "status": "proved", "theorems": ["C46_integral", "C46_projection", "C46_constants", "C46_order2_refuted"], "note": "Needs order > 2 and oriented elements; with order 2 the projection is 0/0."},
{"property": "C47", "status": "proved", "theorems": ["C47_mask", "C47_unknown", "C47_set", "C47_rows", "C47_inverse_mass"], "note": ""},
{"property": "C48", "status": "proved", "theorems": ["C48_adjoint", "C48_symmetric", "C48_semidefinite", "C48_order2_refuted"], "note": "Needs order > 2; with order 2 all three operators are zero."},
{"property": "C49", "status": "proved", "theorems": ["C49_average", "C49_keeps", "C49_constants", "C49_identity", "C49_linear"], "note": ""},
{"property": "C50", "status": "proved", "theorems": ["C50_cycle", "C50_cycle_only", "C50_cycles", "C50_repeated_snapshot", "C50_lengths", "C50_datagen_fails", "C50_run", "C50_rollout", "C50_perfect"], "note": "The driver as written raises at its first step (C50_datagen_fails); the history theorems hold for the loop body with the unpacking repaired and for the rollout in train.py as written."},
{"property": "C51", "status": "proved", "theorems": ["C51_outputs", "C51_count", "C51_segments", "C51_restart", "C51_no_progress"], "note": "Non-increasing output times silently return the state unchanged (C51_no_progress)."},
{"property": "C52", "status": "proved", "theorems": ["C52_euler", "C52_noise", "C52_noise_sum", "C52_linear", "C52_scalar"], "note": ""},
{"property": "C53", "status": "proved", "theorems": ["C53_exact", "C53_outputs", "C53_recovers", "C53_matrix", "C53_time_dependent_refuted", "C53_nonlinear_refuted"], "note": "Exact for jointly affine SDEs with time-independent drift; wrong for time-dependent drift and inexact for nonlinear SDEs (refuted with witnesses)."},
{"property": "C54", "status": "proved", "theorems": ["C54_permutation", "C54_restores", "C54_argsort", "C54_contiguous"], "note": ""},
{"property": "C55", "status": "proved", "theorems": ["C55_windows"], "note": ""},
{"property": "C56", "status": "proved", "theorems": ["C56_single", "C56_debug", "C56_count", "C56_tiling", "C56_overlap_refuted", "C56_slices"], "note": "The count is exact for one shard, in debug mode and for tiling windows; it overcounts otherwise (refuted with the exact condition), and then the last process gets fewer windows."},
{"property": "C57", "status": "proved", "theorems": ["C57_checkpoints", "C57_states", "C57_numbers", "C57_not_outdated", "C57_lost", "C57_completes", "C57_terminates", "C57_monotone", "C57_progress", "C57_starved", "C57_nothing_left", "C57_no_data", "C57_zero_period", "C57_uninterrupted", "C57_keep", "C57_validation", "C57_plan", "C57_resumed_data_refuted"], "note": "The process is killed at arbitrary points between its actions; writing a checkpoint is atomic (rename). The data restarts with every run, so the result differs from uninterrupted training (refuted)."},
{"property": "C58", "status": "proved", "theorems": ["C58_mass_positive", "C58_mass_assembled"], "note": ""},
{"property": "C59", "status": "proved", "theorems": ["C59_ends", "C59_exact", "C59_plain"], "note": "Exact arithmetic; no preconditioner passed by the caller. The force is zero on Dirichlet nodes. The filter, the lift and the projection are allowed under the conditions named in the statement; C59_plain has none of them and no such condition."},
{"property": "C60", "status": "proved", "theorems": ["C60_creates", "C60_premesh_order", "C60_low_order", "C60_partitioned", "C60_order_two_3d", "C60_family", "C60_velocity_nodes"], "note": "good_premesh says the premesh is first order, conforming, with facets listed in exchanged order (see C24), all nodes used, and groups and links made of element facets. cube_good shows the generated cubes meet it."},
{"property": "C61", "status": "proved", "theorems": ["C61_family", "C61_creates", "C61_mass", "C61_volume", "C61_operators"], "note": "All generated cubes of any dimension, size and periodicity without partitions. C61_volume needs order at least 3 (order 2 is refuted in C46)."},
{"property": "C62", "status": "proved", "theorems": ["C62_creates", "C62_errors", "C62_vanishes", "C62_residual", "C62_solves", "C62_dirichlet", "C62_neumann"], "note": "jax.scipy.sparse.linalg.cg is taken to be the modelled iteration without preconditioner. Exact arithmetic. Oriented means positive Jacobian determinants at the quadrature points; joined means connected through elements (periodic links are ignored by the code). Instances for bars of any number, size and order of elements are beside the theorems."},
{"property": "C63", "status": "proved", "theorems": ["C63_stays", "C63_semidefinite", "C63_dual", "C63_consistent"], "note": "Exact arithmetic; inner products that are positive on the space searched."},
{"property": "C64", "status": "proved", "theorems": ["C64_nodes", "C64_all", "C64_conforming", "C64_filter", "C64_enclosed", "C64_ends", "C64_exact"], "note": "All generated cubes without partitions, orders from 3 on for the flux and the step. Exact arithmetic; inv is the matrix inverse; no lift and no preconditioner passed by the caller; the force is zero on Dirichlet nodes."},
{"property": "C65", "status": "proved", "theorems": ["C65_range", "C65_difference", "C65_kernel", "C65_onto", "C65_unique", "C65_lift_ends", "C65_lift_exact"], "note": "C65_range and C65_difference: every discretisation covered by C59 (mesh families with positive orientation). The others: generated cubes without partitions, orders from 3 on. Exact arithmetic; inv is the matrix inverse."},
{"property": "C66", "status": "proved", "theorems": ["C66_creates", "C66_warmup", "C66_peak", "C66_decay", "C66_range", "C66_end", "C66_short", "C66_updown", "C66_updown_end", "C66_kl_zero", "C66_kl_ramp", "C66_kl_full", "C66_kl_refuted", "C66_base"], "note": "The cosine is any function that decreases from 1 to -1 on [0, 1]; optax's schedules are modelled as documented. Exact arithmetic."},
{"property": "C67", "status": "proved", "theorems": ["C67_trajectory", "C67_fails", "C67_nonneg", "C67_zero", "C67_tiny_refuted", "C67_no_noise", "C67_deterministic", "C67_initial", "C67_divergence", "C67_samples", "C67_init_shape", "C67_path_mean"], "note": "Networks are arbitrary functions, random numbers are arguments. Exact arithmetic. C67_tiny_refuted and C67_deterministic state what the code does instead of what one expects."},
{"property": "C68", "status": "proved", "theorems": ["C68_accepts", "C68_raises", "C68_divides", "C68_shipped", "C68_one_sample_refuted", "C68_mlp_refuted", "C68_mean_refuted"], "note": "Shapes only; jax and flax operations follow their documented shape rules. The pooling kernel is (1, k) with k > 1, strides (1, s), repetitions (r, 1), as in the configuration. flax's rules on modules inside jax.vmap are not modelled."},
{"property": "C69", "status": "proved", "theorems": ["C69_spread", "C69_parts", "C69_pmean", "C69_creates", "C69_loss", "C69_parallel", "C69_nonneg", "C69_zero", "C69_metric_mse", "C69_metric_at", "C69_metric_refuted", "C69_metric_first"], "note": "The rollout that makes the predictions is C50. Exact arithmetic. jax's rule that a constant index is clamped is taken from its documentation. The comparison of spectra is left out."},
{"property": "C70", "status": "proved", "theorems": ["C70_creates", "C70_spectrum", "C70_abscissae", "C70_total", "C70_corner_refuted", "C70_nonneg", "C70_transpose"], "note": "Exact arithmetic in a real closed field. numpy's fftfreq, fftshift, linspace and digitize follow their documentation. The transform itself is left out."},
{"property": "C71", "status": "proved", "theorems": ["C71_weights", "C71_convex", "C71_tile", "C71_period", "C71_permute", "C71_pool", "C71_cover", "C71_align", "C71_border"], "note": "Exact arithmetic; the exponential is an arbitrary positive function. Dense, LayerNorm and MlpBlock are arbitrary functions of one token. flax's dot_product_attention and avg_pool (padding counted in the mean) follow their documentation. Max pooling and the values of the encoder block are left out."},
{"property": "C72", "status": "proved", "theorems": ["C72_exact", "C72_permutation", "C72_values", "C72_same_nodes", "C72_cube", "C72_meshes"], "note": "Exact arithmetic: with rounding the nearest node is still the right one as long as errors are small against the spacing, which is not proved. scipy's KDTree.query returns a nearest point; ties are arbitrary."},
{"property": "C73", "status": "proved", "theorems": ["C73_vorticity", "C73_affine", "C73_curl_refuted", "C73_advection", "C73_uniform", "C73_exact", "C73_cube"], "note": "Real arithmetic. The exactness bound is sufficient; that it fails for larger orders is not proved."},
{"property": "C74", "status": "proved", "theorems": ["C74_step", "C74_steady", "C74_only", "C74_affine", "C74_walls", "C74_uniform"], "note": "Real arithmetic, conjugate gradients with zero tolerances."},
{"property": "C75", "status": "proved", "theorems": ["C75_first_order_refuted", "C75_plane_only", "C75_extrapolation", "C75_ends", "C75_exact", "C75_steady", "C75_rollout", "C75_incompressible", "C75_forever", "C75_predict", "C75_uniform", "C75_recurrence"], "note": "Real arithmetic; sine, pi and the network are arbitrary."},
{"property": "C76", "status": "proved", "theorems": ["C76_places", "C76_equivariant", "C76_identity", "C76_ungather_refuted"], "note": "The network is an arbitrary function on rows."},
{"property": "C77", "status": "proved", "theorems": ["C77_override", "C77_accepts", "C77_create", "C77_default_refuted", "C77_sweep", "C77_starts", "C77_processor_refuted", "C77_depth", "C77_width", "C77_samples", "C77_call_refuted"], "note": "ConfigDict and its flags are modelled from their documentation; floats are rationals."},
{"property": "C78", "status": "proved", "theorems": ["C78_samples", "C78_order3_refuted", "C78_grid_refuted", "C78_order_refuted"], "note": "Windows of one file; the processes' shares are C56."},
{"property": "C79", "status": "proved", "theorems": ["C79_viscous", "C79_gradient", "C79_divergence", "C79_filter", "C79_walls", "C79_step", "C79_unsteady", "C79_steady"], "note": "Exact arithmetic and exact solves, as in C74; polynomials that vary along periodic axes are not periodic and are excluded."},
{"property": "C80", "status": "proved", "theorems": ["C80_mode", "C80_shape", "C80_nonneg", "C80_parseval", "C80_mean", "C80_symmetric", "C80_wave", "C80_uniform", "C80_energy", "C80_leak_refuted", "C80_translation", "C80_average", "C80_error_runs", "C80_error_zero", "C80_blind"], "note": "Exact arithmetic, any primitive root of unity for exp(-2 pi i/n), any interpolation (the method called in get_tke does not exist in class Mesh) and any logarithm."},
{"property": "C81", "status": "proved", "theorems": ["C81_advection", "C81_step", "C81_train", "C81_unsteady", "C81_steady", "C81_forever", "C81_drag_refuted"], "note": "Exact arithmetic, exact linear solver; polynomials constant along periodic axes. Flows whose advection has a higher degree are not covered."},
{"property": "C82", "status": "proved", "theorems": ["C82_least", "C82_dx", "C82_initial", "C82_step", "C82_run", "C82_fails", "C82_cfl", "C82_cfl_refuted"], "note": "Exact arithmetic; sin and cos are parameters of period 2 pi. Stability of the scheme is not covered."},
{"property": "C83", "status": "proved", "theorems": ["C83_problem", "C83_breakpoints", "C83_polynomial", "C83_best", "C83_inside_refuted"], "note": "One space dimension; exact arithmetic, zero tolerances. For other tolerances and dimensions see C62."},
{"property": "C84", "status": "proved", "theorems": ["C84_max", "C84_skip", "C84_layers", "C84_attention", "C84_lengths", "C84_untrained", "C84_repeats", "C84_no_global", "C84_order", "C84_order_refuted", "C84_shaped", "C84_closure", "C84_rollout", "C84_plain", "C84_follows", "C84_generator", "C84_loss"], "note": "Functions of single tokens (Dense, LayerNorm, MLP) and the processor are arbitrary functions; the last Dense is written out. Windows in one dimension, exact arithmetic, one space of tokens for all layers."}
]}
