{
 "claims": [
  {
   "property": "C01",
   "status": "proved",
   "theorems": [
    "C01_history",
    "C01_history_from",
    "C01_out_of_range_throws"
   ],
   "note": "negative int coordinates are the subject of C94"
  },
  {
   "property": "C02",
   "status": "proved",
   "theorems": [
    "C02_layout",
    "C02_no_collision",
    "C02_expressions"
   ],
   "note": "C02_expressions covers expressions whose blocks satisfy good_block; other blocks: see C11"
  },
  {
   "property": "C03",
   "status": "proved",
   "theorems": [
    "C03_coefficient",
    "C03_materialize",
    "C03_mismatch_throws"
   ],
   "note": ""
  },
  {
   "property": "C04",
   "status": "proved",
   "theorems": [
    "C04_ones",
    "C04_zero",
    "C04_identity",
    "C04_resize"
   ],
   "note": ""
  },
  {
   "property": "C05",
   "status": "partial",
   "theorems": [
    "C05_all_partial",
    "C05_all_refuted",
    "C05_all_refuted_false_positive",
    "C05_all_exact"
   ],
   "note": "holds for size < 64 or a multiple of 64; refuted for other sizes above 64 (wrong mask for the last pack); C05_all_exact says what is computed there"
  },
  {
   "property": "C06",
   "status": "partial",
   "theorems": [
    "C06_any_partial",
    "C06_any_refuted_missed",
    "C06_any_refuted_padding",
    "C06_any_exact_small"
   ],
   "note": "holds for size 0 or >= 64; refuted for sizes 1..63"
  },
  {
   "property": "C07",
   "status": "proved",
   "theorems": [
    "C07_count"
   ],
   "note": ""
  },
  {
   "property": "C08",
   "status": "partial",
   "theorems": [
    "C08_equality_partial",
    "C08_undefined_on_multiples_refuted",
    "C08_mismatch_throws"
   ],
   "note": "holds when size is not a multiple of 64; otherwise the code shifts a 64-bit word by 64 (undefined)"
  },
  {
   "property": "C09",
   "status": "proved",
   "theorems": [
    "C09_which"
   ],
   "note": ""
  },
  {
   "property": "C10",
   "status": "proved",
   "theorems": [
    "C10_select_dense",
    "C10_select_sparse",
    "C10_mismatch_throws"
   ],
   "note": ""
  },
  {
   "property": "C11",
   "status": "partial",
   "theorems": [
    "C11_view_reads_parent",
    "C11_named_views",
    "C11_view_out_of_range_throws",
    "C11_view_set_clear",
    "C11_row_materialize",
    "C11_col_materialize",
    "C11_materialize_partial",
    "C11_materialize_refuted",
    "C11_materialize_empty_refuted"
   ],
   "note": "reads and writes proved for all views; materialisation proved for rows, columns, blocks of at most 64 coefficients or with a column count dividing 64, refuted otherwise"
  },
  {
   "property": "C12",
   "status": "partial",
   "theorems": [
    "C12_block_assign_partial",
    "C12_block_assign_refuted",
    "C12_block_assign_exact"
   ],
   "note": "assignment never clears: holds when the block was all false; C12_block_assign_exact gives the actual effect (OR)"
  },
  {
   "property": "C13",
   "status": "proved",
   "theorems": [
    "C13_repeat_coefficient",
    "C13_repeat_materialize",
    "C13_repeat_count"
   ],
   "note": ""
  },
  {
   "property": "C14",
   "status": "proved",
   "theorems": [
    "C14_reshape_sequence",
    "C14_vector_view",
    "C14_reshape_round_trip",
    "C14_reshape_mismatch_throws",
    "C14_reshape_materialize"
   ],
   "note": ""
  },
  {
   "property": "C15",
   "status": "partial",
   "theorems": [
    "C15_range_square_partial",
    "C15_range_vector",
    "C15_range_refuted_throws",
    "C15_range_refuted_misplaced"
   ],
   "note": "square matrices and vectors only; refuted for other shapes"
  },
  {
   "property": "C16",
   "status": "proved",
   "theorems": [
    "combinations_spec",
    "combinations_nodup"
   ],
   "note": "All K<=N; int overflow of ct_factorial not modelled (compile-time error)."
  },
  {
   "property": "C17",
   "status": "proved",
   "theorems": [
    "dfs_preorder",
    "bfs_level_order"
   ],
   "note": "Heap model with explicit pointers; fuel at least the number of nodes."
  },
  {
   "property": "C18",
   "status": "partial",
   "theorems": [
    "leaf_iteration_partial",
    "leaf_iteration_refuted",
    "leaf_iteration_single"
   ],
   "note": "Refuted for one-node trees (no leaf is visited); proved for every other size."
  },
  {
   "property": "C19",
   "status": "proved",
   "theorems": [
    "push_from_empty",
    "push_from_empty_bst",
    "push_one",
    "push_empty_list_ub",
    "search_tree_sorted"
   ],
   "note": "push of an empty initializer list is UB (push_empty_list_ub)."
  },
  {
   "property": "C20",
   "status": "partial",
   "theorems": [
    "bst_find_partial",
    "bst_find_sound",
    "bst_find_leaf_never",
    "bst_find_refuted"
   ],
   "note": "Refuted: keys held by leaves are never found and misses may dereference null; keys at inner nodes are always found."
  },
  {
   "property": "C21",
   "status": "partial",
   "theorems": [
    "copy_deep_partial",
    "push_frame",
    "clear_frame",
    "move_transfers",
    "copy_self_refuted",
    "copy_empty_refuted",
    "self_move_refuted",
    "move_parent_refuted"
   ],
   "note": "Deep copy, independence and move proved for distinct objects; self-assignment is UB, copying an empty tree throws, self-move loses the content, moved children keep a dangling parent pointer."
  },
  {
   "property": "C22",
   "status": "partial",
   "theorems": [
    "erase_root_partial",
    "erase_subtree_refuted"
   ],
   "note": "Only erasing at the root behaves; erasing a proper subtree drops the whole tree."
  },
  {
   "property": "C23",
   "status": "partial",
   "theorems": [
    "frame_is_a_map",
    "frame_heights_partial",
    "frame_refuses",
    "stack_layout",
    "frame_heights_refuted",
    "remove_two_types_refuted"
   ],
   "note": "map behaviour proved for every history; equal heights proved when no empty block is accepted and refuted otherwise (an empty first block leaves rows() at 0). remove() with one key used for two types leaves stale data (remove_two_types_refuted)."
  },
  {
   "property": "C24",
   "status": "proved",
   "theorems": [
    "dirty_flags"
   ],
   "note": ""
  },
  {
   "property": "C25",
   "status": "proved",
   "theorems": [
    "extract_unique_spec"
   ],
   "note": "for any iteration order of the unordered_set; row equality is decidable equality (NaN not modelled)"
  },
  {
   "property": "C26",
   "status": "partial",
   "theorems": [
    "range_view",
    "tail_view",
    "row_view",
    "list_view",
    "range_view_many",
    "head_view_exact",
    "head_full_refuted",
    "col_refuted"
   ],
   "note": "ranges, tails, rows, index lists and multi-key reads proved; refuted: head(n) views n+1 rows and head(rows()) is out of range; col() throws on every existing column"
  },
  {
   "property": "C27",
   "status": "proved",
   "theorems": [
    "shuffle_common_permutation"
   ],
   "note": ""
  },
  {
   "property": "C28",
   "status": "proved",
   "theorems": [
    "sbm_make_ok",
    "sbm_make_inconsistent_throws",
    "sbm_coeff",
    "sbm_cover",
    "sbm_out_of_range_throws"
   ],
   "note": ""
  },
  {
   "property": "C29",
   "status": "partial",
   "theorems": [
    "sbm_iterate_partial",
    "sbm_iterate_exact",
    "column_entries_spec",
    "sbm_iterate_refuted"
   ],
   "note": "proved when all block rows but the last have equal heights (always the case with two block rows); refuted in general: the row offset always grows by the height of block row 0; sbm_iterate_exact says what is enumerated"
  },
  {
   "property": "C30",
   "status": "proved",
   "theorems": [
    "kron_dense_coeff",
    "kron_dense_block",
    "kron_mixed_product"
   ],
   "note": "over the reals"
  },
  {
   "property": "C31",
   "status": "proved",
   "theorems": [
    "kron_sparse_iterate",
    "kron_sparse_sorted",
    "kron_sparse_coefficient"
   ],
   "note": "an empty lhs column makes the constructor read index() of an exhausted Eigen iterator; the value is discarded and not modelled"
  },
  {
   "property": "C32",
   "status": "proved",
   "theorems": [
    "lump_sparse_row_sums",
    "lump_dense_row_sums",
    "lump_preserves_ones",
    "lump_not_square_throws"
   ],
   "note": ""
  },
  {
   "property": "C33",
   "status": "proved",
   "theorems": [
    "smw_correct",
    "smw_regular_iff"
   ],
   "note": "any field, exact inner solvers; smw_regular_iff: the hypothesis on G is equivalent to regularity of the perturbed system"
  },
  {
   "property": "C34",
   "status": "proved",
   "theorems": [
    "kd_build_spec",
    "kd_build_empty_ub"
   ],
   "note": "for any rearranging nth_element; an empty data matrix is UB (outside the claim)"
  },
  {
   "property": "C35",
   "status": "proved",
   "theorems": [
    "kd_range_search",
    "kd_range_search_default_ub"
   ],
   "note": "for trees built from at least one point; a default constructed (empty) tree dereferences null"
  },
  {
   "property": "C36",
   "status": "partial",
   "theorems": [
    "kd_nn_search_partial",
    "kd_nn_search_refuted"
   ],
   "note": "refuted: the far side of a splitting plane is never searched and a missing child on the near side is dereferenced; kd_nn_search_partial characterises the outcome exactly"
  },
  {
   "property": "C37",
   "status": "proved",
   "theorems": [
    "tree_search_locate",
    "tree_search_exact",
    "bounding_box_hull",
    "bounding_box_tight"
   ],
   "note": "for meshes not flat along any axis (a flat axis divides by zero)"
  },
  {
   "property": "C38",
   "status": "partial",
   "theorems": [
    "interval_locate_partial",
    "interval_locate_points_partial",
    "interval_locate_right_end",
    "interval_locate_refuted"
   ],
   "note": "refuted: locate of the right end point always reads past the nodes; everywhere else the property holds"
  },
  {
   "property": "C39",
   "status": "partial",
   "theorems": [
    "interval_neighbours_partial",
    "interval_neighbours_refuted"
   ],
   "note": "refuted for a one-cell mesh (neighbour 1 does not exist); proved for two or more cells"
  },
  {
   "property": "C40",
   "status": "proved",
   "theorems": [
    "tri2_adjacency",
    "tri2_adjacency_symmetric"
   ],
   "note": "meshes whose cells have three distinct vertices and whose edges belong to at most two cells"
  },
  {
   "property": "C41",
   "status": "proved",
   "theorems": [
    "tri2_edges"
   ],
   "note": ""
  },
  {
   "property": "C42",
   "status": "proved",
   "theorems": [
    "tri2_boundary_edges"
   ],
   "note": ""
  },
  {
   "property": "C43",
   "status": "proved",
   "theorems": [
    "tri3_faces"
   ],
   "note": ""
  },
  {
   "property": "C44",
   "status": "partial",
   "theorems": [
    "boundary_nodes_visits_the_interior",
    "boundary_nodes_iteration_partial",
    "boundary_nodes_iteration_refuted"
   ],
   "note": "refuted: the iterator visits exactly the nodes that are NOT on the boundary; it is right only for an empty mesh"
  },
  {
   "property": "C45",
   "status": "partial",
   "theorems": [
    "iteration3_misses_last",
    "iteration3_partial",
    "iteration3_refuted",
    "edges3_iteration_refuted"
   ],
   "note": "refuted: the last item is never visited; complete exactly when the last item is not selected"
  },
  {
   "property": "C46",
   "status": "partial",
   "theorems": [
    "network_partial",
    "network_node_patch",
    "network_adjacency",
    "network_adjacency_order_free",
    "network_cell_neighbors_refuted"
   ],
   "note": "refuted for cell(c).neighbors(), which reads out of bounds for every cell of every network; the rest is proved"
  },
  {
   "property": "C47",
   "status": "partial",
   "theorems": [
    "C47_result_contains",
    "C47_result_contains_exact",
    "C47_stops_or_cycles",
    "C47_never_leaves_partial",
    "C47_never_leaves_refuted"
   ],
   "note": "containment of the result and the stop-or-cycle dichotomy are proved for every mesh, point and start; never leaving the mesh is proved for convex meshes and points of the mesh, refuted for a non-convex mesh"
  },
  {
   "property": "C48",
   "status": "partial",
   "theorems": [
    "C48_full_dimensional",
    "C48_manifold",
    "C48_contains_outside",
    "C48_contains_tolerance",
    "C48_contains_vertex",
    "C48_contains_boundary_partial",
    "C48_contains_face",
    "C48_contains_boundary_refuted"
   ],
   "note": "coordinates, inside/outside and vertices proved in any dimension; the boundary classification is proved on segments and triangles and refuted on tetrahedra (edge points are INSIDE)"
  },
  {
   "property": "C49",
   "status": "proved",
   "theorems": [
    "C49_project",
    "C49_coordinates",
    "C49_line",
    "C49_plane",
    "C49_gram_schmidt"
   ],
   "note": "the orthonormal-basis hypothesis of C49_project is what C49_line, C49_plane, C49_gram_schmidt prove of the constructors"
  },
  {
   "property": "C50",
   "status": "partial",
   "theorems": [
    "C50_plane",
    "C50_line_partial",
    "C50_line_refuted",
    "C50_general_refuted"
   ],
   "note": "proved for planes; refuted for lines (normal along the line, not of unit length) and for M > 2 (the kernel taken is always zero)"
  },
  {
   "property": "C51",
   "status": "proved",
   "theorems": [
    "C51_strict_weak_ordering",
    "C51_sorts_by_turn"
   ],
   "note": ""
  },
  {
   "property": "C52",
   "status": "proved",
   "theorems": [
    "C52_grid",
    "C52_grid_early_stop"
   ],
   "note": ""
  },
  {
   "property": "C53",
   "status": "partial",
   "theorems": [
    "C53_consistent",
    "C53_converged",
    "C53_bfgs_converged_partial",
    "C53_bfgs_converged_refuted"
   ],
   "note": "at most max_iter iterations and value() = obj(optimum()) proved for the three methods, convergence at the returned point for gradient descent and Newton; refuted for BFGS: on an exactly zero gradient the previous iterate is returned"
  },
  {
   "property": "C54",
   "status": "proved",
   "theorems": [
    "C54_backtracking",
    "C54_not_descent",
    "C54_no_larger_step",
    "C54_callback"
   ],
   "note": ""
  },
  {
   "property": "C55",
   "status": "proved",
   "theorems": [
    "C55_wolfe",
    "C55_bracket",
    "C55_callback"
   ],
   "note": ""
  },
  {
   "property": "C56",
   "status": "proved",
   "theorems": [
    "C56_all_hooks_run",
    "C56_pass_stops",
    "C56_loop_stops"
   ],
   "note": "the objective's criterion is skipped in a pass where a post hook already asked to stop, which does not change the outcome"
  },
  {
   "property": "C57",
   "status": "proved",
   "theorems": [
    "queue_linearizable",
    "queue_mutual_exclusion",
    "queue_fifo_no_loss"
   ],
   "note": "sequentially consistent interleavings of the lock/operation/unlock steps; empty() reads without the lock in the code (data race, stated in DESIGN)"
  },
  {
   "property": "C58",
   "status": "proved",
   "theorems": [
    "pool_at_most_once",
    "pool_fifo",
    "pool_no_lost_wakeup",
    "pool_no_deadlock",
    "pool_never_calls_empty",
    "pool_mutual_exclusion",
    "pool_executes_all"
   ],
   "note": "any number of workers and clients, spurious wake-ups included"
  },
  {
   "property": "C59",
   "status": "partial",
   "theorems": [
    "sync_waits_partial",
    "sync_waits_no_window",
    "sync_waits_refuted",
    "sync_no_lost_wakeup_partial",
    "sync_two_clients_refuted",
    "sync_returns_partial"
   ],
   "note": "refuted: sync() may return before a task already popped but not yet flagged busy has started; two concurrent sync() callers may leave one asleep forever. Proved outside those windows."
  },
  {
   "property": "C60",
   "status": "partial",
   "theorems": [
    "shutdown_accounting_partial",
    "no_shutdown_no_drop",
    "shutdown_finishes_started",
    "shutdown_joins_all",
    "shutdown_drops_refuted",
    "shutdown_twice_refuted",
    "shutdown_terminates"
   ],
   "note": "refuted: a task popped just before kill_ is set is discarded; calling shutdown twice throws"
  },
  {
   "property": "C61",
   "status": "proved",
   "theorems": [
    "C61_table"
   ],
   "note": ""
  },
  {
   "property": "C62",
   "status": "proved",
   "theorems": [
    "C62_eval",
    "C62_derive",
    "C62_polynomial"
   ],
   "note": ""
  },
  {
   "property": "C63",
   "status": "proved",
   "theorems": [
    "C63_nodal",
    "C63_reproduces",
    "C63_partition_of_unity",
    "C63_reference_elements"
   ],
   "note": "the library's seven reference elements are shown to have an invertible Vandermonde matrix"
  },
  {
   "property": "C64",
   "status": "proved",
   "theorems": [
    "C64_assembly",
    "C64_sparsity",
    "C64_forcing"
   ],
   "note": "an operator the library flags as symmetric must be locally symmetric, see C65"
  },
  {
   "property": "C65",
   "status": "partial",
   "theorems": [
    "C65_symmetric_partial",
    "C65_symmetric_refuted"
   ],
   "note": "refuted: every Diffusion is flagged symmetric, so with a non-symmetric tensor only the lower triangle is right; proved when the tensors are symmetric"
  },
  {
   "property": "C66",
   "status": "partial",
   "theorems": [
    "C66_imposed",
    "C66_boundary_rows_partial",
    "C66_again",
    "C66_solution",
    "C66_interior_refuted"
   ],
   "note": "refuted: dof 0 is always treated as a boundary dof; proved when dof 0 is on the boundary, and C66_imposed says exactly what is replaced otherwise"
  },
  {
   "property": "C67",
   "status": "partial",
   "theorems": [
    "C67_dofs",
    "C67_first_order",
    "C67_local_position"
   ],
   "note": "Triangulation<2,N>, all conforming meshes, any size: rows, vertex dofs, gap-free numbering, shared dof iff same edge, local position, boundary dofs. Missing: Triangulation<3,3> with order 2 does not compile (adjacent_cells() of an edge is an unordered_set, tetrahedron.h:65), so the claim cannot hold there."
  },
  {
   "property": "C68",
   "status": "proved",
   "theorems": [
    "C68_point_values",
    "C68_areal_means",
    "C68_pointwise",
    "C68_areal"
   ],
   "note": "point location is an argument of the model (C37, C47)"
  },
  {
   "property": "C69",
   "status": "proved",
   "theorems": [
    "C69_exactness",
    "C69_weights",
    "C69_sharp",
    "C69_standard",
    "C69_gauss_legendre",
    "C69_spline_interval"
   ],
   "note": "the decimal literals are taken at their exact value; degrees are sharp; the standard rules reach degree order+1"
  },
  {
   "property": "C70",
   "status": "proved",
   "theorems": [
    "C70_additive",
    "C70_linear",
    "C70_constants",
    "C70_constants_rounding",
    "C70_sampled"
   ],
   "note": ""
  },
  {
   "property": "C71",
   "status": "partial",
   "theorems": [
    "C71_eval_partial",
    "C71_eval_without_rows",
    "C71_eval_refuted"
   ],
   "note": "refuted for row(i): a row as right operand of dot contributes only its first entry, a row of a non-square matrix is evaluated with the wrong length (out of bounds when the matrix is tall); proved for all other expressions"
  },
  {
   "property": "C72",
   "status": "partial",
   "theorems": [
    "C72_forward_partial",
    "C72_forward_again",
    "C72_forward_refuted",
    "C72_forward_wrapped_refuted"
   ],
   "note": "refuted below sin/cos/tan/exp/log, numerical derivatives and expressions wrapped in a ScalarField, where forward is not propagated; proved for all other nodes"
  },
  {
   "property": "C73",
   "status": "proved",
   "theorems": [
    "C73_gradient",
    "C73_gradient_component",
    "C73_second",
    "C73_mixed",
    "C73_hessian_component"
   ],
   "note": ""
  },
  {
   "property": "C74",
   "status": "partial",
   "theorems": [
    "C74_combination",
    "C74_symmetric_closed",
    "C74_kinds",
    "C74_remove_partial",
    "C74_remove_refuted"
   ],
   "note": "refuted for remove_operator: dT - L loses the sign of L, a scaled dT leaves its constant behind; proved when the removed operator is a plain left or right summand"
  },
  {
   "property": "C75",
   "status": "partial",
   "theorems": [
    "C75_partition_of_unity_partial",
    "C75_close_knots_refuted"
   ],
   "note": "Proved for all orders and all sorted knots whose last interval is at least the tolerance 50 eps; refuted when the last interval is shorter (two pieces active, sum is 2)."
  },
  {
   "property": "C76",
   "status": "partial",
   "theorems": [
    "C76_local_support",
    "C76_right_end",
    "C76_beyond_end_refuted"
   ],
   "note": "Support and value at the right end proved for all orders, knots, points and derivatives; refuted for points beyond the right end closer than the tolerance, where the last functions do not vanish."
  },
  {
   "property": "C77",
   "status": "proved",
   "theorems": [
    "C77_derivative"
   ],
   "note": "Coquelicot is_derive at every non-knot point of the span, all K < R."
  },
  {
   "property": "C78",
   "status": "partial",
   "theorems": [
    "C78_assembly_partial",
    "C78_nonsymmetric_refuted"
   ],
   "note": "Symmetric operators (all operators that exist for splines): proved. Operators not flagged symmetric: the inner loop runs to M included and reads past the basis (refuted)."
  },
  {
   "property": "C79",
   "status": "partial",
   "theorems": [
    "C79_implicit_euler_partial",
    "C79_interior_refuted",
    "C79_nonuniform_refuted",
    "C79_no_boundary_data_refuted"
   ],
   "note": "refuted when dof 0 is interior, when the time grid is not uniform (only t[1]-t[0] is used) and without boundary data (out of bounds read); proved otherwise, exact LU assumed"
  },
  {
   "property": "C80",
   "status": "proved",
   "theorems": [
    "C80_throws_before_init",
    "C80_never_throws_after_init"
   ],
   "note": ""
  },
  {
   "property": "C81",
   "status": "partial",
   "theorems": [
    "C81_split",
    "C81_split_join",
    "C81_empty_separator_refuted"
   ],
   "note": "Proved for every string and every non-empty separator; with an empty separator the loop never ends (refuted)."
  },
  {
   "property": "C82",
   "status": "partial",
   "theorems": [
    "C82_dense_partial",
    "C82_empty_token_refuted",
    "C82_long_line_refuted"
   ],
   "note": "Proved for rectangular files without empty tokens, conversion of a token left abstract; refuted for an empty token (cell left unset) and a data line longer than the header (out-of-range write)."
  },
  {
   "property": "C83",
   "status": "proved",
   "theorems": [
    "C83_little_endian",
    "C83_big_endian",
    "C83_double",
    "C83_short_buffer"
   ],
   "note": "All widths and values, signed; a buffer too short is out of bounds, not a wrong value."
  },
  {
   "property": "C84",
   "status": "partial",
   "theorems": [
    "C84_single_ring_partial",
    "C84_rings_refuted"
   ],
   "note": "Single-ring polygons proved; refuted for two or more rings: every ring but the last loses its last point."
  },
  {
   "property": "C85",
   "status": "partial",
   "theorems": [
    "C85_multipoint_partial",
    "C85_zm_refuted"
   ],
   "note": "Header fields and the xy coordinates are read back; refuted for z and m, which are read into a copy and lost."
  },
  {
   "property": "C86",
   "status": "partial",
   "theorems": [
    "C86_rows_partial",
    "C86_general",
    "C86_missing",
    "C86_previous_row_refuted"
   ],
   "note": "Proved when every text converts; C86_general states what happens otherwise; refuted: a text that does not convert repeats the value of an earlier row."
  },
  {
   "property": "C87",
   "status": "partial",
   "theorems": [
    "C87_value_semantics_partial",
    "C87_self_assign_refuted",
    "C87_self_move_refuted",
    "C87_copy_of_empty_refuted",
    "C87_moved_from_refuted"
   ],
   "note": "All histories of heap-stored wrappers refine value semantics with no leak, except for four refuted cases: self assignment (use after free), self move (double free), copy of an empty wrapper (indeterminate size), a moved-from wrapper tests true and reaches no object. The other storages: C187, C188."
  },
  {
   "property": "C88",
   "status": "proved",
   "theorems": [
    "C88_dispatch",
    "C88_unknown_interface",
    "C88_short_limit"
   ],
   "note": "C88_short_limit shows that the bound of the statement is needed."
  },
  {
   "property": "C89",
   "status": "proved",
   "theorems": [
    "C89_unique_types",
    "C89_index_of",
    "C89_has_type",
    "C89_has_instance_of",
    "C89_switch_type",
    "C89_get",
    "C89_merge",
    "C89_split"
   ],
   "note": ""
  },
  {
   "property": "C90",
   "status": "partial",
   "theorems": [
    "C90_equivalent",
    "C90_strict_weak_order",
    "C90_doubles",
    "C90_vectors_partial",
    "C90_nan_refuted"
   ],
   "note": "Proved for IEEE doubles (Flocq) without NaN and for any strict weakly ordered coefficient type; refuted when a coefficient is NaN."
  },
  {
   "property": "C91",
   "status": "proved",
   "theorems": [
    "C91_step",
    "C91_pattern",
    "C91_constructed"
   ],
   "note": "Any scalar type and arithmetic, any inner solver preserving lengths, any iteration order of the hash containers; every row must have a stored entry. The pattern contains the diagonal, stays on and below it, never shrinks and grows by at most alpha*beta per call; every entry of L is in it. Case: C120_case."
  },
  {
   "property": "C92",
   "status": "proved",
   "theorems": [
    "C92_exact_projection"
   ],
   "note": "the nearest points reported by the cells are arbitrary (see C102 for nearest itself); needs at least one cell"
  },
  {
   "property": "C93",
   "status": "proved",
   "theorems": [
    "block_vector_block",
    "block_vector_blocks",
    "block_vector_head",
    "block_vector_tail",
    "block_vector_bounds",
    "block_vector_write",
    "block_vector_disjoint",
    "block_vector_init"
   ],
   "note": ""
  },
  {
   "property": "C94",
   "status": "partial",
   "theorems": [
    "C94_negative_column_refuted",
    "C94_negative_row_refuted"
   ],
   "note": "refuted: set(1,-1) writes coefficient (0, cols-1); set(-1,0) is undefined"
  },
  {
   "property": "C95",
   "status": "partial",
   "theorems": [
    "C95_of_dense",
    "C95_assign_dense_dynamic",
    "C95_assign_dense_static_partial",
    "C95_assign_dense_static_refuted"
   ],
   "note": "refuted for assignment to static sized matrices, which keep their old true coefficients"
  },
  {
   "property": "C96",
   "status": "proved",
   "theorems": [
    "tri3_edges"
   ],
   "note": ""
  },
  {
   "property": "C97",
   "status": "partial",
   "theorems": [
    "surface_partial",
    "surface_refuted"
   ],
   "note": "refuted: whenever the last face is on the boundary its row of the surface cell table is left uninitialised; proved otherwise"
  },
  {
   "property": "C98",
   "status": "proved",
   "theorems": [
    "edges2_iteration",
    "boundary_edges2_iteration"
   ],
   "note": ""
  },
  {
   "property": "C99",
   "status": "partial",
   "theorems": [
    "tri3_edge_marker_partial",
    "tri3_edge_marker_refuted"
   ],
   "note": "refuted: interior edges joining two boundary nodes are marked; proved: the marker is the conjunction of the node markers, so no boundary edge is missed"
  },
  {
   "property": "C100",
   "status": "proved",
   "theorems": [
    "C100_barycenter",
    "C100_barycenter_inside"
   ],
   "note": ""
  },
  {
   "property": "C101",
   "status": "proved",
   "theorems": [
    "C101_circumcenter",
    "C101_circumcenter_segment",
    "C101_circumcenter_surface"
   ],
   "note": ""
  },
  {
   "property": "C102",
   "status": "partial",
   "theorems": [
    "C102_nearest_partial",
    "C102_nearest_refuted"
   ],
   "note": "refuted: outside the simplex the answer is always a vertex, hence wrong whenever the best approximation is not a vertex"
  },
  {
   "property": "C103",
   "status": "proved",
   "theorems": [
    "C103_plane_eval",
    "C103_line_eval"
   ],
   "note": ""
  },
  {
   "property": "C104",
   "status": "proved",
   "theorems": [
    "C104_monotone",
    "C104_backtracking"
   ],
   "note": ""
  },
  {
   "property": "C105",
   "status": "proved",
   "theorems": [
    "C105_secant",
    "C105_symmetric",
    "C105_positive_definite",
    "C105_descent_direction",
    "C105_identity"
   ],
   "note": ""
  },
  {
   "property": "C106",
   "status": "proved",
   "theorems": [
    "C106_backtracking_terminates",
    "C106_wolfe_terminates",
    "C106_unbounded_refuted"
   ],
   "note": "the hypothesis that the objective is bounded below is needed: C106_unbounded_refuted"
  },
  {
   "property": "C107",
   "status": "proved",
   "theorems": [
    "C107_newton_quadratic"
   ],
   "note": "exact LU solve assumed"
  },
  {
   "property": "C108",
   "status": "proved",
   "theorems": [
    "C108_hessian_symmetric"
   ],
   "note": ""
  },
  {
   "property": "C109",
   "status": "proved",
   "theorems": [
    "C109_gradient_error",
    "C109_second_error",
    "C109_mixed_error"
   ],
   "note": "Cases: C109_example, C109_mixed_example."
  },
  {
   "property": "C110",
   "status": "partial",
   "theorems": [
    "C110_sampled_partial",
    "C110_callable_refuted"
   ],
   "note": "refuted for callable coefficients, which are evaluated at the reference node; proved for data sampled at quadrature_nodes()"
  },
  {
   "property": "C111",
   "status": "partial",
   "theorems": [
    "C111_elliptic_free",
    "C111_elliptic_dirichlet_partial",
    "C111_interior_refuted"
   ],
   "note": "proved without boundary data and with dof 0 on the boundary; refuted with dof 0 interior: its equation is lost"
  },
  {
   "property": "C112",
   "status": "proved",
   "theorems": [
    "C112_last_data",
    "C112_init_forgets_history"
   ],
   "note": "Any history of setters, init and solve calls: the data used is that of the last setters."
  },
  {
   "property": "C113",
   "status": "proved",
   "theorems": [
    "C113_dofs_coords"
   ],
   "note": "Order 2 on triangles (order 1 returns the nodes)."
  },
  {
   "property": "C114",
   "status": "partial",
   "theorems": [
    "C114_values_partial",
    "C114_expansion_partial",
    "C114_second_order_refuted",
    "C114_outside_refuted"
   ],
   "note": "refuted: holds for first order and points inside the domain; for order 2 node_ids() is read out of bounds on every mesh, and a point outside the domain reads cell(-1)"
  },
  {
   "property": "C115",
   "status": "partial",
   "theorems": [
    "C115_mass_partial",
    "C115_mass_cubic_refuted"
   ],
   "note": "Proved for orders up to 2; refuted for cubic splines: three Gauss nodes do not integrate degree 6."
  },
  {
   "property": "C116",
   "status": "proved",
   "theorems": [
    "C116_pointwise",
    "C116_expansion"
   ],
   "note": ""
  },
  {
   "property": "C117",
   "status": "partial",
   "theorems": [
    "C117_sparse_partial",
    "C117_wrong_format",
    "C117_empty_value_refuted"
   ],
   "note": "Proved for files of well-formed triplets; refuted: an empty value repeats the one of the line before."
  },
  {
   "property": "C118",
   "status": "proved",
   "theorems": [
    "C118_points",
    "C118_polygons"
   ],
   "note": "All record counts, ring and point counts, all three flavours (plain, M, Z); null-shape records excluded from the property (the reader does not support them)."
  },
  {
   "property": "C119",
   "status": "partial",
   "theorems": [
    "C119_table_partial",
    "C119_long_field_refuted",
    "C119_empty_table_refuted"
   ],
   "note": "Proved for non-empty tables with distinct names and fields shorter than 128 bytes; refuted for longer fields (length byte read as negative, nothing read) and for tables without rows (columns do not exist)."
  },
  {
   "property": "C120",
   "status": "proved",
   "theorems": [
    "C120_columns"
   ],
   "note": "Exact reals; the Cholesky solver is a parameter assumed exact."
  },
  {
   "property": "C121",
   "status": "partial",
   "theorems": [
    "C121_best_enters_partial",
    "C121_single_candidate_refuted"
   ],
   "note": "Proved when two candidates differ in improvement; refuted: with a single candidate (or equal improvements) max > mean is false and nothing ever enters, e.g. every tridiagonal matrix keeps a diagonal L."
  },
  {
   "property": "C122",
   "status": "partial",
   "theorems": [
    "C122_values_partial",
    "C122_again_refuted",
    "C122_other_columns_refuted"
   ],
   "note": "Given its support, a column is determined by the matrix; refuted: patterns are not reset between calls, and the indices left over from column k-1 are used for column k."
  },
  {
   "property": "C123",
   "status": "proved",
   "theorems": [
    "C123_push_child",
    "C123_null_undefined"
   ],
   "note": "Any position inside the tree; a null position is undefined behaviour."
  },
  {
   "property": "C124",
   "status": "partial",
   "theorems": [
    "C124_remove_partial",
    "C124_missing_refuted",
    "remove_two_types_refuted"
   ],
   "note": "Proved for keys the frame has; refuted for a missing key (erase(end()) is undefined behaviour) and a key used with two types keeps stale data. The code computes the flag position from an iterator invalidated by the erase; the model uses the position it denoted."
  },
  {
   "property": "C125",
   "status": "proved",
   "theorems": [
    "pool_runs_are_bounded",
    "pool_executes_all",
    "shutdown_terminates",
    "sync_returns_single_client"
   ],
   "note": "Any scheduler, no fairness needed: runs without new calls and without spurious wake-ups are bounded. A sync() caller may be left asleep by shutdown or by a second sync() caller (C59). Cases: pool_rest_case, pool_off_case."
  },
  {
   "property": "C126",
   "status": "proved",
   "theorems": [
    "C126_pde",
    "C126_optimizer"
   ],
   "note": "Selection of the method, whatever other interfaces the wrapper carries. Not modelled: eval_functional_basis returns a std::pair but is invoked as returning EvalReturnType, and the templated setters do not check the argument type; both are undefined behaviour in the language."
  },
  {
   "property": "C127",
   "status": "partial",
   "theorems": [
    "C127_cells",
    "C127_total",
    "C127_locate_partial",
    "C127_contains_partial",
    "C127_contains_outside",
    "C127_locate_refuted"
   ],
   "note": "Proved but for locate at the right end point, which inherits the out of range read of C38 (refuted)."
  },
  {
   "property": "C128",
   "status": "proved",
   "theorems": [
    "C128_vertices",
    "C128_interior"
   ],
   "note": "For every sorting routine that meets the contract of std::sort and every order of the unordered_map. Cases: C128_example, C128_interior_example. Doubles are idealised as reals."
  },
  {
   "property": "C129",
   "status": "partial",
   "theorems": [
    "C129_nearest_partial",
    "C129_locate_partial",
    "C129_contains_partial",
    "C129_locate_refuted"
   ],
   "note": "Proved: locate returns the nearest node in every Delaunay triangulation in which no node lies inside a circle with an edge as diameter; in all meshes the result is the nearest of the three vertices of the triangle that contains p. Refuted: in a Delaunay mesh the nearest site need not be a vertex of that triangle. Case: C129_nearest_example."
  },
  {
   "property": "C130",
   "status": "partial",
   "theorems": [
    "C130_measure_partial",
    "C130_area_refuted"
   ],
   "note": "Proved: measure() is the area of a polygon that goes clockwise around a point. Refuted: next to an obtuse boundary triangle the circumcentre is outside the domain and the cells cover more than the domain."
  },
  {
   "property": "C131",
   "status": "proved",
   "theorems": [
    "triangle_views",
    "tetrahedron_views"
   ],
   "note": "For every traversal order of the unordered_set of edge ids. on_boundary of a tetrahedron edge is C99. Cases: triangle_views_example, tetrahedron_views_example."
  },
  {
   "property": "C132",
   "status": "partial",
   "theorems": [
    "cell_boundary_flag",
    "cell_boundary_partial",
    "cell_boundary_refuted"
   ],
   "note": "Proved: the flag says that at most one vertex is unmarked, and no cell with a boundary facet is missed. Refuted: a cell whose vertices all lie on the boundary is reported although none of its facets is there."
  },
  {
   "property": "C133",
   "status": "partial",
   "theorems": [
    "iterator_visits",
    "iterator_walk",
    "iterator_plus_end_refuted"
   ],
   "note": "Proved for loops and for all walks where + k and - k land on an item. Refuted: it + k that reaches end dereferences past the last item. The postfix operators cannot be instantiated."
  },
  {
   "property": "C134",
   "status": "partial",
   "theorems": [
    "almost_equal_sym",
    "almost_equal_sound",
    "almost_equal_complete",
    "almost_equal_refl_partial",
    "almost_equal_refl_refuted"
   ],
   "note": "IEEE doubles (Flocq binary64). Symmetry and the answer true are exact; the answer false is exact up to two roundings. Refuted: an infinity is not almost equal to itself. Case: almost_equal_example."
  },
  {
   "property": "C135",
   "status": "partial",
   "theorems": [
    "log1pexp_accuracy",
    "log1pexp_monotone_refuted"
   ],
   "note": "Accuracy proved on reals, std::exp and std::log1p taken as exact. Refuted: the value drops at x = 33.3."
  },
  {
   "property": "C136",
   "status": "partial",
   "theorems": [
    "sparse_lu_partial",
    "sparse_lu_flag_refuted",
    "sparse_lu_arrow_refuted"
   ],
   "note": "Value semantics of solve proved for histories without operator->. Refuted: the flag stays true after a later failed compute; a factorisation through operator-> changes every copy. Case: sparse_lu_example."
  },
  {
   "property": "C137",
   "status": "proved",
   "theorems": [
    "C137_bilinear_form"
   ],
   "note": "For operators built from the leaves by +, -, negation and scalar multiples; diffusion tensors symmetric when the operator is flagged symmetric (C65 refutes the other case). Case: C139_example."
  },
  {
   "property": "C138",
   "status": "proved",
   "theorems": [
    "C138_constants",
    "C138_lagrangian"
   ],
   "note": "C138_lagrangian discharges the hypothesis on the basis for every Lagrangian space. Cases: C138_example, triangle_unity."
  },
  {
   "property": "C139",
   "status": "proved",
   "theorems": [
    "C139_energy"
   ],
   "note": "Case: C139_example."
  },
  {
   "property": "C140",
   "status": "proved",
   "theorems": [
    "C140_mass",
    "C140_standard"
   ],
   "note": "C140_standard discharges the hypotheses on basis and rule for the spaces the library can build. Case: C140_example."
  },
  {
   "property": "C141",
   "status": "proved",
   "theorems": [
    "C141_gram",
    "C141_positive",
    "C141_inverse"
   ],
   "note": "Cell types (1,1), (2,2), (3,3), (1,2), (1,3), (2,3), local and embedding dimension; determinant and inverse by Eigen's cofactor formulas, in exact arithmetic. Case: C141_example."
  },
  {
   "property": "C142",
   "status": "proved",
   "theorems": [
    "C142_unit",
    "C142_affine",
    "C142_translation",
    "C142_order",
    "C142_subdivision"
   ],
   "note": "Exact arithmetic. Cases: C141_example, C142_example."
  },
  {
   "property": "C143",
   "status": "proved",
   "theorems": [
    "C143_kernel",
    "C143_neumann",
    "C143_standard"
   ],
   "note": "C143_standard discharges the hypothesis on basis and rule for the spaces the library can build; SparseLU exact. Case: C144_example."
  },
  {
   "property": "C144",
   "status": "proved",
   "theorems": [
    "C144_dirichlet"
   ],
   "note": "SparseLU taken as exact and failing only on singular matrices; dof 0 on the boundary because otherwise set_dirichlet_bc also overwrites the equation of dof 0 (C66). Case: C144_example."
  },
  {
   "property": "C145",
   "status": "proved",
   "theorems": [
    "C145_reaction"
   ],
   "note": "SparseLU as in C144. The hypotheses on basis and rule are discharged by C140_standard. Case: C140_example."
  },
  {
   "property": "C146",
   "status": "proved",
   "theorems": [
    "C146_first_order",
    "C146_second_order"
   ],
   "note": "Exact arithmetic; Vandermonde systems solved exactly (C63). Cases: mesh2_good, reference_exists, C147_example, C148_example."
  },
  {
   "property": "C147",
   "status": "proved",
   "theorems": [
    "C147_mass",
    "C147_stiffness",
    "C147_dirichlet",
    "C147_reaction"
   ],
   "note": "SparseLU exact and failing only on singular matrices; node 0 marked (C66). Case: C147_example."
  },
  {
   "property": "C148",
   "status": "proved",
   "theorems": [
    "C148_dirichlet"
   ],
   "note": "SparseLU as in C147; node 0 marked (C66). Case: C148_example."
  },
  {
   "property": "C149",
   "status": "proved",
   "theorems": [
    "C149_patch"
   ],
   "note": "Exact arithmetic, SparseLU as in C147, node 0 marked (C66). The proof shows that the integral of the gradient of the basis function of an interior node is zero, by cancellation across faces. Case: C149_example, C147_example."
  },
  {
   "property": "C150",
   "status": "proved",
   "theorems": [
    "C150_parabolic",
    "C150_mesh"
   ],
   "note": "SparseLU exact and failing only on singular matrices; dof 0 on the boundary and uniform grid, without which the code does not do implicit Euler (C79). Case: C150_example."
  },
  {
   "property": "C151",
   "status": "proved",
   "theorems": [
    "C151_contraction",
    "C151_decay",
    "C150_mesh"
   ],
   "note": "As C150. Case: C150_example."
  },
  {
   "property": "C152",
   "status": "proved",
   "theorems": [
    "C152_steady"
   ],
   "note": "As C150. Case: C150_example with zero initial condition and zero data; C147_dirichlet gives stationary solutions for any data."
  },
  {
   "property": "C153",
   "status": "proved",
   "theorems": [
    "C153_minimum"
   ],
   "note": "As C144. Case: C144_example, C147_example."
  },
  {
   "property": "C154",
   "status": "proved",
   "theorems": [
    "C154_first_order",
    "C154_nodes",
    "C154_second_order"
   ],
   "note": "Exact arithmetic; the point location is an arbitrary function into the cells (C37, C47). Case: C154_example."
  },
  {
   "property": "C155",
   "status": "proved",
   "theorems": [
    "C155_reference",
    "C155_degenerate"
   ],
   "note": "Exact arithmetic; the 1e-6 tolerance at the right end (C75) is treated by the condition clear_of_end. Case: C155_example."
  },
  {
   "property": "C156",
   "status": "proved",
   "theorems": [
    "C156_init",
    "C156_order",
    "C156_setters"
   ],
   "note": "As C78: tabulated quadrature rule; operators made of reactions and bilaplacians. Case: C155_example."
  },
  {
   "property": "C157",
   "status": "partial",
   "theorems": [
    "C157_never_partial",
    "C157_refuted"
   ],
   "note": "Refuted: force_ is never set (a TODO in the header), so no reachable state has a solution. Proved part: the failure report for singular matrices, and that every other solve is undefined."
  },
  {
   "property": "C158",
   "status": "partial",
   "theorems": [
    "C158_nodal_partial",
    "C158_values_partial",
    "C158_refuted"
   ],
   "note": "Refuted for every order other than 1, for all node lists. Proved for order 1 with strictly increasing nodes."
  },
  {
   "property": "C159",
   "status": "proved",
   "theorems": [
    "C159_independent",
    "C159_supports"
   ],
   "note": "Exact arithmetic; knot lists as in C75. Case: three_ok."
  },
  {
   "property": "C160",
   "status": "proved",
   "theorems": [
    "C160_straight",
    "C160_only"
   ],
   "note": "Exact arithmetic; knot lists as in C75. Case: three_ok."
  },
  {
   "property": "C161",
   "status": "partial",
   "theorems": [
    "C161_definite_partial",
    "C161_distinct_partial",
    "C161_refuted"
   ],
   "note": "With distinct knots the answer is settled for every order: proved up to twice the number of intervals, refuted above it. With repeated knots proved up to order 2; higher orders with repeated knots are open. Cases: C161_example, C161_distinct_example, C161_refuted_example."
  },
  {
   "property": "C162",
   "status": "partial",
   "theorems": [
    "C162_semidefinite",
    "C162_kernel_partial",
    "C162_refuted"
   ],
   "note": "Sign proved for every order; with distinct knots the kernel claim is settled for every order: proved from 2 up to twice the number of intervals plus 2, refuted above. Case: C162_refuted_example."
  },
  {
   "property": "C163",
   "status": "partial",
   "theorems": [
    "C163_smoothing_partial",
    "C163_refuted"
   ],
   "note": "Proved for orders from 2 to twice the number of intervals plus 2, in exact arithmetic; refuted for orders above five times the number of intervals; between the two bounds open. Case: C163_example."
  },
  {
   "property": "C164",
   "status": "partial",
   "theorems": [
    "C164_balanced_partial",
    "C164_equal_points_refuted",
    "C164_balanced_refuted"
   ],
   "note": "Refuted for every number of coinciding points (depth n) and in two dimensions with distinct coordinates. Proved in one dimension with distinct coordinates, for every std::nth_element that meets the standard. Cases: C164_example, C164_equal_example."
  },
  {
   "property": "C165",
   "status": "proved",
   "theorems": [
    "C165_triangles",
    "C165_tetrahedra",
    "C165_closed"
   ],
   "note": "Tables as in C40-C43. Case: C165_example."
  },
  {
   "property": "C166",
   "status": "proved",
   "theorems": [
    "C166_vertices",
    "C166_patch"
   ],
   "note": "TreeSearch in exact rational arithmetic, as C37; contains() exact in C166_patch. Case: C166_example."
  },
  {
   "property": "C167",
   "status": "partial",
   "theorems": [
    "C167_values_partial",
    "C167_dangling_refuted",
    "C167_moved_refuted",
    "C167_mixed_refuted"
   ],
   "note": "Refuted for meshes copied or moved after a query. Proved for all other histories. Case: C167_example."
  },
  {
   "property": "C168",
   "status": "partial",
   "theorems": [
    "C168_after_first_partial",
    "C168_single_partial",
    "C168_refuted"
   ],
   "note": "Refuted for every number of threads from two on: the first calls race on the lazily built policy. Proved after the first call. Cases: the statements are concrete."
  },
  {
   "property": "C169",
   "status": "proved",
   "theorems": [
    "C169_cell",
    "C169_edge",
    "C169_edges",
    "C169_boundary"
   ],
   "note": "For every diagram and every order of the hash containers. Outside the statement: a negative index passed to edge(i) is not stopped by the assertion and reads out of bounds (C169_example)."
  },
  {
   "property": "C170",
   "status": "partial",
   "theorems": [
    "C170_files_partial",
    "C170_gcs_partial",
    "C170_no_prj",
    "C170_slash_refuted",
    "C170_gcs_refuted"
   ],
   "note": "The files and the name are right when the folder is written without a final slash and the first line of the .prj file contains GEOGCS[\" followed by a quote. Refuted otherwise: with a final slash the files opened are folder//.shp and so on, for every folder; without the keyword npos + 8 wraps to 7, so that a piece of the text is reported, and an empty .prj file makes the constructor throw."
  },
  {
   "property": "C171",
   "status": "partial",
   "theorems": [
    "C171_columns_partial",
    "C171_type_partial",
    "C171_no_columns_refuted",
    "C171_type_refuted"
   ],
   "note": "Right for tables with at least one column and for the four plain shape types. Refuted: with no columns (also when the .dbf file is missing) the loop bound is size() - 1 = 2^64 - 1 and the vector is read out of bounds; the eight shape types with z or m coordinates are printed without a name."
  },
  {
   "property": "C172",
   "status": "proved",
   "theorems": [
    "C172_maximum",
    "C172_minimum"
   ],
   "note": "The statement about angles is on inward normals; triangle_angles gives it from the angles of the triangles, segment_angles for segments. As in C147, dof 0 has to be on the boundary (C111)."
  },
  {
   "property": "C173",
   "status": "proved",
   "theorems": [
    "C173_polynomials",
    "C173_only"
   ],
   "note": "Extends C160 to all degrees. Real arithmetic; knots closer than the tolerance at the right end are excluded (C75)."
  },
  {
   "property": "C174",
   "status": "proved",
   "theorems": [
    "C174_local_bounds",
    "C174_bounds"
   ],
   "note": "Real arithmetic; knots closer than the tolerance at the right end are excluded (C75)."
  },
  {
   "property": "C175",
   "status": "proved",
   "theorems": [
    "C175_smooth"
   ],
   "note": "Extends C77 to the knots."
  },
  {
   "property": "C176",
   "status": "partial",
   "theorems": [
    "C176_edges",
    "C176_nodes_partial",
    "C176_3d_refuted"
   ],
   "note": "Proved for edges and boundary edges of triangular meshes. The boundary node iterator walks correctly, but over the nodes that are not marked (C44). Refuted in 3-D: -- reads one past the current item and past the filter at the end. Case: C176_edges_example."
  },
  {
   "property": "C177",
   "status": "partial",
   "theorems": [
    "C177_faces_partial",
    "C177_faces_refuted"
   ],
   "note": "The default filter has one bit per edge instead of one per face. Defined as long as the faces fit into the packs of 64 bits allocated for the edges; refuted by a double pyramid with 62 edges and 75 faces."
  },
  {
   "property": "C178",
   "status": "proved",
   "theorems": [
    "C178_facets",
    "C178_vertex",
    "C178_boundary"
   ],
   "note": "Any order, any vertex type. Case: C178_example."
  },
  {
   "property": "C179",
   "status": "proved",
   "theorems": [
    "C179_between"
   ],
   "note": "Exact arithmetic. With C172 the maximum principle holds at every located point, not only at the nodes. Case: C180_example."
  },
  {
   "property": "C180",
   "status": "proved",
   "theorems": [
    "C180_accuracy"
   ],
   "note": "Exact arithmetic; manifold meshes included. Case: C180_example."
  },
  {
   "property": "C181",
   "status": "proved",
   "theorems": [
    "C181_increasing",
    "C181_decreasing"
   ],
   "note": "Exact arithmetic; any multiplicities, jumps included. Case: C181_example."
  },
  {
   "property": "C182",
   "status": "proved",
   "theorems": [
    "C182_convex"
   ],
   "note": "Exact arithmetic; the only restriction is that no r + 1 consecutive inner padded knots coincide, which is where the spline is continuous and the slopes are defined. Case: C182_example."
  },
  {
   "property": "C183",
   "status": "proved",
   "theorems": [
    "C183_lipschitz",
    "C183_fixed_step",
    "C183_backtracking"
   ],
   "note": "Exact arithmetic. The fuel bounds the backtracking loop only; from some fuel on the result does not depend on it. Case: C183_example, C183_run."
  },
  {
   "property": "C184",
   "status": "proved",
   "theorems": [
    "C184_fixed_step",
    "C184_backtracking"
   ],
   "note": "Exact arithmetic. Case: C183_example."
  },
  {
   "property": "C185",
   "status": "proved",
   "theorems": [
    "C185_transpose",
    "C185_associative",
    "C185_inverse",
    "C185_definite",
    "C185_sparse"
   ],
   "note": "Exact arithmetic; evaluates and sparse_evaluates say which matrix the expressions yield when evaluated (C30, C31). Case: C185_example; evaluates_exists and sparse_evaluates_exists."
  },
  {
   "property": "C186",
   "status": "proved",
   "theorems": [
    "C186_lumped",
    "C186_second_order"
   ],
   "note": "Exact arithmetic, tables of the library with their printed digits; eps = 2e-15. The sparse matrix handed to lump is any one storing the assembled entries. Case: C186_example, C186_second_example."
  },
  {
   "property": "C187",
   "status": "partial",
   "theorems": [
    "C187_shared_semantics_partial",
    "C187_self_assign_refuted",
    "C187_copy_of_empty_refuted",
    "C187_moved_from_refuted"
   ],
   "note": "Refuted in the same three corners as C87, because they lie in vtable_handler and erase: after x = x the virtual table is indeterminate, a copy of an empty wrapper has an indeterminate size, a moved-from wrapper tests true. Every other history is covered. Case: C187_example."
  },
  {
   "property": "C188",
   "status": "partial",
   "theorems": [
    "C188_view_semantics_partial",
    "C188_dangling",
    "C188_self_assign_refuted",
    "C188_copy_of_empty_refuted"
   ],
   "note": "Refuted for self assignment and for copies of empty wrappers (vtable_handler). Every other history is covered. Case: C188_example."
  },
  {
   "property": "C189",
   "status": "proved",
   "theorems": [
    "C189_differentiable",
    "C189_twice_differentiable",
    "C189_descent"
   ],
   "note": "Static dimensions. derive() and derive_twice() are those of the static type of the object: through a reference to the base class the numerical ones are used. Case: C189_example."
  },
  {
   "property": "C190",
   "status": "proved",
   "theorems": [
    "C190_computes",
    "C190_differences",
    "C190_inexact",
    "C190_numerical",
    "C190_default",
    "C190_aliasing"
   ],
   "note": "Exact arithmetic: the cancellation error of the differences is not modelled. Case: C190_example."
  },
  {
   "property": "C191",
   "status": "proved",
   "theorems": [
    "C191_error",
    "C191_model",
    "C191_linear",
    "C191_monotone",
    "C191_nonneg"
   ],
   "note": "IEEE binary64 (Flocq), round to nearest even, no contraction into fused operations. C191_model: the exact sum is the integral of the model in exact arithmetic. Case: C191_example."
  },
  {
   "property": "C192",
   "status": "proved",
   "theorems": [
    "C192_error",
    "C192_dominates"
   ],
   "note": "IEEE binary64 (Flocq); any bracketing of any order of the entries, so the statement does not depend on how Eigen vectorises. Case: C192_example."
  },
  {
   "property": "C193",
   "status": "partial",
   "theorems": [
    "C193_backtracking_partial",
    "C193_stalls_refuted"
   ],
   "note": "Holds for factors of at most 1/2 (the default): at most 2100 evaluations. Refuted for factors above 1/2 with gamma above 1/2: on 1e17 + t the loop never ends, the step stalls at the smallest positive double. Case: C193_example."
  },
  {
   "property": "C194",
   "status": "partial",
   "theorems": [
    "C194_sound_partial",
    "C194_wolfe_refuted"
   ],
   "note": "Refuted with the default parameters: for 1 + y^2/2 at y = 2^-30 along the steepest descent the loop never ends, although the first trial is accepted in exact arithmetic (default_parameters). Proved: a step returned passes both tests as computed. Case: C194_example."
  },
  {
   "property": "C195",
   "status": "proved",
   "theorems": [
    "C195_accuracy",
    "C195_partition_of_unity",
    "C195_close_knots"
   ],
   "note": "IEEE binary64 (Flocq). The exact value is that of the model over the reals (C75), on the same knots. C195_close_knots: with knots 0, 2^-1074, 1 a value of order 1 is not finite. Case: C195_example."
  },
  {
   "property": "C196",
   "status": "proved",
   "theorems": [
    "C196_expansion",
    "C196_size"
   ],
   "note": "IEEE binary64 (Flocq); the order of additions is that of the code. Cases: C195_example, C196_example."
  },
  {
   "property": "C197",
   "status": "proved",
   "theorems": [
    "C197_gradient",
    "C197_far"
   ],
   "note": "IEEE binary64 (Flocq), no contraction. The exact function and its derivatives are quantified separately from the computed field. Cases: C197_example, C197_far_example (the identity at 2^47 with the default step has derivative 0)."
  },
  {
   "property": "C198",
   "status": "partial",
   "theorems": [
    "C198_symmetry_partial",
    "C198_symmetry_refuted"
   ],
   "note": "Refuted with the default step: for x*y at (1, 2) the two mixed entries differ. The code comes back to the starting coordinate by additions which round, and adds the four values in another order. Proved: where the steps are exact the entries differ by at most 2 ((1+u)^4-1) times the sum of the four absolute values over 4 h^2, plus the smallest double. Case: C198_example."
  },
  {
   "property": "C199",
   "status": "proved",
   "theorems": [
    "C199_second",
    "C199_mixed"
   ],
   "note": "IEEE binary64 (Flocq), no contraction. Cases: C199_example, C199_mixed_example."
  },
  {
   "property": "C200",
   "status": "partial",
   "theorems": [
    "C200_accuracy",
    "C200_contains_partial",
    "C200_outside",
    "C200_position_partial",
    "C200_gap_refuted",
    "C200_degenerate_refuted"
   ],
   "note": "IEEE binary64 (Flocq), no contraction; Eigen's 2 x 2 inverse modelled. Refuted: the tolerance of 10 machine epsilons does not grow with the distortion of the cell, so a point of two thin triangles with a common edge is OUTSIDE of both, and a degenerate triangle (NaN coordinates) is said to contain points off its line. Proved: the coordinates are within 20 kappa u, kappa the distortion; points with coordinates above 20 (kappa - 1) u are recognised, hence every point when kappa = 1 (right triangles with legs along the axes at the first node); points far enough outside are rejected. Cases: C200_accuracy_ex, C200_position_ex, C200_degenerate_ex."
  },
  {
   "property": "C201",
   "status": "partial",
   "theorems": [
    "C201_reuse",
    "C201_report",
    "C201_defined",
    "C201_copy_behaves",
    "C201_copy_refuted",
    "C201_assign_refuted",
    "C201_line_searches"
   ],
   "note": "Refuted for the results of copies: the copy constructor leaves optimum_ and value_ indeterminate, and operator= leaves those of the target, so that an assigned optimizer reports a result of its own earlier run under the settings of the source. Proved: reuse is independent of history (C201_reuse), also for copies (C201_copy_behaves), with callbacks which read only what the current call has assigned, such as both line searches (C201_line_searches). Case: C201_reuse_ex."
  },
  {
   "property": "C202",
   "status": "partial",
   "theorems": [
    "C202_stop",
    "C202_first",
    "C202_directions",
    "C202_converged_partial",
    "C202_descent_refuted",
    "C202_newton_refuted"
   ],
   "note": "Refuted: the test error > tol_ is false for NaN, so a run that overflows returns NaN early as if it had converged (x^4 from 10 with step 0.1), and Newton started at the minimiser of x^4 (Hessian zero) leaves it for NaN. Proved: an early return with a norm that is a number is a point where it does not exceed the tolerance, for any direction. IEEE binary64 (Flocq); no callbacks or stopping criterion. Case: C202_example."
  },
  {
   "property": "C203",
   "status": "partial",
   "theorems": [
    "C203_grid_partial",
    "C203_grid_refuted"
   ],
   "note": "Refuted: if the objective is NaN at the first row, that row is returned whatever the others. Proved otherwise: NaN rows after the first are passed over, infinities are handled. Case: C203_example."
  },
  {
   "property": "C204",
   "status": "partial",
   "theorems": [
    "C204_expressions",
    "C204_history_partial",
    "C204_visitors_partial",
    "C204_size_refuted",
    "C204_count_refuted",
    "C204_row_offset_refuted"
   ],
   "note": "Refuted: a matrix whose size exceeds 2^31 - 1 (46341 rows and columns) overflows in its constructor; count() overflows when the size is within 64 of that limit; the first row of a bitpack of a block, floor(i * (64 / (double)n_cols)), is one too small for pack 49 of a block of 49 columns. Proved: expressions and histories of calls behave as with unbounded ints whenever the sizes are ints, all(), any() and count() whenever there is room for one more pack; for the blocks for which C11 holds the rounding of the offset has no effect. Case: C204_example."
  },
  {
   "property": "C205",
   "status": "proved",
   "theorems": [
    "C205_quadratic",
    "C205_tolerance"
   ],
   "note": "Exact arithmetic; the linear solve of an iteration is assumed exact. Case: C205_example (x + x^2/2), C205_run."
  },
  {
   "property": "C206",
   "status": "proved",
   "theorems": [
    "C206_tolerance",
    "C206_geometric"
   ],
   "note": "Exact arithmetic. The fuel bounds the bisection loops of the run; from some fuel on the run does not depend on it. Case: C206_example, C206_run."
  },
  {
   "property": "C207",
   "status": "partial",
   "theorems": [
    "C207_tolerance_partial",
    "C207_zero_is_minimum",
    "C207_returned_refuted"
   ],
   "note": "Refuted when an iterate hits the minimum exactly: optimize() then returns the iterate before it, whose gradient may be large (x^2/2 from 1, C207_returned_refuted). Proved: otherwise the tolerance is reached within the stated number of iterations; in the exceptional case the point missed is the minimiser (C207_zero_is_minimum). Proof: trace minus logarithm of the determinant of the approximated Hessian, over the objective, as a Lyapunov function. Exact arithmetic. Case: C207_example, C207_run."
  },
  {
   "property": "C208",
   "status": "proved",
   "theorems": [
    "C208_tolerance"
   ],
   "note": "Exact arithmetic; the linear solve of an iteration is assumed exact. Case: C208_example, C208_run."
  },
  {
   "property": "C209",
   "status": "proved",
   "theorems": [
    "C209_nodes",
    "C209_everywhere",
    "C209_sine"
   ],
   "note": "Exact arithmetic; the tables at their decimal values, which leaves a term (max |f| + h max |f'|) 1e-14. The linear solve is assumed exact. Case: C209_sine (all m), C209_example."
  },
  {
   "property": "C210",
   "status": "partial",
   "theorems": [
    "C210_tolerance_partial",
    "C210_returned_refuted"
   ],
   "note": "Refuted, as C207, when an iterate hits the minimum exactly: optimize() then returns the iterate before it (x^2/2 from 1, C210_returned_refuted). Proved: otherwise the tolerance is reached within the stated number of iterations. The Lyapunov function of C207; where the first step is accepted, the bound keeps the term |Bs|^2 / s'Bs that C207 drops. Exact arithmetic. Case: C210_run."
  },
  {
   "property": "C211",
   "status": "proved",
   "theorems": [
    "C211_tolerance"
   ],
   "note": "Exact arithmetic; the linear solve of an iteration is assumed exact. Case: C211_run (hypotheses also C208_example)."
  },
  {
   "property": "C212",
   "status": "proved",
   "theorems": [
    "C212_heat",
    "C212_cooling"
   ],
   "note": "Exact arithmetic; the tables at their decimal values, which leaves a term (max |u_xx| + h max |u_xxx|) 1e-14. The linear solve is assumed exact. The norm is the square root of the quadrature of the square of the field. Case: C212_cooling (all m and k), C212_example."
  },
  {
   "property": "C213",
   "status": "proved",
   "theorems": [
    "C213_energy",
    "C213_square"
   ],
   "note": "Exact arithmetic, the linear solve assumed exact, the quadrature tables at their decimal values. The energy norm is computed with the quadrature of the order-1 space (exact for gradients). Case: C213_square (all m), C213_example."
  },
  {
   "property": "C214",
   "status": "proved",
   "theorems": [
    "C214_poincare",
    "C214_stability",
    "C214_poisson",
    "C214_square"
   ],
   "note": "Exact arithmetic, the linear solve assumed exact, the quadrature tables at their decimal values. The L2 norms are computed with the quadrature of the order-1 space. Case: C214_square (all m), C214_example."
  },
  {
   "property": "C215",
   "status": "proved",
   "theorems": [
    "C215_heat",
    "C215_decay",
    "C215_plate"
   ],
   "note": "Exact arithmetic, the linear solve assumed exact, the quadrature tables at their decimal values. The L2 norms are computed with the quadrature of the order-1 space. Case: C215_plate (all m and k), C215_example."
  },
  {
   "property": "C216",
   "status": "partial",
   "theorems": [
    "C216_order_partial",
    "C216_exact",
    "C216_asymmetric",
    "C216_irreflexive",
    "C216_cycle",
    "C216_refuted"
   ],
   "note": "Refuted for arbitrary doubles: around the computed mean of the doubles nearest to (0.03, 0.01), (0.12, 0.04), (0.15, 0.05), (0.57, 0.19) the first three points are each before the next one in a circle, so std::sort is undefined. Proved for every grid of doubles and, for all doubles, asymmetry. Case: C216_example (corners of a square around its centre)."
  },
  {
   "property": "C217",
   "status": "partial",
   "theorems": [
    "C217_factorial",
    "C217_binomial_partial",
    "C217_nnodes_partial",
    "C217_nedges",
    "C217_refuted"
   ],
   "note": "Refuted: the binomial coefficient forms factorials, so from n = 13 on every coefficient overflows although it may be as small as n (combinations<K, N> cannot be instantiated for N > 12). Proved: the exact set of arguments for which each function is defined, and the value there. Case: C217_example."
  },
  {
   "property": "C218",
   "status": "partial",
   "theorems": [
    "C218_candidates_partial",
    "C218_locate_partial",
    "C218_triangles_partial",
    "C218_flat_refuted"
   ],
   "note": "Refuted for flat meshes: on every mesh flat along axis d with at least 2^(d+1) cells some cell is never examined, whatever the point (eight triangles at constant height suffice). Proved for every mesh not flat along any axis, infinities allowed in the point; with the cells' test of C200 for triangles of the plane. Case: C218_example (two triangles), C218_flat_example (strip of eight triangles in space)."
  },
  {
   "property": "C219",
   "status": "partial",
   "theorems": [
    "C219_contains_partial",
    "C219_first_node",
    "C219_outside",
    "C219_segment_refuted",
    "C219_triangle_refuted"
   ],
   "note": "Refuted: the segment from (0, 0) to (1, 13) and the surface triangle (0, 0, 0), (1, 1, 0), (4, 5, 0) reject one of their own nodes, because the computed distance from their line or plane is above the absolute tolerance 2.2e-15. Proved for segments: short segments near the origin, the first node at any size, points away from the line. Case: C219_example (middle, both nodes and an outer point of a segment)."
  },
  {
   "property": "C220",
   "status": "partial",
   "theorems": [
    "C220_nodes_partial",
    "C220_locate_partial",
    "C220_unit",
    "C220_refuted"
   ],
   "note": "Refuted when the cells are shorter than the spacing of the doubles: four cells between 1 and the next double have three equal nodes, and nothing is reported. Proved for cells longer than 16 u max(|a|, |b|). LinSpaced is modelled after Eigen's source. Case: C220_unit (the unit interval, every n below 2^31), C220_example."
  },
  {
   "property": "C221",
   "status": "partial",
   "theorems": [
    "C221_measure_partial",
    "C221_relative_partial",
    "C221_length",
    "C221_refuted"
   ],
   "note": "Refuted: the triangle (0, 0), (1 + e, 1), (1 + 2e, 1 + e) with e = 2^-52 is not flat and is given the measure 0. Proved with the bound of the cancellation stated above for segments, triangles and tetrahedra of full dimension; the lengths of segments of the plane have a relative error of at most 4 u. Triangles of a surface are not modelled here. Case: C221_example (a tetrahedron), C221_length_example."
  },
  {
   "property": "C222",
   "status": "proved",
   "theorems": [
    "C222_symmetric",
    "C222_diagonal",
    "C222_accuracy",
    "C222_rows"
   ],
   "note": "The inverse of the Jacobian and the measure are the computed ones; reference gradients and weights are arbitrary doubles. 2^-500 is allowed for underflow. Distortion: ratio of the sum of the absolute values of the two products of the determinant to its value. Case: C222_example (linear elements with the three-point rule)."
  },
  {
   "property": "C223",
   "status": "partial",
   "theorems": [
    "C223_races_partial",
    "C223_no_race_without_sync_or_shutdown",
    "C223_queue_partial",
    "C223_refuted",
    "C223_queue_refuted"
   ],
   "note": "Refuted: five racing pairs of statements in the pool, each with an execution that reaches it, and size()/empty() against push and pop in the queue. Proved: there are no other races in any execution; clients that only submit never race; push, emplace, pop and clear never race."
  },
  {
   "property": "C224",
   "status": "partial",
   "theorems": [
    "C224_result",
    "C224_once",
    "C224_status",
    "C224_stable",
    "C224_all_ready_partial",
    "C224_runs",
    "C224_effects",
    "C224_left_pending",
    "C224_refuted"
   ],
   "note": "Refuted for the last sentence: a task still queued when shutdown() returns leaves its future pending in every continuation. Everything else is proved for all schedules. The body of a task is one step; the destruction of the pool is not modelled."
  },
  {
   "property": "C225",
   "status": "partial",
   "theorems": [
    "C225_after_shutdown_partial",
    "C225_terminates",
    "C225_refuted"
   ],
   "note": "Refuted: an idle pool that has not been shut down terminates the program when destroyed. Proved: after shutdown() every future is ready after the destruction, with its result exactly when the task ran."
  },
  {
   "property": "C226",
   "status": "proved",
   "theorems": [
    "C226_half",
    "C226_symmetric",
    "C226_pattern",
    "C226_diagonal",
    "C226_accuracy",
    "C226_rows"
   ],
   "note": "Eigen's setFromTriplets and selfadjointView are modelled: repeated triplets are added in insertion order, the upper half is read from the lower one."
  },
  {
   "property": "C227",
   "status": "proved",
   "theorems": [
    "C227_local",
    "C227_absent",
    "C227_monotone",
    "C227_nonneg",
    "C227_zero",
    "C227_accuracy",
    "C227_total"
   ],
   "note": "The values of the forcing term at the quadrature nodes and of the reference basis are parameters; the measure of the cells is computed in doubles as in C221."
  },
  {
   "property": "C228",
   "status": "proved",
   "theorems": [
    "C228_symmetric",
    "C228_pattern",
    "C228_half",
    "C228_nonneg",
    "C228_accuracy",
    "C228_rows"
   ],
   "note": "Coefficient values at the quadrature nodes and values of the reference basis are parameters. Eigen's setFromTriplets and selfadjointView are modelled as in C226."
  },
  {
   "property": "C229",
   "status": "proved",
   "theorems": [
    "C229_inverse",
    "C229_symmetric",
    "C229_diagonal",
    "C229_local",
    "C229_matrix",
    "C229_accuracy",
    "C229_rows"
   ],
   "note": "Eigen's inverse of a 3 x 3 matrix is modelled as cofactors over a determinant by the first column, with the order of the additions left open; setFromTriplets and selfadjointView as in C226."
  },
  {
   "property": "C230",
   "status": "proved",
   "theorems": [
    "C230_symmetric",
    "C230_pattern",
    "C230_accuracy",
    "C230_rows"
   ],
   "note": "Coefficient values at the quadrature nodes and values and gradients of the reference basis are parameters. The accuracy needs symmetric diffusion tensors when the operator is declared symmetric, because the code then computes one half only."
  },
  {
   "property": "C231",
   "status": "proved",
   "theorems": [
    "C231_data",
    "C231_step"
   ],
   "note": "SparseLU is an arbitrary function with the stated backward error. The first degree of freedom is constrained even when it is not on the boundary: see the refutation in C79. The product of the mass matrix and the previous column is added column by column, as Eigen does for column-major sparse matrices."
  },
  {
   "property": "C232",
   "status": "proved",
   "theorems": [
    "C232_boundary",
    "C232_galerkin"
   ],
   "note": "SparseLU is an arbitrary function with the stated backward error for the assembled matrix. Values and gradients of the reference basis, coefficient and forcing values at the nodes are parameters. The first degree of freedom is constrained even when it is not on the boundary: see the refutation in C79."
  },
  {
   "property": "C233",
   "status": "proved",
   "theorems": [
    "C233_data",
    "C233_step",
    "C233_no_overflow"
   ],
   "note": "SparseLU is an arbitrary function with the stated backward error for the step matrix. That the entries of the row of the step matrix and the right hand side do not overflow is a hypothesis of the first two theorems; the third gives conditions on the data and the previous column. Values and gradients of the reference basis, coefficient and forcing values at the nodes are parameters. The residual is that of each single step; its accumulation is bounded in C234."
  },
  {
   "property": "C234",
   "status": "proved",
   "theorems": [
    "C234_drift",
    "mass_sym",
    "mass_pos"
   ],
   "note": "The exact mass matrix is shown symmetric and not negative (mass_sym, mass_pos). That the operator is not negative on functions that vanish on the constrained degrees of freedom, and that no step overflows (C233_no_overflow), are hypotheses. The distance of the boundary values from the given ones is bounded in C233_data."
  }
 ]
}