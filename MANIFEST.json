{
 "claims": [
  {
   "property": "C01",
   "status": "proved",
   "theorems": [
    "C01_default_split",
    "C01_constructor"
   ],
   "note": ""
  },
  {
   "property": "C02",
   "status": "proved",
   "theorems": [
    "C02_local_shapes_iff_tile",
    "C02_bad_axis"
   ],
   "note": "both directions, every rank; an axis the array does not have is refused by every rank"
  },
  {
   "property": "C03",
   "status": "proved",
   "theorems": [
    "C03_to_dist_asarray"
   ],
   "note": ""
  },
  {
   "property": "C04",
   "status": "proved",
   "theorems": [
    "C04_asarray_same"
   ],
   "note": ""
  },
  {
   "property": "C05",
   "status": "proved",
   "theorems": [
    "C05_broadcast_identical"
   ],
   "note": "indices [:], [lo:hi] on the first axis and integers; exceptions are rank-uniform too"
  },
  {
   "property": "C06",
   "status": "proved",
   "theorems": [
    "C06_elementwise"
   ],
   "note": ""
  },
  {
   "property": "C07",
   "status": "proved",
   "theorems": [
    "C07_incompatible_rejected",
    "C07_sub_rejected"
   ],
   "note": ""
  },
  {
   "property": "C08",
   "status": "proved",
   "theorems": [
    "C08_dot_scatter"
   ],
   "note": ""
  },
  {
   "property": "C09",
   "status": "proved",
   "theorems": [
    "C09_dot_broadcast"
   ],
   "note": ""
  },
  {
   "property": "C10",
   "status": "proved",
   "theorems": [
    "C10_mask_dot",
    "C10_mask_norm"
   ],
   "note": ""
  },
  {
   "property": "C11",
   "status": "partial",
   "theorems": [
    "C11_norm",
    "C11_norm_unique",
    "C11_fro_nuc_rejected",
    "C11_empty_rank_refuted"
   ],
   "note": "proved for every order, split and partition when (for inf and -inf) every rank owns data; FINDING: for inf and -inf a rank without data raises ValueError and all the others wait for ever (C11_empty_rank_refuted); for p the law |v^p| = |v|^p is a hypothesis (true domain of float_power)"
  },
  {
   "property": "C12",
   "status": "partial",
   "theorems": [
    "C12_norm_dot_partial",
    "C12_refuted",
    "C12_iff"
   ],
   "note": "REFUTED for BROADCAST arrays with a mask (dot is a partial sum, norm is not). Exact (C12_iff): over any field with ordered squares the two agree iff the array is SCATTER, or its mask has one colour (or is absent), or all entries are zero"
  },
  {
   "property": "C13",
   "status": "partial",
   "theorems": [
    "C13_zeros_like_partial",
    "C13_refuted"
   ],
   "note": "REFUTED with a mask (zeros_like drops it, x + zeros raises); proved without"
  },
  {
   "property": "C14",
   "status": "partial",
   "theorems": [
    "C14_ravel_partial",
    "C14_ravel",
    "C14_ravel_iff",
    "C14_refuted"
   ],
   "note": "proved for axis 0 and broadcast; REFUTED for other axes. C14_ravel: what is computed for every axis, split and order (C, F). C14_ravel_iff: the claim holds for all contents of a layout iff it is broadcast, empty, split along the slowest axis (up to extent-1 axes) or held by one rank"
  },
  {
   "property": "C15",
   "status": "proved",
   "theorems": [
    "C15_ghost_cells",
    "C15_ghost_pieces"
   ],
   "note": ""
  },
  {
   "property": "C16",
   "status": "proved",
   "theorems": [
    "C16_no_deadlock"
   ],
   "note": ""
  },
  {
   "property": "C17",
   "status": "partial",
   "theorems": [
    "C17_short_supply_raises_partial",
    "C17_front_offender",
    "C17_back_offender",
    "C17_fail_together_refuted"
   ],
   "note": "some rank raises and returned data are correct; REFUTED that ranks fail together: some rank always blocks for ever"
  },
  {
   "property": "C18",
   "status": "partial",
   "theorems": [
    "C18_redistribution",
    "C18_far_boundary_partial",
    "C18_far_boundary_refuted"
   ],
   "note": "neighbour moves: proved. Further moves: some rank raises and no rank returns wrong data (proved), but REFUTED that the operator raises everywhere: the other ranks can block for ever"
  },
  {
   "property": "C19",
   "status": "partial",
   "theorems": [
    "C19_elementwise",
    "C19_asarray",
    "C19_dot",
    "C19_norm",
    "C19_mismatch_rejected",
    "C19_mask_dot",
    "C19_mask_refuted",
    "C19_mask_iff"
   ],
   "note": "proved for unmasked components (and every elementwise operation with masks); FINDING: with a masked component dot adds the per-group dots (C19_mask_dot), which is not the dot of the concatenation (C19_mask_refuted). Exact for x with conj x (C19_mask_iff): equal iff every component is zero or its mask has one colour"
  },
  {
   "property": "C20",
   "status": "partial",
   "theorems": [
    "C20_blockdiag_partial",
    "C20_otherwise_fails",
    "C20_empty_rank",
    "C20_empty_rank_refuted",
    "C20_default_dtype_refuted"
   ],
   "note": "proved when every rank holds at least one operator; on every other split of the input some rank never returns (C20_otherwise_fails); C20_empty_rank gives the exact outcome of every rank for every distribution (ranks without operators raise alone); without dtype the constructor already raises on those ranks only"
  },
  {
   "property": "C21",
   "status": "partial",
   "theorems": [
    "C21_vstack_forward_partial",
    "C21_vstack_adjoint_partial",
    "C21_otherwise_fails",
    "C21_scatter_rejected",
    "C21_columns_rejected",
    "C21_empty_rank",
    "C21_empty_rank_refuted",
    "C21_default_dtype_refuted"
   ],
   "note": "proved when every rank holds at least one operator; on every other split of the input of the adjoint some rank never returns (C21_otherwise_fails); C21_empty_rank gives the exact outcome of every rank otherwise (FINDING: ranks without operators raise alone, the others hang in the adjoint)"
  },
  {
   "property": "C22",
   "status": "partial",
   "theorems": [
    "C22_hstack_forward_partial",
    "C22_hstack_adjoint_partial",
    "C22_otherwise_fails",
    "C22_scatter_rejected",
    "C22_rows_rejected",
    "C22_empty_rank",
    "C22_empty_rank_refuted",
    "C22_default_dtype_refuted"
   ],
   "note": "proved when every rank holds at least one operator; on every other split of the forward input some rank never returns (C22_otherwise_fails), SCATTER inputs of the adjoint are rejected by all ranks; C22_empty_rank gives the exact outcome otherwise (FINDING: a rank without operators raises ValueError on application, the others wait for ever in the forward direction)"
  },
  {
   "property": "C23",
   "status": "partial",
   "theorems": [
    "C23_algebra_partial",
    "C23_H",
    "C23_build",
    "C23_user_expression_partial",
    "C23_vstack_power_refuted"
   ],
   "note": "proved for expressions whose intermediate layouts fit their consumers (ty); REFUTED for powers of a square MPIVStack, which silently return wrong values"
  },
  {
   "property": "C24",
   "status": "proved",
   "theorems": [
    "C24_pairing",
    "C24_distributed_pairing"
   ],
   "note": ""
  },
  {
   "property": "C25",
   "status": "proved",
   "theorems": [
    "C25_wrong_size",
    "C25_wrong_ndim",
    "C25_build_rejected"
   ],
   "note": ""
  },
  {
   "property": "C26",
   "status": "partial",
   "theorems": [
    "C26_first_derivative",
    "C26_otherwise_fails",
    "C26_edge_refuted",
    "C26_default_split_refuted"
   ],
   "note": "Proved for all dims, contents, samplings, rank counts, input splits and schedules: where every rank has enough rows (first_ok) and the input split reaches them, matvec is the serial stencil; everywhere else some rank never returns. REFUTED as worded: with edge the end ranks need more rows than the ghost cells (C26_edge_refuted), and a default split vector does not always reach the rows (C26_default_split_refuted). First extent positive, sampling nonzero, 12 nonzero in the field."
  },
  {
   "property": "C27",
   "status": "partial",
   "theorems": [
    "C27_first_derivative_adjoint_partial",
    "C27_adjoint_domain",
    "C27_forward_refuted",
    "C27_order5_edge_refuted"
   ],
   "note": "Proved outside two cases: rmatvec is the conjugate transpose on all ranks or some rank never returns. REFUTED in those two cases: forward kind with one row less than ranks, and order 5 with edge for 3 rows on one rank. Real sampling."
  },
  {
   "property": "C28",
   "status": "partial",
   "theorems": [
    "C28_second_derivative",
    "C28_otherwise_fails",
    "C28_edge_refuted"
   ],
   "note": "Proved where every rank has enough rows (second_ok) and the input split reaches them; everywhere else some rank never returns. REFUTED as worded for edge (C28_edge_refuted): the end ranks need 3 rows although one ghost row suffices."
  },
  {
   "property": "C29",
   "status": "partial",
   "theorems": [
    "C29_second_derivative_adjoint_partial",
    "C29_adjoint_domain",
    "C29_forward_refuted"
   ],
   "note": "Proved except for the forward kind with N = 2P-1 (P>1), which is REFUTED: the last rank has one row and rmatvec returns a wrong vector. Real sampling."
  },
  {
   "property": "C30",
   "status": "partial",
   "theorems": [
    "C30_laplacian_partial",
    "C30_as_built",
    "C30_as_built_adjoint",
    "C30_otherwise_fails",
    "C30_entry",
    "C30_rejects",
    "C30_broadcast_refused",
    "C30_kind_refuted"
   ],
   "note": "Proved for all dims, axes, weights, samplings, rank counts and schedules when the kind is centered or there is one axis, and every derivative term accepts the sizes and the split. REFUTED otherwise: kind reaches the first axis only (C30_kind_refuted). C30_as_built states what is computed for every kind, with its adjoint. For every other size or split some rank never returns (C30_otherwise_fails; the adjoint of the wrong answers of C27 and C29 excepted). A BROADCAST input is refused as soon as one axis is not axis 0."
  },
  {
   "property": "C31",
   "status": "partial",
   "theorems": [
    "C31_gradient_partial",
    "C31_adjoint_partial",
    "C31_otherwise_fails",
    "C31_adjoint_otherwise_fails",
    "C31_entry",
    "C31_broadcast_refused"
   ],
   "note": "Proved for all dims, contents, kinds, rank counts and schedules for which the derivative along axis 0 has enough rows per rank (C26, C27) and the input is SCATTER and reaches the rows. Otherwise some rank never returns (C31_otherwise_fails, C31_adjoint_otherwise_fails; the wrong answers of C27 excepted). A BROADCAST input is refused with ValueError for two or more dimensions."
  },
  {
   "property": "C32",
   "status": "partial",
   "theorems": [
    "C32_matvec_partial",
    "C32_rmatvec_partial",
    "batched_unique",
    "C32_distribution_independent",
    "C32_adjoint",
    "C32_one_column_refuted",
    "C32_one_row_adjoint_refuted",
    "C32_uneven_parts_refuted",
    "C32_scattered_rejected"
   ],
   "note": "Proved for every cut of the slices without a one-slice rank (empty ranks included), both options and all sizes, except three families where squeeze drops an axis of extent 1, which are REFUTED: contracted axis of extent 1 (every rank raises ValueError) and, without matmul, one value per slice with unequal parts."
  },
  {
   "property": "C33",
   "status": "partial",
   "theorems": [
    "C33_vstack",
    "C33_hstack",
    "C33_blockdiag",
    "C33_first_derivative",
    "C33_second_derivative",
    "C33_laplacian",
    "C33_gradient",
    "C30_rejects",
    "C33_fredholm_partial",
    "C33_refuted",
    "C33_blockdiag_dtype_refuted",
    "C33_vstack_dtype_refuted",
    "C33_hstack_dtype_refuted"
   ],
   "note": "Proved for the stacking, derivative, Laplacian and gradient constructors for all operators, rank counts and schedules when dtype is given or every rank holds an operator (Laplacian: rejected by all ranks in the cases of C30_rejects, otherwise built on all ranks with the shape of the grid; gradient likewise). REFUTED without dtype when some rank holds none (only that rank raises), and for MPIFredholm1 with a one-slice rank: rank 0 raises and every other rank waits for ever in every schedule."
  },
  {
   "property": "C34",
   "status": "partial",
   "theorems": [
    "C34_matvec_partial",
    "C34_rmatvec_partial",
    "C34_shape",
    "C34_even_rejected",
    "C34_empty_rank_refuted"
   ],
   "note": "The serial FFT is an arbitrary pair of functions with the right sizes. Proved: shape, clamping, rejections, and both products as the chain over the (scaled, conjugated) kernel, outside the extent-1 families refuted in C32. FINDING: a rank without frequencies raises IndexError and the other ranks wait for ever."
  },
  {
   "property": "C35",
   "status": "partial",
   "theorems": [
    "C35_stacked_algebra_partial",
    "C35_H",
    "C35_constructors",
    "C35_blockdiag_input",
    "C35_vstack_adjoint_input",
    "C35_empty_operator_refuted",
    "C35_mixed_sum_refuted",
    "C35_build",
    "C35_user_expression",
    "C35_dot_none",
    "C35_empty_vstack"
   ],
   "note": "Expressions over stacks (sums, products, scalings, adjoints, transposes, conjugates, .H) act as block matrices wherever the layouts of neighbouring operators fit (sty). Inputs whose component sizes differ from the operators' raise on every rank for non-empty components. REFUTED for operators without columns: components go missing. Op @ x with a non-1-D component returns None."
  },
  {
   "property": "C36",
   "status": "partial",
   "theorems": [
    "C36_power_is_identity",
    "C36_refuted",
    "C36_single_partial"
   ],
   "note": "REFUTED: a power of a stacked operator applied to a stack returns the stack unchanged, whatever the operator and exponent. Holds for stacked operators from a single array to a single array."
  },
  {
   "property": "C37",
   "status": "proved",
   "theorems": [
    "C37_cost",
    "C37_residual"
   ],
   "note": "Objects on a heap, any layout/operator expression given by op_is; cost[k] is the 2-norm of y - Op x_k for the iterates the callback sees. A non-negative tol; unmasked vectors."
  },
  {
   "property": "C38",
   "status": "proved",
   "theorems": [
    "C38_exact",
    "C38_energy"
   ],
   "note": "Hermitian positive definite matrices over any field with the listed order laws (instances: reals, complex numbers)."
  },
  {
   "property": "C39",
   "status": "partial",
   "theorems": [
    "C39_invariant",
    "C39_norm_square",
    "C39_start_refuted"
   ],
   "note": "All statements proved from the first step on; the intended statement at k=0 is refuted (damp instead of damp^2)."
  },
  {
   "property": "C40",
   "status": "proved",
   "theorems": [
    "C40_monotone",
    "C40_minimiser",
    "C40_other_start_refuted"
   ],
   "note": "Proved in the stated domain (damp=0, damp=1 or x0=0); outside it the minimiser is not reached (witness)."
  },
  {
   "property": "C41",
   "status": "proved",
   "theorems": [
    "C41_cg",
    "C41_cgls"
   ],
   "note": "Non-negative tol; a negative tol may end in ZeroDivisionError (C43)."
  },
  {
   "property": "C42",
   "status": "partial",
   "theorems": [
    "C42_cg",
    "C42_cgls",
    "C42_show_refuted",
    "C42_cg_show",
    "C42_cgls_show"
   ],
   "note": "Proved for unmasked vectors when the log printed by rank 0 does not raise (always with show=False). With show=True and components of different local shapes on rank 0 the statement is false for every operator and data: C42_cg_show and C42_cgls_show give the exact behaviour (rank 0 raises; no other rank ever returns if a step is made)."
  },
  {
   "property": "C43",
   "status": "proved",
   "theorems": [
    "C43_cg",
    "C43_cgls",
    "C43_cg_function",
    "C43_cgls_function"
   ],
   "note": "Every execution of the object-level solver equals the textbook recursion on global vectors, for a matrix and for whatever functions the operator and its adjoint compute; scattered, broadcast and stacked unmasked vectors. Exact arithmetic."
  },
  {
   "property": "C44",
   "status": "proved",
   "theorems": [
    "C44_cg",
    "C44_cgls",
    "C44_matvec"
   ],
   "note": "For every program point reached and every outcome that returns; objects existing at the call keep their values and results are new objects. Leaf operators are taken to allocate their results; the heap after an exception is not represented."
  },
  {
   "property": "C45",
   "status": "proved",
   "theorems": [
    "C45_decides",
    "C45_wrong_dims",
    "C45_exact",
    "C45_detects"
   ],
   "note": "For any operator acting as functions on global vectors the outcome is decided by the criterion; exact adjoints always pass; with zero tolerances every wrong adjoint matrix is rejected for some unit vectors. nan/inf are not modelled."
  },
  {
   "property": "C46",
   "status": "partial",
   "theorems": [
    "C46_difference_rejected",
    "C46_refuted",
    "C46_scaled_partial"
   ],
   "note": "REFUTED: A - B raises ValueError unless A is a scaled operator; then the difference acts as the matrix difference."
  },
  {
   "property": "C47",
   "status": "partial",
   "theorems": [
    "C47_returned",
    "C47_refuted"
   ],
   "note": "Proved what is returned; the documented meaning of r1norm and istop is refuted by witnesses."
  },
  {
   "property": "C48",
   "status": "partial",
   "theorems": [
    "C48_cg",
    "C48_cg_together",
    "C48_cg_hang",
    "C48_cgls",
    "C48_cgls_together",
    "C48_cgls_hang",
    "C48_refuted"
   ],
   "note": "Exact outcome for MPIBlockDiag with any mask (the only operator class that takes one), any blocks, data, number of steps, non-negative tol, every schedule: the groups that stop first return the solution of their own subproblem, every other rank waits for ever. So the claim holds iff all groups stop after the same number of steps (C48_*_together) and is refuted otherwise (C48_*_hang, and the concrete C48_refuted)."
  },
  {
   "property": "C49",
   "status": "proved",
   "theorems": [
    "C49_norm_axis",
    "C49_mask_norm_axis",
    "C49_other_axis",
    "C49_whole_array",
    "C49_empty_rank_refuted"
   ],
   "note": "for inf/-inf every rank must own data (see C11_empty_rank_refuted); for p the law |v^p| = |v|^p is a hypothesis"
  },
  {
   "property": "C50",
   "status": "partial",
   "theorems": [
    "C50_broadcast",
    "C50_scatter",
    "C50_scatter_refused",
    "C50_one_rank",
    "C50_refuted"
   ],
   "note": "proved for broadcast vectors; for scattered vectors the exact outcome of every rank (all raise when no rank holds the whole vector); REFUTED when one rank holds everything: it may return while the others raise"
  },
  {
   "property": "C51",
   "status": "proved",
   "theorems": [
    "C51_product",
    "C51_linear",
    "C51_rejects"
   ],
   "note": ""
  },
  {
   "property": "C52",
   "status": "partial",
   "theorems": [
    "C52_constructor",
    "C52_to_dist_asarray",
    "C52_to_dist",
    "C52_elementwise",
    "C52_zeros_like_partial",
    "C52_dot_scatter",
    "C52_mask_dot",
    "C52_norm",
    "C52_ghost_cells",
    "C52_ravel_refuted",
    "C52_broadcast_dot",
    "C52_broadcast_hang_refuted",
    "C52_broadcast_dot_refuted"
   ],
   "note": "Holds for everything but ravel, dot/norm of BROADCAST arrays, which rebuild their operand on MPI.COMM_WORLD (refuted, with the exact outcome); zeros_like without mask (C13)."
  },
  {
   "property": "C53",
   "status": "partial",
   "theorems": [
    "C53_algebra",
    "C53_blockdiag_shape",
    "C53_vstack_shape",
    "C53_hstack_shape",
    "C53_blockdiag_refuted",
    "C53_vstack_refuted",
    "C53_hstack_refuted",
    "C53_derivative_refuted",
    "C53_derivative_hang_refuted",
    "C53_self_derivative_refuted",
    "C53_fredholm_refuted"
   ],
   "note": "Holds for the algebra over MPILinearOperator on broadcast vectors and for the shapes. Refuted for every application of MPIBlockDiag, MPIVStack, MPIHStack (ValueError), of the derivatives (ValueError, hang or wrong data) and of MPIFredholm1 (everybody gets the result of world rank 0's communicator), which build their arrays on MPI.COMM_WORLD."
  },
  {
   "property": "C54",
   "status": "partial",
   "theorems": [
    "C54_methods",
    "C54_constructor",
    "C54_to_dist",
    "C54_round_trip",
    "C54_elementwise",
    "C54_norm_axis",
    "C54_norm_whole",
    "C54_norm_last_refuted",
    "C54_range_refuted"
   ],
   "note": "proved for construction and every method (whatever the non-negative axis gives, the negative one gives); REFUTED for norm along an axis called -1, and for the range check: an axis below -ndim is accepted for broadcast arrays and raises only inside the split for scattered ones"
  },
  {
   "property": "C55",
   "status": "partial",
   "theorems": [
    "C55_plot_distributed",
    "C55_plot_broadcast",
    "C55_unsafe_refuted",
    "C55_plot_local"
   ],
   "note": "proved for SCATTER and BROADCAST; REFUTED for UNSAFE_BROADCAST, which is not refused. The drawing by Matplotlib is not modelled"
  },
  {
   "property": "C56",
   "status": "proved",
   "theorems": [
    "C56_blockdiag",
    "C56_vstack",
    "C56_hstack",
    "C56_ranks_blockdiag",
    "C56_ranks_vstack",
    "C56_ranks_hstack",
    "C56_minimiser"
   ],
   "note": "every rank has at least one operator; data and model are split like the operator's rows and columns (or default when that is the same)"
  },
  {
   "property": "C57",
   "status": "proved",
   "theorems": [
    "C57_normal_equations",
    "C57_regularised",
    "C57_ranks_normal",
    "C57_ranks_regularised",
    "C57_regularised_minimiser",
    "C57_normal_system"
   ],
   "note": "the model is split by rows and the operators of a rank act on its rows; enough rows per rank for the stencils; the zero part of the data is split like the model"
  },
  {
   "property": "C58",
   "status": "proved",
   "theorems": [
    "C58_mdd",
    "C58_ranks",
    "C58_recovers"
   ],
   "note": "real model, start and damping; at least two frequencies per rank and more than one source and receiver (the squeeze findings of C32 and C34 otherwise); pylops' real FFT is taken as a matrix on real vectors with adjoint the real part of R^H u"
  },
  {
   "property": "C59",
   "status": "partial",
   "theorems": [
    "C59_dtype",
    "C59_exact",
    "C59_sound",
    "C59_reductions",
    "C59_refuted"
   ],
   "note": "Exact values for every dtype combination (C59_dtype), right exactly when the dtype of the left operand can hold the result (C59_exact), in particular when it is at least the dtype of the other (C59_sound). REFUTED otherwise: the result is stored in the dtype of the left operand and the imaginary parts are dropped (C59_refuted)."
  },
  {
   "property": "C60",
   "status": "partial",
   "theorems": [
    "C60_complex",
    "C60_real",
    "C60_single",
    "C60_sum",
    "C60_product",
    "C60_power",
    "C60_op_dtype",
    "C60_blockdiag",
    "C60_vstack_adjoint",
    "C60_complex_scalar_refuted",
    "C60_sum_refuted",
    "C60_power_refuted",
    "C60_blockdiag_refuted",
    "C60_vstack_refuted"
   ],
   "note": "Proved for every expression over complex operators (without powers of real arrays) and for every expression over real operators, real scalars and real arrays. REFUTED for mixed dtypes: exact outcomes for single operators, sums, products, powers, block diagonals and the adjoint of vertical stacks with dtypes that may differ per rank, each with a concrete wrong case."
  },
  {
   "property": "C61",
   "status": "partial",
   "theorems": [
    "C61_cg_complex",
    "C61_cg_real",
    "C61_cg_real_data",
    "C61_cg_solution",
    "C61_cg_complex_data",
    "C61_cgls_complex",
    "C61_cgls_real_operator",
    "C61_cgls_real",
    "C61_blockdiag_cgls",
    "C61_cg_complex_operator",
    "C61_cgls_complex_operator",
    "C61_cgls_limit",
    "C61_cgls_real_data_refuted",
    "C61_refuted"
   ],
   "note": "Proved when operator, data and start are all complex, or all real. REFUTED otherwise: a real start with complex data and operator returns the real part of the iterate although the residual reported is that of the full one (C61_cg_complex, C61_cg_solution, C61_cgls_complex, C61_refuted); real data with a complex Hermitian operator solve the system of the real part (C61_cg_real_data); a real operator ignores the imaginary parts (C61_cg_complex_data, C61_cgls_real_operator); a complex operator with real data or a damped real start solves the equations of the cast problem (C61_cg_complex_operator, C61_cgls_complex_operator, C61_cgls_limit), with a problem on which cgls passes the solution and moves away from it (C61_cgls_real_data_refuted). The outcome is stated for every combination of dtypes; what is partial is only that the property as written fails for some of them."
  },
  {
   "property": "C62",
   "status": "partial",
   "theorems": [
    "C62_arrays",
    "C62_stacks",
    "C62_data",
    "C62_data_stacked",
    "C62_start_cgls",
    "C62_start_stacked",
    "C62_start_cg",
    "C62_start_cg_stacked",
    "C62_blockdiag",
    "C62_refuted",
    "C62_stacked_refuted",
    "C62_start_cg_stacked_refuted"
   ],
   "note": "REFUTED, with the exact outcome on every rank: ranks where the two layouts differ raise ValueError, ranks where they agree wait for ever; for x + y, x - y, x * y of arrays and (also in place) of stacked arrays, where the first component that clashes on some rank decides; for the data of cg and cgls, for the starting guess of cgls and (as soon as a step is due) of cg, single or stacked, any operator; specialised to MPIBlockDiag with default-split data or start and to an MPIStackedVStack and an MPIStackedBlockDiag of two of them. When all ranks differ, or two stacks have another number or other sizes of components, all raise (same theorems). Missing: cg starts with masked data."
  },
  {
   "property": "C63",
   "status": "partial",
   "theorems": [
    "C63_dtype",
    "C63_exact",
    "C63_sound",
    "C63_refuted",
    "C63_blockdiag",
    "C63_cg",
    "C63_cg_int_start",
    "C63_cg_int_data",
    "C63_cg_real_data",
    "C63_cg_solution",
    "C63_cgls",
    "C63_cgls_int_start",
    "C63_cgls_int_data",
    "C63_cg_refuted",
    "C63_cgls_refuted"
   ],
   "note": "Arithmetic: the result is the exact one stored in the dtype of the left operand, equal to it iff that dtype can hold it; proved exact when the other operand is not wider. REFUTED otherwise (integer array times 1/2 is zero). Solvers with single operators, any dtypes: exact outcome as the recursion with every stored array changed to its dtype; REFUTED for integer data (cg returns its start with a reported residual of zero) and for an integer start. Precision and overflow not modelled."
  },
  {
   "property": "C64",
   "status": "partial",
   "theorems": [
    "C64_fredholm_matvec",
    "C64_fredholm_rmatvec",
    "C64_fredholm_real",
    "C64_fredholm_default_refuted",
    "C64_mdc_matvec",
    "C64_mdc_rmatvec",
    "C64_mdc_complex",
    "C64_mdc_complex_adj",
    "C64_mdc_real_kernel_refuted",
    "C64_mdc_refuted"
   ],
   "note": "Fredholm1: exact outcome for every dtype, equal to the product iff the operator's dtype can hold it; REFUTED for the default dtype with a complex kernel (an imaginary kernel sends every real array to zero). MDC: proved for complex kernels; for a kernel of real dtype the exact outcome (the spectrum loses its imaginary part before the kernel is applied) and a REFUTATION with the real FFT of 8 samples. Shapes and layouts as in C32 and C34."
  },
  {
   "property": "C65",
   "status": "proved",
   "theorems": [
    "C65_cg_runs",
    "C65_cgls_runs",
    "C65_cg_acts",
    "C65_cgls_acts",
    "C65_cg_steps",
    "C65_cgls_steps",
    "C65_cg_no_niter",
    "C65_cgls_no_niter"
   ],
   "note": "runs in pieces: equivalence of all executions without hypotheses on operator or arrays (log off); steps and runs in any order: exact outcome for unmasked vectors"
  },
  {
   "property": "C66",
   "status": "proved",
   "theorems": [
    "C66_solvers"
   ],
   "note": "any number of CG and CGLS objects, calls interleaved in any order; unmasked vectors, log off, the same calls on every rank"
  },
  {
   "property": "C67",
   "status": "proved",
   "theorems": [
    "C67_only_messages",
    "C67_collectives",
    "C67_ends",
    "C67_cg",
    "C67_cgls"
   ],
   "note": "programs that end on every rank; where a rank waits for ever the outcome may differ (C67_waiting)"
  },
  {
   "property": "C68",
   "status": "partial",
   "theorems": [
    "C68_cg_groups",
    "C68_cgls_groups",
    "C68_self_cg",
    "C68_self_cgls",
    "C68_self_vstack_cgls",
    "C68_self_blockdiag_cg",
    "C68_broadcast_refuted"
   ],
   "note": "REFUTED for Partition.BROADCAST (dot adds up a part of the entries only; cg then reports cost 0 at a wrong answer). Proved for unmasked Partition.SCATTER arrays and stacks of them with the log off: C68_cg_groups and C68_cgls_groups for any communicators and any operators that act on them as on a world of that size, C68_self_* for all expressions of MPILinearOperators with base_comm=MPI.COMM_SELF and for MPIStackedVStack (cgls) and MPIStackedBlockDiag (cg) of them. Missing: masked arrays, show=True. The library's other operators do not work on such communicators (C53)."
  },
  {
   "property": "C69",
   "status": "partial",
   "theorems": [
    "C69_laplacian_init_refuted",
    "C69_laplacian_refuted",
    "C69_gradient_refuted",
    "C69_world"
   ],
   "note": "REFUTED: base_comm reaches local_split only; the block-diagonal parts are built on MPI.COMM_WORLD and add up the sizes of all communicators. With more than one communicator a gradient of two or more dimensions and a Laplacian with the first and another axis raise ValueError in the constructor on every rank; a Laplacian without the first axis is built with the wrong shape and raises ValueError when applied to any array of the right size. With base_comm = MPI.COMM_WORLD the operators are those of Laplacian.v (C30, C31). Not covered: a Laplacian along the first axis only (the MPISecondDerivative on MPI.COMM_WORLD, cf. C53_derivative_refuted)."
  },
  {
   "property": "C70",
   "status": "partial",
   "theorems": [
    "C70_mdc_refuted"
   ],
   "note": "REFUTED: only MPIFredholm1 gets base_comm; the FFT and Identity operators live on MPI.COMM_WORLD and broadcast from world rank 0, so every rank receives the result of the communicator of world rank 0 (exact outcome proved, forward and adjoint, for Partition.BROADCAST arrays; the communicator of rank 0 gets its own convolution). C70_executed / C70_alone show rank 1 with the other communicator's numbers. Not covered: kernels whose communicators have different sizes ns, nr, nt, nv; UNSAFE_BROADCAST arrays."
  },
  {
   "property": "C71",
   "status": "partial",
   "theorems": [
    "C71_disagree_refuted",
    "C71_iff",
    "C71_edges_refuted",
    "C71_cut_refuted",
    "C71_stale_refuted",
    "C15_ghost_cells"
   ],
   "note": "Refuted for every pattern in which two ranks disagree: no execution ends with every rank returned and no message left over (C71_disagree_refuted, by counting the messages between neighbours). Exact (C71_iff): where the neighbours own enough cells the call succeeds on every schedule iff the ranks agree on which arguments are None. Two families in detail: None on the outermost ranks makes every rank wait for ever, for all rank counts, arrays and schedules; None for opposite sides on two ranks returns arrays without ghost cells and leaves messages behind (buffered sends) or waits for ever (synchronous sends), and a later correct call receives the message left behind. With 0 in the place of None it is C15_ghost_cells."
  },
  {
   "property": "C72",
   "status": "partial",
   "theorems": [
    "C72_dtype",
    "C72_exact",
    "C72_sound",
    "C72_dot",
    "C72_norm",
    "C72_refuted"
   ],
   "note": "REFUTED: component by component the result has the dtype of the left operand and imaginary parts are dropped without an error, so x + y and y + x differ. Exact outcome of every operation for all stacks and dtypes (C72_dtype), exact iff every component of the result fits its left dtype (C72_exact), in particular when each right component is real or its left partner complex (C72_sound); dot and the norms are those of the values (C72_dot, C72_norm)."
  },
  {
   "property": "C73",
   "status": "partial",
   "theorems": [
    "C73_blockdiag",
    "C73_vstack",
    "C73_vstack_adjoint",
    "C73_adjoint_exact",
    "C73_adjoint_sound",
    "C73_adjoint_refuted"
   ],
   "note": "MPIStackedBlockDiag (both directions) and MPIStackedVStack forward: exactly what each operator returns alone, TypeError on all ranks if one of them raises it. REFUTED for the adjoint of MPIStackedVStack: the sum is stored in the dtype of the first product (C73_vstack_adjoint, all stacks and expressions), exact iff that dtype can hold the sum (C73_adjoint_exact), lost imaginary part for [real, complex] but not for [complex, real] (C73_adjoint_refuted). Expressions over stacked operators with complex dtypes throughout: C74, with real ones: C75 (solvers: C76). Missing: those with mixed dtypes."
  },
  {
   "property": "C74",
   "status": "partial",
   "theorems": [
    "C74_operator",
    "C74_cg",
    "C74_cgls",
    "C74_values",
    "C74_cg_textbook",
    "C74_cgls_textbook",
    "C74_scalar_refuted"
   ],
   "note": "First sentence proved: for any operators (distributed or stacked, expressions included) and arrays with complex dtypes, on any ranks, the outcome is that of the model without dtypes, errors included (C74_operator, C74_cg, C74_cgls), hence matrix products (C74_values) and the textbook recursions (C74_cg_textbook, C74_cgls_textbook). The last sentence is REFUTED (C74_scalar_refuted): the imaginary part is dropped silently. The solvers run on array values here, not on shared objects as in C41-C43."
  },
  {
   "property": "C75",
   "status": "proved",
   "theorems": [
    "C75_exact",
    "C75_matrix",
    "C75_scalar",
    "real_runs"
   ],
   "note": "Every expression over stacked operators (the class of layouts is that of C35), in both directions and all executions; the values are those of exact arithmetic and the block matrix is that of C35. C75_scalar: an arbitrary scalar in front of a real expression (C74_scalar_refuted is the case where the imaginary part is lost). Mixed dtypes inside an expression are not covered."
  },
  {
   "property": "C76",
   "status": "proved",
   "theorems": [
    "C76_cg",
    "C76_cg_zero",
    "C76_cgls",
    "C76_cgls_zero",
    "C76_real",
    "C76_cgls_real",
    "C76_dtype"
   ],
   "note": "Both solvers, all operators with real dtypes and entries (rop_is: a distributed operator as in C60, or an expression over stacked operators as in C75), all executions. K is the first iteration at which the code's stopping test fires; tol is not negative in C76_cg and C76_cgls, C76_cg_zero and C76_cgls_zero are the other case. As elsewhere unmasked layouts and exact arithmetic; the norm of a stack needs the root of a square sum (normable). C76_dtype: complex dtypes for the same real problem change no entry, cost or iteration count of cg."
  }
 ]
}
