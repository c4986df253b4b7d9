{
 "claims": [
  {
   "property": "C01",
   "status": "proved",
   "theorems": [
    "C01_dense",
    "C01_dense_returns"
   ],
   "note": "exact arithmetic; approximate comparison of low-rank sums allowed to be inexact"
  },
  {
   "property": "C02",
   "status": "proved",
   "theorems": [
    "C02_shapes",
    "C02_shapes_dense"
   ],
   "note": ""
  },
  {
   "property": "C03",
   "status": "proved",
   "theorems": [
    "C03_add",
    "C03_add_dense",
    "C03_add_returns"
   ],
   "note": "under the side conditions add_side"
  },
  {
   "property": "C04",
   "status": "proved",
   "theorems": [
    "C04_multiply",
    "C04_multiply_dense",
    "C04_multiply_returns"
   ],
   "note": "under mul_side"
  },
  {
   "property": "C05",
   "status": "proved",
   "theorems": [
    "C05_matmul",
    "C05_matmul_dense",
    "C05_matmul_returns"
   ],
   "note": "under mm_side"
  },
  {
   "property": "C06",
   "status": "proved",
   "theorems": [
    "C06_matmul3",
    "C06_associative"
   ],
   "note": "under num3 side conditions"
  },
  {
   "property": "C07",
   "status": "proved",
   "theorems": [
    "C07_transpose",
    "C07_involutive"
   ],
   "note": ""
  },
  {
   "property": "C08",
   "status": "proved",
   "theorems": [
    "C08_negative",
    "C08_subtract"
   ],
   "note": "negative keeps type, shape, batch; subtract for all pairs meeting the side condition of add (add_side)."
  },
  {
   "property": "C09",
   "status": "proved",
   "theorems": [
    "C09_sum",
    "C09_sum_all"
   ],
   "note": "any valid axis (positive or negative number, matrix or batch axis) of every well-formed matrix, and axis=None."
  },
  {
   "property": "C10",
   "status": "proved",
   "theorems": [
    "C10_diag",
    "C10_trace"
   ],
   "note": "side condition dgok: right factors of Kronecker products are square; without it the code is wrong (C42)."
  },
  {
   "property": "C11",
   "status": "proved",
   "theorems": [
    "C11_add_class",
    "C11_multiply_class",
    "C11_matmul_class",
    "C11_add",
    "C11_multiply",
    "C11_matmul",
    "C11_matmul_triangular",
    "C11_promises",
    "C11_promises_multiply",
    "C11_promises_matmul",
    "C11_matmul_mixed"
   ],
   "note": "Class tables for all pairs of classes, for every input for which the call returns, and with C03-C05 together with the value."
  },
  {
   "property": "C12",
   "status": "proved",
   "theorems": [
    "C12_add",
    "C12_multiply",
    "C12_matmul",
    "C12_unary",
    "C12_take",
    "C12_submatrix"
   ],
   "note": "every result declared triangular by add/multiply/matmul/unary/take/submatrix is triangular"
  },
  {
   "property": "C13",
   "status": "proved",
   "theorems": [
    "C13_add_total",
    "C13_multiply_total",
    "C13_matmul_total",
    "C13_matmul_missing",
    "C13_kron_total",
    "C13_divide_total",
    "C13_matmul_diag_total",
    "C13_solve_total",
    "C13_subtract_total",
    "C13_ratio_total",
    "C13_iqf_total",
    "C13_cholesky_solve",
    "C13_triangular_solve",
    "C13_choice",
    "C13_no_choice"
   ],
   "note": "plum's resolution rule is modelled in Dispatch.v; C13_choice and C13_no_choice characterise it for every table"
  },
  {
   "property": "C14",
   "status": "proved",
   "theorems": [
    "C14_unstructured_silent",
    "C14_add_warns",
    "C14_multiply_warns",
    "C14_matmul_warns",
    "C14_lt_ut_silent"
   ],
   "note": ""
  },
  {
   "property": "C15",
   "status": "proved",
   "theorems": [
    "C15_expand_and_broadcast",
    "C15_raises",
    "C15_total",
    "C15_commutative",
    "C15_associative",
    "C15_idempotent",
    "C15_variadic",
    "C15_compatible",
    "C15_assert_compatible",
    "C15_broadcast_equal_rank",
    "C15_reversed_model"
   ],
   "note": ""
  },
  {
   "property": "C16",
   "status": "proved",
   "theorems": [
    "C16_broadcast_batch",
    "C16_broadcast_to",
    "C16_broadcast_to_refuted"
   ],
   "note": "The last theorem records that Zero/Constant do not reject incompatible shapes."
  },
  {
   "property": "C17",
   "status": "proved",
   "theorems": [
    "C17_lowrank",
    "C17_lowrank_defaults",
    "C17_lowrank_rank",
    "C17_low_rank_data",
    "C17_constant",
    "C17_woodbury"
   ],
   "note": ""
  },
  {
   "property": "C18",
   "status": "proved",
   "theorems": [
    "C18_align_valid",
    "C18_align_complete",
    "C18_align_self"
   ],
   "note": "close columns as in align.py:28-29 (first batch element); the loop bound is the model's cut-off, which never triggers; operands without a Woodbury matrix nested in factors (nw1)"
  },
  {
   "property": "C19",
   "status": "proved",
   "theorems": [
    "C19_add_lowrank",
    "C19_shared_columns",
    "C19_sum_form",
    "C19_sum_exact"
   ],
   "note": "C19_add_lowrank and C19_shared_columns: unless an approximate comparison identified different columns (Api.v: answers). C19_sum_form is unconditional (factors without nested Woodbury matrices): it determines the result also if approximately equal columns are merged or the middle factor is below the threshold; C19_sum_exact: if close columns are equal, the joined factors are the exact sum."
  },
  {
   "property": "C20",
   "status": "proved",
   "theorems": [
    "C20_scalar",
    "C20_scalar_sub_div",
    "C20_numeric"
   ],
   "note": "scalars for every matrix including 0; numeric arrays of rank at least 2 behave as Dense (equal results, for each recursion depth)."
  },
  {
   "property": "C21",
   "status": "proved",
   "theorems": [
    "C21_abs",
    "C21_power",
    "C21_sqrt",
    "C21_class",
    "C21_divide"
   ],
   "note": "power: natural exponents > 0; sqrt is faithful for nonnegative entries; division by zero is 0 in the model (see DESIGN.md)."
  },
  {
   "property": "C22",
   "status": "proved",
   "theorems": [
    "C22_take",
    "C22_submatrix",
    "C22_submatrix_class",
    "C22_mask"
   ],
   "note": "take along any axis and submatrix return the entries the index/mask selects, for every well-formed matrix; side conditions tk_side/sub_side exclude only the cases where the code is wrong (duplicate indices for Diagonal/Woodbury, unsorted for triangular, low-rank factors whose own axis count differs)"
  },
  {
   "property": "C23",
   "status": "proved",
   "theorems": [
    "C23_kron",
    "C23_kron_zero_refuted",
    "C23_tile",
    "C23_mean",
    "C23_mean_all",
    "C23_concat",
    "C23_reshape",
    "C23_squeeze"
   ],
   "note": "kron of two Zero matrices never returns (proved); kron of two numerics needs equal batch shapes (NumPy)."
  },
  {
   "property": "C24",
   "status": "proved",
   "theorems": [
    "C24_block",
    "C24_block_class",
    "C24_block_diag",
    "C24_block_diag_class",
    "C24_block_diag_single",
    "C24_block_diag_numeric_refuted",
    "C24_block_diag_array"
   ],
   "note": "block and block_diag return the assembled matrix for all grids and lists of at least two blocks; a single numeric array makes block_diag raise or silently assemble the batch (refuted)."
  },
  {
   "property": "C25",
   "status": "proved",
   "theorems": [
    "C25_inv",
    "C25_pd_inv",
    "C25_inv_product",
    "C25_inv_unsupported",
    "C25_inv_singular"
   ],
   "note": "inverse on both sides, shape and class kept, for invertible dense, diagonal, Kronecker and Woodbury objects (Woodbury whose Schur complement is dense or diagonal, the other classes having no inv method)"
  },
  {
   "property": "C26",
   "status": "proved",
   "theorems": [
    "C26_schur",
    "C26_pd_schur",
    "C26_agree",
    "C26_only_woodbury"
   ],
   "note": "value of both complements and their equality; the cache itself is C33"
  },
  {
   "property": "C27",
   "status": "proved",
   "theorems": [
    "C27_cholesky",
    "C27_cholesky_exact",
    "C27_cholesky_pd",
    "C27_cholesky_triangular",
    "C27_lowrank_ignores_right",
    "C27_lowrank_refuted"
   ],
   "note": "C C^T = M for all listed classes; low-rank matrices need equal factors (refuted otherwise)"
  },
  {
   "property": "C28",
   "status": "proved",
   "theorems": [
    "C28_solve",
    "C28_solve_entries",
    "C28_solve_exact",
    "C28_triangular_solve",
    "C28_cholesky_solve",
    "C28_solve_zero_unchecked",
    "C28_solve_zero_refuted",
    "C28_triangular_solve_arrays"
   ],
   "note": "a Zero right-hand side is returned as it is (refuted without the batch condition)"
  },
  {
   "property": "C29",
   "status": "proved",
   "theorems": [
    "C29_logdet",
    "C29_logdet_pd",
    "C29_det_gt0",
    "C29_logdet_exact",
    "C29_logdet_zero_refuted",
    "C29_logdet_const_refuted"
   ],
   "note": "log det for every function with the functional equation of the logarithm; Zero and Constant recurse forever (refuted)"
  },
  {
   "property": "C30",
   "status": "proved",
   "theorems": [
    "C30_iqf",
    "C30_iqf2",
    "C30_iqf_exact",
    "C30_iqf_diag",
    "C30_iqf_diag2",
    "C30_iqf_diag_agrees",
    "C30_ratio"
   ],
   "note": "All positive-definite a (including Woodbury, Kronecker), all fitting b, c; side conditions stated as iqf_fits, zero_fits (a Zero argument is returned without broadcasting, C28), tri_fits (rectangular LT x UT products, C07), ratio_fits."
  },
  {
   "property": "C31",
   "status": "proved",
   "theorems": [
    "C31_root",
    "C31_root_unique",
    "C31_root_triangular",
    "C31_root_exact"
   ],
   "note": "The backend's SVD is a parameter assumed to be a correct decomposition of the matrices it is called on; the result is the unique positive-semidefinite root."
  },
  {
   "property": "C32",
   "status": "proved",
   "theorems": [
    "C32_sample",
    "C32_sample_woodbury",
    "C32_sample_exact"
   ],
   "note": "The noise generator is an arbitrary state transformer which returns arrays of the requested shape."
  },
  {
   "property": "C33",
   "status": "proved",
   "theorems": [
    "C33_core",
    "C33_derived",
    "C33_cholesky",
    "C33_root",
    "C33_sample",
    "C33_schur",
    "C33_pd_schur",
    "C33_inv",
    "C33_pd_inv",
    "C33_solve",
    "C33_cholesky_solve",
    "C33_logdet",
    "C33_iqf",
    "C33_iqf_diag",
    "C33_ratio",
    "C33_shared_slot_refuted"
   ],
   "note": "Caches are an oracle justified by an inductive predicate of histories; agreement in both directions at all recursion limits, up to warnings. Objects are identified by contents. The shared slot of schur and pd_schur is refuted."
  },
  {
   "property": "C34",
   "status": "proved",
   "theorems": [
    "C34_shape",
    "C34_dense",
    "C34_transpose",
    "C34_cast",
    "C34_concat",
    "C34_concat_dense",
    "C34_block_diag",
    "C34_constructor",
    "C34_shape_refuted",
    "C34_dense_object_refuted"
   ],
   "note": "Positive repetitions, nonempty axes; blocks are not themselves TiledBlocks."
  },
  {
   "property": "C35",
   "status": "proved",
   "theorems": [
    "C35_terminates",
    "C35_terminates_wf"
   ],
   "note": "for every list of operands meeting the constructor guarantees"
  },
  {
   "property": "C36",
   "status": "proved",
   "theorems": [
    "C36_matmul_diag",
    "C36_matmul_diag_kfree"
   ],
   "note": "square products."
  },
  {
   "property": "C37",
   "status": "proved",
   "theorems": [
    "C37_cast",
    "C37_dtype",
    "C37_promote_join"
   ],
   "note": "cast: type, value kept, all stored arrays cast; the data type of a matrix is the least one above all stored arrays."
  },
  {
   "property": "C38",
   "status": "proved",
   "theorems": [
    "C38_add",
    "C38_add_raises",
    "C38_multiply",
    "C38_multiply_raises",
    "C38_matmul",
    "C38_matmul_raises",
    "C38_triangular_constant_unchecked",
    "C38_upper_lower_unchecked",
    "C38_kronecker_batch_unchecked"
   ],
   "note": "All pairs of types, unbounded shapes and nesting. The versions with suffix _raises are unconditional; the others allow, for sums inside Woodbury matrices, the case that an approximate comparison of the call was inexact. The _unchecked theorems show that the exceptions (mul_unchecked) are necessary."
  },
  {
   "property": "C39",
   "status": "proved",
   "theorems": [
    "C39_expression",
    "C39_expression_dense"
   ],
   "note": "by induction on the expression; shape-correct expressions (fits) with the restriction safe on products (Kronecker factors, rectangular triangular products), which the code forces"
  },
  {
   "property": "C40",
   "status": "proved",
   "theorems": [
    "C40_zeros",
    "C40_ones",
    "C40_eye",
    "C40_fill_diag",
    "C40_uprank"
   ],
   "note": ""
  },
  {
   "property": "C41",
   "status": "proved",
   "theorems": [
    "C41_add_comm",
    "C41_add_assoc",
    "C41_mul_comm",
    "C41_mul_assoc",
    "C41_mul_add",
    "C41_mm_assoc",
    "C41_mm_add",
    "C41_add_mm",
    "C41_mm_transpose",
    "C41_transpose",
    "C41_transpose_add",
    "C41_sub",
    "C41_sub_self",
    "C41_scale_add"
   ],
   "note": "laws between arbitrary (sub)expressions over all matrix types"
  },
  {
   "property": "C42",
   "status": "proved",
   "theorems": [
    "C42_add_diag",
    "C42_add_lower",
    "C42_add_lowrank_diag",
    "C42_multiply_diag",
    "C42_multiply_lower",
    "C42_multiply_constant",
    "C42_multiply_upper_lower",
    "C42_diag_kronecker",
    "C42_matmul_diag",
    "C42_submatrix_diag",
    "C42_submatrix_lower",
    "C42_take_unchecked",
    "C42_take_batched_numeric",
    "C42_power_zero",
    "C42_zero_dtype",
    "C42_matmul_kronecker",
    "C42_multiply_kronecker",
    "C42_matmul_lowrank_batch",
    "C42_woodbury_constructor",
    "C42_add_lowrank_batch",
    "C42_add_lowrank_small",
    "C16_broadcast_to_refuted",
    "C23_kron_zero_refuted",
    "C24_block_diag_numeric_refuted",
    "C27_lowrank_refuted",
    "C28_solve_zero_refuted",
    "C29_logdet_zero_refuted",
    "C29_logdet_const_refuted",
    "C33_shared_slot_refuted",
    "C34_shape_refuted",
    "C34_dense_object_refuted",
    "C38_triangular_constant_unchecked",
    "C38_upper_lower_unchecked",
    "C38_kronecker_batch_unchecked",
    "C42_matmul_triangular",
    "C42_iqf_diag"
   ],
   "note": "One witness theorem per listed case; C42_multiply_constant is general. The _refuted/_unchecked theorems of other properties are listed too."
  },
  {
   "property": "C43",
   "status": "proved",
   "theorems": [
    "C43_operators",
    "C43_number_left",
    "C43_methods",
    "C43_flatten",
    "C43_power"
   ],
   "note": "a NumPy array as the left operand of an operator (NumPy decides first) is not modelled"
  },
  {
   "property": "C44",
   "status": "proved",
   "theorems": [
    "C44_getitem",
    "C44_getitem_warns",
    "C44_isnan",
    "C44_to_numpy",
    "C44_isabstract"
   ],
   "note": "index functions are any functions on arrays that depend on shape and entries only"
  },
  {
   "property": "C45",
   "status": "proved",
   "theorems": [
    "C45_record",
    "C45_record_replay",
    "C45_replay_same",
    "C45_replay_exact",
    "C45_replay_zero",
    "C45_replay_zero_wrong"
   ],
   "note": "exact replay is subject to the stated condition on the record; C45_replay_zero_wrong shows what happens otherwise"
  },
  {
   "property": "C46",
   "status": "proved",
   "theorems": [
    "C46_elementwise",
    "C46_broadcast_to",
    "C46_transpose",
    "C46_transpose_low",
    "C46_matmul_nn",
    "C46_matmul",
    "C46_sum_axis",
    "C46_sum_all",
    "C46_take",
    "C46_take_mask",
    "C46_concat",
    "C46_reshape",
    "C46_reshape_unknown",
    "C46_squeeze",
    "C46_stack",
    "C46_unstack",
    "C46_tile",
    "C46_kron",
    "C46_diag_construct",
    "C46_diag_extract",
    "C46_constants",
    "C46_uprank",
    "C46_inv",
    "C46_inv_raises",
    "C46_cholesky",
    "C46_solve",
    "C46_trisolve"
   ],
   "note": "textbook specification in NumPy order of the array layer that the other theorems refer to"
  },
  {
   "property": "C47",
   "status": "proved",
   "theorems": [
    "C47_core",
    "C47_core1",
    "C47_more",
    "C47_blocks",
    "C47_same",
    "C47_not_wider",
    "C47_not_narrower",
    "C47_inv_solve",
    "C47_cholesky",
    "C47_posdef",
    "C47_ratio",
    "C47_cholesky_solve",
    "C47_sample",
    "C47_cholesky_constant"
   ],
   "note": "Any set of data types closed under promotion. Factorisations: either float64 is in the set, or the factors are plain and no Constant is factorised (its factor is float64: C47_cholesky_constant)."
  },
  {
   "property": "C48",
   "status": "proved",
   "theorems": [
    "C48_add",
    "C48_multiply",
    "C48_matmul",
    "C48_subtract",
    "C48_add_warning",
    "C48_add_lowrank",
    "C48_dense_operand_add",
    "C48_dense_operand_matmul",
    "C48_multiply_warning",
    "C48_matmul_warning",
    "C48_matmul_lowrank_silent",
    "C48_reads_silent",
    "C48_structural_silent",
    "C48_reshape",
    "C48_squeeze",
    "C48_tile",
    "C48_elementwise",
    "C48_concat",
    "C48_take",
    "C48_submatrix",
    "C48_sum_batch",
    "C48_sum_silent",
    "C48_divide",
    "C48_kron",
    "C48_block",
    "C48_block_diag",
    "C48_cholesky",
    "C48_root",
    "C48_inv",
    "C48_schur",
    "C48_solve",
    "C48_solve_silent",
    "C48_triangular_solve",
    "C48_pd_inv",
    "C48_logdet",
    "C48_iqf",
    "C48_getitem",
    "C48_isnan",
    "C48_matmul_diag",
    "C48_iqf_diag",
    "C48_ratio_woodbury",
    "C48_ratio_dense",
    "C48_sample",
    "C48_diag_lowrank",
    "C48_multiply_lowrank",
    "C48_take_batch"
   ],
   "note": "Operands with plain factors and plain, diagonal or triangular middle factors; nonzero constants for multiply and divide. Tables of possible results with their warnings."
  },
  {
   "property": "C49",
   "status": "proved",
   "theorems": [
    "C49_str",
    "C49_str_line",
    "C49_str_injective",
    "C49_repr",
    "C49_repr_begins",
    "C49_repr_lines",
    "C49_tiled_str",
    "C49_tiled_str_injective",
    "C49_tiled_repr",
    "C49_numerals",
    "C49_integers"
   ],
   "note": "the texts of the arrays (wbml) and whether the middle and right factor were given are parameters; Python's own types int and float are identified with NumPy's"
  },
  {
   "property": "C50",
   "status": "proved",
   "theorems": [
    "C50_core",
    "C50_core_ends",
    "C50_structural",
    "C50_woodbury",
    "C50_arithmetic",
    "C50_operators",
    "C50_arrays",
    "C50_linalg",
    "C50_sample",
    "C50_cholesky",
    "C50_root",
    "C50_inv",
    "C50_solve"
   ],
   "note": "For all operands of the model, also malformed ones, and every recursion limit. TypeError of Python itself (calls with the wrong number of arguments, iteration over scalars) and of the backend are outside the model."
  },
  {
   "property": "C51",
   "status": "proved",
   "theorems": [
    "C51_program",
    "C51_program_dense",
    "C51_triangular",
    "C51_take_add",
    "C51_submatrix",
    "C51_take_mm",
    "C51_kron_transpose",
    "C51_kron_add",
    "C51_block_transpose",
    "C51_block_add",
    "C51_block_mm",
    "C51_diags_block"
   ],
   "note": "PropsExpr2.v; induction over programs (AST of calls). The side conditions (no Kronecker product as an operand of *, no Kronecker product on both sides of @, take over matrix axes only when batched, ...) are those under which the code raises no exception; see C50."
  }
 ]
}