{
 "claims": [
  {
   "property": "C01",
   "status": "partial",
   "theorems": [
    "C01_vector_slice_exact",
    "C01_matrix_slice_exact",
    "C01_accepted_slice_inside",
    "C01_overflow_refuted",
    "C01_resizable_mismatch_refuted",
    "C01_static_slice_exact",
    "C01_static_matrix_slice_exact"
   ],
   "note": "Proved for argument values whose sum does not overflow int and for vectors that are not Resizable; the two remaining cases are refuted: start+length overflows int (C01_overflow_refuted) and a Resizable vector ignores a contradicting run-time argument (C01_resizable_mismatch_refuted)."
  },
  {
   "property": "C02",
   "status": "proved",
   "theorems": [
    "C02_view_chain_inside",
    "C02_view_dimensions"
   ],
   "note": ""
  },
  {
   "property": "C03",
   "status": "proved",
   "theorems": [
    "C03_write_through_view"
   ],
   "note": ""
  },
  {
   "property": "C04",
   "status": "proved",
   "theorems": [
    "C04_transpose_involution",
    "C04_same_element",
    "C04_slice_of_slice",
    "C04_diagonal_row_col"
   ],
   "note": ""
  },
  {
   "property": "C05",
   "status": "proved",
   "theorems": [
    "C05_layout",
    "C05_layout_bijection"
   ],
   "note": ""
  },
  {
   "property": "C06",
   "status": "proved",
   "theorems": [
    "C06_vector_assign",
    "C06_matrix_assign",
    "C06_assign_mismatch_stops",
    "C06_compound_assign",
    "C06_matrix_compound_assign",
    "C06_compound_mismatch_stops"
   ],
   "note": ""
  },
  {
   "property": "C07",
   "status": "partial",
   "theorems": [
    "C07_overlap_partial",
    "C07_win_is_slice",
    "C07_overlap_right_smears",
    "C07_overlap_refuted"
   ],
   "note": "Refuted in general: the element loop copies in ascending order. Exact behaviour proved in both directions (destination not after source: as if copied first; destination after source: periodic smear)."
  },
  {
   "property": "C08",
   "status": "partial",
   "theorems": [
    "C08_transpose_assign_refuted",
    "C08_transpose_assign_partial",
    "C08_compound_transpose",
    "C08_compound_transpose_refuted"
   ],
   "note": "Refuted: M=M.T() mirrors the lower triangle. Exact effect proved; it is the transpose iff M was symmetric. Likewise C08_compound_transpose_refuted: m += m.T() does not give m + m.T()."
  },
  {
   "property": "C09",
   "status": "proved",
   "theorems": [
    "C09_size_mismatch_exact",
    "C09_result_size"
   ],
   "note": ""
  },
  {
   "property": "C10",
   "status": "proved",
   "theorems": [
    "C10_swap_exchanges",
    "C10_swap_twice",
    "C10_swap_mismatch_stops"
   ],
   "note": ""
  },
  {
   "property": "C11",
   "status": "proved",
   "theorems": [
    "C11_value_semantics",
    "C11_all_freed_at_end",
    "C11_size_errors_stop"
   ],
   "note": ""
  },
  {
   "property": "C12",
   "status": "partial",
   "theorems": [
    "C12_moved_from_refuted",
    "C12_moved_from_destroy_partial"
   ],
   "note": "Refuted: the moved-from vector keeps its size and has a null pointer (C12_moved_from_refuted); destroying it is proved safe."
  },
  {
   "property": "C13",
   "status": "partial",
   "theorems": [
    "C13_resize_keeps_prefix",
    "C13_assign_copies_partial",
    "C13_assign_empty_refuted",
    "C13_empty_resizable_refuted",
    "C13_self_assign_debug_refuted",
    "C13_assign_own_slice_refuted"
   ],
   "note": "resize proved in full; assignment proved for a non-empty source that is another vector in a non-debug build; refuted: empty source, self assignment in debug builds, assignment from a slice of itself. C13_empty_resizable_refuted: Vector<Resizable>(0) itself dereferences an empty std::vector (undefined behaviour)."
  },
  {
   "property": "C14",
   "status": "partial",
   "theorems": [
    "C14_resizable_view_size_refuted",
    "C14_resizable_normalize_noop_refuted",
    "C14_view_size_partial"
   ],
   "note": "Refuted for Resizable (size() becomes -0x7fffffff); proved for static and Dynamic."
  },
  {
   "property": "C15",
   "status": "proved",
   "theorems": [
    "C15_bounds_check_vector",
    "C15_bounds_check_matrix"
   ],
   "note": ""
  },
  {
   "property": "C16",
   "status": "partial",
   "theorems": [
    "C16_fill_exact_partial",
    "C16_wrong_count_rejected",
    "C16_single_refuted",
    "C16_resizable_refuted"
   ],
   "note": "Proved for two or more values, and every wrong count is proved to be rejected; refuted for one-element vectors and Resizable vectors."
  },
  {
   "property": "C17",
   "status": "partial",
   "theorems": [
    "C17_fill_exact_partial",
    "C17_wrong_count_rejected",
    "C17_one_column_refuted"
   ],
   "note": "Proved for at least two columns; refuted for one column (never accepted)."
  },
  {
   "property": "C18",
   "status": "partial",
   "theorems": [
    "C18_vector_from_data",
    "C18_makeVector",
    "C18_matrix_from_data_partial",
    "C18_dynamic_matrix_refuted"
   ],
   "note": "Vectors, makeVector and static matrices proved; refuted for matrices with a Dynamic dimension (nothing is stored)."
  },
  {
   "property": "C19",
   "status": "proved",
   "theorems": [
    "C19_vector_roundtrip",
    "C19_matrix_roundtrip"
   ],
   "note": ""
  },
  {
   "property": "C20",
   "status": "proved",
   "theorems": [
    "C20_vector_elementwise",
    "C20_matrix_elementwise",
    "C20_compound_assignment",
    "C20_vector_space_laws",
    "C20_matrix_space_laws",
    "C20_equality",
    "C20_divide_by_zero"
   ],
   "note": ""
  },
  {
   "property": "C21",
   "status": "proved",
   "theorems": [
    "C21_dot_is_sum_of_products",
    "C21_symmetric_bilinear",
    "C21_norm_sq_positive",
    "C21_cauchy_schwarz"
   ],
   "note": ""
  },
  {
   "property": "C22",
   "status": "proved",
   "theorems": [
    "C22_product_entries",
    "C22_associative",
    "C22_distributes",
    "C22_transpose_of_product",
    "C22_identity_neutral",
    "C22_matrix_vector"
   ],
   "note": ""
  },
  {
   "property": "C23",
   "status": "proved",
   "theorems": [
    "C23_diagonal_to_matrix",
    "C23_diagonal_products",
    "C23_diagonal_negation",
    "C23_diagonal_inverse"
   ],
   "note": ""
  },
  {
   "property": "C24",
   "status": "proved",
   "theorems": [
    "C24_cross_product_matrix",
    "C24_cross_product"
   ],
   "note": ""
  },
  {
   "property": "C25",
   "status": "partial",
   "theorems": [
    "C25_represented_number",
    "C25_zeros",
    "C25_ones_vector",
    "C25_ones_matrix",
    "C25_identity",
    "C25_unscaled_subtract_refuted"
   ],
   "note": "All documented values proved for Zeros, Ones and Identity (scaled and unscaled; assignment, +=, -=, a+op, op-a, a-op); missing only: v - Ones and M - Identity with the unscaled operators do not compile (C25_unscaled_subtract_refuted)."
  },
  {
   "property": "C26",
   "status": "partial",
   "theorems": [
    "C26_floating_scale",
    "C26_integer_scale_exact",
    "C26_integer_by_floating_exact",
    "C26_integer_scale_refuted",
    "C26_multiplication"
   ],
   "note": "Proved for a floating held value and for multiplication; with an int held value the exact result a*trunc(1/b) is proved, which refutes the claim ((Ones*4)/2 stands for 0)."
  },
  {
   "property": "C27",
   "status": "partial",
   "theorems": [
    "C27_identity_non_square_refuted",
    "C27_identity_non_square_never_partial"
   ],
   "note": "Refuted: every non-square target stops with the size-mismatch diagnostic."
  },
  {
   "property": "C28",
   "status": "partial",
   "theorems": [
    "C28_same_type_agree",
    "C28_vectors_agree",
    "C28_mixed_type_exact",
    "C28_mixed_type_exact_floating_matrix",
    "C28_mixed_type_refuted"
   ],
   "note": "Proved for vectors and for equal types; exact effect proved for mixed types, which refutes the claim (the scalar is converted to the element type and the elements to the scalar type)."
  },
  {
   "property": "C29",
   "status": "partial",
   "theorems": [
    "C29_nonneg_and_zero",
    "C29_homogeneous",
    "C29_triangle",
    "C29_norm_ordering",
    "C29_unit_and_normalize",
    "C29_norm_inf_empty_refuted"
   ],
   "note": "Proved for all vectors (norm_inf: all non-empty ones); refuted only for norm_inf of an empty vector, which reads element 0 (C29_norm_inf_empty_refuted)."
  },
  {
   "property": "C30",
   "status": "proved",
   "theorems": [
    "C30_norm_inf_is_max_row_sum",
    "C30_norm_1_is_max_col_sum",
    "C30_norm_1_is_norm_inf_of_transpose",
    "C30_norm_inf_compatible",
    "C30_norm_inf_submultiplicative",
    "C30_norm_fro"
   ],
   "note": ""
  },
  {
   "property": "C31",
   "status": "proved",
   "theorems": [
    "C31_unproject_appends_one",
    "C31_project_divides_by_last",
    "C31_project_unproject",
    "C31_project_scale_invariant",
    "C31_project_zero_last",
    "C31_matrix_columns"
   ],
   "note": ""
  },
  {
   "property": "C32",
   "status": "proved",
   "theorems": [
    "C32_trace",
    "C32_symmetrize"
   ],
   "note": ""
  },
  {
   "property": "C33",
   "status": "proved",
   "theorems": [
    "C33_vector_extrema",
    "C33_matrix_extrema",
    "C33_empty"
   ],
   "note": ""
  },
  {
   "property": "C34",
   "status": "partial",
   "theorems": [
    "C34_rowwise",
    "C34_columnwise",
    "C34_empty_dimension_refuted"
   ],
   "note": "Proved for every matrix with a non-empty reduced dimension; refuted for an empty one: the early exit lacks its return and a non-existent element is read."
  },
  {
   "property": "C35",
   "status": "proved",
   "theorems": [
    "C35_isnan_isfinite"
   ],
   "note": ""
  },
  {
   "property": "C36",
   "status": "proved",
   "theorems": [
    "C36_solves",
    "C36_singular",
    "C36_result_is_a_solution"
   ],
   "note": ""
  },
  {
   "property": "C37",
   "status": "proved",
   "theorems": [
    "C37_solves",
    "C37_columns",
    "C37_singular"
   ],
   "note": ""
  },
  {
   "property": "C38",
   "status": "proved",
   "theorems": [
    "C38_reduces",
    "C38_inverts",
    "C38_singular"
   ],
   "note": ""
  },
  {
   "property": "C39",
   "status": "proved",
   "theorems": [
    "C39_determinant",
    "C39_unique",
    "C39_alternating",
    "C39_multiplicative",
    "C39_transpose",
    "C39_singular",
    "C39_not_square"
   ],
   "note": ""
  },
  {
   "property": "C40",
   "status": "proved",
   "theorems": [
    "C40_inverse_2x2",
    "C40_singular"
   ],
   "note": ""
  },
  {
   "property": "C41",
   "status": "proved",
   "theorems": [
    "C41_total",
    "C41_not_square",
    "C41_recompute",
    "C41_factorises",
    "C41_posdef",
    "C41_lower_only",
    "C41_get_L"
   ],
   "note": ""
  },
  {
   "property": "C42",
   "status": "proved",
   "theorems": [
    "C42_solves",
    "C42_matrix",
    "C42_inverse",
    "C42_determinant",
    "C42_mahalanobis",
    "C42_lower_triangle",
    "C42_singular",
    "C42_size_checked"
   ],
   "note": ""
  },
  {
   "property": "C43",
   "status": "partial",
   "theorems": [
    "C43_never_too_large_partial",
    "C43_full_rank_partial",
    "C43_refuted"
   ],
   "note": "Refuted: rank() is the index of the first zero pivot (diag(0,1) has rank 1, rank() is 0). Proved: rank() never exceeds the rank of a symmetric matrix, and for positive semidefinite matrices rank()==n exactly when the matrix is nonsingular."
  },
  {
   "property": "C44",
   "status": "partial",
   "theorems": [
    "C44_total",
    "C44_stationary",
    "C44_minimises",
    "C44_computes",
    "C44_underdetermined",
    "C44_C_inv_before_compute_refuted"
   ],
   "note": "The estimate, its minimality and uniqueness are proved for all histories of all ten kinds of calls; the symmetry of C_inv is proved after compute() and refuted before it (only the upper triangle is filled)."
  },
  {
   "property": "C45",
   "status": "proved",
   "theorems": [
    "C45_permutation",
    "C45_join",
    "C45_rows",
    "C45_clear",
    "C45_compute_midway"
   ],
   "note": ""
  },
  {
   "property": "C46",
   "status": "partial",
   "theorems": [
    "C46_qr_partial",
    "C46_qr_refuted",
    "C46_two_rows"
   ],
   "note": "For every matrix with at least as many columns as rows (documented precondition) QR either returns a correct factorisation or divides by zero; the latter is refuted as acceptable: every upper triangular matrix (the identity included) gives NaN. For two rows these are the only failures. QR_Lapack's pivoting (LAPACK) is not modelled."
  },
  {
   "property": "C47",
   "status": "proved",
   "theorems": [
    "C47_eig2",
    "C47_eigenvectors"
   ],
   "note": "Over the exact reals, for every 2x2 matrix: the result is an ascending orthonormal eigensystem of the symmetric matrix given by the upper triangle."
  },
  {
   "property": "C48",
   "status": "proved",
   "theorems": [
    "C48_determinant",
    "C48_is_posdef",
    "C48_is_negdef",
    "C48_inv_diag",
    "C48_pinv",
    "C48_backsub",
    "C48_backsub_mat",
    "C48_sqrtm",
    "C48_isqrtm",
    "C48_negative"
   ],
   "note": "Every theorem is for all sizes, given any correct ascending decomposition (eigensystem); LAPACK's syev is that hypothesis. Negative eigenvalues: get_sqrtm is NaN, get_isqrtm may silently be zero (C48_negative)."
  },
  {
   "property": "C49",
   "status": "partial",
   "theorems": [
    "C49_svd_inv_diag",
    "C49_svd_pinv",
    "C49_svd_backsub",
    "C49_svd_backsub_mat",
    "C49_gr_extremes",
    "C49_gr_inv_diag",
    "C49_gr_pinv",
    "C49_gr_backsub",
    "C49_reorder",
    "C49_determinant",
    "C49_determinant_refuted"
   ],
   "note": "All sizes, given any decomposition (svd_holds / gr_holds; orthonormality is only asked for non-zero singular values). get_inv_diag, get_pinv (Penrose), backsub (shortest least-squares solution), reorder proved; determinant() is proved to be |det A|, so the documented \"determinant\" is refuted for every matrix with negative determinant (C49_determinant_refuted)."
  },
  {
   "property": "C50",
   "status": "partial",
   "theorems": [
    "C50_what_rank_returns",
    "C50_rank_zero",
    "C50_rank_refuted"
   ],
   "note": "Refuted: rank() counts the discarded singular values plus one (C50_what_rank_returns, for every decomposition); every identity of size > 1 has rank() = 1 (C50_rank_refuted)."
  },
  {
   "property": "C51",
   "status": "partial",
   "theorems": [
    "C51_backsub_vec",
    "C51_singular",
    "C51_size",
    "C51_backsub_static",
    "C51_backsub_dynamic_partial",
    "C51_backsub_dynamic_refuted",
    "C51_determinant",
    "C51_get_lu_refuted"
   ],
   "note": "Vectors, statically sized matrices, singular matrices and determinant are proved; a dynamically sized right-hand side is refuted (row interchanges are never undone) and proved only without interchanges; the documented layout of get_lu is refuted. LAPACK's getrf is a hypothesis here; C91 proves it, and get_inverse, for the reference getrf and getri."
  },
  {
   "property": "C52",
   "status": "proved",
   "theorems": [
    "C52_action",
    "C52_associative",
    "C52_inverse",
    "C52_closed",
    "C52_isometry",
    "C52_adjoint",
    "C52_core_operations"
   ],
   "note": ""
  },
  {
   "property": "C53",
   "status": "partial",
   "theorems": [
    "C53_coerce",
    "C53_keeps_rotations",
    "C53_rejects",
    "C53_idempotent",
    "C53_so2_coerce",
    "C53_so2_reflection_refuted"
   ],
   "note": "Proved for SO3 (all matrices) and for SO2 matrices of positive determinant; refuted for SO2: coerce accepts a reflection and the SO2 is not a rotation."
  },
  {
   "property": "C54",
   "status": "proved",
   "theorems": [
    "C54_takes_a_to_b",
    "C54_degenerate"
   ],
   "note": ""
  },
  {
   "property": "C55",
   "status": "proved",
   "theorems": [
    "C55_rotation_about_axis",
    "C55_small_angles",
    "C55_axis_and_inverse",
    "C55_one_parameter",
    "C55_derivative",
    "C55_generator_field",
    "C55_taylor_branch_inexact"
   ],
   "note": ""
  },
  {
   "property": "C56",
   "status": "proved",
   "theorems": [
    "C56_exp_ln",
    "C56_ln_exp",
    "C56_ln_exp_small_angles"
   ],
   "note": ""
  },
  {
   "property": "C57",
   "status": "proved",
   "theorems": [
    "C57_action",
    "C57_associative",
    "C57_inverse",
    "C57_closed",
    "C57_assignment",
    "C57_rigid",
    "C57_homogeneous",
    "C57_homogeneous_vectors",
    "C57_homogeneous_matrices"
   ],
   "note": ""
  },
  {
   "property": "C58",
   "status": "proved",
   "theorems": [
    "C58_conjugates",
    "C58_multiplicative",
    "C58_inverse_transpose",
    "C58_matrices",
    "C58_matrix_size_checked"
   ],
   "note": ""
  },
  {
   "property": "C59",
   "status": "proved",
   "theorems": [
    "C59_swept",
    "C59_screw",
    "C59_pure_translation",
    "C59_small_angles",
    "C59_one_parameter",
    "C59_inverse",
    "C59_exp_ln",
    "C59_ln_exp",
    "C59_ln_small_angles",
    "C59_derivative",
    "C59_generator_field"
   ],
   "note": ""
  },
  {
   "property": "C60",
   "status": "proved",
   "theorems": [
    "C60_so2_group",
    "C60_so2_exp_ln",
    "C60_so2_generator",
    "C60_se2_group",
    "C60_se2_homogeneous",
    "C60_se2_adjoint",
    "C60_se2_adjoint_matrix",
    "C60_se2_exp_ln",
    "C60_se2_ln_exp",
    "C60_se2_in_se3",
    "C60_se2_one_parameter"
   ],
   "note": ""
  },
  {
   "property": "C61",
   "status": "proved",
   "theorems": [
    "C61_sim3_action",
    "C61_sim3_associative",
    "C61_sim3_inverse",
    "C61_sim3_zero_scale",
    "C61_sim3_assignment",
    "C61_sim3_scales_lengths",
    "C61_sim3_homogeneous",
    "C61_sim3_homogeneous_matrices",
    "C61_sim2_group",
    "C61_sim2_inverse",
    "C61_sim2_homogeneous"
   ],
   "note": ""
  },
  {
   "property": "C62",
   "status": "partial",
   "theorems": [
    "C62_path_unique",
    "C62_sim3_exp",
    "C62_sim3_exp_accuracy",
    "C62_sim3_exp_ln",
    "C62_sim3_ln_total",
    "C62_sim3_ln_exp",
    "C62_ln_needs_positive_scale",
    "C62_sim3_tiny_refuted",
    "C62_sim2_refuted",
    "C62_sim2_partial",
    "C62_generator_field"
   ],
   "note": "Proved for SIM3 for every velocity whose angle is zero or at least 1e-3 and whose log-scale is zero or at least 1e-6 in size. Refuted: for tiny angles and log-scales integer division loses the first-order term; SIM2::exp drops translations and SIM2::ln of the identity divides by zero. The Taylor branches in between are accurate to an explicit bound (C62_sim3_exp_accuracy)."
  },
  {
   "property": "C63",
   "status": "partial",
   "theorems": [
    "C63_conjugation",
    "C63_sim3_refuted",
    "C63_scale_element_refuted",
    "C63_sim3_partial",
    "C63_sim2_conjugation",
    "C63_sim2_refuted",
    "C63_sim2_partial"
   ],
   "note": "Refuted: the adjoint ignores the scale and leaves the last element unset. Proved: the correct formula, and agreement with it for scale 1 and no scale velocity."
  },
  {
   "property": "C64",
   "status": "partial",
   "theorems": [
    "C64_generators",
    "C64_documented_basis",
    "C64_basis",
    "C64_exp_matrix",
    "C64_ln_offdiagonal",
    "C64_ln_partial",
    "C64_ln_refuted"
   ],
   "note": "Basis, exp's matrix and ln's off-diagonal coordinates proved for every N; ln's diagonal coordinates proved for N<=3 and refuted for every N>=4 (the running sum is replaced, not accumulated). The matrix exponential/logarithm themselves are not modelled here."
  },
  {
   "property": "C65",
   "status": "partial",
   "theorems": [
    "C65_best_probe",
    "C65_finds_minimum",
    "C65_terminates_away_from_zero",
    "C65_maxiterations_refuted"
   ],
   "note": "Best-probe, unimodal accuracy and termination (bracket away from zero) proved for every function. maxiterations is refuted: itnum is never incremented, so x*x on any bracket around zero is searched for ever (C65_maxiterations_refuted, all fuels). NaN-valued functions are not modelled."
  },
  {
   "property": "C66",
   "status": "partial",
   "theorems": [
    "C66_best_probe",
    "C66_finds_minimum_partial",
    "C66_memory",
    "C66_parabola",
    "C66_finds_minimum_refuted"
   ],
   "note": "Best-probe, evaluation count and the parabolic step proved. Accuracy on unimodal functions is proved when no point is evaluated twice (_partial) and refuted in general: after a zero-length parabolic step the wrong half of the bracket is kept (C66_finds_minimum_refuted)."
  },
  {
   "property": "C67",
   "status": "proved",
   "theorems": [
    "C67_get_best_worst",
    "C67_step",
    "C67_history",
    "C67_never_collapses",
    "C67_restart",
    "C67_finished",
    "C67_iterate"
   ],
   "note": "Exact reals, functions without NaN or infinities; any dimension, history of steps, restarts and parameter changes."
  },
  {
   "property": "C68",
   "status": "partial",
   "theorems": [
    "C68_bracket",
    "C68_terminates",
    "C68_strict_refuted",
    "C68_nan_never_below",
    "C68_nan_refuted"
   ],
   "note": "For functions without NaN: a<b<c, f(b)<=f(a), f(b)<f(c) and termination proved; strictness f(b)<f(a) refuted (C68_strict_refuted, a parabola). With NaN: c>b always, so the recovery branch of find_next_point is dead (C68_nan_never_below) and the result need not be a bracket (C68_nan_refuted)."
  },
  {
   "property": "C69",
   "status": "partial",
   "theorems": [
    "C69_find_next_point",
    "C69_assert_only_on_plateau",
    "C69_assert_refuted",
    "C69_update",
    "C69_continue",
    "C69_stops",
    "C69_history",
    "C69_never_divides_by_zero"
   ],
   "note": "History invariants, Polak-Ribiere update and no division by zero proved for every function and gradient. The asserts are refuted: x*x/3 from 3 aborts (C69_assert_refuted); they fail only on a plateau f(t)=f(2t) (C69_assert_only_on_plateau)."
  },
  {
   "property": "C70",
   "status": "partial",
   "theorems": [
    "C70_extrapolation",
    "C70_estimate_exact",
    "C70_constant",
    "C70_even",
    "C70_restored",
    "C70_restored_refuted",
    "C70_gradient_independent",
    "C70_gradient_exact",
    "C70_gradient_partial_domain",
    "C70_gradient_refuted"
   ],
   "note": "Extrapolation specified for every functor (first estimate with the smallest error; estimates are values at 0 of interpolating polynomials), gradients exact up to degree 4 along each axis and for partially defined quadratics. Refuted: exactness beyond (C70_gradient_refuted: a quintic with derivative 0 gets -100/121 and error 0) and restoration of the point by the mixed differentiator (C70_restored_refuted). Over the reals."
  },
  {
   "property": "C71",
   "status": "proved",
   "theorems": [
    "C71_quadratic",
    "C71_diagonal",
    "C71_two_coordinates",
    "C71_stale_coordinates"
   ],
   "note": "All quadratics, dimensions and points; also the diagonal up to degree 5, mixed derivatives of degree-4 polynomials of two coordinates. C71_stale_coordinates shows that with three coordinates a cubic gets a wrong mixed derivative because a displaced coordinate is left behind."
  },
  {
   "property": "C72",
   "status": "partial",
   "theorems": [
    "C72_robust1",
    "C72_robust2_partial",
    "C72_robust2_refuted",
    "C72_robust3_partial",
    "C72_robust3_refuted",
    "C72_linear_partial",
    "C72_linear_refuted"
   ],
   "note": "RobustI proved in full (derivatives everywhere, including 0). RobustII: objective proved, true_scale refuted. RobustIII: objective proved, no true_scale, so IRLS does not instantiate. ILinear: true_scale proved, objective refuted (twice the documented integral)."
  },
  {
   "property": "C73",
   "status": "partial",
   "theorems": [
    "C73_matrix_checked",
    "C73_longer_vector_refuted",
    "C73_shorter_vector_refuted"
   ],
   "note": "Proved for the matrix overload; refuted for the vector overload: a longer b is undefined behaviour, a shorter b is accepted silently."
  },
  {
   "property": "C74",
   "status": "partial",
   "theorems": [
    "C74_checked",
    "C74_short_jacobian_refuted",
    "C74_long_jacobian_refuted"
   ],
   "note": "Refuted for single measurements: add_mJ never tests the Jacobian's size (shorter: out-of-range read; longer: tail ignored). The tests that exist are proved."
  },
  {
   "property": "C75",
   "status": "partial",
   "theorems": [
    "C75_group",
    "C75_coerce",
    "C75_coerce_refuted",
    "C75_coerce_one"
   ],
   "note": "Group laws proved for all N over any field; coerce proved for positive and zero determinants, refuted for negative determinants and odd N>=3 (pow of a negative number gives NaN). C75_coerce_one: SL<1>."
  },
  {
   "property": "C76",
   "status": "partial",
   "theorems": [
    "C76_accumulates",
    "C76_join_refuted",
    "C76_join_partial",
    "C76_clear",
    "C76_true_C_inv_refuted",
    "C76_dynamic_refuted"
   ],
   "note": "Accumulation, clear and merged normal equations proved; refuted: += drops the residual, get_true_C_inv() is built from uninitialised memory, dynamic-size IRLS with RobustI aborts on every measurement."
  },
  {
   "property": "C77",
   "status": "partial",
   "theorems": [
    "C77_eigenvalues",
    "C77_separated_partial",
    "C77_repeated_partial",
    "C77_repeated_refuted",
    "C77_scalar_matrix",
    "C77_zero_refuted",
    "C77_small_refuted",
    "C77_one_small_refuted"
   ],
   "note": "Eigenvalues proved for every non-zero symmetric matrix; eigenvectors proved for separated eigenvalues, for an exactly repeated one (unless its simple eigenvector is (1,1,1): C77_repeated_refuted, NaN) and for multiples of I. Refuted: zero matrix (eigenvalues never written), norm_1 <= 1e-9 (identity returned), one vector below the threshold (wrong rows normalised). Rounding is not modelled."
  },
  {
   "property": "C78",
   "status": "partial",
   "theorems": [
    "C78_defined",
    "C78_scalar",
    "C78_accurate",
    "C78_ends",
    "C78_nilpotent",
    "C78_endless",
    "C78_zero_refuted",
    "C78_large_refuted",
    "C78_square"
   ],
   "note": "Accuracy and termination proved for every matrix with norm in (0, 2^30] and every rounding of the stopping test. Refuted: exp of the zero matrix is undefined behaviour ((int)ceil(log2(0)), C78_zero_refuted) and so is any norm above 2^30 (1<<s overflows, C78_large_refuted)."
  },
  {
   "property": "C79",
   "status": "partial",
   "theorems": [
    "C79_root",
    "C79_exact",
    "C79_ends",
    "C79_any",
    "C79_negative_refuted",
    "C79_singular_refuted",
    "C79_zero_refuted",
    "C79_square"
   ],
   "note": "Principal root, accuracy and termination for diagonalisable matrices with positive eigenvalues; for every matrix in exact arithmetic the result satisfies (Y^2-m)(3Y^2+m)=0 (C79_any). Refuted: -3I has a real square root but -I is returned (C79_negative_refuted); the zero matrix gives non-finite numbers."
  },
  {
   "property": "C80",
   "status": "proved",
   "theorems": [
    "C80_accurate",
    "C80_logarithm",
    "C80_ends",
    "C80_square",
    "C80_singular"
   ],
   "note": "Accuracy and termination for diagonalisable matrices with positive eigenvalues; rejection of singular and non-square ones. Tolerances must be small relative to the conditioning of the eigenvector matrix, as stated in the theorems."
  },
  {
   "property": "C81",
   "status": "partial",
   "theorems": [
    "C81_construction_terminates",
    "C81_decomposes",
    "C81_orthogonal_always",
    "C81_exact",
    "C81_two_columns",
    "C81_flags",
    "C81_failure",
    "C81_silent_failure_refuted"
   ],
   "note": "Termination, absence of UB and of division by zero, orthogonality, error bound 93 N u 2|A|_F when the iteration converges, exactness in exact arithmetic, convergence for N <= 2, independence of the flags: proved for all sizes. Convergence within 30 iterations for N > 2 is not proved. Refuted: giving up is not reported (nError has no accessor): in exact arithmetic a 3x3 bidiagonal matrix is never deflated and the constructor returns a non-decomposition normally (C81_silent_failure_refuted)."
  },
  {
   "property": "C82",
   "status": "partial",
   "theorems": [
    "C82_total",
    "C82_rank",
    "C82_factorises",
    "C82_backsub",
    "C82_inverse",
    "C82_mahalanobis",
    "C82_determinant",
    "C82_upper_only",
    "C82_lower_half_refuted",
    "C82_semidefinite",
    "C82_semidefinite_refuted",
    "C82_indefinite_refuted",
    "C82_sizes"
   ],
   "note": "Everything for positive definite matrices and the exact meaning of rank() proved for all sizes. Refuted: the triangle read is the upper one, not the documented lower one (C82_lower_half_refuted); singular positive semidefinite matrices get a wrong rank and L (C82_semidefinite_refuted); indefinite matrices give silent wrong solutions and determinants (C82_indefinite_refuted)."
  },
  {
   "property": "C83",
   "status": "partial",
   "theorems": [
    "C83_total",
    "C83_decomposes",
    "C83_unpivoted",
    "C83_sorted",
    "C83_tall_partial",
    "C83_tall_refuted",
    "C83_get_P_refuted"
   ],
   "note": "Orthogonality, triangularity, QR = AP, sorted diagonal and absence of failures proved for all sizes. Refuted: get_P is documented the wrong way round (C83_get_P_refuted); for more rows than columns Q is not orthogonal and R keeps the reflectors (C83_tall_refuted; the header warns), only R^T R = (AP)^T AP survives (C83_tall_partial)."
  },
  {
   "property": "C84",
   "status": "partial",
   "theorems": [
    "C84_arithmetic",
    "C84_linear_algebra",
    "C84_variables",
    "C84_extract",
    "C84_extract_matrix",
    "C84_so3",
    "C84_se3",
    "C84_so2",
    "C84_se2",
    "C84_point_jacobian",
    "C84_room",
    "C84_jacobian_refuted",
    "C84_se2_exp"
   ],
   "note": "Arithmetic, products, seeding, extraction, SO3/SE3/SO2/SE2 and the Jacobian of a transformed point proved for all sizes and offsets. Refuted (C84_jacobian_refuted): get_jacobian leaves columns uninitialised when the first element holds fewer derivatives, writes outside its result for F<P> with run-time size, and does not compile for dynamic vectors; C84_room: make_fad_so3/se3 write out of range when start+3/start+6 exceeds D."
  },
  {
   "property": "C85",
   "status": "proved",
   "theorems": [
    "C85_dot_product_error",
    "C85_dot_product_backward",
    "C85_matrix_product_error",
    "C85_matrix_vector_error",
    "C85_vector_matrix_error",
    "C85_elementwise_error",
    "C85_norm_error",
    "C85_unit_error",
    "C85_normalize_error",
    "C85_bounds",
    "C85_bitwise_symmetry"
   ],
   "note": "Overflow, underflow and NaN are outside the model: the rounding has unbounded exponent."
  },
  {
   "property": "C86",
   "status": "proved",
   "theorems": [
    "C86_total",
    "C86_singular",
    "C86_factors",
    "C86_solution",
    "C86_positive_pivots",
    "C86_succeeds",
    "C86_determinant",
    "C86_matrix_solution",
    "C86_inverse"
   ],
   "note": "Overflow and underflow are outside the model. C86_succeeds is Demmel's theorem for this LDL^T variant."
  },
  {
   "property": "C87",
   "status": "proved",
   "theorems": [
    "C87_accumulation",
    "C87_normal_equations",
    "C87_near_minimum",
    "C87_succeeds",
    "C87_order",
    "C87_join"
   ],
   "note": "Overflow and underflow are outside the model; Precision=double (with float the temporary Jw of add_mJ is a double, so there is one rounding less)."
  },
  {
   "property": "C88",
   "status": "proved",
   "theorems": [
    "C88_total",
    "C88_solution",
    "C88_backward_error",
    "C88_succeeds",
    "C88_forward_error",
    "C88_well_conditioned",
    "C88_matrix_backward_error",
    "C88_columns"
   ],
   "note": "Overflow and underflow are outside the model. The growth bound is Wilkinson's 2^n worst case; C88_solution gives the sharper bound in terms of the computed factors."
  },
  {
   "property": "C89",
   "status": "proved",
   "theorems": [
    "C89_elimination",
    "C89_determinant",
    "C89_error",
    "C89_sign",
    "C89_singular"
   ],
   "note": "Overflow and underflow are outside the model. determinant_LU (LAPACK) is C51."
  },
  {
   "property": "C90",
   "status": "partial",
   "theorems": [
    "C90_declaration",
    "C90_named_members",
    "C90_members_all",
    "C90_planar_read",
    "C90_planar_refuted"
   ],
   "note": "C90_planar_refuted: planar_complex.hh:70-80 hard-codes complex<double>, so complex<float> does not compile, and elements are returned by value, so nothing can be written, against its comment. The rest is proved. (The documentation calls the macro TOON_DECLARE_NAMED_ELEMENT_VECTOR; it is TOON_MAKE_NAMED_ELEMENT_VECTOR.)"
  },
  {
   "property": "C91",
   "status": "proved",
   "theorems": [
    "C91_decomposes",
    "C91_solves",
    "C91_inverse",
    "C91_singular_inverse",
    "C91_determinant",
    "C91_compute",
    "C91_not_square",
    "C91_compute_size"
   ],
   "note": "Exact arithmetic; the LAPACK routines are the unblocked reference algorithms (the blocked ones agree with them in exact arithmetic; underflow tests are dropped)."
  },
  {
   "property": "C92",
   "status": "partial",
   "theorems": [
    "C92_determinant_of_exp",
    "C92_group",
    "C92_accurate",
    "C92_unit_determinant",
    "C92_returns",
    "C92_zero_refuted",
    "C92_ln_partial",
    "C92_ln_accurate_partial"
   ],
   "note": "Refuted at zero: exp of the zero vector converts log2(0) to int, undefined behaviour (C92_zero_refuted). ln is proved for N <= 3 (for N >= 4 it is wrong, C64_ln_refuted). The arithmetic is exact except in the stopping tests."
  },
  {
   "property": "C93",
   "status": "proved",
   "theorems": [
    "C93_factors",
    "C93_info",
    "C93_backward_error",
    "C93_forward_error",
    "C93_well_conditioned",
    "C93_determinant",
    "C93_determinant_sign",
    "C93_determinant_error"
   ],
   "note": "for the reference unblocked getf2; a blocked LAPACK sums in another order. Overflow and underflow are outside the model."
  },
  {
   "property": "C94",
   "status": "partial",
   "theorems": [
    "C94_model_is_exact_model",
    "C94_exp",
    "C94_coerce",
    "C94_two_vectors",
    "C94_product",
    "C94_repair",
    "C94_history",
    "C94_drift",
    "C94_near_rotation",
    "C94_two_vectors_refuted",
    "C94_double"
   ],
   "note": "everything about exp, product, inverse, coerce and histories is proved; C94_two_vectors_refuted: SO3(a,b) for nearly parallel (not exactly parallel) double vectors gives a matrix that is not within 0.3 of a rotation. Overflow and underflow are outside the model."
  },
  {
   "property": "C95",
   "status": "proved",
   "theorems": [
    "C95_model_is_exact_model",
    "C95_exp",
    "C95_history",
    "C95_point",
    "C95_growth",
    "C95_double"
   ],
   "note": ""
  },
  {
   "property": "C96",
   "status": "partial",
   "theorems": [
    "C96_so3",
    "C96_se3",
    "C96_sim3",
    "C96_so2",
    "C96_se2",
    "C96_sim2",
    "C96_sim3_negative_refuted",
    "C96_any_text",
    "C96_exhausted",
    "C96_sim_exhausted_refuted",
    "C96_sl",
    "C96_rounded",
    "C96_rounded_se3"
   ],
   "note": "round trips, limited precision and arbitrary text are proved; C96_sim3_negative_refuted: a SIM3 with negative scale cannot be read back from its own text (assertion in coerce); C96_sim_exhausted_refuted: reading a SIM3 or SIM2 at the end of a stream sets its scale to 1."
  },
  {
   "property": "C97",
   "status": "proved",
   "theorems": [
    "C97_model_is_exact_model",
    "C97_ln",
    "C97_forward",
    "C97_backward",
    "C97_exp_then_ln",
    "C97_ln_then_exp",
    "C97_history",
    "C97_double"
   ],
   "note": ""
  },
  {
   "property": "C98",
   "status": "proved",
   "theorems": [
    "C98_model_is_exact_model",
    "C98_backward",
    "C98_forward",
    "C98_exp_then_ln",
    "C98_ln_then_exp",
    "C98_history",
    "C98_double"
   ],
   "note": ""
  },
  {
   "property": "C99",
   "status": "proved",
   "theorems": [
    "C99_model_is_exact_model",
    "C99_exp",
    "C99_product",
    "C99_inverse",
    "C99_coerce",
    "C99_repair",
    "C99_of_matrix",
    "C99_history",
    "C99_near_rotation",
    "C99_ln",
    "C99_exp_then_ln",
    "C99_ln_then_exp",
    "C99_ln_history",
    "C99_double"
   ],
   "note": ""
  },
  {
   "property": "C100",
   "status": "proved",
   "theorems": [
    "C100_model_is_exact_model",
    "C100_exp",
    "C100_history",
    "C100_point",
    "C100_growth",
    "C100_ln_backward",
    "C100_ln_forward",
    "C100_exp_then_ln",
    "C100_ln_then_exp",
    "C100_ln_history",
    "C100_double"
   ],
   "note": ""
  },
  {
   "property": "C101",
   "status": "partial",
   "theorems": [
    "C101_model_is_exact_model",
    "C101_orthonormal",
    "C101_eigenvalues",
    "C101_order",
    "C101_residual",
    "C101_residual_descending",
    "C101_double",
    "C101_swapped_refuted"
   ],
   "note": "Eigenvalues, orthonormality, order and trace are proved for every matrix; eigenvectors are proved for m01 not tiny and for m[1][1] <= m[0][0]; refuted otherwise: C101_swapped_refuted, diag(1, 2+2^-25) in double has its eigenvectors exchanged (so backsub, get_pinv, get_sqrtm use the wrong matrix)."
  },
  {
   "property": "C102",
   "status": "partial",
   "theorems": [
    "C102_model_is_exact_model",
    "C102_shape",
    "C102_backward_stable",
    "C102_orthonormal",
    "C102_product",
    "C102_two_rows",
    "C102_double",
    "C102_not_orthogonal_refuted",
    "C102_small_column_refuted"
   ],
   "note": "Backward stability is proved for every size when each column to be reflected is steep (its part below the diagonal is not small); refuted otherwise: C102_not_orthogonal_refuted (an element -1.25 in Q in double), C102_small_column_refuted (not finite though not triangular)."
  },
  {
   "property": "C103",
   "status": "partial",
   "theorems": [
    "C103_model_is_exact_model",
    "C103_best_probe",
    "C103_terminates",
    "C103_finds_minimum",
    "C103_tiny_tolerance_refuted",
    "C103_minimum_lost_refuted"
   ],
   "note": "Best probe, termination and accuracy proved for every function and monotone rounding; the accuracy needs that no point is evaluated twice (C103_minimum_lost_refuted shows why), and termination that tol is at least 100 roundings (C103_tiny_tolerance_refuted)."
  },
  {
   "property": "C104",
   "status": "proved",
   "theorems": [
    "C104_model_is_exact_model",
    "C104_best_probe",
    "C104_finds_minimum",
    "C104_memory"
   ],
   "note": "The accuracy theorem needs that no point is evaluated twice, as the exact one does (C66_finds_minimum_refuted shows why)."
  },
  {
   "property": "C105",
   "status": "partial",
   "theorems": [
    "C105_model_is_exact_model",
    "C105_step",
    "C105_history",
    "C105_finished",
    "C105_never_collapses_refuted"
   ],
   "note": "All claims proved; that the simplex stays non-degenerate, as C67_never_collapses has it without rounding, is refuted (C105_never_collapses_refuted)."
  },
  {
   "property": "C106",
   "status": "proved",
   "theorems": [
    "C106_left_block_is_identity",
    "C106_columns_are_independent",
    "C106_total",
    "C106_each_column_is_exact_nearby",
    "C106_residual"
   ],
   "note": ""
  },
  {
   "property": "C107",
   "status": "partial",
   "theorems": [
    "C107_bracket_is_exact_model",
    "C107_model_is_exact_model",
    "C107_bracket",
    "C107_nan_never_below",
    "C107_find_next_point",
    "C107_assert_only_on_plateau",
    "C107_history",
    "C107_bracket_terminates",
    "C107_never_divides_by_zero",
    "C107_update",
    "C107_continue",
    "C107_nan_bracket_refuted",
    "C107_nan_exact_runs_for_ever"
   ],
   "note": "All claims proved for functions without NaN; a strict bracket when NaN ends the search is refuted (C107_nan_bracket_refuted)."
  },
  {
   "property": "C108",
   "status": "partial",
   "theorems": [
    "C108_project",
    "C108_project_unproject",
    "C108_inverse_2x2",
    "C108_inverse_2x2_accurate",
    "C108_inverse_2x2_residual",
    "C108_invertible_refuted"
   ],
   "note": "All claims proved; that every invertible matrix has a computed inverse, as C40 has it without rounding, is refuted (C108_invertible_refuted)."
  },
  {
   "property": "C109",
   "status": "proved",
   "theorems": [
    "C109_model_is_exact_model",
    "C109_robust1",
    "C109_robust2",
    "C109_robust3",
    "C109_larger_error_no_larger_weight",
    "C109_sign_does_not_matter",
    "C109_robust3_at_most_one"
   ],
   "note": ""
  },
  {
   "property": "C110",
   "status": "proved",
   "theorems": [
    "C110_vector_norm_1",
    "C110_vector_norm_inf",
    "C110_matrix_norms",
    "C110_norm_fro",
    "C110_bitwise"
   ],
   "note": ""
  }
 ]
}