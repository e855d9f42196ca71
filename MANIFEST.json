{
 "claims": [
  {
   "property": "C01",
   "status": "proved",
   "theorems": [
    "C01_reads_return_last_write",
    "C01_reads_iff_last_write"
   ],
   "note": "all histories of init/set/get_prop_dict/client writes into snapshots; histories using the live object (get_conf_repo_mgr/set_conf_repo_mgr) are excluded and shown to break it in C02"
  },
  {
   "property": "C02",
   "status": "proved",
   "theorems": [
    "C02_snapshot_isolation",
    "C02_live_reference_is_not_isolated_refuted"
   ],
   "note": "heap model with object identity; the refuted companion shows get_conf_repo_mgr leaks the live dict"
  },
  {
   "property": "C03",
   "status": "proved",
   "theorems": [
    "C03_parse_prop_values",
    "C03_parse_prop_residual",
    "C03_parse_prop_mutates_nothing",
    "C03_parse_prop_errors",
    "C03_duplicate_names_refuted"
   ],
   "note": "duplicate-free name lists, as stated; duplicates are refuted"
  },
  {
   "property": "C04",
   "status": "partial",
   "theorems": [
    "C04_default_configuration_refuted"
   ],
   "note": "the property is FALSE of the code: default is_ode_norm_control=\"on\" is not a bool; proved for every reachable configuration. What does hold is C03_parse_prop_values (needed = None)"
  },
  {
   "property": "C05",
   "status": "proved",
   "theorems": [
    "C05_is_member"
   ],
   "note": "any element type with a total order"
  },
  {
   "property": "C06",
   "status": "proved",
   "theorems": [
    "C06_verdict",
    "C06_reported_difference",
    "C06_different_shapes_raise",
    "C06_illegal_abs_tol_raises",
    "C06_illegal_rel_tol_raises"
   ],
   "note": "exact reals extended with inf/nan; f_norm_op is np.abs as everywhere in the library; number formatting of the report is not modelled"
  },
  {
   "property": "C07",
   "status": "proved",
   "theorems": [
    "C07_symmetric",
    "C07_reflexive",
    "C07_monotone"
   ],
   "note": "whole result tuple is symmetric; f_norm_op is np.abs"
  },
  {
   "property": "C08",
   "status": "proved",
   "theorems": [
    "C08_reflexive",
    "C08_key_order",
    "C08_bool_refuted"
   ],
   "note": "Supported values are `ok_value`: booleans are not supported (C08_bool_refuted), object arrays hold dicts only or no dicts."
  },
  {
   "property": "C09",
   "status": "partial",
   "theorems": [
    "C09_symmetric",
    "C09_lists_refuted"
   ],
   "note": "FALSE of the code for lists of different lengths (C09_lists_refuted); proved when lists at corresponding places have equal lengths (`aligned`)."
  },
  {
   "property": "C10",
   "status": "partial",
   "theorems": [
    "C10_verdict",
    "C10_shapes",
    "C10_prefix_refuted",
    "C10_empty_raises"
   ],
   "note": "FALSE of the code for lists of different lengths and for empty arrays of dicts (refuted theorems); proved when lists at corresponding places have equal lengths (`aligned`)."
  },
  {
   "property": "C11",
   "status": "proved",
   "theorems": [
    "C11_sort_rows_tol",
    "C11_order_strict",
    "C11_result_unique",
    "C11_zero_tol_lexicographic",
    "C11_rejects"
   ],
   "note": "np.argsort is an oracle (any permutation sorting the keys); np.lexsort is the stable merge sort."
  },
  {
   "property": "C12",
   "status": "proved",
   "theorems": [
    "C12_sqrt_pos",
    "C12_sqrt_pos_scalar",
    "C12_sqrt_pos_value"
   ],
   "note": ""
  },
  {
   "property": "C13",
   "status": "proved",
   "theorems": [
    "C13_mat_dot",
    "C13_mat_dot_rejects"
   ],
   "note": "For matrices and stacks of matrices; non-square input raises."
  },
  {
   "property": "C14",
   "status": "partial",
   "theorems": [
    "C14_r_multiply_by_vec",
    "C14_r_multiply",
    "C14_r_multiply_three",
    "C14_r_multiply_const_dense_partial",
    "C14_r_multiply_const_sparse_partial",
    "C14_one_slice_refuted"
   ],
   "note": "Proved for stacks and for a constant second factor; FALSE of the code for a one-slice stack times a constant matrix on the dense path (IndexError)."
  },
  {
   "property": "C15",
   "status": "proved",
   "theorems": [
    "C15_lr_multiply_R",
    "C15_lr_multiply_L",
    "C15_lr_multiply_constant",
    "C15_lr_multiply_matrix",
    "C15_lr_multiply_bad_flag",
    "C15_congruence_laws",
    "C15_lr_multiply_by_vec",
    "C15_lr_divide_vec",
    "C15_lr_multiply_matrix_stack",
    "C15_one_dimensional_argument"
   ],
   "note": "Holds for every lstsq meeting the normal equations."
  },
  {
   "property": "C16",
   "status": "proved",
   "theorems": [
    "C16_transpose",
    "C16_transpose_involutive",
    "C16_make_symmetric",
    "C16_make_symmetric_laws",
    "C16_triu"
   ],
   "note": ""
  },
  {
   "property": "C17",
   "status": "partial",
   "theorems": [
    "C17_svd_product_refuted",
    "C17_svd_products_partial",
    "C17_lr_svd_divide_partial",
    "C17_one_slice_divide_refuted",
    "C17_left_product_refuted"
   ],
   "note": "FALSE of the code: V^T D V is used where V D V^T is meant; refuted for diag(2,3,1) for every eigh. The partial theorems say what is computed."
  },
  {
   "property": "C18",
   "status": "partial",
   "theorems": [
    "C18_is_mat_symm",
    "C18_is_mat_symm_exact",
    "C18_is_mat_symm_rejects",
    "C18_is_mat_pos_def",
    "C18_is_mat_pos_def_exact",
    "C18_is_mat_pos_def_rejects",
    "C18_is_mat_not_deg",
    "C18_is_mat_not_deg_default_tol_refuted"
   ],
   "note": "is_mat_symm and is_mat_pos_def decide their predicates; FALSE of the code for is_mat_not_deg with the default tolerance 0 (a singular matrix is reported non-degenerate), for a positive tolerance it decides |Mx| >= tol|x|."
  },
  {
   "property": "C19",
   "status": "partial",
   "theorems": [
    "C19_orth_transl",
    "C19_identity_outside_plane",
    "C19_rotation",
    "C19_error_bound",
    "C19_zero_vectors_raise"
   ],
   "note": "Exact (orthogonal, src to direction of dst) when the vectors are parallel or the sine of the angle exceeds 1e-7; in the band between, only the proved error bound holds (the code drops the second column of the basis there)."
  },
  {
   "property": "C20",
   "status": "partial",
   "theorems": [
    "C20_orth_transl_haus",
    "C20_always_orthogonal_and_close"
   ],
   "note": "Always orthogonal and symmetric; exact unless the unit vectors differ by less than 1e-7, where the identity is returned and the miss is bounded."
  },
  {
   "property": "C21",
   "status": "proved",
   "theorems": [
    "C21_orth_transl_qr",
    "C21_orth_transl_qr_dim1"
   ],
   "note": "For every QR factorization meeting the contract."
  },
  {
   "property": "C22",
   "status": "proved",
   "theorems": [
    "C22_orth_transl_max_dir",
    "C22_orth_transl_max_dir_dim1"
   ],
   "note": "Under the same angle condition against the first basis vector as C19."
  },
  {
   "property": "C23",
   "status": "partial",
   "theorems": [
    "C23_orth_transl_max_tr",
    "C23_dim1_refuted"
   ],
   "note": "Proved for n >= 2 (angle condition as in C19); FALSE of the code for n = 1 when src and dst have opposite signs."
  },
  {
   "property": "C24",
   "status": "proved",
   "theorems": [
    "C24_sqrtm_pos",
    "C24_root_unique",
    "C24_sqrtm_pos_tolerance",
    "C24_sqrtm_pos_rejects"
   ],
   "note": ""
  },
  {
   "property": "C25",
   "status": "partial",
   "theorems": [
    "C25_reg_pos_def_partial",
    "C25_reg_pos_def_orthonormal",
    "C25_reg_pos_def_distinct",
    "C25_lower_bound_refuted",
    "C25_reg_pos_def_rejects"
   ],
   "note": "FALSE of the code in general: np.linalg.eig need not return orthogonal eigenvectors for repeated eigenvalues. Lower bound proved for orthonormal eigenvectors and for distinct eigenvalues; everything else always."
  },
  {
   "property": "C26",
   "status": "proved",
   "theorems": [
    "C26_reg_mat",
    "C26_reg_mat_bad_tol"
   ],
   "note": ""
  },
  {
   "property": "C27",
   "status": "partial",
   "theorems": [
    "C27_real_unchanged",
    "C27_complex_matrix",
    "C27_complex_vector",
    "C27_complex_scalar",
    "C27_bad_tol_raises",
    "C27_zero_imaginary_part_refuted"
   ],
   "note": "FALSE of the code when the imaginary part is exactly zero: the complex value is returned unchanged."
  },
  {
   "property": "C28",
   "status": "proved",
   "theorems": [
    "C28_mat_orth",
    "C28_math_orth_col",
    "C28_ml_orth_transl"
   ],
   "note": ""
  },
  {
   "property": "C29",
   "status": "proved",
   "theorems": [
    "C29_rho_mat",
    "C29_rho_mat_closed_form",
    "C29_ellipsoid_determined",
    "C29_rejects_negative",
    "C29_rejects_negative_one",
    "C29_tolerance_one_direction_refuted"
   ],
   "note": "Proved for every symmetric positive semidefinite shape, centre and set of directions (non-empty space). Also refuted, beyond the statement: abs_tol is ignored when one direction is given."
  },
  {
   "property": "C30",
   "status": "proved",
   "theorems": [
    "C30_quad_plain",
    "C30_quad_inverse",
    "C30_quad_membership",
    "C30_quad_singular",
    "C30_quad_inv_range",
    "C30_singular_membership_refuted",
    "C30_quad_bad_mode",
    "C30_quad_shapes"
   ],
   "note": "The three modes proved. Also refuted, beyond the statement: that mode 'inv' decides membership for a singular shape."
  },
  {
   "property": "C31",
   "status": "proved",
   "theorems": [
    "C31_inv_mat",
    "C31_inv_mat_rejects",
    "C31_refinement_exact"
   ],
   "note": "Exact arithmetic; the numerical gain of the correction is out of scope."
  },
  {
   "property": "C32",
   "status": "proved",
   "theorems": [
    "C32_ell_volume",
    "C32_ell_volume_image",
    "C32_volume",
    "C32_volume_agrees",
    "C32_volume_agrees_always_refuted"
   ],
   "note": "Degenerate means found so by is_degenerate, i.e. up to abs_tol. Refuted beyond the statement: a non-degenerate shape with a squared semiaxis of abs_tol or less gets volume 0 from Ellipsoid.volume and a positive one from ell_volume. pi and the gamma function at half-integers are oracles with the recurrences of the gamma function as contract; how numpy packs the list of volumes is not modelled."
  },
  {
   "property": "C33",
   "status": "proved",
   "theorems": [
    "C33_boundary_2",
    "C33_boundary_3",
    "C33_common_2",
    "C33_common_3",
    "C33_empty"
   ],
   "note": "For every number of directions and faces; negative face indices included. lstsq by its normal equations (satisfiable: C33_ex_2). Also for dependent directions whose lines or planes meet (C33_common_2/3). No directions: IndexError."
  },
  {
   "property": "C34",
   "status": "partial",
   "theorems": [
    "C34_values_2",
    "C34_span_refuted",
    "C34_index_refuted",
    "C34_values_3",
    "C34_any_3",
    "C34_large_refuted",
    "C34_shapes",
    "C34_sizes_2",
    "C34_sizes_3",
    "C34_order"
   ],
   "note": "FALSE of the code: in the plane, a hull facet over the direction number 0 always raises, IndexError or wrongState (C34_span_refuted, C34_index_refuted); in space, all values are infinite for bounds of 200 times the directions (C34_large_refuted); one-element support vectors raise IndexError. Proved: the values for facets within the numbering (C34_values_2), for steep triangles (C34_values_3, C34_any_3), all rejections. ConvexHull is an argument."
  },
  {
   "property": "C35",
   "status": "proved",
   "theorems": [
    "C35_cells",
    "C35_surface",
    "C35_rejects",
    "C35_rings"
   ],
   "note": ""
  },
  {
   "property": "C36",
   "status": "proved",
   "theorems": [
    "C36_map",
    "C36_one_face",
    "C36_rejects"
   ],
   "note": "For every argsort that sorts (np.argsort is not stable)."
  },
  {
   "property": "C37",
   "status": "partial",
   "theorems": [
    "C37_consistent",
    "C37_consistent_iff",
    "C37_partial_refinement_refuted"
   ],
   "note": "FALSE of the code: when a pass splits a face but not its neighbour, the filler face on the shared edge gets its second and third map columns swapped (refuted theorem). Proved: the map is right as long as no pass does that, and wrong after the first pass that does."
  },
  {
   "property": "C38",
   "status": "proved",
   "theorems": [
    "C38_closed",
    "C38_full_refinement",
    "C38_double_face_refuted",
    "C38_partial_refinement_refuted"
   ],
   "note": "Recorded beyond the statement: a closed surface with two faces on the same three vertices is not closed after a full pass, and partial refinement can break closedness."
  },
  {
   "property": "C39",
   "status": "partial",
   "theorems": [
    "C39_old_vertices",
    "C39_new_vertices",
    "C39_done",
    "C39_done_uniform",
    "C39_done_adjusted_refuted",
    "C39_terminates",
    "C39_one_row"
   ],
   "note": "Vertices: proved. Stopping: proved without adjusting function, and with one if no pass splits a face without its neighbours; FALSE of the code for adjusting functions in general (refuted theorem: no step limit, a side longer than the limit is left)."
  },
  {
   "property": "C40",
   "status": "proved",
   "theorems": [
    "C40_sphere",
    "C40_nested",
    "C40_infinite_depth",
    "C40_rejects",
    "C40_fan",
    "C40_distinct"
   ],
   "note": "For every cos/sin with the addition theorems on multiples of pi/5 and every sorting argsort. Recorded beyond the statement: depth np.inf never returns."
  },
  {
   "property": "C41",
   "status": "partial",
   "theorems": [
    "C41_depth",
    "C41_circle",
    "C41_cycle",
    "C41_near_unit",
    "C41_unit_refuted",
    "C41_rejects"
   ],
   "note": "FALSE of the code: zero coordinates are replaced by eps, so the 2-D points are not all on the unit circle (refuted theorem); proved: they are within d*eps^2 of it in squared norm, the edges form one cycle, and the depth is the least sufficient one."
  },
  {
   "property": "C42",
   "status": "partial",
   "theorems": [
    "C42_manifold",
    "C42_exact",
    "C42_three_faces_refuted",
    "C42_one_vertex_refuted",
    "C42_one_row",
    "C42_rejects"
   ],
   "note": "FALSE of the code for edges on three or more faces and for triples of one repeated vertex (refuted theorems); C42_exact gives the result for every list, C42_manifold the stated property when no edge is on more than two faces."
  },
  {
   "property": "C43",
   "status": "partial",
   "theorems": [
    "C43_reflexive",
    "C43_renumber",
    "C43_symmetric",
    "C43_sound",
    "C43_sizes",
    "C43_duplicate_refuted",
    "C43_three_faces_refuted"
   ],
   "note": "FALSE of the code for meshes with an edge on three or more faces and for coinciding vertices (refuted theorems); proved otherwise, for every argsort that sorts."
  },
  {
   "property": "C44",
   "status": "proved",
   "theorems": [
    "C44_circle",
    "C44_arc",
    "C44_apart"
   ],
   "note": ""
  },
  {
   "property": "C45",
   "status": "proved",
   "theorems": [
    "C45_rows",
    "C45_nearest",
    "C45_separated",
    "C45_rejects"
   ],
   "note": "For every arccos, log2, ceil meeting their contracts. Beyond the statement: which rows are returned, given that different grid vertices are at least 1e-8 apart (proved for depth 1)."
  },
  {
   "property": "C46",
   "status": "proved",
   "theorems": [
    "C46_dependent",
    "C46_empty"
   ],
   "note": "All strings, by interpretation of the regular expression. An empty matrix raises ValueError."
  },
  {
   "property": "C47",
   "status": "proved",
   "theorems": [
    "C47_replace",
    "C47_pieces",
    "C47_unchanged",
    "C47_rejects",
    "C47_merges",
    "C47_backslash_refuted"
   ],
   "note": "from: any word; to: any string without a backslash (with one the code raises re.error or interprets an escape: C47_backslash_refuted). Whole words are those after the removal of blanks (C47_merges)."
  },
  {
   "property": "C48",
   "status": "proved",
   "theorems": [
    "C48_constructor",
    "C48_sound",
    "C48_valid_accepted",
    "C48_one_argument",
    "C48_no_argument",
    "C48_rejects_size_mismatch",
    "C48_rejects_nonsquare",
    "C48_rejects_center",
    "C48_rejects_nonfinite_shape",
    "C48_rejects_tolerance",
    "C48_complex",
    "C48_unitball",
    "C48_indefinite_accepted"
   ],
   "note": "Both directions, for arbitrary arrays; the error tags; complex input; ell_unitball. Semidefinite is tested up to abs_tol, so slightly indefinite matrices are accepted (theorem C48_indefinite_accepted)."
  },
  {
   "property": "C49",
   "status": "proved",
   "theorems": [
    "C49_copy",
    "C49_rep",
    "C49_rep_negative",
    "C49_rep_float",
    "C49_history",
    "C49_independent",
    "C49_hyp",
    "C49_hyp_copy"
   ],
   "note": "Objects are in a heap; histories are lists of calls, with exceptions caught. Ellipsoid copies are equal in all fields; hyperplane copies keep all but rel_tol (C49_hyp_copy). A one-element array is copied to shape ()."
  },
  {
   "property": "C50",
   "status": "partial",
   "theorems": [
    "C50_projection",
    "C50_support",
    "C50_orthonormal",
    "C50_rejects",
    "C50_dimensions",
    "C50_zero",
    "C50_get_projection",
    "C50_unchanged",
    "C50_orthogonality_refuted",
    "C50_alias"
   ],
   "note": "Image, support function and get_projection: proved. \"A basis that is not orthogonal is rejected\" is FALSE of the code: obtuse bases are accepted (C50_orthogonality_refuted); what is rejected is stated exactly."
  },
  {
   "property": "C51",
   "status": "proved",
   "theorems": [
    "C51_minksum_ea",
    "C51_minksum_ea_nondegenerate",
    "C51_one_ellipsoid",
    "C51_errors"
   ],
   "note": "All dimensions, numbers of ellipsoids and non-zero directions; degenerate shapes through their regularisation (the containment holds for the given shapes too)."
  },
  {
   "property": "C52",
   "status": "partial",
   "theorems": [
    "C52_minksum_ia",
    "C52_degenerate_first_refuted"
   ],
   "note": "Exact when the rotated vectors are parallel or at an angle above 1e-7, with explicit error bounds otherwise; FALSE of the code for directions orthogonal to a degenerate first ellipsoid (raises)."
  },
  {
   "property": "C53",
   "status": "proved",
   "theorems": [
    "C53_polar",
    "C53_polar_twice",
    "C53_polar_degenerate",
    "C53_polar_many_refuted",
    "C53_polar_axes_refuted",
    "C53_origin_outside_refuted"
   ],
   "note": "One ellipsoid in an array of shape (1,): exact set equality and bipolar theorem.  Recorded beyond the statement: two or more ellipsoids raise IndexError, arrays with several axes AttributeError, and an ellipsoid not containing the origin is not refused."
  },
  {
   "property": "C54",
   "status": "partial",
   "theorems": [
    "C54_is_bigger",
    "C54_containment",
    "C54_dimension_mismatch",
    "C54_containment_refuted"
   ],
   "note": "Proved up to abs_tol for non-degenerate first ellipsoids whose condition number is below the rank threshold of numpy; FALSE of the code beyond that threshold (refuted theorem)."
  },
  {
   "property": "C55",
   "status": "partial",
   "theorems": [
    "C55_is_internal",
    "C55_membership",
    "C55_vector_of_ellipsoids_refuted",
    "C55_errors"
   ],
   "note": "Proved for arrays of ellipsoids with two or more axes; FALSE of the code for one-dimensional arrays, which raise AttributeError (refuted theorem)."
  },
  {
   "property": "C56",
   "status": "partial",
   "theorems": [
    "C56_boundary_2",
    "C56_boundary_3",
    "C56_exact_refuted",
    "C56_no_grid_refuted",
    "C56_rho_2",
    "C56_rho_3",
    "C56_factor_default",
    "C56_factor_int",
    "C56_factor_vec",
    "C56_factor_float_refuted",
    "C56_factor_short",
    "C56_dim"
   ],
   "note": "FALSE of the code for get_boundary: zero coordinates of the directions are replaced by eps, so the first point in the plane has level 1 + eps^2 (C56_exact_refuted); in space get_boundary without the grid always raises (C56_no_grid_refuted); a float factor raises TypeError although annotated (C56_factor_float_refuted). Proved: every point of get_boundary has level in [1, 1 + d eps^2]; every point of get_rho_boundary is exactly on the boundary, attains the support function, and the cycle is closed; the variants with a factor call these with floor(n x) points. In exact arithmetic."
  },
  {
   "property": "C57",
   "status": "partial",
   "theorems": [
    "C57_dimension",
    "C57_rank",
    "C57_is_degenerate",
    "C57_rank_deficient_is_degenerate",
    "C57_degenerate_is_rank_deficient_refuted",
    "C57_min_eig",
    "C57_max_eig",
    "C57_trace",
    "C57_empty_raises",
    "C57_empty_array"
   ],
   "note": "All proved except one clause that is FALSE of the code: a full-rank shape with an eigenvalue of abs_tol or less is reported degenerate (the refuted theorem); what is_degenerate decides is characterised exactly. dimension with return_rank of an empty array raises ValueError."
  },
  {
   "property": "C58",
   "status": "partial",
   "theorems": [
    "C58_uminus",
    "C58_reflection",
    "C58_uminus_twice",
    "C58_uminus_keeps_tolerance_refuted",
    "C58_hyp_uminus",
    "C58_hyp_uminus_contains",
    "C58_hyp_uminus_twice",
    "C58_hyp_reflection_refuted",
    "C58_hyp_keeps_tolerance_refuted"
   ],
   "note": "Ellipsoids: proved for centres and shapes; FALSE of the code for the tolerances, which are replaced by the configured ones. Hyperplanes: FALSE of the code, normal and shift are both negated, so that uminus(H) is the same set as H and not its reflection (proved, with the refutation)."
  },
  {
   "property": "C59",
   "status": "proved",
   "theorems": [
    "C59_ellipsoid_roundtrip",
    "C59_ellipsoid_roundtrip_no_props",
    "C59_hyp_dict",
    "C59_hyp_canonical_set",
    "C59_hyp_canonical",
    "C59_hyp_roundtrip",
    "C59_hyp_zero_shift_refuted",
    "C59_hyp_empty_roundtrip_refuted",
    "C59_hyp_zero_normal_refuted"
   ],
   "note": "Recorded beyond the statement: with shift 0, v and -v give different dictionaries for the same set; the dictionary of an empty hyperplane, or of one with a zero normal, cannot be read back."
  },
  {
   "property": "C60",
   "status": "partial",
   "theorems": [
    "C60_ell_verdict",
    "C60_ell_reflexive",
    "C60_ell_symmetric",
    "C60_ell_operator",
    "C60_hyp_verdict",
    "C60_hyp_reflexive",
    "C60_hyp_symmetric",
    "C60_hyp_operator",
    "C60_hyp_same_set_partial",
    "C60_hyp_same_set_refuted",
    "C60_raises",
    "C60_single_shape_refuted",
    "C60_properties_refuted"
   ],
   "note": "Reflexivity, symmetry and the exact verdict are proved for all arrays of ellipsoids (including empty ones) and of hyperplanes with non-zero normals. \"Hyperplanes describing the same set compare equal\" is FALSE of the code for hyperplanes through the origin (C60_hyp_same_set_refuted), proved for the others."
  },
  {
   "property": "C61",
   "status": "proved",
   "theorems": [
    "C61_one_point",
    "C61_one_hyperplane",
    "C61_pairs",
    "C61_wrong_counts",
    "C61_wrong_dimension",
    "C61_mixed_dimensions",
    "C61_scalar",
    "C61_nan",
    "C61_infinite"
   ],
   "note": "All shapes and numbers of hyperplanes and points; infinite coordinates included for one hyperplane and one point."
  },
  {
   "property": "C62",
   "status": "partial",
   "theorems": [
    "C62_is_parallel",
    "C62_sizes",
    "C62_only_parallel_refuted",
    "C62_one_many",
    "C62_many_one",
    "C62_shapes"
   ],
   "note": "FALSE of the code: np.max of the comparison instead of the comparison of np.max makes one agreeing coordinate enough, so orthogonal hyperplanes in dimension 3 or more are reported parallel (refuted theorem). Collinear normals are always reported, and what is decided is characterised exactly."
  },
  {
   "property": "C63",
   "status": "partial",
   "theorems": [
    "C63_sim_diag",
    "C63_sim_diag_psd",
    "C63_sim_diag_rejects_a",
    "C63_sim_diag_rejects_b",
    "C63_sim_diag_rejects_sizes",
    "C63_sim_diag_indefinite_refuted",
    "C63_valign",
    "C63_valign_scalar_refuted"
   ],
   "note": "FALSE of the code in two corners: B with opposite generalised eigenvalues (T B T^T need not be diagonal) and one-coordinate vectors (IndexError); proved everywhere else, in particular for positive semidefinite B and all vectors with two or more coordinates."
  },
  {
   "property": "C64",
   "status": "proved",
   "theorems": [
    "C64_raises",
    "C64_heading_unique",
    "C64_steps",
    "C64_warn",
    "C64_mode",
    "C64_default"
   ],
   "note": "Names are ASCII. Raising is proved for the default throw=True; throw=False returns the exception (C64_steps)."
  },
  {
   "property": "C65",
   "status": "partial",
   "theorems": [
    "C65_inv",
    "C65_pinv",
    "C65_single_matrix",
    "C65_sqrtm_pos_partial",
    "C65_sqrtm_pos_scalar_refuted",
    "C65_pinv_matrix_refuted"
   ],
   "note": "FALSE of the code for sqrtm_pos of 1x1 slices (raises) and pinv of a single 2-D matrix (IndexError); proved otherwise."
  },
  {
   "property": "C66",
   "status": "partial",
   "theorems": [
    "C66_make_pos_definite_or_nan",
    "C66_single_matrix_refuted"
   ],
   "note": "Proved for stacks; FALSE of the code for a single 2-D matrix, where the number NaN is returned."
  },
  {
   "property": "C67",
   "status": "partial",
   "theorems": [
    "C67_make_pos_definite_by_eig",
    "C67_result_positive",
    "C67_slices",
    "C67_nonsymmetric_rejected",
    "C67_singular_refuted"
   ],
   "note": "Eigenvector action, psd and identity on psd proved; FALSE that the result is positive definite when a slice is singular."
  },
  {
   "property": "C68",
   "status": "proved",
   "theorems": [
    "C68_from_func",
    "C68_eval_func"
   ],
   "note": "from_formula_mat and from_expression (eval of python text) are not modelled."
  },
  {
   "property": "C69",
   "status": "proved",
   "theorems": [
    "C69_constructor",
    "C69_sound",
    "C69_rejects_normal",
    "C69_rejects_shift",
    "C69_rejects_tolerance",
    "C69_dimension"
   ],
   "note": "Real arrays; the complex case goes through try_treat_as_real, whose properties are C27."
  },
  {
   "property": "C70",
   "status": "proved",
   "theorems": [
    "C70_stats"
   ],
   "note": ""
  },
  {
   "property": "C71",
   "status": "partial",
   "theorems": [
    "C71_values",
    "C71_least",
    "C71_empty",
    "C71_unknown",
    "C71_vectors_fail",
    "C71_vectors_1d",
    "C71_shape_refuted",
    "C71_getters",
    "C71_tolerance",
    "C71_tolerance_models",
    "C71_hyp_values",
    "C71_hyp_least",
    "C71_hyp_names"
   ],
   "note": "FALSE of the code: the values always come in a 1-d array, so the shape of the argument is lost (C71_shape_refuted); center_vec, shape_mat and normal_vec are in the dictionaries but raise ValueError unless the dimension is 1 (C71_vectors_fail, C71_hyp_names); for an empty array unknown names do not raise (C71_empty). Proved: all names, values, minimum and callbacks for the other properties."
  },
  {
   "property": "C72",
   "status": "partial",
   "theorems": [
    "C72_two",
    "C72_one",
    "C72_none",
    "C72_errors",
    "C72_hyp",
    "C72_hyp_rel_refuted"
   ],
   "note": "FALSE of the code for hyperplanes with rel_tol given: the objects get the configured rel_tol (C72_hyp_rel_refuted). Proved for ellipsoids in full (C72_two, C72_one, C72_none, C72_errors) and for the other fields of hyperplanes (C72_hyp)."
  },
  {
   "property": "C73",
   "status": "proved",
   "theorems": [
    "C73_meaning",
    "C73_value",
    "C73_volume",
    "C73_stationary",
    "C73_exchange",
    "C73_singular"
   ],
   "note": ""
  },
  {
   "property": "C74",
   "status": "partial",
   "theorems": [
    "C74_agree",
    "C74_set",
    "C74_outside",
    "C74_refuted",
    "C74_singular_refuted"
   ],
   "note": "FALSE of the code: c_vec @ c_vec.T is a number for the 1-d centre, so the direct method gives the polar exactly if the dimension is 1 or the centre is 0 (C74_agree, C74_set); it may raise LinAlgError (C74_singular_refuted). The clause about the origin outside is proved (C74_outside)."
  },
  {
   "property": "C75",
   "status": "partial",
   "theorems": [
    "C75_space",
    "C75_plane_refuted",
    "C75_few",
    "C75_dim"
   ],
   "note": "FALSE of the code in the plane, where it always raises unless n_plot_2d_points is 2 (C75_plane_refuted); proved in space and for the rejections."
  },
  {
   "property": "C76",
   "status": "partial",
   "theorems": [
    "C76_one",
    "C76_one_direction",
    "C76_pairs",
    "C76_vector_refuted",
    "C76_flat_refuted",
    "C76_sizes",
    "C76_dimensions"
   ],
   "note": "FALSE of the code for a one-dimensional array of ellipsoids paired with as many directions (IndexError, C76_vector_refuted) and for a one-dimensional direction (C76_flat_refuted); proved for all other shapes and the rejections."
  },
  {
   "property": "C77",
   "status": "partial",
   "theorems": [
    "C77_points",
    "C77_plane",
    "C77_inside",
    "C77_bad_refuted"
   ],
   "note": "FALSE of the code when some direction is marked bad: it always raises IndexError (C77_bad_refuted); proved when all are marked good."
  },
  {
   "property": "C78",
   "status": "partial",
   "theorems": [
    "C78_roundtrip",
    "C78_again",
    "C78_is_empty",
    "C78_default",
    "C78_empty_entry_refuted",
    "C78_vanishes_refuted"
   ],
   "note": "FALSE of the code for arrays with an empty entry (C78_empty_entry_refuted: wrongInput:shift); proved for all other arrays. Writing again is proved for dimension at least 2 or tolerances below 1; in dimension 1 with abs_tol at least 1 a hyperplane can come back empty (C78_vanishes_refuted)."
  },
  {
   "property": "C79",
   "status": "proved",
   "theorems": [
    "C79_refines",
    "C79_object",
    "C79_array",
    "C79_ellipsoid",
    "C79_hyperplane"
   ],
   "note": "Arrays are cells of a heap; every program has the results it would have if nothing was shared."
  },
  {
   "property": "C80",
   "status": "proved",
   "theorems": [
    "C80_sublinear",
    "C80_uminus",
    "C80_inside",
    "C80_polar",
    "C80_minksum_ea",
    "C80_minksum_ia",
    "C80_projection",
    "C80_is_bigger",
    "C80_eigenvalues"
   ],
   "note": "Compositions of calls. Hypotheses on degeneracy and conditioning are those of C51-C54 and C76."
  },
  {
   "property": "C81",
   "status": "proved",
   "theorems": [
    "C81_products",
    "C81_transpose",
    "C81_congruence",
    "C81_inverse",
    "C81_inverse_product",
    "C81_root",
    "C81_root_inverse",
    "C81_penrose",
    "C81_pinv",
    "C81_pinv_inv",
    "C81_make_pos_definite",
    "C81_divide"
   ],
   "note": "Compositions of calls on stacks; sqrtm_pos for matrices of size at least 2 as in C65, lr_divide_vec for a number of slices other than 1 as in C15."
  },
  {
   "property": "C82",
   "status": "proved",
   "theorems": [
    "C82_check_is_me",
    "C82_check_if_scalar",
    "C82_np_array",
    "C82_ragged"
   ],
   "note": "Objects are of an arbitrary type with an isinstance predicate; lists that contain arrays are not modelled."
  },
  {
   "property": "C83",
   "status": "partial",
   "theorems": [
    "C83_lines",
    "C83_once_partial",
    "C83_same_caller",
    "C83_once_refuted"
   ],
   "note": "FALSE of the code: get_logger adds a handler at every call, so the k-th warning of a function is written k times (C83_once_refuted). C83_lines is the exact number for every sequence of warnings."
  },
  {
   "property": "C84",
   "status": "partial",
   "theorems": [
    "C84_reflexive",
    "C84_shapes",
    "C84_transitive_partial",
    "C84_antisymmetric",
    "C84_projection",
    "C84_transitive_refuted"
   ],
   "note": "Exact transitivity is FALSE of the code (C84_transitive_refuted): the tolerance 1 + abs_tol accumulates. C84_transitive_partial gives the exact band; everything else is proved. Degeneracy and conditioning hypotheses as in C54."
  },
  {
   "property": "C85",
   "status": "partial",
   "theorems": [
    "C85_reverse",
    "C85_reverse_refuted",
    "C85_scale",
    "C85_haus_symmetric",
    "C85_axes",
    "C85_qr_agrees",
    "C85_qr_reverse",
    "C85_same_direction",
    "C85_opposite_refuted"
   ],
   "note": "Two clauses are FALSE of the code: reversal for angles with a sine in (0, 1e-7] (C85_reverse_refuted) and agreement of orth_transl_qr with the others on opposite directions (C85_opposite_refuted). The rest is proved; qr_ok is the contract of numpy.linalg.qr."
  },
  {
   "property": "C86",
   "status": "proved",
   "theorems": [
    "C86_characterised",
    "C86_again",
    "C86_scale",
    "C86_axes",
    "C86_commute",
    "C86_product",
    "C86_monotone",
    "C86_det"
   ],
   "note": "eigh_ok is the contract of numpy.linalg.eigh; matrices are non-empty."
  },
  {
   "property": "C87",
   "status": "partial",
   "theorems": [
    "C87_neg_twice",
    "C87_neg_both",
    "C87_neg_self",
    "C87_hyp_neg",
    "C87_eq_transitive_refuted",
    "C87_ne_refuted",
    "C87_arithmetic_refuted"
   ],
   "note": "Several clauses are FALSE of the code: != always raises TypeError, the order and arithmetic operators always raise AttributeError (their class methods are stubs), == is not transitive. The laws of - and == are proved; C87_neg_both is for objects with the configured tolerances, C87_hyp_neg for hyperplanes off the origin."
  },
  {
   "property": "C88",
   "status": "partial",
   "theorems": [
    "C88_volume",
    "C88_volume_tolerance_refuted",
    "C88_eigenvalues",
    "C88_bigger",
    "C88_inverse"
   ],
   "note": "The volume clause is FALSE of the code for a containing ellipsoid with a larger abs_tol than the contained one; proved for t2 <= t1. All other clauses are proved without restriction."
  },
  {
   "property": "C89",
   "status": "partial",
   "theorems": [
    "C89_sandwich_partial",
    "C89_order",
    "C89_scale"
   ],
   "note": "The order and scaling clauses are proved for all non-zero directions and all families, degenerate ones included. The containment is for non-degenerate ellipsoids and directions meeting the angle condition of C52; without it the inner ellipsoid is only inside the sum enlarged by sqrt(1 + 1e-14)."
  },
  {
   "property": "C90",
   "status": "proved",
   "theorems": [
    "C90_antitone",
    "C90_neg",
    "C90_centred"
   ],
   "note": "For one-element arrays, the only ones polar accepts (C53)."
  },
  {
   "property": "C91",
   "status": "partial",
   "theorems": [
    "C91_reflexive",
    "C91_symmetric_partial",
    "C91_lines",
    "C91_uminus",
    "C91_symmetric_refuted",
    "C91_transitive_refuted"
   ],
   "note": "Symmetry for different tolerances and transitivity are FALSE of the code, with witnesses. Reflexivity, symmetry for equal tolerances and independence of lengths, signs and shifts are proved."
  },
  {
   "property": "C92",
   "status": "partial",
   "theorems": [
    "C92_convex",
    "C92_shift",
    "C92_foot",
    "C92_disjoint",
    "C92_scale_partial",
    "C92_scale_refuted"
   ],
   "note": "Independence of the length of the normal is FALSE of the code (witness: twice the normal and shift); it holds if abs_tol is multiplied as well. Convexity, moves along the hyperplane, the foot of the perpendicular and disjointness are proved."
  },
  {
   "property": "C93",
   "status": "proved",
   "theorems": [
    "C93_all_any",
    "C93_convex",
    "C93_centre",
    "C93_mirror"
   ],
   "note": ""
  }
 ]
}