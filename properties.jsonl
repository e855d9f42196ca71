{"id": "C01", "title": "Configuration reads return the last write", "statement": "After any sequence of Properties.init() and Properties.set_*(v) calls, every Properties.get_*() returns the value of the last set_* of that same property since the last init(), or the documented default if there was none; setting one property never changes another.", "quantifier": "all finite histories of init/set calls and all property values", "why_tests_cant": "histories are unbounded; tests run a handful", "anchors": ["products/ellipy/elltool/conf/properties/Properties.py:Properties.init", "products/ellipy/elltool/conf/properties/Properties.py:Properties.set_*/get_*"]}
{"id": "C02", "title": "Snapshot isolation of get_prop_dict", "statement": "The dict returned by Properties.get_prop_dict() is a snapshot: later set_*/init calls do not change it, and writing into it does not change what any get_* returns.", "quantifier": "all histories of setter calls and client writes into earlier snapshots", "why_tests_cant": "aliasing must be excluded for every interleaving", "anchors": ["products/ellipy/elltool/conf/properties/Properties.py:Properties.get_prop_dict"]}
{"id": "C03", "title": "parse_prop: value source and residual arguments", "statement": "parse_prop(args, names) returns, for each requested name in order, args[name] if supplied and valid, and otherwise the current global value; it also returns the arguments that are not requested, unchanged and in order; an unknown name, or an invalid value, raises; the caller's args dict and the global configuration are never modified.", "quantifier": "all argument dicts, all duplicate-free name lists, all configuration states", "why_tests_cant": "infinite input space; error precedence and non-mutation are universal claims", "anchors": ["products/ellipy/elltool/conf/properties/_ParseProp.py:parse_prop"]}
{"id": "C04", "title": "parse_prop works with the default configuration", "statement": "Called with no requested names after Properties.init(), parse_prop returns the default value of every property (no property of the shipped default configuration is rejected by its own validator).", "quantifier": "all argument dicts", "why_tests_cant": "the validator table and the defaults must agree for every property, whichever subset is overridden", "anchors": ["products/ellipy/elltool/conf/properties/_ParseProp.py:parse_prop", "products/ellipy/elltool/conf/properties/Properties.py:Properties.__DEFAULT_*"]}
{"id": "C05", "title": "is_member marks exactly the members and gives first positions", "statement": "is_member(a, b) returns a boolean mask that is True exactly at the elements of a that occur in b, and an index vector with one entry per member of a, in order, giving that element's first position in b.", "quantifier": "all pairs of lists of any length with repetitions", "why_tests_cant": "universal over lists", "anchors": ["products/ellipy/gen/common/common.py:is_member"]}
{"id": "C06", "title": "abs_rel_compare decides the documented elementwise relation", "statement": "For arrays of equal shape abs_rel_compare returns True iff at every index the two values are both non-finite in the same way, or their absolute difference is at most abs_tol, or (when rel_tol is given) their difference relative to the mean magnitude is at most rel_tol; the reported absolute difference is the largest one; arrays of different shape and illegal tolerances raise the documented errors.", "quantifier": "all arrays of all shapes, all tolerances", "why_tests_cant": "real-valued inputs, all sizes; the vectorised max/any reductions must equal the pointwise definition", "anchors": ["products/ellipy/gen/common/common.py:abs_rel_compare"]}
{"id": "C07", "title": "abs_rel_compare is symmetric, reflexive and monotone", "statement": "abs_rel_compare(x, y, ...) and abs_rel_compare(y, x, ...) give the same verdict and the same reported differences; abs_rel_compare(x, x, ...) is True; enlarging a tolerance never turns True into False.", "quantifier": "all arrays and tolerances", "why_tests_cant": "relational property over pairs of inputs", "anchors": ["products/ellipy/gen/common/common.py:abs_rel_compare"]}
{"id": "C08", "title": "dict_compare is reflexive and independent of key order", "statement": "dict_compare(d, d) is True with an empty report, for every dict of supported values; permuting the keys of either dict does not change the verdict.", "quantifier": "all (nested) dicts of strings, numeric arrays, lists and dicts", "why_tests_cant": "recursive data, unbounded nesting", "anchors": ["products/ellipy/gen/dict/dict.py:dict_compare", "products/ellipy/gen/dict/dict.py:dict_compare_vec"]}
{"id": "C09", "title": "dict_compare is symmetric", "statement": "dict_compare(x, y) and dict_compare(y, x) give the same verdict.", "quantifier": "all pairs of nested dicts of supported values", "why_tests_cant": "relational over all nested inputs; fails for list-valued fields", "anchors": ["products/ellipy/gen/dict/dict.py:dict_compare"]}
{"id": "C10", "title": "dict_compare soundness and completeness", "statement": "dict_compare(x, y, abs_tol, rel_tol) is True iff x and y have the same keys and every pair of leaf values agrees (equal strings, numeric arrays within tolerance), recursively; the report is non-empty iff the verdict is False.", "quantifier": "all nested dicts", "why_tests_cant": "recursive data, unbounded nesting", "anchors": ["products/ellipy/gen/dict/dict.py:dict_compare_vec"]}
{"id": "C11", "title": "sort_rows_tol returns a sorted rearrangement with inverse permutations", "statement": "sort_rows_tol(a, tol) returns (b, ind, ind_inv): b[k] = a[ind[k]] for every row, ind is a permutation of the row numbers, ind_inv is its inverse (so b[ind_inv] == a); rows are ordered by the first column that separates them (two values of a column are separated when a gap wider than tol lies between them), rows no column separates keep their input order; with tol = 0 this is the lexicographic order. The result does not depend on how np.argsort breaks ties.", "quantifier": "all real matrices of any size, all tolerances >= 0 and all valid argsort results", "why_tests_cant": "all sizes/values; ties within tol", "anchors": ["products/ellipy/gras/gen/gen.py:sort_rows_tol"]}
{"id": "C12", "title": "sqrt_pos total behaviour", "statement": "sqrt_pos(x, abs_tol) raises when x has an element below -abs_tol, and otherwise returns an array of the same shape whose elements are nonnegative, square to the corresponding nonnegative elements of x, and are 0 where x is in [-abs_tol, 0).", "quantifier": "all real arrays and abs_tol >= 0", "why_tests_cant": "all values incl. boundary -abs_tol", "anchors": ["products/ellipy/gras/gen/gen.py:sqrt_pos"]}
{"id": "C13", "title": "mat_dot is the normalised trace inner product", "statement": "mat_dot(a, b) is symmetric, bilinear, and positive definite (mat_dot(a,a) >= 0 with equality iff a = 0).", "quantifier": "all real square matrices of equal shape (and stacks of them)", "why_tests_cant": "algebraic law over all matrices", "anchors": ["products/ellipy/gras/gen/gen.py:mat_dot"]}
{"id": "C14", "title": "MatVector multiplications act slice by slice, sparse or dense", "statement": "MatVector.r_multiply(a, b[, c]) and r_multiply_by_vec(a, b) return an array whose k-th slice is the matrix product of the k-th slices (a constant factor being used for every slice); switching use_sparse_matrix on or off does not change the result.", "quantifier": "all slice counts, all dimensions, all values", "why_tests_cant": "block-diagonal assembly must agree with slicewise products for all sizes", "anchors": ["products/ellipy/gras/gen/gen.py:MatVector.r_multiply", "products/ellipy/gras/gen/gen.py:MatVector.r_multiply_by_vec"]}
{"id": "C15", "title": "SquareMatVector.lr_multiply is the congruence A B A^T slice by slice", "statement": "lr_multiply(b, a, flag) has k-th slice a_k^T b_k a_k ('R') or a_k b_k a_k^T ('L'), any other flag raises; symmetric slices stay symmetric and positive semi-definite slices stay positive semi-definite; lr_multiply_by_vec(b, x) gives x_k^T b_k x_k and lr_divide_vec(b, x) gives x_k^T b_k^-1 x_k for invertible b_k.", "quantifier": "all slice counts, dimensions and values", "why_tests_cant": "algebraic over all matrices", "anchors": ["products/ellipy/gras/gen/gen.py:SquareMatVector.lr_multiply", "products/ellipy/gras/gen/gen.py:SquareMatVector.lr_multiply_by_vec", "products/ellipy/gras/gen/gen.py:SquareMatVector.lr_divide_vec"]}
{"id": "C16", "title": "MatVector.transpose / make_symmetric / triu", "statement": "transpose is an involution; make_symmetric returns symmetric slices, is idempotent and is the identity on symmetric slices; triu keeps exactly the upper triangle.", "quantifier": "all matrix vectors", "why_tests_cant": "all sizes and values", "anchors": ["products/ellipy/gras/gen/gen.py:MatVector.transpose", "products/ellipy/gras/gen/gen.py:MatVector.make_symmetric", "products/ellipy/gras/gen/gen.py:MatVector.triu"]}
{"id": "C17", "title": "SymmetricMatVector SVD products equal the plain products", "statement": "lr_svd_multiply_by_vec(B, a), lr_svd_multiply(A, B), r_svd_multiply_by_vec and lr_svd_divide_vec return the same values as the corresponding SquareMatVector/MatVector operations on symmetric positive definite matrices, whatever eigenvector sign choice the eigen-decomposition makes.", "quantifier": "all symmetric positive definite matrices of all dimensions, all valid eigendecompositions", "why_tests_cant": "the eigendecomposition is not unique, tests see one", "anchors": ["products/ellipy/gras/gen/gen.py:SymmetricMatVector"]}
{"id": "C18", "title": "is_mat_symm / is_mat_pos_def / is_mat_not_deg decide their predicates", "statement": "is_mat_symm(q, tol) is True iff q is square and equal to its transpose up to tol; is_mat_pos_def(q, tol, semi) is True iff all eigenvalues exceed tol (or are >= -tol when semi is set), equivalently the quadratic form is bounded below accordingly; a non-symmetric matrix raises.", "quantifier": "all real matrices and tolerances", "why_tests_cant": "eigenvalue criterion vs quadratic form over all vectors", "anchors": ["products/ellipy/gras/la/la.py:is_mat_symm", "products/ellipy/gras/la/la.py:is_mat_pos_def", "products/ellipy/gras/la/la.py:is_mat_not_deg"]}
{"id": "C19", "title": "orth_transl returns an orthogonal matrix taking src to the direction of dst", "statement": "For nonzero src and dst of equal dimension, orth_transl(src, dst) is an orthogonal matrix O with O @ src = (|src|/|dst|) dst; zero vectors raise.", "quantifier": "all dimensions and all pairs of nonzero vectors with non-negligible sine or exactly (anti)parallel", "why_tests_cant": "all real vectors; the nearly parallel branch", "anchors": ["products/ellipy/gras/la/la.py:orth_transl"]}
{"id": "C20", "title": "orth_transl_haus returns an orthogonal matrix taking src to the direction of dst", "statement": "For nonzero src and dst orth_transl_haus(src, dst) is an orthogonal matrix mapping src to (|src|/|dst|) dst, including when they are exactly parallel.", "quantifier": "all dimensions and vectors", "why_tests_cant": "all real vectors; division by zero at parallel inputs", "anchors": ["products/ellipy/gras/la/la.py:orth_transl_haus"]}
{"id": "C21", "title": "orth_transl_qr returns an orthogonal matrix taking src to the direction of dst", "statement": "For nonzero src and dst orth_transl_qr(src, dst) is orthogonal and maps src to a positive multiple of dst, for every valid QR factorisation.", "quantifier": "all dimensions, vectors, and valid QR outputs (sign conventions)", "why_tests_cant": "QR signs are implementation-defined", "anchors": ["products/ellipy/gras/la/la.py:orth_transl_qr"]}
{"id": "C22", "title": "orth_transl_max_dir maximises the directional criterion", "statement": "orth_transl_max_dir(src, dst, src_max, dst_max) is orthogonal, maps src to the direction of dst and maximises <O src_max, dst_max> among all orthogonal matrices with that property.", "quantifier": "all dimensions and vectors, all competitor orthogonal matrices", "why_tests_cant": "optimality over an infinite set of competitors", "anchors": ["products/ellipy/gras/la/la.py:orth_transl_max_dir"]}
{"id": "C23", "title": "orth_transl_max_tr maximises the trace criterion", "statement": "orth_transl_max_tr(src, dst, A) is orthogonal, maps src to the direction of dst and maximises trace(O A) among all orthogonal matrices with that property, for every valid SVD.", "quantifier": "all dimensions, vectors, matrices, SVDs and competitors", "why_tests_cant": "optimality over an infinite set of competitors", "anchors": ["products/ellipy/gras/la/la.py:orth_transl_max_tr"]}
{"id": "C24", "title": "sqrtm_pos returns the positive semi-definite square root", "statement": "sqrtm_pos(q, tol) for symmetric q returns a symmetric positive semi-definite S with S @ S = q when q is positive semi-definite, for every valid eigendecomposition; it raises iff q has an eigenvalue below -tol.", "quantifier": "all symmetric matrices, all dimensions, all valid eigendecompositions", "why_tests_cant": "eigendecomposition non-unique; all matrices", "anchors": ["products/ellipy/gras/la/la.py:sqrtm_pos"]}
{"id": "C25", "title": "reg_pos_def_mat returns a symmetric matrix bounded below by the tolerance", "statement": "reg_pos_def_mat(m, tol) returns symmetric r with x^T r x >= tol |x|^2 for all x, equal to m when m already satisfies this; a non-symmetric input or non-positive tol raises.", "quantifier": "all symmetric matrices and tolerances", "why_tests_cant": "quadratic-form bound for all x", "anchors": ["products/ellipy/gras/la/la.py:reg_pos_def_mat"]}
{"id": "C26", "title": "reg_mat bounds the singular values from below", "statement": "reg_mat(m, tol) returns a matrix with |r x| >= tol |x| for all x, equal to m if m already satisfies this.", "quantifier": "all square matrices, all valid SVDs", "why_tests_cant": "all x and all SVDs", "anchors": ["products/ellipy/gras/la/la.py:reg_mat"]}
{"id": "C27", "title": "try_treat_as_real never silently drops a large imaginary part", "statement": "try_treat_as_real(x, tol) returns the real part exactly when the norm of the imaginary part is below tol and raises otherwise; real inputs are returned unchanged.", "quantifier": "all complex arrays and tolerances", "why_tests_cant": "all values incl. boundary", "anchors": ["products/ellipy/gras/la/la.py:try_treat_as_real"]}
{"id": "C28", "title": "mat_orth / math_orth_col / ml_orth_transl", "statement": "mat_orth(m) is an orthogonal matrix whose leading columns span a space containing the columns of m; math_orth_col returns those leading columns; ml_orth_transl applies orth_transl column by column and slice by slice.", "quantifier": "all full-column-rank matrices, all valid QR outputs", "why_tests_cant": "all matrices / factorisations", "anchors": ["products/ellipy/gras/la/la.py:mat_orth", "products/ellipy/gras/la/la.py:math_orth_col", "products/ellipy/gras/la/la.py:ml_orth_transl"]}
{"id": "C29", "title": "rho_mat gives the support function and a maximiser", "statement": "For a symmetric positive semi-definite shape Q and centre c, rho_mat(Q, L, tol, c) returns for each column l of L the value max{<l,x> : x in E(c,Q)} and a point of E(c,Q) where it is attained.", "quantifier": "all dimensions, shapes (degenerate too), directions and points x", "why_tests_cant": "maximum over an infinite set; one-column and many-column code paths must agree", "anchors": ["products/ellipy/gras/geom/ell/ell.py:rho_mat", "products/ellipy/elltool/core/ellipsoid/Ellipsoid.py:Ellipsoid.rho"]}
{"id": "C30", "title": "quad_mat evaluates the quadratic form in all three modes", "statement": "quad_mat(q, x, c, mode) returns (x-c)^T q (x-c) for 'plain' and (x-c)^T q^-1 (x-c) for 'inv'/'invadv' (case-insensitive) for invertible q, whether x and c are passed as rows, columns or 1-D arrays; mismatched shapes raise the documented tags.", "quantifier": "all dimensions, layouts and values", "why_tests_cant": "all shapes/layout combinations", "anchors": ["products/ellipy/gras/geom/ell/ell.py:quad_mat"]}
{"id": "C31", "title": "inv_mat is the two-sided inverse", "statement": "inv_mat(q) @ q = q @ inv_mat(q) = I for every invertible q; non-square or non-2-D input raises.", "quantifier": "all invertible matrices", "why_tests_cant": "all matrices", "anchors": ["products/ellipy/gras/geom/ell/ell.py:inv_mat"]}
{"id": "C32", "title": "ell_volume equals Ellipsoid.volume", "statement": "ell_volume(Q) and Ellipsoid.volume agree: both are the volume of the unit ball of that dimension times sqrt(det Q) (0 for degenerate ellipsoids), for even and odd dimensions.", "quantifier": "all dimensions and shapes", "why_tests_cant": "parity-dependent closed formula must agree with the gamma-function formula in every dimension", "anchors": ["products/ellipy/gras/geom/ell/ell.py:ell_volume", "products/ellipy/elltool/core/aellipsoid/AEllipsoid.py:AEllipsoid.volume"]}
{"id": "C33", "title": "sup_2_boundary_2/3 return the tangent-line/plane intersections", "statement": "Each returned boundary point satisfies all its 2 (resp. 3) supporting equations <l_i, x> = sup_i exactly, cyclically closing in 2-D, whenever the directions are linearly independent.", "quantifier": "all direction sets and support values", "why_tests_cant": "all sizes/values; wraparound", "anchors": ["products/ellipy/gras/geom/sup/sup.py:sup_2_boundary_2", "products/ellipy/gras/geom/sup/sup.py:sup_2_boundary_3"]}
{"id": "C34", "title": "sup_geom_diff_2d/3d validation and index safety", "statement": "sup_geom_diff_2d/3d never fail with an index error on valid inputs: they either raise a documented wrongInput/wrongState error or return one value per direction that does not exceed rho1 - rho2.", "quantifier": "all direction sets, support vectors and hull orientations", "why_tests_cant": "hull facet wraparound position depends on input", "anchors": ["products/ellipy/gras/geom/sup/sup.py:sup_geom_diff_2d", "products/ellipy/gras/geom/sup/sup.py:sup_geom_diff_3d"]}
{"id": "C35", "title": "ell_tube_2_tri: every tube cell is covered, indices valid", "statement": "ell_tube_2_tri(n_e, n_p) returns 2*n_e*(n_p-1) triangles with indices in range whose union covers each quadrilateral cell of the tube, including the wraparound cell, exactly once.", "quantifier": "all n_e >= 1, n_p >= 1", "why_tests_cant": "all sizes", "anchors": ["products/ellipy/gras/geom/tri/tri.py:ell_tube_2_tri", "products/ellipy/gras/geom/tri/tri.py:ell_tube_discr_tri"]}
{"id": "C36", "title": "face/edge maps are mutually consistent", "statement": "map_face_2_edge(f) returns edges that are distinct, sorted pairs, exactly the vertex pairs of faces; and for each face and each of its three sides the recorded edge index and direction flag reproduce that side's vertex pair.", "quantifier": "all face lists without repeated vertices in a face", "why_tests_cant": "all meshes", "anchors": ["products/ellipy/gras/geom/tri/tri.py:map_face_2_edge", "products/ellipy/gras/geom/tri/tri.py:get_face_edge_info"]}
{"id": "C37", "title": "shrink_face_tri keeps face/edge bookkeeping consistent", "statement": "The edge list, face-to-edge map and direction flags returned by shrink_face_tri(..., is_stat_collected=True) describe the returned faces: each face side's recorded edge and direction reproduce its vertex pair, after any number of refinement steps, for any subset of refined faces.", "quantifier": "all meshes, edge-length thresholds, adjust functions and step counts", "why_tests_cant": "partial refinement followed by another step is never exercised by tests", "anchors": ["products/ellipy/gras/geom/tri/tri.py:shrink_face_tri"]}
{"id": "C38", "title": "shrink_face_tri is watertight", "statement": "Refining a closed consistently oriented surface gives a closed consistently oriented surface: every directed edge of the result occurs in exactly one face and its reverse in exactly one face.", "quantifier": "all closed oriented meshes without two faces on the same three vertices, full refinements of any depth", "why_tests_cant": "all meshes/depths", "anchors": ["products/ellipy/gras/geom/tri/tri.py:shrink_face_tri"]}
{"id": "C39", "title": "shrink_face_tri never deletes or moves vertices, and stops only when done", "statement": "Original vertices keep their indices and coordinates; new vertices are adjusted edge midpoints; when the function returns before the step limit, all remaining faces' edges are no longer than the limit.", "quantifier": "all meshes, thresholds, step limits", "why_tests_cant": "all executions of the while loop", "anchors": ["products/ellipy/gras/geom/tri/tri.py:shrink_face_tri"]}
{"id": "C40", "title": "sphere_tri: counts, closedness, unit vertices, orientation", "statement": "sphere_tri(d) has 10*4^d+2 vertices on the unit sphere and 20*4^d triangles forming a closed, outward oriented surface (each directed edge used once, Euler characteristic 2).", "quantifier": "all depths d >= 0", "why_tests_cant": "unbounded depth", "anchors": ["products/ellipy/gras/geom/tri/tri.py:sphere_tri", "products/ellipy/gras/geom/tri/tri.py:icosahedron"]}
{"id": "C41", "title": "sphere_tri_ext picks the least sufficient depth", "statement": "sphere_tri_ext(3, n) uses the least depth >= 1 giving at least n points, for every n >= 1; sphere_tri_ext(2, n) gives n points on the unit circle with a single cycle of edges.", "quantifier": "all n >= 1", "why_tests_cant": "floor/log arithmetic at every n", "anchors": ["products/ellipy/gras/geom/tri/tri.py:sphere_tri_ext"]}
{"id": "C42", "title": "is_face recognises faces up to vertex order", "statement": "is_face(f, g) is True at k iff some row of f has the same set of vertices as g[k].", "quantifier": "all face lists", "why_tests_cant": "all meshes", "anchors": ["products/ellipy/gras/geom/tri/tri.py:is_face"]}
{"id": "C43", "title": "is_tri_equal is an equivalence check under renumbering", "statement": "is_tri_equal(v, f, v, f, tol) is True, and the verdict is unchanged when vertices are renumbered and faces are permuted.", "quantifier": "all meshes and renumberings", "why_tests_cant": "all permutations", "anchors": ["products/ellipy/gras/geom/tri/tri.py:is_tri_equal"]}
{"id": "C44", "title": "circle_part gives equally spaced unit vectors", "statement": "circle_part(n) returns n points, each on the unit circle, with consecutive points related by the same rotation and the wraparound closing; return_apart returns the same coordinates.", "quantifier": "all n >= 1 and angle ranges", "why_tests_cant": "all n", "anchors": ["products/ellipy/gras/geom/geom.py:circle_part"]}
{"id": "C45", "title": "sphere_part returns n points of the deduplicated direction set", "statement": "sphere_part(n) returns exactly n rows, each a unit vector of the sphere grid; n <= 0 raises. (Distinctness of the rows is not guaranteed.)", "quantifier": "all n >= 1", "why_tests_cant": "all n; argmin ties", "anchors": ["products/ellipy/gras/geom/geom.py:sphere_part"]}
{"id": "C46", "title": "is_dependent detects exactly the whole-word variable", "statement": "is_dependent(m) is True iff some entry contains t (k when is_discrete) as a whole token, i.e. an occurrence not adjacent to a letter, digit or underscore.", "quantifier": "all string matrices", "why_tests_cant": "all strings", "anchors": ["products/ellipy/gras/sym/sym.py:is_dependent"]}
{"id": "C47", "title": "var_replace replaces exactly the whole-word occurrences", "statement": "var_replace(m, from, to) removes blanks and replaces exactly the whole-word occurrences of from by '(to)', leaving all else unchanged; entries without such an occurrence are unchanged apart from blanks.", "quantifier": "all string matrices and identifiers from", "why_tests_cant": "all strings", "anchors": ["products/ellipy/gras/sym/sym.py:var_replace"]}
{"id": "C48", "title": "Ellipsoid constructor accepts exactly the valid data", "statement": "Ellipsoid(c, Q) succeeds iff Q is square, symmetric and positive semi-definite (up to abs_tol), and c is a vector of matching dimension; the accepted object reports exactly these data.", "quantifier": "all arrays", "why_tests_cant": "all shapes/values", "anchors": ["products/ellipy/elltool/core/ellipsoid/Ellipsoid.py:Ellipsoid.__init__", "products/ellipy/elltool/core/ellipsoid/Ellipsoid.py:Ellipsoid._shape_mat.setter"]}
{"id": "C49", "title": "Copies are independent", "statement": "get_copy and rep_mat return fresh objects equal in value to the source; later in-place operations on a copy (projection, field writes) never affect the source or the other copies.", "quantifier": "all arrays of ellipsoids and all subsequent histories of in-place operations", "why_tests_cant": "aliasing over all histories", "anchors": ["products/ellipy/elltool/core/abasicellipsoid/ABasicEllipsoid.py:get_copy", "products/ellipy/elltool/core/abasicellipsoid/ABasicEllipsoid.py:rep_mat", "products/ellipy/elltool/core/ellipsoid/Ellipsoid.py:Ellipsoid.get_projection"]}
{"id": "C50", "title": "projection is the image of the set", "statement": "For an orthonormal basis B, projection(E, B) is the ellipsoid whose support function in direction l is that of E in direction B l; a basis that is not orthogonal is rejected; get_projection leaves its argument unchanged.", "quantifier": "all ellipsoids, bases, directions", "why_tests_cant": "all real matrices", "anchors": ["products/ellipy/elltool/core/aellipsoid/AEllipsoid.py:AEllipsoid.projection", "products/ellipy/elltool/core/ellipsoid/Ellipsoid.py:Ellipsoid.get_projection"]}
{"id": "C51", "title": "minksum_ea is an external tight approximation", "statement": "minksum_ea(E_1..E_k, L) contains the Minkowski sum, and touches it in direction l: its support function dominates the sum of support functions in all directions with equality at l.", "quantifier": "all k, dimensions, shapes, directions", "why_tests_cant": "inequality over all directions", "anchors": ["products/ellipy/elltool/core/ellipsoid/Ellipsoid.py:Ellipsoid.minksum_ea"]}
{"id": "C52", "title": "minksum_ia is an internal tight approximation", "statement": "minksum_ia(E_1..E_k, L) is contained in the Minkowski sum with equality of support functions at l.", "quantifier": "all k, dimensions, shapes, directions", "why_tests_cant": "inequality over all directions", "anchors": ["products/ellipy/elltool/core/ellipsoid/Ellipsoid.py:Ellipsoid.minksum_ia"]}
{"id": "C53", "title": "polar is the polar set", "statement": "For a non-degenerate ellipsoid with 0 in its interior, polar returns the ellipsoid of all y with <x,y> <= 1 for all x in E; the polar of the polar is E.", "quantifier": "all ellipsoids, dimensions, points", "why_tests_cant": "set equality over infinite sets", "anchors": ["products/ellipy/elltool/core/ellipsoid/Ellipsoid.py:Ellipsoid.polar", "products/ellipy/elltool/core/ellipsoid/Ellipsoid.py:Ellipsoid._get_scalar_polar_internal"]}
{"id": "C54", "title": "is_bigger decides containment of centred ellipsoids", "statement": "is_bigger(E1, E2) is True iff, with both translated to the origin, E2 is contained in E1 (for non-degenerate E1).", "quantifier": "all pairs of ellipsoids", "why_tests_cant": "containment over infinite sets", "anchors": ["products/ellipy/elltool/core/ellipsoid/Ellipsoid.py:Ellipsoid.is_bigger", "products/ellipy/elltool/core/core.py:ell_sim_diag"]}
{"id": "C55", "title": "is_internal decides membership", "statement": "is_internal(E, x) is True iff (x-c)^T Q^-1 (x-c) <= 1 up to the absolute tolerance; for degenerate E the regularised shape is used; mode 'u'/'i' quantifies over the ellipsoid array as any/all.", "quantifier": "all ellipsoid arrays and points", "why_tests_cant": "all values", "anchors": ["products/ellipy/elltool/core/ellipsoid/Ellipsoid.py:Ellipsoid.is_internal"]}
{"id": "C56", "title": "boundary points lie on the boundary", "statement": "Every point returned by get_boundary / get_boundary_by_factor / get_rho_boundary lies on the boundary: (x-c)^T Q^-1 (x-c) = 1 for non-degenerate E.", "quantifier": "all ellipsoids in dimension 2 and 3 and all grid sizes", "why_tests_cant": "all sizes/values", "anchors": ["products/ellipy/elltool/core/ellipsoid/Ellipsoid.py:Ellipsoid.get_boundary", "products/ellipy/elltool/core/ellipsoid/Ellipsoid.py:Ellipsoid.get_rho_boundary", "products/ellipy/elltool/core/ellipsoid/Ellipsoid.py:Ellipsoid.get_boundary_by_factor"]}
{"id": "C57", "title": "dimension / is_degenerate / trace / min_eig / max_eig", "statement": "dimension returns the dimension and rank; is_degenerate is rank deficiency; min_eig and max_eig bound the Rayleigh quotient tightly; trace is the sum of eigenvalues; empty ellipsoids raise.", "quantifier": "all ellipsoid arrays", "why_tests_cant": "all matrices", "anchors": ["products/ellipy/elltool/core/aellipsoid/AEllipsoid.py:AEllipsoid.dimension", "products/ellipy/elltool/core/aellipsoid/AEllipsoid.py:AEllipsoid.is_degenerate", "products/ellipy/elltool/core/aellipsoid/AEllipsoid.py:AEllipsoid.min_eig", "products/ellipy/elltool/core/aellipsoid/AEllipsoid.py:AEllipsoid.trace"]}
{"id": "C58", "title": "uminus reflects the set", "statement": "uminus negates the centre and keeps the shape; applying it twice gives back the same ellipsoids; the input is not modified. For hyperplanes likewise: x in H iff -x in uminus(H).", "quantifier": "all arrays", "why_tests_cant": "all values", "anchors": ["products/ellipy/elltool/core/ellipsoid/Ellipsoid.py:Ellipsoid.uminus", "products/ellipy/elltool/core/hyperplane/Hyperplane.py:Hyperplane.uminus"]}
{"id": "C59", "title": "to_dict / from_dict round trip", "statement": "Ellipsoid.from_dict(Ellipsoid.to_dict(E)[0][i]) gives an ellipsoid with the same centre, shape and tolerances; the hyperplane dict is canonical: scaling normal and shift by the same positive number yields the same dict.", "quantifier": "all ellipsoids/hyperplanes", "why_tests_cant": "all values", "anchors": ["products/ellipy/elltool/core/ellipsoid/Ellipsoid.py:Ellipsoid.to_dict", "products/ellipy/elltool/core/ellipsoid/Ellipsoid.py:Ellipsoid.from_dict", "products/ellipy/elltool/core/hyperplane/Hyperplane.py:Hyperplane.to_dict"]}
{"id": "C60", "title": "Equality of ellipsoids/hyperplanes is reflexive and symmetric", "statement": "eq(E, E) is True elementwise; eq(E1, E2) == eq(E2, E1) for single objects with equal tolerances; hyperplanes describing the same set compare equal.", "quantifier": "all objects", "why_tests_cant": "relational over all pairs", "anchors": ["products/ellipy/elltool/core/abasicellipsoid/ABasicEllipsoid.py:ABasicEllipsoid._is_equal_internal"]}
{"id": "C61", "title": "Hyperplane.contains decides membership", "statement": "Hyperplane.contains(H, x) is True at i iff |<n_i,x_i> - shift_i| < abs_tol (broadcasting a single hyperplane or a single point), and wrong shapes raise.", "quantifier": "all hyperplane arrays and points", "why_tests_cant": "all values/shapes", "anchors": ["products/ellipy/elltool/core/hyperplane/Hyperplane.py:Hyperplane.contains"]}
{"id": "C62", "title": "Hyperplane.is_parallel is True only for parallel hyperplanes", "statement": "is_parallel(H1, H2) is True iff the normals are collinear.", "quantifier": "all pairs", "why_tests_cant": "all vectors", "anchors": ["products/ellipy/elltool/core/hyperplane/Hyperplane.py:Hyperplane.is_parallel"]}
{"id": "C63", "title": "Simultaneous diagonalisation and alignment helpers", "statement": "ell_sim_diag(A, B) returns T with T A T^T = I and T B T^T diagonal for positive definite A and symmetric B; ell_valign(v, x) is orthogonal and maps x to a positive multiple of v.", "quantifier": "all matrices, all valid SVDs", "why_tests_cant": "all factorizations", "anchors": ["products/ellipy/elltool/core/core.py:ell_sim_diag", "products/ellipy/elltool/core/core.py:ell_valign"]}
{"id": "C64", "title": "throw_error composes the tag from its caller and always raises", "statement": "throw_error(tag, msg) always raises an exception whose text contains the tag after the caller's qualified name with dots replaced by colons.", "quantifier": "all call stacks, tags and messages", "why_tests_cant": "all call stacks", "anchors": ["products/ellipy/gen/common/common.py:throw_error", "products/ellipy/gen/common/common.py:get_caller_name_ext"]}
{"id": "C65", "title": "SquareMatVector.inv / sqrtm_pos and MatVector.pinv act slice by slice", "statement": "inv returns the inverse of every slice and raises LinAlgError when some slice is singular; pinv returns the Moore-Penrose inverse of every slice; sqrtm_pos returns the symmetric positive semi-definite square root of every symmetric positive semi-definite slice, for every valid eigendecomposition.", "quantifier": "all stacks of matrices", "why_tests_cant": "all sizes, values and eigendecompositions", "anchors": ["products/ellipy/gras/gen/gen.py:SquareMatVector.inv", "products/ellipy/gras/gen/gen.py:SquareMatVector.sqrtm_pos", "products/ellipy/gras/gen/gen.py:MatVector.pinv"]}
{"id": "C66", "title": "make_pos_definite_or_nan keeps the good slices and blanks the others", "statement": "make_pos_definite_or_nan returns an array of the same shape whose slice k equals the input slice when that slice (its lower triangle) is positive semi-definite and is NaN throughout otherwise.", "quantifier": "all stacks of square matrices", "why_tests_cant": "quadratic form over all vectors", "anchors": ["products/ellipy/gras/gen/gen.py:SquareMatVector.make_pos_definite_or_nan"]}
{"id": "C67", "title": "make_pos_definite_by_eig replaces negative eigenvalues", "statement": "make_pos_definite_by_eig(a, value) returns for each symmetric slice the symmetric matrix with the same eigenvectors in which every negative eigenvalue is replaced by value; it leaves positive semi-definite slices unchanged and its result is positive definite for value > 0.", "quantifier": "all stacks of symmetric matrices and values, all valid eigendecompositions", "why_tests_cant": "eigendecomposition is not unique", "anchors": ["products/ellipy/gras/gen/gen.py:SquareMatVector.make_pos_definite_by_eig"]}
{"id": "C68", "title": "from_func / eval_func apply a callback slice by slice", "statement": "MatVector.from_func(f, t)[:, :, k] is f(t[k]) (a vector value is taken as a column, a number as a 1 x 1 matrix); eval_func(f, a) applies f to every slice a[:, :, k] in order and collects matrices, scalars or a list as requested.", "quantifier": "all callbacks, argument lists and stacks", "why_tests_cant": "all callbacks", "anchors": ["products/ellipy/gras/gen/gen.py:MatVector.from_func", "products/ellipy/gras/gen/gen.py:MatVector.eval_func"]}
{"id": "C69", "title": "Hyperplane constructor, dimension and is_empty", "statement": "Hyperplane(v, s) accepts every finite vector (1-D, row or column) with a finite number and holds exactly these data and the given or configured tolerances; any other array, shift or non-positive tolerance is refused with its tag. dimension is the size of the normal, except 0 for a one-dimensional hyperplane whose normal and shift both vanish up to abs_tol.", "quantifier": "all arrays", "why_tests_cant": "all values and shapes", "anchors": ["products/ellipy/elltool/core/hyperplane/Hyperplane.py:Hyperplane.__init__", "products/ellipy/elltool/core/hyperplane/Hyperplane.py:Hyperplane.dimension"]}
{"id": "C70", "title": "shrink_face_tri statistics describe the refinement", "statement": "With is_stat_collected the vectors of vertex, face and edge numbers have one entry per pass and the initial one, end with the numbers of the returned mesh, every split edge adds one vertex, and every recorded largest edge length exceeds the limit.", "quantifier": "all meshes, thresholds, adjusting functions that keep the number of rows, step limits", "why_tests_cant": "all executions of the while loop", "anchors": ["products/ellipy/gras/geom/tri/tri.py:shrink_face_tri"]}
{"id": "C71", "title": "get_property returns the values and their minimum", "statement": "get_property(objs, name, f) returns, for every alias of a property, the array of its values over the objects, in an array of the shape of objs, together with f of that array (by default the minimum; nan for an empty array; only the array if f is None); unknown names raise KeyError. get_abs_tol, get_rel_tol, get_n_plot_2d_points and get_n_plot_3d_points are get_property of these properties.", "quantifier": "all arrays of ellipsoids or hyperplanes, all names, all functions f", "why_tests_cant": "all arrays, names and callbacks", "anchors": ["products/ellipy/elltool/core/abasicellipsoid/ABasicEllipsoid.py:ABasicEllipsoid.get_property", "products/ellipy/elltool/core/abasicellipsoid/ABasicEllipsoid.py:ABasicEllipsoid.get_abs_tol", "products/ellipy/elltool/core/aellipsoid/AEllipsoid.py:AEllipsoid.get_n_plot_2d_points"]}
{"id": "C72", "title": "from_rep_mat builds arrays of independent equal objects", "statement": "from_rep_mat(*args, sizes, **kw) returns an array of shape sizes of new, pairwise distinct objects, each equal in all fields to the object the constructor makes from args and kw; existing objects are not changed, an error of the constructor is passed on, and missing, empty, negative or non-integer sizes raise.", "quantifier": "all constructor arguments, sizes and heaps", "why_tests_cant": "object identity over all heaps and sizes", "anchors": ["products/ellipy/elltool/core/ellipsoid/Ellipsoid.py:Ellipsoid.from_rep_mat", "products/ellipy/elltool/core/hyperplane/Hyperplane.py:Hyperplane.from_rep_mat"]}
{"id": "C73", "title": "ell_fusion_lambda is the derivative of the volume of the fusion", "statement": "For ellipsoids <x-q_i, Q_i (x-q_i)> <= 1 and W = a Q1 + (1-a) Q2 invertible, ell_fusion_lambda(a, q1, Q1, q2, Q2, n) vanishes exactly where the volume of the fusion {x : a <x-q1, Q1 (x-q1)> + (1-a) <x-q2, Q2 (x-q2)> <= 1} is stationary in a (if the fusion has interior), it is that derivative up to a factor of known sign, exchanging the ellipsoids and a with 1-a negates it, and a singular W raises LinAlgError.", "quantifier": "all dimensions, centres, symmetric matrices and parameters", "why_tests_cant": "a derivative over all real parameters and all dimensions", "anchors": ["products/ellipy/elltool/core/core.py:ell_fusion_lambda"]}
{"id": "C74", "title": "The two methods of computing the polar agree", "statement": "For a non-degenerate ellipsoid with the origin inside, _get_scalar_polar_internal(False) returns the same ellipsoid as _get_scalar_polar_internal(True), the polar; if the origin is not inside, _get_scalar_polar_internal(False) raises degenerateEllipsoid.", "quantifier": "all dimensions, centres and shape matrices", "why_tests_cant": "equality of sets for all data", "anchors": ["products/ellipy/elltool/core/ellipsoid/Ellipsoid.py:Ellipsoid._get_scalar_polar_internal"]}
{"id": "C75", "title": "_get_grid_by_factor returns a grid of the sphere", "statement": "For an ellipsoid of dimension 2 or 3, _get_grid_by_factor(f) returns the vertices and edges or faces of the grid of sphere_tri_ext with floor(n_plot_points * factor) points, where the factor is the number f or the entry of f for the dimension; other dimensions and numbers of points that are not positive are rejected.", "quantifier": "all ellipsoids, numbers of points and factors", "why_tests_cant": "all factors and grid depths", "anchors": ["products/ellipy/elltool/core/ellipsoid/Ellipsoid.py:Ellipsoid._get_grid_by_factor"]}
{"id": "C76", "title": "Ellipsoid.rho gives support values and points", "statement": "rho(ells, dirs) returns, for every direction in dirs, the maximum of <l, x> over the ellipsoid and a point of the ellipsoid where it is attained: for one ellipsoid and an array of directions of any shape, for several ellipsoids and one direction, and for ellipsoids paired with as many directions, in arrays of the corresponding shapes; other combinations of sizes or dimensions are rejected with wrongInput.", "quantifier": "all arrays of ellipsoids and directions", "why_tests_cant": "maxima over infinite sets for all shapes of arrays", "anchors": ["products/ellipy/elltool/core/ellipsoid/Ellipsoid.py:Ellipsoid.rho"]}
{"id": "C77", "title": "_calc_diff_one_dir gives boundary points of the geometric difference", "statement": "For two ellipsoids and a matrix of directions, _calc_diff_one_dir returns for every direction l a point of the hyperplane <l, x> = rho1(l) - rho2(l) (up to 1e-14), which lies in the geometric difference when l is a good direction; a point closer than 1e-14 to the difference of the centres is replaced by it; the flag is True exactly when the dimension is 3 and all points are the difference of the centres.", "quantifier": "all ellipsoids, directions and marks", "why_tests_cant": "all ellipsoids and directions", "anchors": ["products/ellipy/elltool/core/ellipsoid/Ellipsoid.py:Ellipsoid._calc_diff_one_dir"]}
{"id": "C78", "title": "Arrays of hyperplanes survive to_dict / from_dict", "statement": "Hyperplane.from_dict(Hyperplane.to_dict(arr, is_prop)[0]) returns an array of the same shape whose entries are the same sets with unit normals and non-negative shifts, with the same tolerances if is_prop is True and the configured ones otherwise; writing them again gives the same dictionaries. is_empty marks exactly the entries with one coordinate whose normal and shift vanish up to abs_tol; Hyperplane() is one of them.", "quantifier": "all arrays of hyperplanes", "why_tests_cant": "all arrays, normals, shifts and tolerances", "anchors": ["products/ellipy/elltool/core/hyperplane/Hyperplane.py:Hyperplane.to_dict", "products/ellipy/elltool/core/hyperplane/Hyperplane.py:Hyperplane.from_dict", "products/ellipy/elltool/core/abasicellipsoid/ABasicEllipsoid.py:ABasicEllipsoid.is_empty"]}
{"id": "C79", "title": "Objects do not share arrays with the caller", "statement": "Ellipsoids and hyperplanes behave as values: writing to an array that was passed to a constructor or setter, or that was returned by get_center_vec, get_shape_mat or parameters, or taken from a copy of the object, never changes an object; and no operation on an object changes an array held by the caller. Only the setters of an object and projection in place change it.", "quantifier": "all histories of constructions, copies, setters, projections, getters and writes to arrays", "why_tests_cant": "aliasing over all histories", "anchors": ["products/ellipy/elltool/core/aellipsoid/AEllipsoid.py:AEllipsoid._center_vec", "products/ellipy/elltool/core/ellipsoid/Ellipsoid.py:Ellipsoid._shape_mat", "products/ellipy/elltool/core/hyperplane/Hyperplane.py:Hyperplane._normal_vec", "products/ellipy/elltool/core/ellipsoid/Ellipsoid.py:Ellipsoid.parameters"]}
{"id": "C80", "title": "rho agrees with the other operations on ellipsoids", "statement": "rho(e, .) is positively homogeneous and subadditive; rho(-e, l) = rho(e, -l); rho(get_projection(e, B), l) = rho(e, B l) for orthonormal B; x is in e iff rho(polar(e), x) <= 1; the sum of rho(e_i, d) is at most rho(minksum_ea(es, l), d) and at least rho(minksum_ia(es, l), d), with equality for d = l; the point returned by rho is_internal; is_bigger agrees with the comparison of rho up to the tolerance; min_eig and max_eig bound the squared half-widths rho(e, l) - <l, c>, and trace is their sum along the axes.", "quantifier": "all ellipsoids, directions and dimensions", "why_tests_cant": "laws over infinite sets of directions and compositions of calls", "anchors": ["products/ellipy/elltool/core/ellipsoid/Ellipsoid.py:Ellipsoid.rho", "products/ellipy/elltool/core/ellipsoid/Ellipsoid.py:Ellipsoid.polar", "products/ellipy/elltool/core/ellipsoid/Ellipsoid.py:Ellipsoid.minksum_ea", "products/ellipy/elltool/core/ellipsoid/Ellipsoid.py:Ellipsoid.is_bigger"]}
{"id": "C81", "title": "Algebraic laws of MatVector and SquareMatVector", "statement": "On stacks of matrices: r_multiply with three factors is the product of two bracketed either way, with or without use_sparse_matrix; transpose reverses products; lr_multiply with flag R equals lr_multiply with flag L of the transposed stack and r_multiply(transpose(m), a, m); inv is a two-sided inverse, an involution, and reverses products; sqrtm_pos undoes squaring, squares to its argument and commutes with inv; pinv is an involution, commutes with transpose and is inv on invertible slices; make_pos_definite_by_eig is idempotent; lr_divide_vec(a, v) is lr_multiply_by_vec(inv(a), v).", "quantifier": "all stacks of compatible matrices (invertible, positive definite or symmetric where required), all valid decompositions", "why_tests_cant": "equality of compositions for all data", "anchors": ["products/ellipy/gras/gen/gen.py:MatVector.r_multiply", "products/ellipy/gras/gen/gen.py:SquareMatVector.inv", "products/ellipy/gras/gen/gen.py:SquareMatVector.sqrtm_pos", "products/ellipy/gras/gen/gen.py:MatVector.pinv"]}
{"id": "C82", "title": "The type checks accept exactly the arrays of the class", "statement": "_check_is_me(x, var_name) returns for an object of the class and for every rectangular nested list or array all of whose entries are objects of the class (including the empty ones), and raises the tag, followed by the name of the variable if one is given, for any other argument: other objects, mixed lists, ragged lists; _check_if_scalar accepts exactly those that hold one object; np.array of an accepted list has the shape of the list and the same objects at the same indices.", "quantifier": "all objects, nested lists of any depth and shape, and arrays", "why_tests_cant": "arbitrary nesting", "anchors": ["products/ellipy/elltool/core/abasicellipsoid/ABasicEllipsoid.py:ABasicEllipsoid._check_is_me_internal", "products/ellipy/elltool/core/abasicellipsoid/ABasicEllipsoid.py:ABasicEllipsoid._check_if_scalar"]}
{"id": "C83", "title": "Warnings through get_logger are written once", "statement": "In verbose mode a warning about a degenerate ellipsoid writes each of its messages once, in a line with the qualified name of the function that warns.", "quantifier": "all sequences of warnings and call stacks", "why_tests_cant": "all histories of calls", "anchors": ["products/ellipy/gen/logging/logging.py:get_logger", "products/ellipy/elltool/core/ellipsoid/Ellipsoid.py:Ellipsoid.is_bigger"]}
{"id": "C84", "title": "is_bigger is an order on ellipsoids", "statement": "For non-degenerate well-conditioned ellipsoids is_bigger is reflexive, transitive and antisymmetric up to the tolerance, does not depend on the centres, and is kept by projection on an orthonormal basis.", "quantifier": "all ellipsoids of all dimensions", "why_tests_cant": "chains of comparisons for all data", "anchors": ["products/ellipy/elltool/core/ellipsoid/Ellipsoid.py:Ellipsoid.is_bigger", "products/ellipy/elltool/core/ellipsoid/Ellipsoid.py:Ellipsoid.get_projection"]}
{"id": "C85", "title": "The three orth_transl functions obey the laws of a change of direction", "statement": "For non-zero vectors: orth_transl(dst, src) is the transpose of orth_transl(src, dst); orth_transl_haus(dst, src) is orth_transl_haus(src, dst) and is its own inverse; positive factors on src and dst do not change the results; a change of axes P turns a result O into P O P^T; orth_transl_qr returns the matrix of orth_transl whatever signs the QR routine picks; equal directions give the identity from all three and opposite directions the same matrix from all three.", "quantifier": "all vectors of all dimensions, all orthogonal P, all QR routines", "why_tests_cant": "relations between calls for all vectors", "anchors": ["products/ellipy/gras/la/la.py:orth_transl", "products/ellipy/gras/la/la.py:orth_transl_haus", "products/ellipy/gras/la/la.py:orth_transl_qr"]}
{"id": "C86", "title": "sqrtm_pos is the positive root and respects scaling, axes, products and order", "statement": "sqrtm_pos(M) with tolerance 0 returns S exactly when S is symmetric positive semidefinite with S S = M, whatever eigenvectors the routine picks. It undoes squaring; sqrtm_pos(a^2 M) = a S for a >= 0; sqrtm_pos(P M P^T) = P S P^T for orthogonal P; S commutes with everything M commutes with; the root of a product of commuting matrices is the product of the roots; a bigger M has a bigger root; det S is the root of det M and S is positive definite exactly when M is.", "quantifier": "all matrices of all sizes, all eigenvalue routines", "why_tests_cant": "relations between calls for all matrices", "anchors": ["products/ellipy/gras/la/la.py:sqrtm_pos"]}
{"id": "C87", "title": "The operators of ellipsoids and hyperplanes agree with each other", "statement": "-(-E) == E; (-E == -F) is (E == F); -E == E exactly when the centre is the origin up to the tolerance; -H == H for a hyperplane H; == is transitive; x != y is the negation of x == y; E >= F, E > F, E <= F, E < F, E + b, b + E, E - b, b - E and A * E return values.", "quantifier": "all ellipsoids and hyperplanes", "why_tests_cant": "relations between operators for all objects", "anchors": ["products/ellipy/elltool/core/ellipsoid/Ellipsoid.py:Ellipsoid.__neg__", "products/ellipy/elltool/core/ellipsoid/Ellipsoid.py:Ellipsoid.__ne__", "products/ellipy/elltool/core/ellipsoid/Ellipsoid.py:Ellipsoid.__ge__", "products/ellipy/elltool/core/abasicellipsoid/ABasicEllipsoid.py:ABasicEllipsoid.__eq__", "products/ellipy/elltool/core/aellipsoid/AEllipsoid.py:AEllipsoid.__add__", "products/ellipy/elltool/core/hyperplane/Hyperplane.py:Hyperplane.__neg__", "products/ellipy/elltool/core/hyperplane/Hyperplane.py:Hyperplane.__ne__"]}
{"id": "C88", "title": "Size measures respect inclusion of ellipsoids", "statement": "If E is contained in F then volume(E) <= volume(F), min_eig(E) <= min_eig(F), max_eig(E) <= max_eig(F) and trace(E) <= trace(F), whatever the centres; a positive volume is equal only for E = F; an ellipsoid found bigger by is_bigger has the larger volume up to its tolerance; the volumes of a shape and of its inverse multiply to the squared volume of the unit ball.", "quantifier": "all pairs of ellipsoids", "why_tests_cant": "inclusion of infinite sets and inequalities for all matrices", "anchors": ["products/ellipy/elltool/core/aellipsoid/AEllipsoid.py:AEllipsoid.volume", "products/ellipy/elltool/core/aellipsoid/AEllipsoid.py:AEllipsoid.trace", "products/ellipy/elltool/core/aellipsoid/AEllipsoid.py:AEllipsoid.min_eig", "products/ellipy/elltool/core/aellipsoid/AEllipsoid.py:AEllipsoid.max_eig", "products/ellipy/gras/gen/gen.py:ell_volume", "products/ellipy/gras/gen/gen.py:inv_mat"]}
{"id": "C89", "title": "minksum_ia and minksum_ea agree with each other", "statement": "For any directions l and l2 the ellipsoid of minksum_ia(ells, l) is contained in that of minksum_ea(ells, l2), its volume is not larger and is_bigger finds the outer one bigger; for l = l2 the two touch in the direction l. minksum_ea does not depend on the order of the ellipsoids, nor on the lengths and signs of the directions.", "quantifier": "all families of two or more ellipsoids, all directions", "why_tests_cant": "relations between two approximations for all families and directions", "anchors": ["products/ellipy/elltool/core/ellipsoid/Ellipsoid.py:Ellipsoid.minksum_ia", "products/ellipy/elltool/core/ellipsoid/Ellipsoid.py:Ellipsoid.minksum_ea", "products/ellipy/elltool/core/aellipsoid/AEllipsoid.py:AEllipsoid.volume"]}
{"id": "C90", "title": "polar reverses inclusion and commutes with reflection", "statement": "For ellipsoids E, F that polar accepts: E is contained in F exactly when polar(F) is contained in polar(E), and then volume(polar(F)) <= volume(polar(E)); polar(-E) is -polar(E); for a centre at the origin min_eig(E) * max_eig(polar(E)) = max_eig(E) * min_eig(polar(E)) = 1 and ell_volume of the two shapes multiply to the squared volume of the unit ball.", "quantifier": "all non-degenerate ellipsoids with the origin inside", "why_tests_cant": "relations between infinite sets for all pairs of ellipsoids", "anchors": ["products/ellipy/elltool/core/ellipsoid/Ellipsoid.py:Ellipsoid.polar", "products/ellipy/elltool/core/ellipsoid/Ellipsoid.py:Ellipsoid.uminus", "products/ellipy/elltool/core/aellipsoid/AEllipsoid.py:AEllipsoid.volume", "products/ellipy/elltool/core/aellipsoid/AEllipsoid.py:AEllipsoid.min_eig", "products/ellipy/elltool/core/aellipsoid/AEllipsoid.py:AEllipsoid.max_eig", "products/ellipy/gras/gen/gen.py:ell_volume"]}
{"id": "C91", "title": "Hyperplane.is_parallel is an equivalence of directions", "statement": "is_parallel is reflexive, symmetric and transitive; its answers do not depend on the lengths and signs of the normals nor on the shifts, and are unchanged by uminus of either argument.", "quantifier": "all arrays of hyperplanes", "why_tests_cant": "relations between the answers of different calls for all normals", "anchors": ["products/ellipy/elltool/core/hyperplane/Hyperplane.py:Hyperplane.is_parallel", "products/ellipy/elltool/core/hyperplane/Hyperplane.py:Hyperplane.uminus"]}
{"id": "C92", "title": "Hyperplane.contains describes a hyperplane", "statement": "The points that contains accepts form a convex set, closed under moves along the hyperplane, that holds the foot of the perpendicular from the origin; hyperplanes with the same normal and distant shifts have no common point; multiplying normal and shift by the same number changes no answer.", "quantifier": "all arrays of hyperplanes and points", "why_tests_cant": "relations between the answers of different calls for all points", "anchors": ["products/ellipy/elltool/core/hyperplane/Hyperplane.py:Hyperplane.contains"]}
{"id": "C93", "title": "Ellipsoid.is_internal describes convex sets", "statement": "is_internal in mode 'i' is True only where mode 'u' is, and they agree for one ellipsoid; the points accepted in mode 'i' form a convex set; the centre of an ellipsoid is accepted; the answers for one ellipsoid are symmetric about its centre.", "quantifier": "all arrays of ellipsoids that is_internal accepts, degenerate ones included, and all points", "why_tests_cant": "relations between the answers of different calls for all points", "anchors": ["products/ellipy/elltool/core/ellipsoid/Ellipsoid.py:Ellipsoid.is_internal"]}
