# Formal model of ellipy in Rocq (Coq 8.16.1)

Source: `/repo` (SystemAnalysisDpt-CMC-MSU/ellipy, pinned commit), python sources under
`products/ellipy`.  Nothing of the project is executed; the model is a hand translation, function by
function, with file/line citations in the comment of every definition.

## 1. Shape of the development

    rocq/theories/Model/*.v   definitions only (the model; each cites file:lines)
    rocq/theories/Spec/*.v    small specifications, written without the model's helpers
    rocq/theories/Proof/*.v   lemmas
    rocq/theories/Props/*.v   the property theorems, each `exact lemma`, the Examples showing that
                              its hypotheses can be met, and `Print Assumptions`

Two modelling worlds:

* **D – discrete.**  Configuration store, argument parsing, copies/aliasing, index bookkeeping of
  triangulations, string functions.  Lists, `nat`/`Z`, strings, records; exceptions are values
  (`Err tag`); object identity and in-place mutation use an explicit heap.
* **A – numerical.**  A small "mini-numpy" over an arbitrary real closed field `R : rcfType`
  (mathcomp): arrays are `(shape, C-order data)` lists, elements are extended reals
  `Fin r | PInf | NInf | NaN`, operations broadcast, and raise on incompatible shapes as numpy does.
  Python functions are translated to this layer; refinement lemmas (`op (emb A) = Ok (emb ...)`)
  take them to mathcomp matrices, where the mathematics is proved.  Real closed fields are used
  instead of Coq's `R` because they need no axioms; the concrete field `realalg` (real algebraic
  numbers) witnesses non-vacuity.

## 2. What is trusted / not modelled

* Coq's kernel; `Print Assumptions` for each property theorem is printed by the build (Props files).
* The translation from python to Gallina (by hand, by reading).
* **Floating point is not modelled**: arithmetic is exact in a real closed field, extended with
  inf/nan.  Signed zeros are not distinguished.  Theorems are therefore about the algorithm, not
  about rounding.
* `numpy.linalg` / `scipy` routines (`eigh`, `eigvalsh`, `eig`, `svd`, `qr`, `inv`, `lstsq`, `det`,
  `ConvexHull`, `gamma`) are *oracle arguments* of the model.  Each theorem that needs one states the
  textbook contract of that call as a visible hypothesis and holds for **every** oracle
  satisfying the contract (so independent of sign/ordering choices).
* `numpy` indexing, broadcasting and reductions are re-implemented in the model from the numpy
  documentation.
* Not modelled: logging within the geometric models (C83 models it separately), plotting, test code, warnings, dtype promotion beyond what is said in the
  comments, performance.

## 3. Properties

Every property of `properties.jsonl` with its plan.  "Refuted" means that the statement is false of
the code as written: the theorem exhibits the witness, and a companion theorem proves what holds.

| id | model | plan |
|----|-------|------|
| C01 | Model/Config: store as finite map, commands init/set | induction on histories; spec = "last write since init" |
| C02 | Model/Config with a heap of dict objects | invariant: snapshot location never the live location; induction on histories |
| C03 | Model/Config: parse_prop loop | induction on the name list against an independent per-name spec |
| C04 | same | refuted (default `is_ode_norm_control='on'` is not a bool); theorem for what does succeed |
| C05 | Model/IsMember: np.isin/np.unique(return_index, return_inverse) | list induction, sortedness of unique |
| C06-C07 | Model/Compare: abs_rel_compare branch by branch | all/max characterisation over lists |
| C08-C10 | Model/Dict: nested values | induction on nesting; symmetry and soundness refuted for list fields |
| C11 | Model/Gen: sort_rows_tol | stable sort by columns; permutation lemmas |
| C12-C13 | Model/Gen | pointwise / bilinear algebra |
| C14-C16 | Model/Gen: 3-D arrays as slices, block-diagonal assembly | block matrix algebra for all sizes |
| C17 | Model/Gen | refuted (eigenvector matrix used transposed); what is computed is characterised |
| C18 | Model/La | Rayleigh quotient from the spectral decomposition |
| C19-C23 | Model/La: orth_transl* | matrix algebra; optimality by Cauchy-Schwarz / von Neumann |
| C24-C28 | Model/La | functional calculus on the spectral decomposition / SVD |
| C29-C31 | Model/EllGeom | Cauchy-Schwarz in the Q seminorm |
| C32 | Model/EllGeom | induction on the dimension (step 2) |
| C33-C34 | Model/Sup, Model/SupDiff | linear algebra; index-safety refuted at wraparound |
| C35-C43 | Model/Tri: index arrays as lists, refinement step with all masks/offsets | mesh invariants by induction on steps |
| C44-C45 | Model/Geom | rotation algebra with (cos,sin) oracle obeying the addition law |
| C46-C47 | Model/Sym: the regexes as scanners over strings | induction on strings |
| C48-C58, C60 | Model/Ellipsoid: objects on a heap, matrices via mini-numpy | refinement + convexity |
| C59, C61-C62 | Model/Hyperplane | vector algebra; is_parallel refuted |
| C63 | Model/Core | simultaneous diagonalisation |
| C64 | Model/Throw: call stack as list of frames | case analysis |
| C65-C67 | Model/Gen | slice-by-slice refinement, spectral decomposition |
| C69 | Model/Hyperplane | case analysis on the arguments |
| C70 | Model/Tri | loop invariant on mesh and statistics |
| C71-C72 | Model/GetProp, on Model/EllHeap | dictionary lookup case by case; heap lemmas of C49 |
| C74 | Model/Ellipsoid | both branches in closed form through det- and inverse-free identities; equality of fields iff c c^T is the constant matrix |
| C75 | Model/Grid, on Model/Sphere | C41 with the number of points floor(n x) |
| C76 | Model/Ellipsoid (rho), on rho_mat (C29) | run each branch to the closed form; hstack of columns by induction |
| C77 | Model/CalcDiff, on rho | C76 for both ellipsoids; the point where a maximum is attained is unique |
| C78 | Model/Hyperplane (arrays) | C59 and C69 entry by entry; canonical data are a fixed point of canonicalisation |
| C79 | Model/Buffers, a heap of arrays | refinement of runs on the heap by runs on values; invariant: no two references held coincide |
| C80 | Model/Ellipsoid and Model/EllHeap (composition of calls) | support functions: each operation is run to its set (C50-C58, C76), whose support values are unique |
| C81 | Model/Gen (composition of calls) | slice-wise results of C12-C17 and C65-C68; uniqueness of the positive square root and of the Moore-Penrose inverse |
| C82 | Model/TypeCheck | induction on nested lists: np.array finds the longest common shape, its entries are objects iff the list is rectangular |
| C83 | Model/Logging (loggers, handlers, propagation along dotted names) | induction on the sequence of warnings; FALSE of the code: every get_logger attaches another handler |
| C84 | Model/Ellipsoid, Model/EllHeap (chains of calls) | quadratic forms from C54; support functions for projections; exact transitivity FALSE of the code: the tolerance adds up |
| C85 | Proof/OrthLaw | closed form of the plane rotation in the two unit vectors |
| C86 | Proof/SqrtLaw | uniqueness of the root; eigenvectors of T - S for monotonicity |
| C87 | Model/Operators | on top of equality (C60) and uminus (C58); refuted where the class methods are stubs |
| C88 | Proof/MonoProof | determinant monotone in the Loewner order; on top of C32, C57, C84 |
| C89 | Proof/SandwichProof | C51 and C52 composed; C88 for the volumes; sums reindexed by the permutation |
| C90 | Proof/PolarLawProof | C53 (set of the polar, bipolar theorem), C58, C57 and C88 composed |
| C91 | Proof/ParallelLawProof | from C62 (what is_parallel decides) and C58; refuted for symmetry and transitivity |
| C92 | Proof/ContainsLawProof | from C61 (what contains decides); refuted for multiples of normal and shift |
| C93 | Proof/InternalLawProof | from C55 (what is_internal decides); convexity of the quadratic form of the inverse |
| C73 | Model/Fusion | complete the square; differentiate the determinant through det(1 + hM) = 1 + h tr M + O(h^2) |
| C68 | Model/Gen, callbacks as functions into results | loop invariant over the slices |

## 4. Assumptions of the theorems

Every property theorem prints `Closed under the global context`: no axiom at all is used, neither of
the standard library nor of another library.  Contracts of external routines appear as hypotheses
(`Spec/LinalgSpec.v`, `argsort_ok` in `Spec/GenSpec.v`); `Proof/LinalgSat.v` proves that an
implementation meeting all the linear-algebra contracts exists over every real closed field, so the
hypotheses are never vacuous.

## 5. What is modelled, file by file, and what was found

Paths are relative to `products/ellipy`.

**elltool/conf/properties** - all of Properties.py and _ParseProp.py.  Found: C04, the shipped default
of `is_ode_norm_control` fails its own validator.

**gen/common/common.py** - abs_rel_compare and is_member; the error functions in Model/Throw.v.

**gras/la/la.py** - everything.  Found:
* C18: `is_mat_not_deg` with the default tolerance 0 accepts singular matrices.
* C19/C20: `orth_transl` and `orth_transl_haus` are right outside a band of angles below 1e-7.
* C23: `orth_transl_max_tr` fails in dimension 1 when src and dst have opposite signs.
* C25: `reg_pos_def_mat` uses `eig`, whose eigenvectors need not be orthogonal inside an eigenspace;
  the lower bound is refuted for such a valid result.
* C27: `try_treat_as_real` returns complex values unchanged when the imaginary part is exactly zero.

**gras/gen/gen.py** - everything except MatVector.from_formula_mat and from_expression (they evaluate
python source text).  The in-place reshape that lr_multiply_by_vec and lr_divide_vec do to a 1-D
argument of the caller is not modelled.  Found:
* C14: a one-slice stack times a constant matrix raises IndexError on the dense path.
* C17: all SymmetricMatVector products use V^T D V instead of V D V^T; 'L' products of non-square
  factors and one-slice divisions raise ValueError.
* C65: sqrtm_pos rejects 1 x 1 slices; pinv of one 2-D matrix raises IndexError.
* C67: zero eigenvalues are kept, so the result need not be positive definite.
* sort_rows_tol of a matrix with rows but no columns raises TypeError (from np.lexsort).

**gras/geom/ell/ell.py** - everything.  `np.pi ** (k/2)` and `gamma(k/2)` are oracles (`volfun`), with the
recurrences of the gamma function as contract (`volfun_ok`).  Lines 34-39 (rejection of non-numeric
dtypes) are not modelled: arrays hold numbers.  Found:
* C29: with one direction rho_mat ignores abs_tol, so a shape matrix that is slightly negative is
  accepted for two directions (with a boundary point at -inf) and rejected for one.
* C30: mode 'inv' gives a finite value for points off the range of a singular matrix, so comparing
  it with 1 does not decide membership.

**elltool/core/ellipsoid, aellipsoid, abasicellipsoid** (Model/Ellipsoid.v; objects as values) - constructor
and setters, ell_unitball, dimension, is_degenerate, volume, min_eig, max_eig, trace, uminus, to_dict /
from_dict (the array of dicts); equality is in Model/EllEq.v.  Not modelled: plotting, displaying, the isinstance checks.  Found:
* C48: the tolerance lets slightly indefinite shapes through; [[-abs_tol]] is accepted although no
  point satisfies it.
* C57: is_degenerate compares eigenvalues with abs_tol, so small full-rank ellipsoids are degenerate;
  `dimension(.., return_rank=True)` of an empty array raises ValueError.
* C32: the volume of such an ellipsoid is 0 (and an array [0.0] instead of a number).
* C58: uminus replaces the tolerances of the object by the configured ones.

**elltool/core/core.py** (Model/Core.v) - ell_sim_diag and ell_valign; ell_unitball is in Model/Ellipsoid.v;
ell_fusion_lambda is in Model/Fusion.v.  **Ellipsoid.is_bigger** is in Model/Ellipsoid.v.  Found:
* C63: ell_sim_diag uses left singular vectors where eigenvectors are needed, so T B T^T need not be
  diagonal for indefinite B with opposite generalised eigenvalues; ell_valign raises IndexError for
  vectors with one coordinate.
* C54: the rank test comes first and uses numpy's relative threshold, so an ill-conditioned E1 is
  reported as not bigger than an ellipsoid it contains.  abs_tol works on the squared semiaxes.

**Ellipsoid.is_internal, minksum_ea, minksum_ia** (Model/Ellipsoid.v).  minksum_ea and minksum_ia take a
matrix of directions or one vector.  The verbose log messages are not modelled.  Found:
* C55: a one-dimensional array of ellipsoids raises AttributeError (the loop iterates over
  `ell_arr[i]` as if it were an array); points within abs_tol of the boundary count as inside.
* C52: the rotations start from the square root of the unregularised first shape, so a direction
  orthogonal to a degenerate first ellipsoid raises wrongInput:dst_zero.

**Ellipsoid.polar** (Model/Ellipsoid.v: polar_scalar, polar_loop, polar).  The theorems are about the
robust branch, the only one polar calls; those of C74 are about the other one (is_robust_method=False).  Found:
* C53: polar works for exactly one ellipsoid in an array of shape (1,): more raise IndexError
  (`pol_ell_arr[i]` indexes a one-row array), arrays with several axes AttributeError.  An ellipsoid
  without the origin inside is not refused: polar of the interval [1,3] comes out as [1/3,1].
* C74: in the direct branch `c_vec @ c_vec.T` is a number, because c_vec is 1-d, and it is subtracted from every entry of the shape
  matrix.  So the branch gives the polar exactly if the dimension is 1 or the centre is 0; the matrix may even be singular.

**Hyperplane** (Model/Hyperplane.v; Spec/HypSpec.v: `on_hp`, `near_hp`, `hrepr`, `collinear`).  Everything in
Hyperplane.py except __str__ and from_rep_mat; the inherited equality is in Model/EllEq.v.  `np.split` of the points and
its re-assembly is modelled literally (Hyperplane.py:131-137), which is where the behaviour for unequal
numbers of points and hyperplanes comes from.  Found:
* C62: `np.max(np.abs(u - v) < tol)` is "some coordinate agrees": e1 and e2 in R^3 are reported parallel.
  One hyperplane against many looks at the first only, many against one raise ValueError.
* C58: uminus negates normal and shift, which is the same set, not the reflected one; tolerances are dropped.
* C59: canonical except for shift 0, where v and -v give two dictionaries; empty hyperplanes and zero normals
  give dictionaries that from_dict refuses.
* C49 (hyperplanes): a copy loses its rel_tol.

**Triangulations** (Model/Tri.v; Spec/TriSpec.v: `consistent`, `closed`, `simple`, `uniform`, `grown`, `stats_of`).
get_face_edge_info, map_face_2_edge and shrink_face_tri, index array by index array.  Vertex numbers are natural
numbers (no negative python indices), coordinates exact reals, the while loop has fuel, and the statements about
calls say what the result is when the fuel suffices (C39_terminates gives a bound).  np.argsort is an argument with
the contract that it sorts; np.unique, np.bincount, np.lexsort and np.cumsum are modelled.  The adjusting function
is an argument; where its result must have as many rows as its argument, the theorem says so.  Found:
* C37: the filler faces (tri.py:253-263) have vertices (mid, e0, e1) but map columns (mid-e0, mid-e1, e0-e1)
  where the order of the sides is 12, 23, 13; after a partial refinement the map no longer describes the faces.
* C38: partial refinement does not keep a closed surface closed (the filler face has the orientation of the edge,
  not of the neighbour); nor does full refinement when two faces share their three vertices.
* C39: with an adjusting function, a filler face that is split later gets sides that are in no edge list, and the
  call can return with sides longer than the limit.  One face given as a matrix of one row raises IndexError.

**Spheres and circles** (Model/Sphere.v; Spec/SphereSpec.v: `angle_ok`, `sphere_mesh`, `turned`, `patched`).
icosahedron, sphere_tri, sphere_tri_ext, circle_part (with and without return_apart).  np.cos, np.sin and np.pi are
the argument `tr : trig R`; its contract `angle_ok` asks for the addition theorems and signs on the multiples of one
angle, and is met over the real algebraic numbers (SphereEx.v: quarter turns and tenths of a turn, the latter giving
a concrete sphere of depth 3).  `sphere_mesh` is proved from the icosahedron by induction over the passes of
shrink_face_tri: splitting keeps the triple product of every face positive, midpoints are never zero, so normalising
them is defined.  The argument check (int or np.inf) and the fuel are in the model.  Found:
* C40: np.inf is an accepted depth, and the call then never returns.
* C41: coordinates that are zero are replaced by eps, so the first point of every 2-D grid is off the unit circle
  (by at most d eps^2 in the squared norm).

`fan` (C40_fan) says that the cones over the faces overlap only in what common vertices span: for the icosahedron by
the inner products of its vertices (SphereIco.v), for deeper spheres by expressing the weights over a new face by weights
over the old one (SphereFan.v).  Distinct vertices and opposite vertices follow.

**sphere_part** (Model/SpherePart.v; Spec/PartSpec.v: `half_of`, `nearest_first`).  np.arccos, np.log2 and math.ceil are
arguments with contracts (monotone, powers of two, ceiling).  The removal of opposite directions works with the tolerance
1e-8; that it keeps exactly one of two opposite rows is proved where the rows are at least that far apart, which is proved
of the grid of depth 1 (n <= 21) and is a hypothesis of C45_nearest beyond.  C45_rows needs no such hypothesis.  Note that
in the code the array of removal flags is used as the array of kept rows; the result is the other half, equally good.

**Comparing triangulations, tubes** (Model/TriEq.v; Spec/TriEqSpec.v: `attached`, `is_face_of`, `separated`, `near`,
`tube_cells`).  ell_tube_2_tri, ell_tube_discr_tri, is_face and is_tri_equal.  Faces are triples of natural numbers;
is_tri_equal compares rows as byte strings (np.unique on a void view), of which only the number of distinct rows is
used, so the model counts distinct triples.  The tolerance-lexicographic sort is the model of sort_rows_tol (C63).
`separated tol` says that some column tells any two rows apart (`tied` of C11, the chain of tolerances);
this makes the sorted order independent of the numbering.  Found:
* C42: an edge of three or more faces breaks the intersection of the edge-to-face rows; none of these faces is
  recognised, not even in the list itself.  The triple (0,0,0) is a "face" of [(0,0,1)].
* C43: hence such a mesh is not equal to itself.  With two vertices at the same place, renumbering them changes the
  verdict.

**dict_compare** (Model/Dict.v; Spec/DictSpec.v: `agree`, `same_sort`, `ok_value`, `aligned`, `reordered`).  dict_compare,
dict_compare_vec and their inner functions, for nested values: numbers and numeric arrays (with python type and dtype kind),
strings, opaque objects, lists, object arrays of any shape, dicts.  Reports are trees; the text printed from them is not
modelled.  np.asarray(list).dtype.kind is the argument `lkind`, with the contract that it depends on the types, kinds and
shapes of the elements only.  Complex numbers, arrays of strings and nested-list arguments of dict_compare are not modelled.
The verdict theorem is one induction over the first value.  Found:
* C08: booleans raise TypeError (numpy has no subtraction of booleans), even for a dict against itself.
* C09, C10: lists are compared up to the length of the first one: ['a'] equals ['a','b'], the other order raises
  IndexError.  dict_compare([], []) raises ValueError.

**Equality of ellipsoids and hyperplanes** (Model/EllEq.v; Spec/EllEqSpec.v: `comparable`, `least`, `same_ell`, `same_hp`).
_is_equal_internal with is_equal, eq and `==`, on top of Model/Dict.v.  The theorems use that the positive semidefinite
square root is unique (root_uniq), so "the square roots agree" says something about the shapes and not about eigh.  Found:
* C60: hyperplanes through the origin with opposite normals are the same set and not equal.
* eq([E], E) is False: a one-element array is tiled by the shape () of the other and keeps its shape (1,).
* is_equal with is_prop_included=True always raises KeyError: there are no transforms of the properties.
* `!=` raises TypeError (`ne` has no body and returns None, which __ne__ unpacks); not modelled.

**Errors** (Model/Throw.v; Spec/ThrowSpec.v: `qualified`, `heading`).  get_caller_name_ext, get_caller_name, throw_error and
throw_warn over a list of frames of which module name, class of `self` and code name are kept.  str.upper() is modelled for
ASCII; the number of levels is a natural number (python also accepts negative ones).  `throw "tag"` in the other models
stands for throw_error('tag', ..): C64_raises is what that abbreviates.  With throw=False the exception is returned, and a
stack that is too short gives an empty heading.

**Object identity** (Model/EllHeap.v; Spec/EllHeapSpec.v: `obj`, `preserved`, `fresh`, `targets`, `image_of`).  A heap of
objects and arrays of references; a call returns the heap also when it raises.  get_copy, rep_mat, projection,
get_projection, the setters, and histories of such calls.  Getters and setters copy their numpy arrays, so an object's value
includes them (this is C79, below).  C49 is an invariant of histories: an object changes only if it is the target of an in-place call.
The copy of a hyperplane does not keep its relative tolerance.  Found:
* C50: basis vectors with a negative scalar product are accepted (the test has no absolute value).
* An array holding one object twice projects it once, then raises ValueError and leaves it projected; get_projection is
  not affected.
* A copy of a one-element array has shape (); rep_mat of float sizes raises TypeError after passing its checks.

**Arrays held by objects** (Model/Buffers.v; Spec/BufferSpec.v: `vrun`, `view_arrays`, `view_values`, `changes_obj`,
`changes_arr`).  Numpy arrays are cells of a heap; ellipsoids and hyperplanes hold references.  Every np.array, flatten, np.copy
and the pass-through of try_treat_as_real is modelled as an allocation or as the same reference, as in the code.  A program
makes and overwrites arrays, constructs, copies, sets, projects in place and calls get_center_vec, get_shape_mat and parameters.
C79 says that such a program cannot tell the heap from plain values.  Trusted: which numpy calls copy (np.array and
np.copy always, flatten always, `@` gives a new array).  Not modelled: views made by the caller, arrays of other types.


**Laws between operations** (Spec/LawSpec.v: `rho_is`, `rhos_are`).  C80 composes calls: what rho returns before and after uminus,
polar, get_projection, minksum_ea and minksum_ia, and how it relates to is_internal, is_bigger, min_eig, max_eig and trace.

**Laws on stacks of matrices** (Spec/StackLawSpec.v: `penrose`).  C81 composes the operations of gen.py: products, transposes,
inverses, roots, pseudo-inverses, make_pos_definite_by_eig and lr_divide_vec.  The theorems hold for every linear algebra
oracle that meets the contracts, so equalities of roots and pseudo-inverses rest on their uniqueness, not on a choice of
eigenvectors.

**Logging** (Model/Logging.v, Spec/LoggingSpec.v: `above`, `caller_names`).  get_logger attaches a new handler to the logger of
its caller at every call, so a warning is repeated as often as the same function (or one above it in the hierarchy of names) has
warned so far.  C83 gives the exact number of lines for every sequence of warnings, k (k + 1) / 2 times the number of messages for
k warnings of one function, and refutes that each is written once.  The model covers the part of python's logging module used:
named loggers, levels, propagation, stream handlers and the format; other configuration of loggers is not modelled.

**is_bigger as an order.**  C84 composes comparisons.  is_bigger is reflexive and ignores the centres; a chain of two gives
containment up to the product of the tolerances, and exact transitivity fails (balls with squared radii 1, 1 + t/2, (1 + t/2)^2).
Projections on orthonormal bases keep the answer True.

**C85 orth_transl laws.** All three functions are reduced to closed forms: 1 + (c-1)/(1-c^2)(uu' + dd' - c(ud' + du')) + du' - ud' for the
rotation, 1 - 2ww'/|w|^2 for the Householder matrix.  Two parts are FALSE of the code.  In the band of angles with a sine of at most 1e-7 the
reversed orth_transl is never the transpose (C85_reverse_refuted, for every pair in the band).  For opposite directions orth_transl and
orth_transl_haus give the mirror image (determinant -1), orth_transl_qr a rotation (C85_opposite_refuted).

**C86 sqrtm_pos laws.** C86_characterised is an equivalence, so every law is about the positive root itself.  Monotonicity: an eigenvector of T - S
with a negative eigenvalue contradicts S S <= T T.  Commutation: entrywise in the eigenbasis of S.

**C87 operators** (Model/Operators.v).  A class method whose body is `pass` returns None; unpacking None raises TypeError, None.flatten raises
AttributeError.  FALSE of the code: `!=` raises TypeError on all objects (C87_ne_refuted); `>=`, `>`, `<=`, `<`, `+`, `-` with a vector and `*`
raise AttributeError (C87_arithmetic_refuted); `==` is not transitive because it has tolerances (C87_eq_transitive_refuted); -H == H is shown
for hyperplanes that do not contain the origin, for the others see C60_hyp_same_set_refuted.  Not modelled: what numpy does with an array on
the left of an operator before the reflected method is called.

**C88 size measures under inclusion**.  Inclusion gives Q - P >= 0 by support functions in the directions l and -l; the determinant is monotone by
conjugation with the root of P.  FALSE of the code when the containing ellipsoid has the larger abs_tol: it may be found degenerate and get
the volume 0 (C88_volume_tolerance_refuted); C88_volume therefore asks t2 <= t1, which holds whenever both have the configured tolerance.

**C89 the two approximations of a sum**.  C89_sandwich_partial is for non-degenerate ellipsoids and directions l that meet the angle condition of C52
(clear_roots): without it minksum_ia may leave the sum by a relative 1e-14, see C52.  The answer of is_bigger needs an outer shape that
is_bigger accepts (not degenerate for the configured tolerance, well conditioned).  C89_order and C89_scale have no such condition.

**C90 laws of polar**.  Stated for one-element arrays: polar of several ellipsoids raises (C53_polar_many_refuted).  C90_neg asks that the shape is
not degenerate for the configured tolerance either, because uminus gives its results the configured properties (C58).

**C91 is_parallel as a relation**.  FALSE of the code: symmetry, because the tolerance of the first argument alone is used
(C91_symmetric_refuted; proved for equal tolerances), and transitivity, because agreement of one coordinate is enough
(C91_transitive_refuted).  Arrays of equal shapes; one against many is C62_one_many.

**C92 contains as a set**.  FALSE of the code: multiplying the normal and the shift by 2 gives the same hyperplane, but contains compares
the unnormalised residual with abs_tol and its answers change (C92_scale_refuted; proved when abs_tol is multiplied too).  One point
against an array of hyperplanes; the other combinations of C61 follow element by element.

**C93 is_internal as a set**.  For the arrays C55 is about, (k, 1, ..., 1) with at least two axes; one axis raises
(C55_vector_of_ellipsoids_refuted).  The laws hold for degenerate ellipsoids too, because the regularised shape is positive definite.

**Type checks** (Model/TypeCheck.v, Spec/TypeCheckSpec.v: `rect`, `arr_of`, `at_idx`).  The other models take arrays of
objects for which `_check_is_me` has passed.  C82 models that check and `_check_if_scalar` on arbitrary objects, nested lists
and arrays, with numpy's rule for the shape of a nested list, and shows which arguments pass.  Lists that contain arrays are
not modelled.

**Symbolic matrices** (Model/Sym.v; Spec/SymSpec.v: `stands_alone`, `pieces`, `word_in`).  Strings are lists of code points
with str.isalnum as a parameter (fixed on ASCII by `alnum_ok`); the regular expressions of the module are run by a
backtracking matcher, and re.sub by its scan from left to right.  The specification cuts a string into words and does not
mention regular expressions.  Not modelled: from_var_name that is not a word (it would be read as an expression), valid
backslash escapes in to_var_name.  Found:
* C47: blanks are removed first, so "a t" becomes the word "at" and its t is not replaced, and "a b" becomes the word "ab"
  (C47_merges).  The theorems speak of the words after the removal.
* C47: to_var_name is a template; a backslash in it raises re.error or is interpreted (C47_backslash_refuted).
* C46: an empty matrix raises ValueError.

**Boundary points from support functions** (Model/Sup.v; Spec/SupSpec.v: `on_plane`, `indep`, `cyc`).  sup_2_boundary_2 and
sup_2_boundary_3 column by column, with lstsq by its normal equations (C33).  

**Boundary points of ellipsoids** (Model/Boundary.v; Spec/BoundarySpec.v: `level`, `supports`, `least_depth`, `is_floor`).
get_boundary, get_rho_boundary and their variants with a factor, on top of sphere_tri_ext, sqrtm_pos and rho_mat (C56).  np.floor
is an argument with contract `is_floor`.  Not modelled: boolean factors, numpy scalars as factors, numbers of points that are not ints.
Findings:

* C56: the directions of get_boundary are not unit vectors where a coordinate was zero (it became eps): those points lie outside
  the ellipsoid, by at most d eps^2.  The first point in the plane is always such.  get_rho_boundary is exact.
* C56: in space get_boundary() without return_grid never works: sphere_tri_ext returns a pair in any case, and the product with the
  3 x 3 root is a ValueError.
* C56: a float factor, annotated as allowed, is subscripted: TypeError.

**Geometric difference of support functions** (Model/SupDiff.v; Spec/SupDiffSpec.v: `scaled`, `vertex`, `facet2`, `crosses`,
`steep`).  sup_geom_diff_2d and sup_geom_diff_3d (C34).  The simplices of scipy's ConvexHull are an argument: the theorems take
what they need of them as hypotheses (a vertex of the polytope for each simplex).  lstsq by its normal equations.  Found:
* C34, plane: the loop over the directions of a face compares the index with n instead of n - 1, and the start of a face
  with its end by number only.  A face over the direction number 0 fails in either orientation: wrongState or IndexError one way,
  IndexError the other (C34_span_refuted, C34_index_refuted).  The other faces give the values of the difference (C34_values_2).
* C34, space: the determinant of the ray and the triangle is compared with 10^-5 without scaling, so that for bounds of 200 and unit
  directions every value is infinite (C34_large_refuted).  Where the determinants are above, the values are those of the difference.
* C34: support vectors of one element raise IndexError (squeezed to 0 dimensions), 0-dimensional ones ValueError: the branch for
  them is never reached.

**_get_grid_by_factor** (Model/Grid.v, on Model/Sphere.v and Model/Boundary.v; Spec/GridSpec.v).  The factor is an array of numbers;
np.linspace refuses a float number of points (numpy 1.18 or later).  Found:
* C75: in the plane sphere_tri_ext returns one matrix and its unpacking into a pair raises ValueError (for 2 points it succeeds and
  gives the two rows); with a factor other than 1 the float number of points raises TypeError.  In space it is right.

**Support functions of arrays of ellipsoids** (Model/Ellipsoid.v `rho`, Model/CalcDiff.v; Spec/RhoSpec.v: `supports`, `reshaped`,
`numbers`, `paired`; Spec/CalcDiffSpec.v: `geom_diff`, `near`).  Ellipsoid.rho in its three branches and _calc_diff_one_dir on top
of it; p_univ_vec is one-dimensional.  Found:
* C76: Ellipsoid.rho reads ell_size_vec[1], so a one-dimensional array of k > 1 ellipsoids with k directions raises
  IndexError; so does any one-dimensional direction.  For pairs given as a row or column the support values come
  in an array of shape (k, 1, 1).
* C77: _calc_diff_one_dir passes the one-dimensional l_mat[:, ind] to rho_mat for a bad direction: IndexError.
* C78: from_dict cannot read an array written by to_dict that has an empty entry (wrongInput:shift); with abs_tol >= 1 a one-dimensional hyperplane can come back empty, since its normal is scaled to length 1.

**ell_fusion_lambda** (Model/Fusion.v; Spec/FusionSpec.v).  W(a) = a Q1 + (1-a) Q2, and the fusion of the two ellipsoids is the set
where a <x-q1, Q1 (x-q1)> + (1-a) <x-q2, Q2 (x-q2)> <= 1.  The spec has the epsilon-delta derivative and the squared volume of the
fusion, det(level * W^-1), up to the constant of the unit ball; the theorems say that the value is - det(W)^3 / level^(n-1) times the
derivative of that, so its zeros are the stationary points of the volume (C73).  numpy's det and inv are oracles with the contracts of
Spec/LinalgSpec.v; `n * array` with the parameter n is exact; a is a finite number.

**get_property, from_rep_mat** (Model/GetProp.v; Spec/GetPropSpec.v: `ell_names`, `ell_value`, `least`).  The dictionaries of
aliases with ABasicEllipsoid.get_property and the four getters (C71), and from_rep_mat of both classes (C72).  Storing an array
in an entry of a float array works for one element only.  C71_tolerance_models: get_abs_tol as modelled in Model/Ellipsoid.v is this one.
Found:
* C71: the argument is flattened before its shape is taken, so the values always come in a 1-d array (C71_shape_refuted).
  center_vec, shape_mat and normal_vec have aliases, but raise ValueError unless the dimension is 1.  For empty arrays
  every name is accepted, and no minimum exists (nan).
* C72: the copies of a hyperplane lose rel_tol (C72_hyp_rel_refuted).
