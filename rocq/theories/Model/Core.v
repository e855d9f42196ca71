(** Model of elltool/core/core.py: ell_sim_diag and ell_valign.  (ell_unitball is in Model/Ellipsoid.v,
    ell_fusion_lambda is in Model/Fusion.v.) *)
From mathcomp Require Import all_ssreflect all_algebra.
Require Import Coq.Strings.String.
From Verif.Model Require Import Py NP Linalg La.
Set Implicit Arguments.
Unset Strict Implicit.
Unset Printing Implicit Defensive.
Import GRing.Theory.
Local Open Scope ring_scope.

Section Core.
Variable R : rcfType.
Notation X := (xnum R).
Notation A := (arr X).
Variable la : linalg R.

(** core.py:12-25; both arguments are numeric arrays (lines 13-14 only reject other dtypes) *)
Definition ell_sim_diag (a b : A) (abs_tol : X) : res A :=
  let* pd := is_mat_pos_def la a abs_tol false in
  if ~~ pd then throw "wrongInput:a_mat" else
  let* sb := is_mat_symm b x0 in
  if ~~ sb then throw "wrongInput:b_mat" else
  if dim a 0 != dim b 0 then throw "wrongInput" else
  let* p := la_svd la a in
  let: (u1, s, _) := p in
  let* ds := np_diag s in
  let* r := sqrtm_pos la ds abs_tol in
  let* ut := la_lstsq la (np_T r) (np_T u1) in
  let u := np_T ut in
  let* c1 := np_matmul (np_T u) b in
  let* c := np_matmul c1 u in
  let* p2 := la_svd la c in
  let: (u2, _, _) := p2 in
  np_matmul (np_T u2) (np_T u).

(** core.py:43-73; both arguments are numeric arrays.  Lines 52-55 and 57-60: max(v.shape) has
    already raised for 0-d arrays, so only np.squeeze is left. *)
Definition ell_valign (v x : A) : res A :=
  let* mv := max_shape v in
  if np_size v != mv then throw "wrongInput:v" else
  let* mx := max_shape x in
  if np_size x != mx then throw "wrongInput:x" else
  let v := np_squeeze v in
  let x := np_squeeze x in
  let* nv := dim_res v 0 in
  let* nx := dim_res x 0 in
  if nv != nx then throw "wrongInput:v,x" else
  let* p1 := la_svd la (np_expand 1 v) in
  let: (u1, _, v1) := p1 in
  let* p2 := la_svd la (np_expand 1 x) in
  let: (u2, _, v2) := p2 in
  let* v2 := np_at2 v2 0 0 in
  let* v1 := np_at2 v1 0 0 in
  np_matmul (np_scale (xmul v1 v2) u1) (np_T u2).

End Core.
