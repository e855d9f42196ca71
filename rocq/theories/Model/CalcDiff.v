(** products/ellipy/elltool/core/ellipsoid/Ellipsoid.py:139-172: Ellipsoid._calc_diff_one_dir, the boundary points
    of the geometric difference of two ellipsoids along given directions. *)
From mathcomp Require Import all_ssreflect all_algebra.
From Verif.Model Require Import Py NP NP3 Linalg La Core EllGeom Ellipsoid.
Set Implicit Arguments.
Unset Strict Implicit.
Unset Printing Implicit Defensive.
Import GRing.Theory.
Local Open Scope ring_scope.

Section CalcDiff.
Variable R : rcfType.
Notation X := (xnum R).
Notation A := (arr X).
Notation ell := (ell R).
(** Properties.get_abs_tol() *)
Variable abs_tol : X.

(** Ellipsoid.py:142 *)
Definition diff_tol : X := Fin (10%:R ^- 14).

(** p_univ_vec[ind] of a one-dimensional array *)
Definition vec_item (v : A) (ind : nat) : res X :=
  if shape v is [:: k] then if (ind < k)%N then Ok (nth NaN (data v) ind) else IndexError else unmodelled.

(** Ellipsoid.py:151-157: the point for one direction.  For a bad direction rho_mat is given the
    one-dimensional column l_mat[:, ind]. *)
Definition diff_point (e1 e2 : ell) (l_mat univ p1 p2 : A) (good : bool) (ind : nat) : res A :=
  if good then
    let* a := np_col p1 ind in
    let* b := np_col p2 ind in
    np_sub a b
  else
    let* p := vec_item univ ind in
    let* q := np_add (np_scale (xsub (@x1 R) p) (e_shape e2)) (np_scale (xsub (@x1 R) (xdiv (@x1 R) p)) (e_shape e1)) in
    let* l := np_col l_mat ind in
    let* c := np_sub (e_center e1) (e_center e2) in
    let* (_, b) := rho_mat q l abs_tol (Some c) in
    Ok b.

(** Ellipsoid.py:150-165 [calc_diff]: the point, replaced by the difference of the centres when it is close to
    it, and whether it was *)
Definition calc_diff (e1 e2 : ell) (l_mat univ p1 p2 : A) (good : bool) (ind : nat) : res (A * bool) :=
  let* d := diff_point e1 e2 l_mat univ p1 p2 good ind in
  let* x := np_sub d (e_center e1) in
  let* x := np_add x (e_center e2) in
  if all (fun a => xlt a diff_tol) (data (np_abs x)) then
    let* c := np_sub (e_center e1) (e_center e2) in Ok (c, true)
  else Ok (d, false).

(** np.array of a list of arrays of one shape *)
Definition np_stack (l : seq A) : A :=
  if l is a :: _ then Arr (size l :: shape a) (flatten (map (@data X) l)) else Arr [:: 0%N] [::].

(** Ellipsoid.py:139-168.  The flag is True at first in dimension 3 only, and is lowered by each point that is
    not replaced. *)
Definition calc_diff_one_dir (e1 e2 : ell) (l_mat univ : A) (good : seq bool) : res (A * bool) :=
  let* (_, p1) := rho (Arr [::] [:: e1]) l_mat in
  let* (_, p2) := rho (Arr [::] [:: e2]) l_mat in
  let flag := np_size (e_center e1) == 3%N in
  let* m := dim_res l_mat 1 in
  let* rs := mapM (fun g => calc_diff e1 e2 l_mat univ p1 p2 g.1 g.2) (zip good (iota 0 m)) in
  Ok (np_stack (map fst rs), flag && all snd rs).

End CalcDiff.
