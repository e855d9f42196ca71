(** Model of the boundary points of an ellipsoid, elltool/core/ellipsoid/Ellipsoid.py:277-325 (get_boundary,
    get_boundary_by_factor) and :340-382 (get_rho_boundary, get_rho_boundary_by_factor).

    [fuel] bounds the passes of the triangulation (see Model/Sphere.v; [None] means that it ran out).
    Arguments that are not numbers of points, a boolean factor and numpy scalars as factors are not modelled. *)
From mathcomp Require Import all_ssreflect all_algebra.
Require Import Coq.Strings.String.
From Verif.Model Require Import Py NP Linalg La EllGeom Ellipsoid Tri Sphere Sup.
Set Implicit Arguments.
Unset Strict Implicit.
Unset Printing Implicit Defensive.
Import GRing.Theory.
Local Open Scope ring_scope.

(** the second matrix of a grid: edges in the plane, faces in space *)
Inductive mesh := Edges of seq edge | Faces of seq face.

Section Boundary.
Variables (R : rcfType) (la : linalg R) (tr : trig R) (argsort : seq nat -> seq nat) (fuel : nat).
(** np.floor of a finite number, as an integer *)
Variable fl : R -> int.
Notation X := (xnum R).
Notation A := (arr X).

(** the matrix whose rows are the points of the list *)
Definition rows_arr d (v : seq 'rV[R]_d) : A := mat (\matrix_(i < size v) nth 0 v i).

(** go on with the result of a call that may run out of fuel *)
Definition fbind {T U} (x : option (res T)) (f : T -> option (res U)) : option (res U) :=
  match x with
  | None => None
  | Some (Err e) => Some (Err e)
  | Some (Ok t) => f t
  end.

(** Ellipsoid.py:280-288, and the same lines in get_rho_boundary (342-350): the dimension and the number of
    points, the argument or the property of the ellipsoid *)
Definition pick_points (e : ell R) (n_points : option intarg) : res (nat * intarg) :=
  let n_dim := np_size (e_center e) in
  if n_dim == 2%N then Ok (2%N, odflt (IInt (p_n2 (e_props e))%:Z) n_points)
  else if n_dim == 3%N then Ok (3%N, odflt (IInt (p_n3 (e_props e))%:Z) n_points)
  else throw "wrongDim".

(** Ellipsoid.py:295-298: the directions times the square root of the shape matrix, plus the centre *)
Definition on_dirs d (e : ell R) (v : seq 'rV[R]_d) : res A :=
  let dir_mat := rows_arr v in
  let* s := sqrtm_pos la (e_shape e) (e_abs e) in
  let* ret := np_matmul dir_mat s in
  np_add ret (np_tile_rows (e_center e) (size v)).

(** Ellipsoid.py:277-302.  Without the grid, sphere_tri_ext still returns a pair in space (tri.py:501-503), and
    the product of that pair of arrays of different shapes and the 3 x 3 root is a ValueError. *)
Definition get_boundary (e : ell R) (n_points : option intarg) (return_grid : bool) : option (res (A * option mesh)) :=
  match pick_points e n_points with
  | Err x => Some (Err x)
  | Ok (n_dim, n) =>
    fbind (sphere_tri_ext tr argsort fuel n_dim%:Z n return_grid) (fun g => Some
      match g with
      | Points2 v => let* b := on_dirs e v in Ok (b, None)
      | Grid2 v f => let* b := on_dirs e v in Ok (b, Some (Edges f))
      | Grid3 v f =>
          if return_grid then let* b := on_dirs e v in Ok (b, Some (Faces f))
          else let* _ := sqrtm_pos la (e_shape e) (e_abs e) in ValueError
      end)
  end.

(** the argument factor_vec: absent, an int, a float, an array or list of numbers *)
Inductive factor := FNone | FInt of int | FReal of R | FVec of seq X.

(** Ellipsoid.py:310-316 and 365-371: a float is subscripted, too *)
Definition the_factor (f : factor) (n_dim : nat) : res X :=
  match f with
  | FNone => Ok x1
  | FInt k => Ok (Fin k%:~R)
  | FReal _ => TypeError
  | FVec s => let* k := norm_ix (size s) (n_dim%:Z - 2%:Z) in Ok (nth x0 s k)
  end.

(** int(np.floor(x)) *)
Definition int_floor (x : X) : res int :=
  match x with
  | Fin r => Ok (fl r)
  | NaN => ValueError
  | _ => Err (PyExc "OverflowError"%string)
  end.

(** Ellipsoid.py:317-324 and 372-379 *)
Definition scale_points (n : nat) (f : X) : res int :=
  if ~~ xeq f x1 then int_floor (xmul (Fin n%:R) f) else Ok n%:Z.

(** Ellipsoid.py:304-325 *)
Definition get_boundary_by_factor (e : ell R) (f : factor) (return_grid : bool) : option (res (A * option mesh)) :=
  let n_dim := np_size (e_center e) in
  if (n_dim < 2)%N || (3 < n_dim)%N then Some (throw "wrongDim") else
  match (
    let* x := the_factor f n_dim in
    scale_points (if n_dim == 2%N then p_n2 (e_props e) else p_n3 (e_props e)) x)
  with
  | Err x => Some (Err x)
  | Ok n => get_boundary e (Some (IInt n)) return_grid
  end.

(** Ellipsoid.py:352-358: the first direction is repeated at the end; support values and points, one per row *)
Definition rho_dirs d (e : ell R) (v : seq 'rV[R]_d) (m : mesh) : res (A * mesh * A * A) :=
  if v is x :: _ then
    let l_grid := rows_arr (rcons v x) in
    let* (sup, bp) := rho_mat (e_shape e) (np_T l_grid) (e_abs e) (Some (np_expand 1 (e_center e))) in
    Ok (np_T bp, m, np_T sup, l_grid)
  else IndexError.

(** Ellipsoid.py:340-358 *)
Definition get_rho_boundary (e : ell R) (n_points : option intarg) : option (res (A * mesh * A * A)) :=
  match pick_points e n_points with
  | Err x => Some (Err x)
  | Ok (n_dim, n) =>
    fbind (sphere_tri_ext tr argsort fuel n_dim%:Z n true) (fun g => Some
      match g with
      | Points2 v => unmodelled
      | Grid2 v f => rho_dirs e v (Edges f)
      | Grid3 v f => rho_dirs e v (Faces f)
      end)
  end.

(** Ellipsoid.py:360-382: here the factor is looked up before the dimension is checked *)
Definition get_rho_boundary_by_factor (e : ell R) (f : factor) : option (res (A * mesh * A * A)) :=
  let n_dim := np_size (e_center e) in
  match (
    let* x := the_factor f n_dim in
    if n_dim == 2%N then scale_points (p_n2 (e_props e)) x
    else if n_dim == 3%N then scale_points (p_n3 (e_props e)) x
    else throw "wrongDim")
  with
  | Err x => Some (Err x)
  | Ok n => get_rho_boundary e (Some (IInt n))
  end.

End Boundary.
Arguments FNone {R}.
Arguments FInt {R} _.
