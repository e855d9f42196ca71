(** Model of Ellipsoid._get_grid_by_factor (elltool/core/ellipsoid/Ellipsoid.py:179-202); [fuel] and [None] as in
    Model/Boundary.v.  The factor is an array of numbers, as annotated. *)
From mathcomp Require Import all_ssreflect all_algebra.
Require Import Coq.Strings.String.
From Verif.Model Require Import Py NP Linalg La EllGeom Ellipsoid Tri Sphere Sup Boundary.
Set Implicit Arguments.
Unset Strict Implicit.
Unset Printing Implicit Defensive.
Import GRing.Theory.
Local Open Scope ring_scope.

Section Grid.
Variables (R : rcfType) (tr : trig R) (argsort : seq nat -> seq nat) (fuel : nat).
(** np.floor of a finite number *)
Variable fl : R -> int.
Notation X := (xnum R).
Notation A := (arr X).

(** Ellipsoid.py:186-189 *)
Definition flat_factor (f : A) (n_dim : nat) : res X :=
  let k := if ndim f == 0%N then 0%N else (n_dim - 2)%N in
  if (k < size (data f))%N then Ok (nth NaN (data f) k) else IndexError.

(** np.floor(x) as a number of points; a float *)
Definition float_points (x : X) : intarg :=
  match x with
  | Fin r => IInt (fl r)
  | PInf => IInf false
  | NInf => IInf true
  | NaN => IOther
  end.

(** Ellipsoid.py:198, v_grid_mat[v_grid_mat == 0] = 1e-15 *)
Definition fill d (x : 'rV[R]_d) : 'rV[R]_d := \row_j (if x 0 j == 0 then (10%:R ^+ 15)^-1 else x 0 j).

(** what the unpacking at line 197 can give: the grid of the sphere, or the rows of a matrix with two rows *)
Inductive grid := Mesh of seq 'rV[R]_3 & seq face | TwoRows of 'rV[R]_2 & 'rV[R]_2.

(** Ellipsoid.py:179-202.  In the plane sphere_tri_ext returns one matrix (tri.py:488-490), which is unpacked into its rows; a
    number of points that is a float passes its check (tri.py:482-485) but not np.linspace (geom.py:11), which needs an int *)
Definition get_grid_by_factor (e : ell R) (f : A) : option (res grid) :=
  let n_dim := np_size (e_center e) in
  if (n_dim < 2)%N || (3 < n_dim)%N then Some (throw "wrongDim:ellipsoid") else
  match flat_factor f n_dim with
  | Err x => Some (Err x)
  | Ok x =>
    if n_dim == 2%N then
      let n := p_n2 (e_props e) in
      if ~~ xeq x x1 then
        match float_points (xmul (Fin n%:R) x) with
        | IInt (Posz (S _)) | IInf false => Some TypeError
        | _ => Some (throw "wrong_input")
        end
      else
        fbind (sphere_tri_ext tr argsort fuel 2 (IInt n%:Z) false) (fun g => Some
          match g with
          | Points2 [:: v; w] => Ok (TwoRows (fill v) w)
          | _ => ValueError
          end)
    else
      let n := p_n3 (e_props e) in
      fbind (sphere_tri_ext tr argsort fuel 3 (if ~~ xeq x x1 then float_points (xmul (Fin n%:R) x) else IInt n%:Z) false) (fun g => Some
        match g with
        | Grid3 v f => Ok (Mesh [seq fill y | y <- v] f)
        | _ => unmodelled
        end)
  end.
End Grid.
