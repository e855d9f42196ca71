(** C56: elltool/core/ellipsoid/Ellipsoid.py: get_boundary, get_boundary_by_factor, get_rho_boundary,
    get_rho_boundary_by_factor.  [level c Q x] is (x - c)^T Q^-1 (x - c); [angle_ok]: see Props/SphereProps.v. *)
From mathcomp Require Import all_ssreflect all_algebra.
Require Import Coq.Strings.String.
From Verif.Model Require Import Py NP Linalg Ellipsoid Tri Sphere Boundary.
From Verif.Spec Require Import MatSpec LinalgSpec EllSpec EllipsoidSpec TriSpec SphereSpec BoundarySpec.
From Verif.Proof Require Import NPLib MatLib LinalgSat EllLib OpsEx TriDec SphereProof Icosa SphereExt SphereEx BoundaryProof BoundaryEx.
Import Order.Theory GRing.Theory Num.Theory.
Local Open Scope ring_scope.

(** the plane: n points in a cycle, outside the ellipsoid by at most 2 eps^2 (the zero coordinates of the
    directions are replaced by eps) *)
Theorem C56_boundary_2 : forall (R : rcfType) (la : linalg R) (tr : trig R) argsort fuel (e : ell R) (c : 'cV[R]_2) Q t n rg,
  eigh_ok la -> repr e c Q t -> posdef Q -> (0 < n)%N -> angle_ok tr (2%:R * t_pi tr / n%:R) n ->
  exists (B : 'M[R]_(n, 2)) es, [/\
    get_boundary la tr argsort fuel e (Some (IInt n%:Z)) rg = Some (Ok (mat B, if rg then Some (Edges es) else None)),
    one_cycle n es & forall i, 1 <= level c Q (row i B) <= 1 + 2%:R * eps R ^+ 2].
Proof. exact: @boundary_2. Qed.
Print Assumptions C56_boundary_2.

(** space, with the grid: a mesh of at least n points, outside by at most 3 eps^2 *)
Theorem C56_boundary_3 : forall (R : rcfType) (la : linalg R) (tr : trig R) argsort fuel (e : ell R) (c : 'cV[R]_3) Q t n,
  eigh_ok la -> repr e c Q t -> posdef Q ->
  angle_ok tr (t_pi tr / 5%:R) 10 -> argsortn_ok argsort -> (0 < n)%N -> (n <= fuel)%N ->
  exists d (B : 'M[R]_(sphere_size d, 3)) (vs : seq 'rV[R]_3) fs, [/\ least_depth n d, sphere_mesh d vs fs,
    get_boundary la tr argsort fuel e (Some (IInt n%:Z)) true = Some (Ok (mat B, Some (Faces fs))) &
    forall i, 1 <= level c Q (row i B) <= 1 + 3%:R * eps R ^+ 2].
Proof. exact: @boundary_3. Qed.
Print Assumptions C56_boundary_3.

(** the first point in the plane is never on the boundary *)
Theorem C56_exact_refuted : forall (R : rcfType) (la : linalg R) (tr : trig R) argsort fuel (e : ell R) (c : 'cV[R]_2) Q t n rg,
  eigh_ok la -> repr e c Q t -> posdef Q -> (0 < n)%N -> angle_ok tr (2%:R * t_pi tr / n%:R) n ->
  forall (B : 'M[R]_(n, 2)) g i, get_boundary la tr argsort fuel e (Some (IInt n%:Z)) rg = Some (Ok (mat B, g)) ->
  val i = 0%N -> level c Q (row i B) = 1 + eps R ^+ 2.
Proof. exact: @boundary_2_first. Qed.
Print Assumptions C56_exact_refuted.

(** space, without the grid (the default): always an exception *)
Theorem C56_no_grid_refuted : forall (R : rcfType) (la : linalg R) (tr : trig R) argsort fuel (e : ell R) (c : 'cV[R]_3) Q t n,
  eigh_ok la -> repr e c Q t ->
  angle_ok tr (t_pi tr / 5%:R) 10 -> argsortn_ok argsort -> (0 < n)%N -> (n <= fuel)%N ->
  get_boundary la tr argsort fuel e (Some (IInt n%:Z)) false = Some ValueError.
Proof. exact: @boundary_3_fails. Qed.
Print Assumptions C56_no_grid_refuted.

(** points from the support function: farthest along the directions, also for degenerate ellipsoids; otherwise
    exactly on the boundary *)
Theorem C56_rho_2 : forall (R : rcfType) (tr : trig R) argsort fuel (e : ell R) (c : 'cV[R]_2) Q t n, repr e c Q t ->
  (0 < n)%N -> angle_ok tr (2%:R * t_pi tr / n%:R) n ->
  exists (B L : 'M[R]_(n.+1, 2)) (s : 'cV[R]_n.+1) es, [/\
    get_rho_boundary tr argsort fuel e (Some (IInt n%:Z)) = Some (Ok (mat B, Edges es, mat s, mat L)),
    one_cycle n es, supports c Q B L s, row ord_max B = row ord0 B /\ (forall i, row i L != 0) &
    posdef Q -> forall i, level c Q (row i B) = 1].
Proof. exact: @rho_2. Qed.
Print Assumptions C56_rho_2.

Theorem C56_rho_3 : forall (R : rcfType) (tr : trig R) argsort fuel (e : ell R) (c : 'cV[R]_3) Q t n, repr e c Q t ->
  angle_ok tr (t_pi tr / 5%:R) 10 -> argsortn_ok argsort -> (0 < n)%N -> (n <= fuel)%N ->
  exists d (B L : 'M[R]_((sphere_size d).+1, 3)) (s : 'cV[R]_(sphere_size d).+1) (vs : seq 'rV[R]_3) fs, [/\
    least_depth n d /\ sphere_mesh d vs fs,
    get_rho_boundary tr argsort fuel e (Some (IInt n%:Z)) = Some (Ok (mat B, Faces fs, mat s, mat L)),
    supports c Q B L s, row ord_max B = row ord0 B /\ (forall i, row i L != 0) &
    posdef Q -> forall i, level c Q (row i B) = 1].
Proof. exact: @rho_3. Qed.
Print Assumptions C56_rho_3.

(** the variants with a factor: floor(n x) points, n the property for the dimension *)
Theorem C56_factor_default : forall (R : rcfType) (la : linalg R) (tr : trig R) argsort fuel (fl : R -> int) d (e : ell R) (c : 'cV[R]_d) Q t rg,
  repr e c Q t ->
  get_boundary_by_factor la tr argsort fuel fl e FNone rg = get_boundary la tr argsort fuel e None rg /\
  get_rho_boundary_by_factor tr argsort fuel fl e FNone = get_rho_boundary tr argsort fuel e None.
Proof. exact: @factor_default. Qed.
Print Assumptions C56_factor_default.

Theorem C56_factor_int : forall (R : rcfType) (la : linalg R) (tr : trig R) argsort fuel (fl : R -> int) d (e : ell R) (c : 'cV[R]_d) Q t k rg,
  is_floor fl -> repr e c Q t -> d \in [:: 2; 3]%N ->
  get_boundary_by_factor la tr argsort fuel fl e (FInt k) rg = get_boundary la tr argsort fuel e (Some (IInt ((n_plot e d)%:Z * k))) rg /\
  get_rho_boundary_by_factor tr argsort fuel fl e (FInt k) = get_rho_boundary tr argsort fuel e (Some (IInt ((n_plot e d)%:Z * k))).
Proof. exact: @factor_int. Qed.
Print Assumptions C56_factor_int.

Theorem C56_factor_vec : forall (R : rcfType) (la : linalg R) (tr : trig R) argsort fuel (fl : R -> int) d (e : ell R) (c : 'cV[R]_d) Q t x2 x3 rg,
  is_floor fl -> repr e c Q t -> d \in [:: 2; 3]%N ->
  let n := fl ((n_plot e d)%:R * (if d == 2%N then x2 else x3)) in
  get_boundary_by_factor la tr argsort fuel fl e (FVec [:: Fin x2; Fin x3]) rg = get_boundary la tr argsort fuel e (Some (IInt n)) rg /\
  get_rho_boundary_by_factor tr argsort fuel fl e (FVec [:: Fin x2; Fin x3]) = get_rho_boundary tr argsort fuel e (Some (IInt n)).
Proof. exact: @factor_vec. Qed.
Print Assumptions C56_factor_vec.

(** a float is documented as a factor but always raises *)
Theorem C56_factor_float_refuted : forall (R : rcfType) (la : linalg R) (tr : trig R) argsort fuel (fl : R -> int) d (e : ell R) (c : 'cV[R]_d) Q t x rg,
  repr e c Q t -> d \in [:: 2; 3]%N ->
  get_boundary_by_factor la tr argsort fuel fl e (FReal x) rg = Some TypeError /\ get_rho_boundary_by_factor tr argsort fuel fl e (FReal x) = Some TypeError.
Proof. exact: @factor_float. Qed.
Print Assumptions C56_factor_float_refuted.

Theorem C56_factor_short : forall (R : rcfType) (la : linalg R) (tr : trig R) argsort fuel (fl : R -> int) (e : ell R) (c : 'cV[R]_3) Q t x rg,
  repr e c Q t ->
  get_boundary_by_factor la tr argsort fuel fl e (FVec [:: x]) rg = Some IndexError /\
  get_rho_boundary_by_factor tr argsort fuel fl e (FVec [:: x]) = Some IndexError.
Proof. exact: @factor_short. Qed.
Print Assumptions C56_factor_short.

Theorem C56_dim : forall (R : rcfType) (la : linalg R) (tr : trig R) argsort fuel (fl : R -> int) d (e : ell R) (c : 'cV[R]_d) Q t n f rg,
  repr e c Q t -> d \notin [:: 2; 3]%N ->
  [/\ get_boundary la tr argsort fuel e n rg = Some (throw "wrongDim"),
      get_boundary_by_factor la tr argsort fuel fl e f rg = Some (throw "wrongDim"),
      get_rho_boundary tr argsort fuel e n = Some (throw "wrongDim") &
      get_rho_boundary_by_factor tr argsort fuel fl e FNone = Some (throw "wrongDim")].
Proof. exact: @bad_dim. Qed.
Print Assumptions C56_dim.

(** the ball of radius 2 around (3, 3), four points: the first one is (5, 3 + 2 eps) *)
Example C56_ex_2 : exists (B : 'M[ralg]_(4, 2)) es, [/\
  get_boundary (the_linalg ralg) quarter sargsort 0 (ball_at (const_mx 3%:R : 'cV[ralg]_2) 4%:R) (Some (IInt 4%:Z)) false = Some (Ok (mat B, None)),
  one_cycle 4 es & level (const_mx 3%:R) (4%:R)%:M (row ord0 B) = 1 + eps ralg ^+ 2].
Proof. exact: boundary_ex_2. Qed.

(** the unit ball of space, 13 points: a mesh of 42 *)
Example C56_ex_3 : exists (B L : 'M[ralg]_(43, 3)) (s : 'cV[ralg]_43) fs, [/\
  get_rho_boundary tenth sargsort 13 (ball_at (0 : 'cV[ralg]_3) 1) (Some (IInt 13%:Z)) = Some (Ok (mat B, Faces fs, mat s, mat L)) &
  forall i, level 0 1%:M (row i B) = 1].
Proof. exact: boundary_ex_3. Qed.

Example C56_ex_floor : exists fl : ralg -> int, is_floor fl.
Proof. exact: floor_ex. Qed.
