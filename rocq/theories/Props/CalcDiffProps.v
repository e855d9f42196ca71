(** C77: Ellipsoid._calc_diff_one_dir. *)
From mathcomp Require Import all_ssreflect all_algebra.
From Verif.Model Require Import Py NP Linalg EllGeom Ellipsoid CalcDiff.
From Verif.Spec Require Import MatSpec LinalgSpec EllSpec EllipsoidSpec RhoSpec CalcDiffSpec.
From Verif.Proof Require Import NPLib MatLib EllLib EllGeomProof OpsEx RhoProof CalcDiffProof.
Set Implicit Arguments.
Unset Strict Implicit.
Unset Printing Implicit Defensive.
Import Order.Theory GRing.Theory Num.Theory.
Local Open Scope ring_scope.

(** when all the directions are marked good, the rows of the result are the differences of the points where the
    two support functions are attained; one closer than 10^-14 to the difference of the centres is replaced by
    it.  The flag is raised in dimension 3 exactly when every row is the difference of the centres. *)
Theorem C77_points :
  forall (R : rcfType) (abs_tol : xnum R) n (e1 e2 : ell R) (c1 c2 : 'cV[R]_n) (Q1 Q2 : 'M[R]_n) t1 t2 m
    (D : 'M[R]_(n, m)) univ, (0 < n)%N -> (0 < m)%N -> repr e1 c1 Q1 t1 -> repr e2 c2 Q2 t2 ->
  exists (B : 'M[R]_(m, n)) (b : bool),
    calc_diff_one_dir abs_tol e1 e2 (mat D) univ (nseq m true) = Ok (mat B, b) /\
    (b <-> n = 3%N /\ forall j, (row j B)^T = c1 - c2) /\
    forall j, exists s1 s2 p1 p2, [/\ supports c1 Q1 (col j D) s1 p1, supports c2 Q2 (col j D) s2 p2,
      near (p1 - p2) (c1 - c2) -> (row j B)^T = c1 - c2 & ~ near (p1 - p2) (c1 - c2) -> (row j B)^T = p1 - p2].
Proof. exact: good_spec. Qed.
Print Assumptions C77_points.

(** each row is on the hyperplane where <l, x> is the difference of the support functions, up to 10^-14 |l|_1 *)
Theorem C77_plane :
  forall (R : rcfType) (abs_tol : xnum R) n (e1 e2 : ell R) (c1 c2 : 'cV[R]_n) (Q1 Q2 : 'M[R]_n) t1 t2 m
    (D : 'M[R]_(n, m)) univ (B : 'M[R]_(m, n)) b, (0 < n)%N -> (0 < m)%N -> repr e1 c1 Q1 t1 -> repr e2 c2 Q2 t2 ->
  calc_diff_one_dir abs_tol e1 e2 (mat D) univ (nseq m true) = Ok (mat B, b) ->
  forall j s1 s2, max_over (in_ell c1 Q1) (col j D) s1 -> max_over (in_ell c2 Q2) (col j D) s2 ->
  `|dotv (col j D) (row j B)^T - (s1 - s2)| <= 10%:R ^- 14 * \sum_i `|D i j|.
Proof. exact: good_plane. Qed.
Print Assumptions C77_plane.

(** when the direction is good, that is when the support function of the geometric difference is the difference of
    the support functions, the row is a point of the geometric difference where it is attained, unless it was
    replaced *)
Theorem C77_inside :
  forall (R : rcfType) (abs_tol : xnum R) n (e1 e2 : ell R) (c1 c2 : 'cV[R]_n) (Q1 Q2 : 'M[R]_n) t1 t2 m
    (D : 'M[R]_(n, m)) univ (B : 'M[R]_(m, n)) b, (0 < n)%N -> (0 < m)%N -> repr e1 c1 Q1 t1 -> repr e2 c2 Q2 t2 ->
  calc_diff_one_dir abs_tol e1 e2 (mat D) univ (nseq m true) = Ok (mat B, b) ->
  forall j s1 s2, 0 < qf Q1 (col j D) ->
  max_over (in_ell c1 Q1) (col j D) s1 -> max_over (in_ell c2 Q2) (col j D) s2 ->
  max_over (geom_diff c1 Q1 c2 Q2) (col j D) (s1 - s2) ->
  (row j B)^T = c1 - c2 \/
  geom_diff c1 Q1 c2 Q2 (row j B)^T /\ dotv (col j D) (row j B)^T = s1 - s2.
Proof. exact: good_inside. Qed.
Print Assumptions C77_inside.

(** false of the code: that directions marked bad are handled; any of them raises IndexError, for rho_mat is given
    a one-dimensional column *)
Theorem C77_bad_refuted :
  forall (R : rcfType) (abs_tol : xnum R) n (e1 e2 : ell R) (c1 c2 : 'cV[R]_n) (Q1 Q2 : 'M[R]_n) t1 t2 m
    (D : 'M[R]_(n, m)) k (us : seq (xnum R)) good, (0 < n)%N -> (0 < m)%N -> repr e1 c1 Q1 t1 -> repr e2 c2 Q2 t2 ->
  ~~ all id (take m good) ->
  calc_diff_one_dir abs_tol e1 e2 (mat D) (Arr [:: k] us) good = IndexError.
Proof. exact: bad_run. Qed.
Print Assumptions C77_bad_refuted.

(** the balls of radius 2 and 1 in space: every unit direction is good *)
Example C77_ex : forall (R : rcfType) (c1 c2 l : 'cV[R]_3), sqn l = 1 ->
  [/\ repr (ball_at c1 4%:R) c1 (4%:R)%:M (10%:R ^- 7), repr (ball_at c2 1) c2 1%:M (10%:R ^- 7),
      0 < qf ((4%:R)%:M : 'M[R]_3) l &
      max_over (in_ell c1 (4%:R)%:M) l (dotv l c1 + 2%:R) /\ max_over (in_ell c2 1%:M) l (dotv l c2 + 1) /\
      max_over (geom_diff c1 (4%:R)%:M c2 1%:M) l ((dotv l c1 + 2%:R) - (dotv l c2 + 1))].
Proof.
move=> R c1 c2 l l1; split; [exact: ball_repr (ler0n _ _)|exact: ball_repr ler01| |exact: balls_good].
by rewrite /qf mul_scalar_mx dotvZr -/(sqn l) l1 mulr1 ltr0n.
Qed.
Print Assumptions C77_ex.
