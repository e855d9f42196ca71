(** C84: Ellipsoid.is_bigger as an order (elltool/core/ellipsoid/Ellipsoid.py). *)
From mathcomp Require Import all_ssreflect all_algebra.
Require Import Coq.Strings.String.
From Verif.Model Require Import Py NP NP3 Linalg La EllGeom Ellipsoid EllHeap.
From Verif.Spec Require Import MatSpec LinalgSpec OrthSpec EllSpec EllipsoidSpec EllHeapSpec.
From Verif.Proof Require Import NPLib MatLib LaBasic LinalgSat EllLib EllScalProof EllScalEx OpsEx OrderProof.
Import Order.Theory GRing.Theory Num.Theory.
Local Open Scope ring_scope.

(** every non-degenerate ellipsoid is bigger than itself *)
Theorem C84_reflexive :
  forall (R : rcfType) (la : linalg R) e n (c : 'cV[R]_n) Q t,
  linalg_ok la -> (0 < n)%N -> repr e c Q t ->
  (forall x, x != 0 -> t * sqn x < qf Q x) -> wellcond Q -> is_bigger la e e = Ok true.
Proof. exact: bigger_refl. Qed.
Print Assumptions C84_reflexive.

(** the answer depends on the shapes and the tolerance of the first ellipsoid only, not on the centres *)
Theorem C84_shapes :
  forall (R : rcfType) (la : linalg R) e1 e2 e1' e2' n (c1 c2 c1' c2' : 'cV[R]_n) (Q1 Q2 : 'M[R]_n) t1 t2 t2',
  linalg_ok la -> (0 < n)%N ->
  repr e1 c1 Q1 t1 -> repr e2 c2 Q2 t2 -> repr e1' c1' Q1 t1 -> repr e2' c2' Q2 t2' ->
  (forall x, x != 0 -> t1 * sqn x < qf Q1 x) -> wellcond Q1 ->
  is_bigger la e1 e2 = is_bigger la e1' e2'.
Proof. exact: bigger_shapes. Qed.
Print Assumptions C84_shapes.

(** transitive up to the tolerances; transitive if one of the two containments holds exactly *)
Theorem C84_transitive_partial :
  forall (R : rcfType) (la : linalg R) e1 e2 e3 n (c1 c2 c3 : 'cV[R]_n) (Q1 Q2 Q3 : 'M[R]_n) t1 t2 t3,
  linalg_ok la -> (0 < n)%N ->
  repr e1 c1 Q1 t1 -> repr e2 c2 Q2 t2 -> repr e3 c3 Q3 t3 ->
  (forall x, x != 0 -> t1 * sqn x < qf Q1 x) -> wellcond Q1 -> (forall x, x != 0 -> t2 * sqn x < qf Q2 x) -> wellcond Q2 ->
  is_bigger la e1 e2 = Ok true -> is_bigger la e2 e3 = Ok true ->
  (forall x, in_ell 0 Q3 x -> in_ell 0 (((1 + t1) * (1 + t2)) *: Q1) x) /\
  (t2 <= t1 -> (forall x, in_ell 0 Q2 x -> in_ell 0 Q1 x) -> is_bigger la e1 e3 = Ok true) /\
  ((forall x, in_ell 0 Q3 x -> in_ell 0 Q2 x) -> is_bigger la e1 e3 = Ok true).
Proof. exact: bigger_trans. Qed.
Print Assumptions C84_transitive_partial.

(** two ellipsoids each bigger than the other have the same shape up to the tolerances *)
Theorem C84_antisymmetric :
  forall (R : rcfType) (la : linalg R) e1 e2 n (c1 c2 : 'cV[R]_n) (Q1 Q2 : 'M[R]_n) t1 t2,
  linalg_ok la -> (0 < n)%N ->
  repr e1 c1 Q1 t1 -> repr e2 c2 Q2 t2 ->
  (forall x, x != 0 -> t1 * sqn x < qf Q1 x) -> wellcond Q1 -> (forall x, x != 0 -> t2 * sqn x < qf Q2 x) -> wellcond Q2 ->
  is_bigger la e1 e2 = Ok true -> is_bigger la e2 e1 = Ok true ->
  forall x, x != 0 -> - t2 * qf Q2 x < qf Q2 x - qf Q1 x < t1 * qf Q1 x.
Proof. exact: bigger_anti. Qed.
Print Assumptions C84_antisymmetric.

(** the projections of a bigger ellipsoid are bigger *)
Theorem C84_projection :
  forall (R : rcfType) (la : linalg R) cfg n k (B : 'M[R]_(n, k)) h a e1 e2 (c1 c2 : 'cV[R]_n) (Q1 Q2 : 'M[R]_n) t1 t2,
  linalg_ok la -> objs h (data a) [:: e1; e2] -> (0 < k <= n)%N -> orthocols B ->
  repr e1 c1 Q1 t1 -> repr e2 c2 Q2 t2 -> (forall x, x != 0 -> t1 * sqn x < qf Q1 x) -> wellcond Q1 ->
  is_bigger la e1 e2 = Ok true ->
  exists h' b e1' e2', [/\ get_projection la cfg a (mat B) h = (h', Ok b), objs h' (data b) [:: e1'; e2'] & is_bigger la e1' e2' = Ok true].
Proof. exact: bigger_projection. Qed.
Print Assumptions C84_projection.

(** not transitive: balls with the squared radii 1, 1 + t/2 and (1 + t/2)^2, where t = 1e-7 is the tolerance *)
Theorem C84_transitive_refuted :
  forall (R : rcfType) (la : linalg R), linalg_ok la ->
  let t := 10%:R ^- 7 : R in let p := Props (Fin t) (Fin (10%:R ^- 5)) 200 200 : props R in
  let b := fun r : R => Ell (vec (0 : 'cV[R]_2)) (mat (r%:M : 'M[R]_2)) p in let s := 1 + t / 2%:R in
  [/\ is_bigger la (b 1) (b s) = Ok true, is_bigger la (b s) (b (s * s)) = Ok true & is_bigger la (b 1) (b (s * s)) = Ok false].
Proof. exact: bigger_not_trans. Qed.
Print Assumptions C84_transitive_refuted.

(** balls meet the hypotheses *)
Example C84_nonvacuous : forall (R : rcfType) (c : 'cV[R]_2) (r : R), 1 <= r ->
  [/\ repr (ball_at c r) c (r%:M : 'M[R]_2) (10%:R ^- 7), forall x : 'cV[R]_2, x != 0 -> 10%:R ^- 7 * sqn x < qf (r%:M) x,
      wellcond (r%:M : 'M[R]_2), linalg_ok (the_linalg R) & orthocols (delta_mx 0 0 : 'M[R]_(2, 1))].
Proof.
move=> R c r r1; split; [by apply: ball_repr; exact: le_trans ler01 r1|exact: ball_strict|exact: ball_wellcond|exact: the_linalg_ok|].
by rewrite /orthocols trmx_delta mul_delta_mx; apply/matrixP => i j; rewrite !mxE !(ord1 i) !(ord1 j).
Qed.
