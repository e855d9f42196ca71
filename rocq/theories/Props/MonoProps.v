(** C88: volume, trace, min_eig and max_eig under inclusion of ellipsoids
    (elltool/core/abstract/AEllipsoid.py, gras/geom/ell/ell.py). *)
From mathcomp Require Import all_ssreflect all_algebra.
Require Import Coq.Strings.String.
From Verif.Model Require Import Py NP NP3 Linalg La EllGeom Ellipsoid.
From Verif.Spec Require Import MatSpec LinalgSpec OrthSpec EllSpec EllipsoidSpec.
From Verif.Proof Require Import NPLib MatLib LaBasic LinalgSat EllLib EllGeomProof EllScalProof EllScalEx OpsEx OrderProof MonoProof.
Import Order.Theory GRing.Theory Num.Theory.
Local Open Scope ring_scope.

(** the volume of a contained ellipsoid is not larger; equal positive volumes only for the same ellipsoid *)
Theorem C88_volume :
  forall (R : rcfType) (la : linalg R) (vf : volfun R) pi, eigvalsh_ok la -> det_ok la -> volfun_ok vf pi ->
  forall s e1 e2 n (c1 c2 : 'cV[R]_n) (P Q : 'M[R]_n) t1 t2, (0 < n)%N -> repr e1 c1 P t1 -> repr e2 c2 Q t2 ->
  t2 <= t1 -> (forall x, in_ell c1 P x -> in_ell c2 Q x) ->
  exists v1 v2 r1 r2, [/\ volume la vf (Arr s [:: e1; e2]) = Ok [:: v1; v2], vol_value v1 = Fin r1, vol_value v2 = Fin r2,
    r1 <= r2 & 0 < r1 -> r1 = r2 -> c1 = c2 /\ P = Q].
Proof. exact: volume_mono. Qed.
Print Assumptions C88_volume.

(** not so if the containing ellipsoid has the larger tolerance: the same segment twice *)
Theorem C88_volume_tolerance_refuted :
  forall (R : rcfType) (la : linalg R) (vf : volfun R) pi e1 e2 (t u : R), eigvalsh_ok la -> det_ok la -> volfun_ok vf pi -> u < t ->
  repr e1 (0 : 'cV_1) (t%:M : 'M[R]_1) u -> repr e2 (0 : 'cV_1) (t%:M : 'M[R]_1) t ->
  exists v1 v2 r1, [/\ volume la vf (Arr [:: 2%N] [:: e1; e2]) = Ok [:: v1; v2], vol_value v1 = Fin r1, vol_value v2 = Fin 0 & 0 < r1].
Proof. exact: volume_mono_false. Qed.
Print Assumptions C88_volume_tolerance_refuted.

(** the smallest and the largest eigenvalue and the trace of a contained ellipsoid are not larger *)
Theorem C88_eigenvalues :
  forall (R : rcfType) (la : linalg R) s e1 e2 n (c1 c2 : 'cV[R]_n) (P Q : 'M[R]_n) t1 t2, eigvalsh_ok la -> (0 < n)%N ->
  repr e1 c1 P t1 -> repr e2 c2 Q t2 -> (forall x, in_ell c1 P x -> in_ell c2 Q x) ->
  (exists r1 r2, min_eig la (Arr s [:: e1; e2]) = Ok (Arr [:: 2%N] [:: Fin r1; Fin r2]) /\ r1 <= r2) /\
  (exists r1 r2, max_eig la (Arr s [:: e1; e2]) = Ok (Arr [:: 2%N] [:: Fin r1; Fin r2]) /\ r1 <= r2) /\
  (exists r1 r2, trace (Arr s [:: e1; e2]) = Ok (Arr [:: 2%N] [:: Fin r1; Fin r2]) /\ r1 <= r2).
Proof. exact: eig_mono. Qed.
Print Assumptions C88_eigenvalues.

(** an ellipsoid found bigger has, up to its tolerance, the larger volume *)
Theorem C88_bigger :
  forall (R : rcfType) (la : linalg R) (vf : volfun R) pi, eigvalsh_ok la -> det_ok la -> volfun_ok vf pi ->
  forall s e1 e2 n (c1 c2 : 'cV[R]_n) (P Q : 'M[R]_n) t1 t2, linalg_ok la -> (0 < n)%N ->
  repr e1 c1 P t1 -> repr e2 c2 Q t2 -> (forall x, x != 0 -> t1 * sqn x < qf P x) -> wellcond P -> is_bigger la e1 e2 = Ok true ->
  exists v1 v2 r1 r2, [/\ volume la vf (Arr s [:: e1; e2]) = Ok [:: v1; v2], vol_value v1 = Fin r1, vol_value v2 = Fin r2 &
    r2 ^+ 2 <= (1 + t1) ^+ n * r1 ^+ 2].
Proof. exact: volume_bigger. Qed.
Print Assumptions C88_bigger.

(** ell_volume of a shape and of its inverse by inv_mat: the product is the squared volume of the unit ball *)
Theorem C88_inverse :
  forall (R : rcfType) (la : linalg R) (vf : volfun R) pi, det_ok la -> volfun_ok vf pi ->
  forall n (Q : 'M[R]_n), inv_ok la -> (0 < n)%N -> symm Q -> posdef Q ->
  exists i r1 r2, [/\ inv_mat la (mat Q) = Ok i, ell_volume la vf (mat Q) = Ok (Fin r1), ell_volume la vf i = Ok (Fin r2) &
    r1 * r2 = ball_vol pi n ^+ 2].
Proof. exact: volume_inv. Qed.
Print Assumptions C88_inverse.

(** concentric balls meet the hypotheses *)
Example C88_nonvacuous : forall (R : rcfType) (c : 'cV[R]_2) (r : R), 1 <= r ->
  [/\ repr (ball_at c 1) c (1%:M : 'M[R]_2) (10%:R ^- 7), repr (ball_at c r) c (r%:M : 'M[R]_2) (10%:R ^- 7),
      forall x : 'cV[R]_2, in_ell c (1%:M) x -> in_ell c (r%:M) x, wellcond (r%:M : 'M[R]_2) & volfun_ok (vf_ex (1 : R)) 1].
Proof.
by move=> R c r r1; split; [exact: ball_repr ler01|apply: ball_repr; exact: le_trans ler01 r1|exact: mono_ex|exact: ball_wellcond|exact: vf_ex_ok ltr01].
Qed.
