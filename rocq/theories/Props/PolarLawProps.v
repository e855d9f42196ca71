(** C90: laws of polar (elltool/core/ellipsoid/Ellipsoid.py). *)
From mathcomp Require Import all_ssreflect all_algebra.
Require Import Coq.Strings.String.
From Verif.Model Require Import Py NP NP3 Linalg La EllGeom Ellipsoid.
From Verif.Spec Require Import MatSpec LinalgSpec OrthSpec EllSpec EllipsoidSpec.
From Verif.Proof Require Import NPLib MatLib LaBasic LinalgSat EllLib EllScalProof EllScalEx OpsEx OrderProof MonoProof PolarLawProof.
Import Order.Theory GRing.Theory Num.Theory.
Local Open Scope ring_scope.

(** polar reverses inclusion, exactly, and with it the order of the volumes *)
Theorem C90_antitone :
  forall (R : rcfType) (la : linalg R) (vf : volfun R) pi cfg p t0 e1 e2 n (c1 c2 : 'cV[R]_n) (Q1 Q2 : 'M[R]_n) t1 t2,
  inv_ok la -> lstsq_ok la -> eigvalsh_ok la -> det_ok la -> volfun_ok vf pi -> (0 < n)%N ->
  repr e1 c1 Q1 t1 -> repr e2 c2 Q2 t2 ->
  (forall x, x != 0 -> t1 * sqn x < qf Q1 x) -> (forall x, x != 0 -> t2 * sqn x < qf Q2 x) ->
  origin_inside (in_ell c1 Q1) -> origin_inside (in_ell c2 Q2) -> props_of cfg (no_kw R) p t0 ->
  exists f1 f2 (d1 d2 : 'cV[R]_n) (P1 P2 : 'M[R]_n),
  [/\ polar la cfg (Arr [:: 1%N] [:: e1]) = Ok (Arr [:: 1%N] [:: f1]), polar la cfg (Arr [:: 1%N] [:: e2]) = Ok (Arr [:: 1%N] [:: f2]),
      repr f1 d1 P1 t0 /\ repr f2 d2 P2 t0,
      (forall x, in_ell c1 Q1 x -> in_ell c2 Q2 x) <-> (forall y, in_ell d2 P2 y -> in_ell d1 P1 y) &
      (forall x, in_ell c1 Q1 x -> in_ell c2 Q2 x) ->
      exists v1 v2 a1 a2, [/\ volume la vf (Arr [:: 2%N] [:: f2; f1]) = Ok [:: v2; v1], vol_value v1 = Fin a1, vol_value v2 = Fin a2 & a2 <= a1]].
Proof. exact: polar_antitone. Qed.
Print Assumptions C90_antitone.

(** the polar of the reflected ellipsoid is the reflected polar, the same object; both calls return *)
Theorem C90_neg :
  forall (R : rcfType) (la : linalg R) cfg p t0 e n (c : 'cV[R]_n) (Q : 'M[R]_n) t,
  inv_ok la -> lstsq_ok la -> eigvalsh_ok la -> (0 < n)%N -> repr e c Q t -> (forall x, x != 0 -> t * sqn x < qf Q x) ->
  (forall x, x != 0 -> t0 * sqn x < qf Q x) -> origin_inside (in_ell c Q) -> props_of cfg (no_kw R) p t0 ->
  (let* a := uminus la cfg (Arr [:: 1%N] [:: e]) in polar la cfg a) =
  (let* a := polar la cfg (Arr [:: 1%N] [:: e]) in uminus la cfg a) /\
  exists a, (let* a := uminus la cfg (Arr [:: 1%N] [:: e]) in polar la cfg a) = Ok a.
Proof. exact: polar_neg. Qed.
Print Assumptions C90_neg.

(** for an ellipsoid centred at the origin the extreme eigenvalues of the polar are the inverses, and the two volumes
    multiply to the squared volume of the unit ball *)
Theorem C90_centred :
  forall (R : rcfType) (la : linalg R) (vf : volfun R) pi cfg p t0 e n (Q : 'M[R]_n) t,
  inv_ok la -> lstsq_ok la -> eigvalsh_ok la -> det_ok la -> volfun_ok vf pi -> (0 < n)%N ->
  repr e (0 : 'cV[R]_n) Q t -> (forall x, x != 0 -> t * sqn x < qf Q x) -> origin_inside (in_ell 0 Q) -> props_of cfg (no_kw R) p t0 ->
  exists f, [/\ polar la cfg (Arr [:: 1%N] [:: e]) = Ok (Arr [:: 1%N] [:: f]), repr f (0 : 'cV[R]_n) (invmx Q) t0,
    exists m m', [/\ Ellipsoid.min_eig la (Arr [:: 1%N] [:: e]) = Ok (Arr [:: 1%N] [:: Fin m]), Ellipsoid.max_eig la (Arr [:: 1%N] [:: f]) = Ok (Arr [:: 1%N] [:: Fin m']) & m * m' = 1],
    exists m m', [/\ Ellipsoid.max_eig la (Arr [:: 1%N] [:: e]) = Ok (Arr [:: 1%N] [:: Fin m]), Ellipsoid.min_eig la (Arr [:: 1%N] [:: f]) = Ok (Arr [:: 1%N] [:: Fin m']) & m * m' = 1] &
    exists a b, [/\ ell_volume la vf (e_shape e) = Ok (Fin a), ell_volume la vf (e_shape f) = Ok (Fin b) & a * b = ball_vol pi n ^+ 2]].
Proof. exact: polar_centred. Qed.
Print Assumptions C90_centred.

(** discs around the origin meet the hypotheses *)
Example C90_nonvacuous : forall (R : rcfType) (r : R), 1 <= r ->
  [/\ repr (ball_at (0 : 'cV[R]_2) r) 0 (r%:M : 'M[R]_2) (10%:R ^- 7), forall x : 'cV[R]_2, x != 0 -> 10%:R ^- 7 * sqn x < qf (r%:M) x,
      origin_inside (in_ell (0 : 'cV[R]_2) (r%:M)), forall x : 'cV[R]_2, in_ell 0 (1%:M) x -> in_ell 0 (r%:M) x &
      props_of (std_props R) (no_kw R) (std_props R) (10%:R ^- 7)].
Proof.
move=> R r r1; have r0 := le_trans ler01 r1; split; [exact: ball_repr|exact: ball_strict| |exact: mono_ex|exact: std_props_ok].
exact: disc_inside.
Qed.
