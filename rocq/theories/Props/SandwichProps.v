(** C89: minksum_ia and minksum_ea together (elltool/core/ellipsoid/Ellipsoid.py, elltool/core/abstract/AEllipsoid.py). *)
From mathcomp Require Import all_ssreflect all_fingroup all_algebra.
Require Import Coq.Strings.String.
From Verif.Model Require Import Py NP NP3 Linalg La EllGeom Ellipsoid.
From Verif.Spec Require Import MatSpec LinalgSpec OrthSpec EllSpec EllipsoidSpec.
From Verif.Proof Require Import NPLib MatLib LaBasic LinalgSat EllLib EllGeomProof EllScalProof EllScalEx OpsEx OrderProof MonoProof SandwichProof.
Import Order.Theory GRing.Theory Num.Theory.
Local Open Scope ring_scope.

(** for any two directions the inner approximation lies in the outer one, has at most its volume, and the
    outer one is found bigger; for the same direction the two touch *)
Theorem C89_sandwich_partial :
  forall (R : rcfType) (la : linalg R) (vf : volfun R) pi cfg p t0 n k es (c : 'I_k.+2 -> 'cV[R]_n) Q t (l l' : 'cV[R]_n),
  linalg_ok la -> volfun_ok vf pi -> eigvalsh_ok la -> eig_ok la -> eigh_ok la -> det_ok la ->
  (0 < n)%N -> family es c Q t -> props_of cfg (no_kw R) p t0 -> l != 0 -> l' != 0 ->
  (forall j x, x != 0 -> t j * sqn x < qf (Q j) x) -> (forall j, clear_roots (Q j) (Q ord0) l) ->
  exists r r' (c1 : 'cV[R]_n) (Q1 : 'M[R]_n) (c2 : 'cV[R]_n) (Q2 : 'M[R]_n),
  [/\ minksum_ia la cfg es (vec l) = Ok (Arr [:: 1%N] [:: r]),
    minksum_ea la cfg es (vec l') = Ok (Arr [:: 1%N] [:: r']), repr r c1 Q1 t0 /\ repr r' c2 Q2 t0,
    [/\ forall x, in_ell c1 Q1 x -> in_ell c2 Q2 x,
        l = l' -> exists s, max_over (in_ell c1 Q1) l s /\ max_over (in_ell c2 Q2) l s &
        (forall x, x != 0 -> t0 * sqn x < qf Q2 x) -> wellcond Q2 -> is_bigger la r' r = Ok true] &
    exists v1 v2 a1 a2, [/\ volume la vf (Arr [:: 2%N] [:: r; r']) = Ok [:: v1; v2], vol_value v1 = Fin a1, vol_value v2 = Fin a2 & a1 <= a2]].
Proof. exact: sandwich. Qed.
Print Assumptions C89_sandwich_partial.

(** minksum_ea does not depend on the order of the ellipsoids, degenerate ones included *)
Theorem C89_order :
  forall (R : rcfType) (la : linalg R) cfg p t0 n k es es' (c : 'I_k -> 'cV[R]_n) Q t (s : {perm 'I_k}) m (D : 'M[R]_(n, m)),
  eigvalsh_ok la -> eig_ok la -> (0 < n)%N -> (1 < k)%N -> family es c Q t -> props_of cfg (no_kw R) p t0 -> (forall j, col j D != 0) ->
  size es' = k -> (forall (j : 'I_k) e0, nth e0 es' j = nth e0 es (s j)) ->
  minksum_ea la cfg es' (mat D) = minksum_ea la cfg es (mat D).
Proof. exact: ea_perm. Qed.
Print Assumptions C89_order.

(** ... nor on the lengths and signs of the directions *)
Theorem C89_scale :
  forall (R : rcfType) (la : linalg R) cfg p t0 n k es (c : 'I_k -> 'cV[R]_n) Q t m (D : 'M[R]_(n, m)) (a : 'I_m -> R),
  eigvalsh_ok la -> eig_ok la -> (0 < n)%N -> (1 < k)%N -> family es c Q t -> props_of cfg (no_kw R) p t0 ->
  (forall j, col j D != 0) -> (forall j, a j != 0) ->
  minksum_ea la cfg es (mat (\matrix_(i, j) (a j * D i j))) = minksum_ea la cfg es (mat D).
Proof. exact: ea_scale. Qed.
Print Assumptions C89_scale.

(** two balls in the plane and the exchange of the two meet the hypotheses *)
Example C89_nonvacuous (R : rcfType) :
  [/\ linalg_ok (the_linalg R), family (two_balls R) (two_c R) (two_q R) (fun _ => 10%:R ^- 7),
      props_of (std_props R) (no_kw R) (std_props R) (10%:R ^- 7),
      (forall j (l : 'cV[R]_2), clear_roots (two_q R j) (two_q R ord0) l) &
      forall (j : 'I_2) e0, nth e0 (rev (two_balls R)) j = nth e0 (two_balls R) (tperm ord0 ord_max j)].
Proof.
split; [exact: the_linalg_ok|exact: two_family|exact: std_props_ok| |].
  by move=> j l; rewrite /two_q eqxx; case: eqP => _; apply: clear_roots_scal; rewrite ?ler0n ?ler01.
case=> [[|[|]] //= Hj] e0.
  by rewrite (_ : Ordinal Hj = ord0) ?tpermL //; exact: val_inj.
by rewrite (_ : Ordinal Hj = ord_max) ?tpermR //; exact: val_inj.
Qed.
