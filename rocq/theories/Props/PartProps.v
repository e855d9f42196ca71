(** C45: gras/geom/geom.py:sphere_part; C40: the vertices of sphere_tri are distinct, the faces do not overlap. *)
From mathcomp Require Import all_ssreflect all_algebra.
Require Import Coq.Strings.String.
From Verif.Model Require Import Py NP Tri Sphere SpherePart.
From Verif.Spec Require Import TriSpec SphereSpec PartSpec.
From Verif.Proof Require Import TriDec SphereProof Icosa SphereEx SphereIco2 PartProof2 PartSep PartEx.
Import Order.Theory GRing.Theory Num.Theory.
Local Open Scope ring_scope.

(** ------------------------------------------------------------------ C40 *)

(** the cones over two faces of sphere_tri(d) meet only in what is spanned by the common vertices, and
    the opposite of every face is a face: at every depth *)
Theorem C40_fan : forall (R : rcfType) (tr : trig R), angle_ok tr (t_pi tr / 5%:R) 10 ->
  forall argsort : seq nat -> seq nat, argsortn_ok argsort -> forall (fuel d : nat) vs fs, (d <= fuel)%N ->
  sphere_tri tr argsort fuel (IInt d%:Z) = Some (Ok (vs, fs)) -> fan vs fs /\ antipodal vs fs.
Proof. by move=> R tr Hg argsort Ha fuel d vs fs Hd /(sphere_fan Hg Ha Hd)[]. Qed.
Print Assumptions C40_fan.

(** no vertex occurs twice, and the opposite of every vertex is a vertex *)
Theorem C40_distinct : forall (R : rcfType) (tr : trig R), angle_ok tr (t_pi tr / 5%:R) 10 ->
  forall argsort : seq nat -> seq nat, argsortn_ok argsort -> forall (fuel d : nat) vs fs, (d <= fuel)%N ->
  sphere_tri tr argsort fuel (IInt d%:Z) = Some (Ok (vs, fs)) -> uniq vs /\ forall x, x \in vs -> - x \in vs.
Proof. exact: @sphere_uniq. Qed.
Print Assumptions C40_distinct.

(** ------------------------------------------------------------------ C45 *)

(** n rows, all of them vertices of sphere_tri(d), unit; d is the least depth from 1 on whose grid has n pairs of
    opposite vertices *)
Theorem C45_rows : forall (R : rcfType) (tr : trig R) (arccos log2 : R -> R) (ceil : R -> int) (argsort : seq nat -> seq nat),
  angle_ok tr (t_pi tr / 5%:R) 10 -> argsortn_ok argsort -> log2_ok log2 -> ceil_ok ceil -> forall fuel n : nat, (0 < n <= fuel)%N ->
  exists d vs fs rows,
  [/\ sphere_tri tr argsort fuel (IInt d%:Z) = Some (Ok (vs, fs)),
      [/\ (0 < d)%N, (2 * n <= size vs)%N & forall k, (0 < k < d)%N -> (sphere_size k < 2 * n)%N],
      sphere_part tr arccos log2 ceil argsort fuel n%:Z = Some (Ok rows), size rows = n & forall x, x \in rows -> x \in vs /\ unit_vec x].
Proof. exact: @part_rows. Qed.
Print Assumptions C45_rows.

(** which rows: one vertex p of every opposite pair; the rows 0, 3, 6, ... are the first of these in the order of decreasing
    third coordinate, the rows 1, 4, ... by the first and the rows 2, 5, ... by the second coordinate, none twice in the same
    order (so that no row occurs more than three times), as long as different vertices are at least 1e-8 apart *)
Theorem C45_nearest : forall (R : rcfType) (tr : trig R) (arccos log2 : R -> R) (ceil : R -> int) (argsort : seq nat -> seq nat),
  angle_ok tr (t_pi tr / 5%:R) 10 -> argsortn_ok argsort -> log2_ok log2 -> ceil_ok ceil -> arccos_ok tr arccos ->
  forall (fuel n d : nat) vs fs rows, (0 < n <= fuel)%N -> part_depth log2 ceil n = d%:Z ->
  sphere_tri tr argsort fuel (IInt d%:Z) = Some (Ok (vs, fs)) -> sphere_part tr arccos log2 ceil argsort fuel n%:Z = Some (Ok rows) ->
  (forall x y, x \in vs -> y \in vs -> x != y -> dir_tol R <= vlen (x - y)) ->
  exists p zi xi yi, [/\ half_of vs p /\ size vs = (2 * size p)%N,
    [/\ nearest_first p 2%:R zi, nearest_first p 0 xi & nearest_first p 1 yi],
    [/\ size zi = (n + 2) %/ 3, size xi = (n + 1) %/ 3 & size yi = n %/ 3]%N &
    forall j, (j < n)%N -> nth 0 rows j = nth 0 p (nth 0 (nth [::] [:: zi; xi; yi] (j %% 3)) (j %/ 3))%N].
Proof. exact: @part_near. Qed.
Print Assumptions C45_nearest.

(** the grid of depth 1, from which up to 21 points are taken, is that well separated *)
Theorem C45_separated : forall (R : rcfType) (tr : trig R) (argsort : seq nat -> seq nat),
  angle_ok tr (t_pi tr / 5%:R) 10 -> argsortn_ok argsort -> forall (fuel : nat) vs fs, (0 < fuel)%N ->
  sphere_tri tr argsort fuel (IInt 1) = Some (Ok (vs, fs)) -> forall x y, x \in vs -> y \in vs -> x != y -> dir_tol R <= vlen (x - y).
Proof. exact: @depth1_sep. Qed.
Print Assumptions C45_separated.

Theorem C45_rejects : forall (R : rcfType) (tr : trig R) (arccos log2 : R -> R) (ceil : R -> int) (argsort : seq nat -> seq nat) fuel (z : int),
  z <= 0 -> sphere_part tr arccos log2 ceil argsort fuel z = Some (throw "wrongInput:n_points"%string).
Proof. exact: @part_reject. Qed.
Print Assumptions C45_rejects.

Example C45_nonvacuous : [/\ angle_ok tenth (t_pi tenth / 5%:R) 10, argsortn_ok sargsort, log2_ok (wlog2 up_nat), ceil_ok (wceil up_nat) & arccos_ok tenth warccos] /\
  exists vs fs rows, [/\ sphere_tri tenth sargsort 13 (IInt 1) = Some (Ok (vs, fs)), sphere_part tenth warccos (wlog2 up_nat) (wceil up_nat) sargsort 13 13 = Some (Ok rows),
  size rows = 13%N & forall x y, x \in vs -> y \in vs -> x != y -> dir_tol ralg <= vlen (x - y)].
Proof. split; [split; [exact: tenth_ok|exact: sargsort_ok|exact: wlog2_ok|exact: wceil_ok|exact: warccos_ok]|exact: part_example]. Qed.
