(** C51, C52 (Minkowski sums) and C55 (membership): elltool/core/ellipsoid/Ellipsoid.py. *)
From mathcomp Require Import all_ssreflect all_algebra.
Require Import Coq.Strings.String.
From Verif.Model Require Import Py NP Linalg La Ellipsoid.
From Verif.Spec Require Import MatSpec LinalgSpec OrthSpec EllSpec EllipsoidSpec.
From Verif.Proof Require Import NPLib MatLib LaBasic LinalgSat EllLib EllScalProof EllScalEx RegProof MinksumProof MinkIaProof OpsEx PolarProof PolarEx.
Import Order.Theory GRing.Theory Num.Theory.
Local Open Scope ring_scope.

(** ------------------------------------------------------------------ C55 *)
(** is_internal(es, P, mode): point by point, any ('u') or all ('i') of the regularised ellipsoids,
    enlarged by the factor 1 + abs_tol, contain it.  The ellipsoids are given by an array of shape
    (k, 1, ..., 1) with at least two axes *)
Theorem C55_is_internal :
  forall (R : rcfType) (la : linalg R) n k s es (c : 'I_k -> 'cV[R]_n) (Q : 'I_k -> 'M[R]_n) (t : 'I_k -> R),
  eigvalsh_ok la -> eig_ok la -> inv_ok la -> (0 < n)%N -> (0 < k)%N ->
  family es c Q t -> s != [::] -> prodn s = 1%N ->
  exists2 B : 'I_k -> 'M[R]_n, (forall j, regularised (t j) (Q j) (B j)) &
  forall m (P : 'M[R]_(n, m)),
  (exists2 bs, is_internal la (Arr (k :: s) es) (mat P) (Some "u"%string) = Ok (Arr [:: m; 1%N] bs) &
     size bs = m /\ forall i : 'I_m, nth false bs i = true <->
       exists j, qf (invmx (B j)) (col i P - c j) < (1 + t j) ^+ 2) /\
  (exists2 bs, is_internal la (Arr (k :: s) es) (mat P) (Some "i"%string) = Ok (Arr [:: m; 1%N] bs) &
     size bs = m /\ forall i : 'I_m, nth false bs i = true <->
       forall j, qf (invmx (B j)) (col i P - c j) < (1 + t j) ^+ 2).
Proof. exact: is_internal_any. Qed.
Print Assumptions C55_is_internal.

(** in terms of the sets: members are always reported; for non-degenerate ellipsoids what is reported
    lies in the ellipsoid enlarged by 1 + abs_tol *)
Theorem C55_membership :
  forall (R : rcfType) (la : linalg R) n k s es (c : 'I_k -> 'cV[R]_n) (Q : 'I_k -> 'M[R]_n) (t : 'I_k -> R),
  eigvalsh_ok la -> eig_ok la -> inv_ok la -> (0 < n)%N -> (0 < k)%N ->
  family es c Q t -> s != [::] -> prodn s = 1%N ->
  forall m (P : 'M[R]_(n, m)),
  (exists2 bs, is_internal la (Arr (k :: s) es) (mat P) (Some "u"%string) = Ok (Arr [:: m; 1%N] bs) &
     forall i : 'I_m, ((exists j, in_ell (c j) (Q j) (col i P)) -> nth false bs i = true) /\
       ((forall j x, x != 0 -> t j * sqn x < qf (Q j) x) -> nth false bs i = true ->
        exists j, in_ell (c j) ((1 + t j) ^+ 2 *: Q j) (col i P))) /\
  (exists2 bs, is_internal la (Arr (k :: s) es) (mat P) (Some "i"%string) = Ok (Arr [:: m; 1%N] bs) &
     forall i : 'I_m, ((forall j, in_ell (c j) (Q j) (col i P)) -> nth false bs i = true) /\
       ((forall j x, x != 0 -> t j * sqn x < qf (Q j) x) -> nth false bs i = true ->
        forall j, in_ell (c j) ((1 + t j) ^+ 2 *: Q j) (col i P))).
Proof. exact: is_internal_member. Qed.
Print Assumptions C55_membership.

(** an array of ellipsoids with a single axis is not accepted: the loop takes ell_arr[i] apart as an
    array *)
Theorem C55_vector_of_ellipsoids_refuted :
  forall (R : rcfType) (la : linalg R) n k m es (c : 'I_k -> 'cV[R]_n) (Q : 'I_k -> 'M[R]_n) (t : 'I_k -> R)
    (P : 'M[R]_(n, m)), (0 < n)%N -> (0 < k)%N -> (0 < m)%N -> family es c Q t ->
  is_internal la (Arr [:: k] es) (mat P) (Some "u"%string) = AttributeError.
Proof. exact: is_internal_vector. Qed.
Print Assumptions C55_vector_of_ellipsoids_refuted.

Theorem C55_errors :
  (forall (R : rcfType) (la : linalg R) a m mode, size (data a) != 0%N -> ~~ np_any (is_empty a) ->
   mode <> "u"%string -> mode <> "i"%string -> is_internal la a m (Some mode) = throw "wrongInput") /\
  (forall (R : rcfType) (la : linalg R) n' n k s es (c : 'I_k -> 'cV[R]_n) (Q : 'I_k -> 'M[R]_n) (t : 'I_k -> R)
     m (P : 'M[R]_(n', m)), (0 < n)%N -> (0 < k)%N -> family es c Q t -> n != n' ->
   is_internal la (Arr s es) (mat P) (Some "u"%string) = throw "wrongSizes").
Proof. by split=> R; [exact: is_internal_badmode|exact: is_internal_sizes]. Qed.
Print Assumptions C55_errors.

(** ------------------------------------------------------------------ C51 *)
(** minksum_ea of k >= 2 ellipsoids: for each direction an ellipsoid that contains the Minkowski sum and
    touches, in that direction, the sum of the regularised ellipsoids; the directions are the columns of
    a matrix or a single vector *)
Theorem C51_minksum_ea :
  forall (R : rcfType) (la : linalg R) cfg p t0 n k es (c : 'I_k -> 'cV[R]_n) Q t, eigvalsh_ok la -> eig_ok la ->
  (0 < n)%N -> (1 < k)%N -> family es c Q t -> props_of cfg (no_kw R) p t0 ->
  exists2 B : 'I_k -> 'M[R]_n, forall j, regularised (t j) (Q j) (B j) &
   (forall m (D : 'M[R]_(n, m)), (forall j, col j D != 0) ->
    exists2 rs, minksum_ea la cfg es (mat D) = Ok (Arr [:: m] rs) & size rs = m /\
     forall (j : 'I_m) e0, exists c' Q', [/\ repr (nth e0 rs j) c' Q' t0,
       outer_at (in_msum (fun i => in_ell (c i) (B i))) (col j D) c' Q' &
       forall x, in_msum (fun i => in_ell (c i) (Q i)) x -> in_ell c' Q' x]) /\
   (forall l : 'cV[R]_n, l != 0 -> exists e c' Q', [/\ minksum_ea la cfg es (vec l) = Ok (Arr [:: 1%N] [:: e]),
       repr e c' Q' t0,
       outer_at (in_msum (fun i => in_ell (c i) (B i))) l c' Q' &
       forall x, in_msum (fun i => in_ell (c i) (Q i)) x -> in_ell c' Q' x]).
Proof. exact: minksum_ea_run. Qed.
Print Assumptions C51_minksum_ea.

(** non-degenerate ellipsoids: nothing is regularised *)
Theorem C51_minksum_ea_nondegenerate :
  forall (R : rcfType) (la : linalg R) cfg p t0 n k es (c : 'I_k -> 'cV[R]_n) Q t, eigvalsh_ok la -> eig_ok la ->
  (0 < n)%N -> (1 < k)%N -> family es c Q t -> props_of cfg (no_kw R) p t0 ->
  (forall j x, x != 0 -> t j * sqn x < qf (Q j) x) ->
  forall m (D : 'M[R]_(n, m)), (forall j, col j D != 0) ->
  exists2 rs, minksum_ea la cfg es (mat D) = Ok (Arr [:: m] rs) & size rs = m /\
    forall (j : 'I_m) e0, exists c' Q', repr (nth e0 rs j) c' Q' t0 /\
      outer_at (in_msum (fun i => in_ell (c i) (Q i))) (col j D) c' Q'.
Proof. exact: minksum_ea_nondeg. Qed.
Print Assumptions C51_minksum_ea_nondegenerate.

Theorem C51_one_ellipsoid :
  forall (R : rcfType) (la : linalg R) cfg e n (c : 'cV[R]_n) Q t m (D : 'M[R]_(n, m)), eigvalsh_ok la ->
  (0 < n)%N -> repr e c Q t ->
  minksum_ea la cfg [:: e] (mat D) = Ok (np_squeeze (Arr [:: 1%N; m] (nseq m e))) /\
  minksum_ia la cfg [:: e] (mat D) = Ok (np_squeeze (Arr [:: 1%N; m] (nseq m e))).
Proof. exact: minksum_one. Qed.
Print Assumptions C51_one_ellipsoid.

Theorem C51_errors :
  forall (R : rcfType) (la : linalg R) cfg es (D : arr (xnum R)), (0 < ndim D)%N ->
  [/\ es = [::] -> minksum_ea la cfg es D = throw "wrongInput:emptyArray" /\
                   minksum_ia la cfg es D = throw "wrongInput:emptyArray",
      has (fun e => np_size (e_center e) == 0%N) es ->
      minksum_ea la cfg es D = throw "wrongInput:emptyEllipsoid" /\
      minksum_ia la cfg es D = throw "wrongInput:emptyEllipsoid" &
      all (fun e => np_size (e_center e) != 0%N) es -> has (fun e => np_size (e_center e) != dim D 0) es ->
      minksum_ea la cfg es D = throw "wrongSizes:" /\ minksum_ia la cfg es D = throw "wrongSizes:"].
Proof.
move=> R la cfg es D d0.
have H body := minksum_errors la cfg es body d0.
split=> [h|h|h h']; split; rewrite /minksum_ea /minksum_ia.
- by match goal with |- minksum _ _ _ _ ?b = _ => have [/(_ h) ->] := H b end.
- by match goal with |- minksum _ _ _ _ ?b = _ => have [/(_ h) ->] := H b end.
- by match goal with |- minksum _ _ _ _ ?b = _ => have [_ /(_ h) ->] := H b end.
- by match goal with |- minksum _ _ _ _ ?b = _ => have [_ /(_ h) ->] := H b end.
- by match goal with |- minksum _ _ _ _ ?b = _ => have [_ _ /(_ h h') ->] := H b end.
- by match goal with |- minksum _ _ _ _ ?b = _ => have [_ _ /(_ h h') ->] := H b end.
Qed.
Print Assumptions C51_errors.

(** ------------------------------------------------------------------ C52 *)
(** minksum_ia of k >= 2 ellipsoids, for directions in which the first one is not flat.  With no
    condition on angles: inside the sum enlarged by sqrt(1 + 1e-14), touching it up to a relative
    2e-14.  When the images of l under the square roots are parallel or at an angle above 1e-7: inside
    the sum, touching it exactly *)
Theorem C52_minksum_ia :
  forall (R : rcfType) (la : linalg R) cfg p t0 n k es (c : 'I_k.+2 -> 'cV[R]_n) Q t,
  eigvalsh_ok la -> eig_ok la -> eigh_ok la ->
  (0 < n)%N -> family es c Q t -> props_of cfg (no_kw R) p t0 ->
  exists2 B : 'I_k.+2 -> 'M[R]_n, forall j, regularised (t j) (Q j) (B j) &
   (forall m (D : 'M[R]_(n, m)), (forall v, 0 < qf (Q ord0) (col v D)) ->
    exists2 rs, minksum_ia la cfg es (mat D) = Ok (Arr [:: m] rs) & size rs = m /\
     forall (v : 'I_m) e0, exists c' Q', [/\ repr (nth e0 rs v) c' Q' t0,
       inner_near c B (col v D) c' Q' &
       (forall j, clear_roots (B j) (Q ord0) (col v D)) ->
       inner_at (in_msum (fun j => in_ell (c j) (B j))) (col v D) c' Q']) /\
   (forall l : 'cV[R]_n, 0 < qf (Q ord0) l ->
    exists e c' Q', [/\ minksum_ia la cfg es (vec l) = Ok (Arr [:: 1%N] [:: e]), repr e c' Q' t0,
       inner_near c B l c' Q' &
       (forall j, clear_roots (B j) (Q ord0) l) ->
       inner_at (in_msum (fun j => in_ell (c j) (B j))) l c' Q']).
Proof. exact: minksum_ia_run. Qed.
Print Assumptions C52_minksum_ia.

(** the first ellipsoid is regularised in the sum but not in the source of the rotations: a direction
    orthogonal to a degenerate first ellipsoid makes the call raise *)
Theorem C52_degenerate_first_refuted :
  forall (R : rcfType) (la : linalg R) cfg n k es (c : 'I_k.+2 -> 'cV[R]_n) Q t (l : 'cV[R]_n), eigvalsh_ok la ->
  eig_ok la -> eigh_ok la -> (0 < n)%N -> family es c Q t -> qf (Q ord0) l = 0 ->
  minksum_ia la cfg es (vec l) = throw "wrongInput:dst_zero".
Proof. exact: minksum_ia_degenerate. Qed.
Print Assumptions C52_degenerate_first_refuted.

(** two balls in the plane meet the hypotheses of C51, C52 and C55 *)
Example C51_C52_C55_example (R : rcfType) :
  [/\ linalg_ok (the_linalg R), family (two_balls R) (two_c R) (two_q R) (fun _ => 10%:R ^- 7),
      props_of (std_props R) (no_kw R) (std_props R) (10%:R ^- 7),
      (forall j x, x != 0 -> 10%:R ^- 7 * sqn x < qf (two_q R j) x) &
      (forall (v : 'I_2), 0 < qf (two_q R ord0) (col v 1%:M)) /\
      (forall j (l : 'cV[R]_2), clear_roots (two_q R j) (two_q R ord0) l)].
Proof.
have q1 j x : x != 0 -> 10%:R ^- 7 * sqn x < qf (two_q R j) x.
  move=> x0; rewrite /two_q; case: eqP => _; rewrite qf_scal ltr_pmul2r ?sqn_gt0 //; first exact: ten7_1.
  by apply: lt_le_trans (ten7_1 R) _; rewrite ler1n.
split=> //; [exact: the_linalg_ok|exact: two_family|exact: std_props_ok|split=> [v|j l]].
  apply: le_lt_trans (q1 ord0 _ _); first by rewrite mulr_ge0 ?sqn_ge0 // ltW // ten7.
  by rewrite colE mul1mx -sqn_gt0 /sqn OrthLib.dot_delta mxE !eqxx ltr01.
by rewrite /two_q eqxx; case: eqP => _; apply: clear_roots_scal; rewrite ?ler0n ?ler01.
Qed.

(** ... and a segment with a ball those of the refutation *)
Example C52_degenerate_example (R : rcfType) :
  let Q := fun j : 'I_2 => if j == 0 then diagv (delta_mx 0 0) else 1%:M : 'M[R]_2 in
  [/\ symm (Q 0), psd (Q 0) & qf (Q 0) (delta_mx 1 0) = 0].
Proof.
rewrite /=; split; first exact: tr_diagv.
  by move=> x; rewrite qf_diagv sumr_ge0 // => i _; rewrite mulr_ge0 ?sqr_ge0 // mxE; case: (_ && _); rewrite ?ler01.
by rewrite qf_diagv sum2 !mxE /= mul1r mul0r expr2 mul0r addr0.
Qed.

(** ------------------------------------------------------------------ C53 *)
(** polar([e]) for an ellipsoid with the origin inside: exactly the points y with <x, y> <= 1 for every
    x of the ellipsoid; the result again has the origin inside *)
Theorem C53_polar :
  forall (R : rcfType) (la : linalg R) cfg p t0 e n (c : 'cV[R]_n) (Q : 'M[R]_n) t,
  inv_ok la -> lstsq_ok la -> eigvalsh_ok la ->
  (0 < n)%N -> repr e c Q t -> (forall x, x != 0 -> t * sqn x < qf Q x) ->
  origin_inside (in_ell c Q) -> props_of cfg (no_kw R) p t0 ->
  exists e' (c' : 'cV[R]_n) Q', [/\ polar la cfg (Arr [:: 1%N] [:: e]) = Ok (Arr [:: 1%N] [:: e']),
    repr e' c' Q' t0, origin_inside (in_ell c' Q') &
    forall y, in_ell c' Q' y <-> in_polar (in_ell c Q) y].
Proof. exact: polar_spec. Qed.
Print Assumptions C53_polar.

(** polar(polar([e])) is the ellipsoid again, centre and shape, with the configured properties *)
Theorem C53_polar_twice :
  forall (R : rcfType) (la : linalg R) cfg p t0 e n (c : 'cV[R]_n) (Q : 'M[R]_n) t,
  inv_ok la -> lstsq_ok la -> eigvalsh_ok la ->
  (0 < n)%N -> repr e c Q t -> (forall x, x != 0 -> t * sqn x < qf Q x) ->
  origin_inside (in_ell c Q) -> props_of cfg (no_kw R) p t0 ->
  forall e' (c' : 'cV[R]_n) Q', polar la cfg (Arr [:: 1%N] [:: e]) = Ok (Arr [:: 1%N] [:: e']) ->
  repr e' c' Q' t0 -> (forall x, x != 0 -> t0 * sqn x < qf Q' x) ->
  polar la cfg (Arr [:: 1%N] [:: e']) = Ok (Arr [:: 1%N] [:: Ell (vec c) (mat Q) p]).
Proof. exact: polar_twice. Qed.
Print Assumptions C53_polar_twice.

(** an array with a degenerate ellipsoid is refused *)
Theorem C53_polar_degenerate :
  forall (R : rcfType) (la : linalg R) cfg s es e n (c : 'cV[R]_n) (Q : 'M[R]_n) t x,
  eigvalsh_ok la -> List.Forall (@good R) es ->
  List.In e es -> repr e c Q t -> x != 0 -> qf Q x <= t * sqn x ->
  polar la cfg (Arr s es) = throw "degenerateEllipsoid".
Proof. exact: polar_degenerate. Qed.
Print Assumptions C53_polar_degenerate.

(** two or more ellipsoids: IndexError, although each has a polar *)
Theorem C53_polar_many_refuted :
  forall (R : rcfType) (la : linalg R) cfg p t0 n k e1 e2 es, inv_ok la -> lstsq_ok la -> eigvalsh_ok la ->
  (0 < n)%N -> props_of cfg (no_kw R) p t0 -> List.Forall (polar_able n) [:: e1, e2 & es] ->
  polar la cfg (Arr [:: k] [:: e1, e2 & es]) = IndexError.
Proof. exact: polar_many. Qed.
Print Assumptions C53_polar_many_refuted.

(** an array with two or more axes: AttributeError *)
Theorem C53_polar_axes_refuted :
  forall (R : rcfType) (la : linalg R) cfg p t0 n k l s e es, eigvalsh_ok la -> (0 < n)%N ->
  props_of cfg (no_kw R) p t0 -> List.Forall (polar_able n) (e :: es) ->
  polar la cfg (Arr [:: k, l & s] (e :: es)) = AttributeError.
Proof. exact: polar_axes. Qed.
Print Assumptions C53_polar_axes_refuted.

(** the disc of radius 2 at (1/2, 1/2) meets the hypotheses *)
Example C53_hyps : forall R : rcfType,
  polar_able 2 (ball_at (const_mx 2%:R^-1 : 'cV[R]_2) 4%:R) /\
  props_of (std_props R) (no_kw R) (std_props R) (10%:R ^- 7).
Proof. by move=> R; split; [exact: half_ball_able|exact: std_props_ok]. Qed.

(** the origin outside: polar of the interval [1, 3] (centre 2, shape 1) is returned as the interval
    [1/3, 1], but y = 1 is not in the polar set *)
Theorem C53_origin_outside_refuted :
  forall (R : rcfType) (la : linalg R), inv_ok la -> lstsq_ok la -> eigvalsh_ok la ->
  let e := ball_at (const_mx 2%:R : 'cV[R]_1) 1 in
  exists e' (c' : 'cV[R]_1) Q', [/\
    polar la (std_props R) (Arr [:: 1%N] [:: e]) = Ok (Arr [:: 1%N] [:: e']),
    repr e' c' Q' (10%:R ^- 7), in_ell c' Q' (const_mx 1) &
    ~ in_polar (in_ell (const_mx 2%:R : 'cV[R]_1) 1%:M) (const_mx 1)].
Proof. exact: polar_interval. Qed.
Print Assumptions C53_origin_outside_refuted.
