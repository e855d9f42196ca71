(** C34: gras/geom/sup/sup.py: sup_geom_diff_2d, sup_geom_diff_3d.  The directions are the columns l_k of L and
    the bounds d_k = rho1_k - rho2_k; [scaled L d] are the points l_k / d_k whose convex hull the code takes (an
    argument of the model); [vertex L d ks x]: <l_k, x> <= d_k for all k, with equality for the k in ks. *)
From mathcomp Require Import all_ssreflect all_algebra.
Require Import Coq.Strings.String.
From Verif.Model Require Import Py NP NP3 Linalg SupDiff.
From Verif.Spec Require Import MatSpec LinalgSpec SphereSpec SupDiffSpec.
From Verif.Proof Require Import NPLib MatLib LinalgSat SphereEx SupDiffProof SupDiff3 SupDiffCheck SupDiffEx.
Import Order.Theory GRing.Theory Num.Theory.
Local Open Scope ring_scope.

(** the plane, no face running past the last direction: one value for each direction, positive, at most d_k; for
    a direction strictly inside a face, the value at the vertex of that face *)
Theorem C34_values_2 : forall (R : rcfType) (la : linalg R) hull n (L : 'M[R]_(2, n)) (r1 r2 : 'cV[R]_n) fs,
  lstsq_ok la -> n != 1%N -> (forall k, r2 k 0 < r1 k 0) -> hull (mat (scaled L (r1 - r2))^T) = Ok fs ->
  forall P : nat -> nat -> 'cV[R]_2,
  (forall i j, (i, j) \in fs -> [/\ (i < n)%N, (j < n)%N & no_wrap i j]) ->
  (forall i j (k : 'I_n), (i, j) \in fs -> between i j k -> facet2 L (r1 - r2) i j (P i j) /\ 0 < dotv (col k L) (P i j)) ->
  exists out : 'cV[R]_n, sup_geom_diff_2d la hull (vec r1) (vec r2) (mat L) = Ok (vec out) /\
    forall k, 0 < out k 0 <= r1 k 0 - r2 k 0 /\
    ((exists i j, [/\ (i, j) \in fs, between i j k & out k 0 = dotv (col k L) (P i j)]) \/
     ((forall i j, (i, j) \in fs -> ~~ between i j k) /\ out k 0 = r1 k 0 - r2 k 0)).
Proof. exact: @diff_2d_values. Qed.
Print Assumptions C34_values_2.

(** a face over the direction number 0, in either orientation: always an exception *)
Theorem C34_span_refuted : forall (R : rcfType) (la : linalg R) hull n (L : 'M[R]_(2, n)) (r1 r2 : 'cV[R]_n) fs,
  lstsq_ok la -> n != 1%N -> (forall k, r2 k 0 < r1 k 0) -> hull (mat (scaled L (r1 - r2))^T) = Ok fs ->
  forall i j k x, (0 < i)%N -> facet2 L (r1 - r2) i j x -> (i < val k < j)%N -> dotv (col k L) x < 0 ->
  (i, j) \in fs \/ (j, i) \in fs -> exists e, sup_geom_diff_2d la hull (vec r1) (vec r2) (mat L) = Err e.
Proof. exact: @diff_2d_span. Qed.
Print Assumptions C34_span_refuted.

(** ... which is an IndexError when the face starts at the last direction *)
Theorem C34_index_refuted : forall (R : rcfType) (la : linalg R) hull n (L : 'M[R]_(2, n)) (r1 r2 : 'cV[R]_n) fs,
  n != 1%N -> (forall k, r2 k 0 < r1 k 0) -> hull (mat (scaled L (r1 - r2))^T) = Ok fs ->
  forall j, (0 < j)%N -> (j.+2 < n)%N ->
  (forall a b, (a, b) \in fs -> (a, b) = (n.-1, j) \/ (b <= a.+1)%N && (a <= b.+1)%N) -> (n.-1, j) \in fs ->
  sup_geom_diff_2d la hull (vec r1) (vec r2) (mat L) = IndexError.
Proof. exact: @diff_2d_index. Qed.
Print Assumptions C34_index_refuted.

(** space, each ray meeting a triangle with a determinant above 10^-5 *)
Theorem C34_values_3 : forall (R : rcfType) hull n (L : 'M[R]_(3, n)) (r1 r2 : 'cV[R]_n) fs,
  n != 1%N -> (forall k, r2 k 0 < r1 k 0) -> hull (mat (scaled L (r1 - r2))^T) = Ok fs ->
  (forall a b c, (a, b, c) \in fs -> [/\ (a < n)%N, (b < n)%N & (c < n)%N]) ->
  forall P : nat * nat * nat -> 'cV[R]_3,
  (forall a b c, (a, b, c) \in fs -> vertex L (r1 - r2) [:: a; b; c] (P (a, b, c))) ->
  (forall k, exists a b c : 'I_n, [/\ (val a, val b, val c) \in fs, crosses (scaled L (r1 - r2)) k a b c &
     10%:R ^- 5 < steep (scaled L (r1 - r2)) k a b c]) ->
  exists out : 'cV[R]_n, sup_geom_diff_3d hull (vec r1) (vec r2) (mat L) = Ok (vec out) /\
    forall k, 0 < out k 0 <= r1 k 0 - r2 k 0 /\ exists2 f, f \in fs & out k 0 = dotv (col k L) (P f).
Proof. exact: @diff_3d_values. Qed.
Print Assumptions C34_values_3.

(** space, in general: no exception, each entry such a value or infinite *)
Theorem C34_any_3 : forall (R : rcfType) hull n (L : 'M[R]_(3, n)) (r1 r2 : 'cV[R]_n) fs,
  n != 1%N -> (forall k, r2 k 0 < r1 k 0) -> hull (mat (scaled L (r1 - r2))^T) = Ok fs ->
  (forall a b c, (a, b, c) \in fs -> [/\ (a < n)%N, (b < n)%N & (c < n)%N]) ->
  forall P : nat * nat * nat -> 'cV[R]_3,
  (forall a b c, (a, b, c) \in fs -> vertex L (r1 - r2) [:: a; b; c] (P (a, b, c))) ->
  exists out, [/\ sup_geom_diff_3d hull (vec r1) (vec r2) (mat L) = Ok out, shape out = [:: n] &
    forall k : 'I_n, getn NaN out [:: val k] = PInf \/
      exists2 f, f \in fs & getn NaN out [:: val k] = Fin (dotv (col k L) (P f)) /\
        0 < dotv (col k L) (P f) <= r1 k 0 - r2 k 0].
Proof. exact: @diff_3d_any. Qed.
Print Assumptions C34_any_3.

(** ... and all are infinite when the bounds are large *)
Theorem C34_large_refuted : forall (R : rcfType) hull n (L : 'M[R]_(3, n)) (r1 r2 : 'cV[R]_n) fs,
  n != 1%N -> (forall k, r2 k 0 < r1 k 0) -> hull (mat (scaled L (r1 - r2))^T) = Ok fs ->
  (forall a b c, (a, b, c) \in fs -> [/\ (a < n)%N, (b < n)%N & (c < n)%N]) ->
  (forall i k, `|L i k| * 200%:R <= r1 k 0 - r2 k 0) ->
  sup_geom_diff_3d hull (vec r1) (vec r2) (mat L) = Ok (Arr [:: n] (nseq n PInf)).
Proof. exact: @diff_3d_large. Qed.
Print Assumptions C34_large_refuted.

(** the rejections *)
Theorem C34_shapes : forall (R : rcfType) (la : linalg R) hull2 hull3,
  shape_checks (sup_geom_diff_2d la hull2) /\ shape_checks (@sup_geom_diff_3d R hull3).
Proof. by move=> R la hull2 hull3; split; [exact: shapes_2 | exact: shapes_3]. Qed.
Print Assumptions C34_shapes.

Theorem C34_sizes_2 : forall (R : rcfType) (la : linalg R) hull n1 n2 m n (r1 : 'cV[R]_n1) (r2 : 'cV[R]_n2) (L : 'M[R]_(m, n)),
  let f := sup_geom_diff_2d la hull (vec r1) (vec r2) (mat L) in [/\
  (n1 == 1%N) || (n2 == 1%N) -> f = IndexError,
  n1 != 1%N -> n2 != 1%N -> n1 != n2 -> f = throw "wrongInput:rho1_vec,rho2_vec",
  n1 != 1%N -> n1 = n2 -> n1 != n -> f = throw "wrongInput:rho1_vec,l_mat" &
  n1 != 1%N -> n1 = n2 -> n1 = n -> m != 2%N -> f = throw "wrongInput:l_mat"].
Proof. exact: @sizes_2. Qed.
Print Assumptions C34_sizes_2.

Theorem C34_sizes_3 : forall (R : rcfType) hull n1 n2 m n (r1 : 'cV[R]_n1) (r2 : 'cV[R]_n2) (L : 'M[R]_(m, n)),
  let f := sup_geom_diff_3d hull (vec r1) (vec r2) (mat L) in [/\
  (n1 == 1%N) || (n2 == 1%N) -> f = IndexError,
  n1 != 1%N -> n2 != 1%N -> n1 != n2 -> f = throw "wrongInput:rho1_vec, rho2_vec",
  n1 != 1%N -> n1 = n2 -> n1 != n -> f = throw "wrongInput:rho1_vec, l_mat" &
  n1 != 1%N -> n1 = n2 -> n1 = n -> m != 3%N -> f = throw "wrongInput:l_mat"].
Proof. exact: @sizes_3. Qed.
Print Assumptions C34_sizes_3.

Theorem C34_order : forall (R : rcfType) (la : linalg R) hull2 hull3 n (r1 r2 : 'cV[R]_n) k, n != 1%N -> r1 k 0 <= r2 k 0 ->
  (forall L : 'M[R]_(2, n), sup_geom_diff_2d la hull2 (vec r1) (vec r2) (mat L) = throw "wrongInput:rho_diff_vec") /\
  (forall L : 'M[R]_(3, n), sup_geom_diff_3d hull3 (vec r1) (vec r2) (mat L) = throw "wrongInput:rho_diff_vec").
Proof. by move=> R la hull2 hull3 n r1 r2 k n1 H; split=> L; [exact: (order_2 _ _ _ n1 H) | exact: (order_3 _ _ n1 H)]. Qed.
Print Assumptions C34_order.

(** the square |x|, |y| <= 1 with the redundant x + y <= 3: the value 2 for it *)
Example C34_ex_2 : exists out : 'cV[ralg]_5,
  sup_geom_diff_2d (the_linalg ralg) (hull_of sq_faces) (vec (zmx 5 1 sq_d)) (vec (0 : 'cV[ralg]_5)) (mat (zmx 2 5 sq_l)) = Ok (vec out) /\
  forall k, val k = 1%N -> out k 0 = 2%:R.
Proof. exact: square_ex. Qed.

(** x + y <= 1, -x <= 1, x - y <= 1 with the redundant x <= 2 as number 0: an exception for all orientations *)
Example C34_ex_span : forall a b, a \in [:: (1, 2); (2, 1)]%N -> b \in [:: (2, 3); (3, 2)]%N ->
  let f c := sup_geom_diff_2d (the_linalg ralg) (hull_of [:: a; b; c]) (vec (zmx 4 1 cut_d)) (vec (0 : 'cV[ralg]_4)) (mat (zmx 2 4 cut_l)) in
  (exists e, f (1, 3)%N = Err e) /\ f (3, 1)%N = IndexError.
Proof. exact: cut_ex. Qed.

(** the cube with the redundant x + y + z <= 4 *)
Example C34_ex_3 : exists out : 'cV[ralg]_7,
  sup_geom_diff_3d (hull_of cube_faces) (vec (zmx 7 1 cube_d)) (vec (0 : 'cV[ralg]_7)) (mat (zmx 3 7 cube_l)) = Ok (vec out) /\
  forall k, 0 < out k 0 <= (if val k == 6%N then 3%:R else 1).
Proof. exact: cube_ex. Qed.

(** the cube |x|, |y|, |z| <= 200: all values infinite *)
Example C34_ex_large :
  sup_geom_diff_3d (hull_of cube_faces) (vec (const_mx 200%:R : 'cV[ralg]_6)) (vec (0 : 'cV[ralg]_6)) (mat (zmx 3 6 big_l)) =
  Ok (Arr [:: 6%N] (nseq 6 PInf)).
Proof. exact: big_ex. Qed.
