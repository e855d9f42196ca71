(** C35, C42, C43: gras/geom/tri/tri.py: ell_tube_2_tri, ell_tube_discr_tri, is_face, is_tri_equal. *)
From mathcomp Require Import all_ssreflect all_fingroup all_algebra.
Require Import Coq.Strings.String.
From Verif.Model Require Import Py NP Tri Gen TriEq.
From Verif.Spec Require Import TriSpec TriEqSpec GenSpec.
From Verif.Proof Require Import NPLib SortProof TriDec TriFace TriFace2 TriEqual TubeProof.
Import Order.Theory GRing.Theory Num.Theory.
Local Open Scope nat_scope.

(** ------------------------------------------------------------------ C35 *)
(** the two triangles of every cell, the one across the seam included, each once *)
Theorem C35_cells : forall ne np : nat, 0 < ne -> 0 < np ->
  exists fs, [/\ ell_tube_2_tri ne%:Z np%:Z = Ok [seq int_face f | f <- fs], perm_eq fs (tube_cells ne np),
    size fs = 2 * ne * np.-1 & faces_below (ne * np) fs].
Proof. exact: tube_ok. Qed.
Print Assumptions C35_cells.

(** these triangles form an oriented surface: every side of a triangle is traversed once in each direction,
    except on the two end rings, where it is traversed once *)
Theorem C35_surface : forall (ne np : nat) fs, 3 <= ne -> 0 < np -> perm_eq fs (tube_cells ne np) ->
  uniq (all_darts fs) /\ forall e, e \in all_darts fs -> (flip e \in all_darts fs) = ~~ end_ring ne np e.
Proof. exact: tube_surface. Qed.
Print Assumptions C35_surface.

Theorem C35_rejects : forall ne np : int, (ne < 1)%R || (np < 1)%R -> ell_tube_2_tri ne np = ValueError.
Proof. exact: tube_rejects. Qed.
Print Assumptions C35_rejects.

(** ell_tube_discr_tri: the rings, closed *)
Theorem C35_rings : forall n m : nat,
  ell_tube_discr_tri n m = [seq [seq tube_vertex n k i | i <- iota 0 n.+1] | k <- iota 0 m].
Proof. exact: discr_run. Qed.
Print Assumptions C35_rings.

Example C35_nonvacuous : ell_tube_2_tri 3 2 = Ok [:: (0, 1, 4); (1, 2, 5); (4, 3, 0); (5, 4, 1); (2, 0, 3); (3, 5, 2)]%R.
Proof. exact: tube_example. Qed.
Example C35_rings_nonvacuous : ell_tube_discr_tri 3 2 = [:: [:: 0; 1; 2; 0]; [:: 3; 4; 5; 3]].
Proof. by []. Qed.

(** ------------------------------------------------------------------ C42 *)
(** for meshes in which no side belongs to more than two faces *)
Theorem C42_manifold : forall (argsort : seq nat -> seq nat) fs gs, argsortn_ok argsort ->
  manifold fs -> all (fun g => ~~ constant g) gs ->
  is_face argsort (Rows fs) gs = Ok [seq is_face_of fs g | g <- gs].
Proof. exact: is_face_manifold. Qed.
Print Assumptions C42_manifold.

(** in general: faces with a side that belongs to more than two faces are not found *)
Theorem C42_exact : forall (argsort : seq nat -> seq nat) fs gs, argsortn_ok argsort ->
  all (fun g => ~~ constant g) gs ->
  is_face argsort (Rows fs) gs = Ok [seq is_face_of fs g && all (fun e => attached fs e <= 2) (sides g) | g <- gs].
Proof. exact: is_face_exact. Qed.
Print Assumptions C42_exact.

(** false of the code: that this holds for every face list *)
Theorem C42_three_faces_refuted : forall (argsort : seq nat -> seq nat), argsortn_ok argsort ->
  is_face argsort (Rows [:: (0, 1, 2); (0, 1, 3); (0, 1, 4)]) [:: (0, 1, 2); (0, 1, 3); (0, 1, 4)] = Ok [:: false; false; false].
Proof. exact: book_no_face. Qed.
Print Assumptions C42_three_faces_refuted.

(** nor for triples that are one vertex three times *)
Theorem C42_one_vertex_refuted : forall (argsort : seq nat -> seq nat), argsortn_ok argsort ->
  is_face argsort (Rows [:: (0, 0, 1)]) [:: (0, 0, 0)] = Ok [:: true] /\ ~~ is_face_of [:: (0, 0, 1)] (0, 0, 0).
Proof. exact: point_is_face. Qed.
Print Assumptions C42_one_vertex_refuted.

Theorem C42_one_row : forall (argsort : seq nat -> seq nat) f gs,
  is_face argsort (Flat f) gs = is_face argsort (Rows [:: f]) gs.
Proof. exact: is_face_flat. Qed.
Print Assumptions C42_one_row.

Theorem C42_rejects : forall (argsort : seq nat -> seq nat) gs, is_face argsort BadFaces gs = throw "wrongInput:f_mat"%string.
Proof. exact: is_face_bad. Qed.
Print Assumptions C42_rejects.

Example C42_nonvacuous : manifold [:: (0, 1, 2); (0, 2, 3); (0, 3, 1); (1, 3, 2)] /\
  is_face sargsort (Rows [:: (0, 1, 2); (0, 2, 3); (0, 3, 1); (1, 3, 2)]) [:: (2, 1, 0); (0, 1, 4); (3, 2, 1)] = Ok [:: true; false; true].
Proof. exact: tetra_face. Qed.

(** ------------------------------------------------------------------ C43 *)
Local Open Scope ring_scope.
(** a mesh against itself *)
Theorem C43_reflexive : forall (R : rcfType) argsort (xargsort : seq (xnum R) -> seq nat), argsortn_ok argsort -> argsort_ok xargsort ->
  forall m n (tol : R), (0 < m)%N -> (0 < n)%N -> 0 <= tol -> forall (M : 'M[R]_(m, n)) fs, faces_below m fs ->
  is_tri_equal argsort xargsort (mat M) fs (mat M) fs (Fin tol) =
  Ok (if manifold fs then (true, NoReport R) else (false, FacesDiffer R)).
Proof. exact: equal_refl. Qed.
Print Assumptions C43_reflexive.

(** vertices renumbered by p, faces accordingly and permuted: the same verdict and report *)
Theorem C43_renumber : forall (R : rcfType) argsort (xargsort : seq (xnum R) -> seq nat), argsortn_ok argsort -> argsort_ok xargsort ->
  forall m n (tol : R), (0 < n)%N -> 0 <= tol ->
  forall (M M2 : 'M[R]_(m, n)) fs fs' fs2 (p : 'S_m), separated tol M -> faces_below m fs -> faces_below m fs2 ->
  perm_eq fs' [seq renum (pnum p) f | f <- fs] ->
  is_tri_equal argsort xargsort (mat (row_perm p^-1 M)) fs' (mat M2) fs2 (Fin tol) =
  is_tri_equal argsort xargsort (mat M) fs (mat M2) fs2 (Fin tol).
Proof. exact: equal_renumber. Qed.
Print Assumptions C43_renumber.

Theorem C43_symmetric : forall (R : rcfType) argsort (xargsort : seq (xnum R) -> seq nat), argsortn_ok argsort -> argsort_ok xargsort ->
  forall m n (tol : R), (0 < n)%N -> 0 <= tol ->
  forall (M1 M2 : 'M[R]_(m, n)) fs1 fs2, faces_below m fs1 -> faces_below m fs2 ->
  is_tri_equal argsort xargsort (mat M1) fs1 (mat M2) fs2 (Fin tol) =
  is_tri_equal argsort xargsort (mat M2) fs2 (mat M1) fs1 (Fin tol).
Proof. exact: equal_sym. Qed.
Print Assumptions C43_symmetric.

(** the verdict True: there is a renumbering that takes the vertices close to each other and the faces to the faces *)
Theorem C43_sound : forall (R : rcfType) argsort (xargsort : seq (xnum R) -> seq nat), argsortn_ok argsort -> argsort_ok xargsort ->
  forall m n (tol : R), (0 < m)%N -> (0 < n)%N -> 0 <= tol ->
  forall (M1 M2 : 'M[R]_(m, n)) fs1 fs2 r, faces_below m fs1 -> faces_below m fs2 ->
  all (fun f : face => ~~ constant f) fs1 -> all (fun f : face => ~~ constant f) fs2 ->
  is_tri_equal argsort xargsort (mat M1) fs1 (mat M2) fs2 (Fin tol) = Ok (true, r) ->
  exists p : 'S_m, [/\ near tol M1 M2 p, size fs1 = size fs2,
    all (fun f => is_face_of fs2 (renum (pnum p) f)) fs1 & all (fun f => is_face_of fs1 (renum (pnum p^-1) f)) fs2].
Proof. exact: equal_sound. Qed.
Print Assumptions C43_sound.

Theorem C43_sizes : forall (R : rcfType) argsort (xargsort : seq (xnum R) -> seq nat) m n (tol : R)
  m' (M : 'M[R]_(m, n)) (M' : 'M[R]_(m', n)) fs fs', m != m' ->
  is_tri_equal argsort xargsort (mat M) fs (mat M') fs' (Fin tol) = Ok (false, VertNumber R).
Proof. exact: equal_sizes. Qed.
Print Assumptions C43_sizes.

(** false of the code: that renumbering never matters.  Two vertices with the same coordinates keep their order *)
Theorem C43_duplicate_refuted : forall (R : rcfType) argsort (xargsort : seq (xnum R) -> seq nat), argsortn_ok argsort -> argsort_ok xargsort ->
  forall tol : R, 0 <= tol ->
  is_tri_equal argsort xargsort (mat (dup_pts R)) [:: (0, 2, 3)%N] (mat (dup_pts R)) [:: (0, 2, 3)%N] (Fin tol) = Ok (true, NoReport R) /\
  is_tri_equal argsort xargsort (mat (row_perm swap01^-1 (dup_pts R))) [seq renum (pnum swap01) f | f <- [:: (0, 2, 3)%N]]
    (mat (dup_pts R)) [:: (0, 2, 3)%N] (Fin tol) = Ok (false, FacesDiffer R).
Proof. exact: dup_refuted. Qed.
Print Assumptions C43_duplicate_refuted.

(** false of the code: that every mesh equals itself *)
Theorem C43_three_faces_refuted : forall (R : rcfType) argsort (xargsort : seq (xnum R) -> seq nat), argsortn_ok argsort -> argsort_ok xargsort ->
  forall (tol : R) (M : 'M[R]_(5, 3)), 0 <= tol ->
  is_tri_equal argsort xargsort (mat M) [:: (0, 1, 2); (0, 1, 3); (0, 1, 4)]%N (mat M) [:: (0, 1, 2); (0, 1, 3); (0, 1, 4)]%N (Fin tol)
  = Ok (false, FacesDiffer R).
Proof. exact: book_refuted. Qed.
Print Assumptions C43_three_faces_refuted.

Example C43_nonvacuous : forall R : rcfType, separated (1 : R) (\matrix_(i < 4, j < 1) (2%:R * (val i)%:R)) /\
  (exists f : seq (xnum R) -> seq nat, argsort_ok f) /\ argsortn_ok sargsort /\
  manifold [:: (0, 1, 2); (0, 2, 3); (0, 3, 1); (1, 3, 2)]%N.
Proof.
move=> R; split; first exact: line_separated.
by split; [exists (@stable_argsort R); exact: stable_argsort_ok|split; [exact: sargsort_ok|]].
Qed.
