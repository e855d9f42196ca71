(** C36, C37, C38, C39, C70: gras/geom/tri/tri.py, map_face_2_edge and shrink_face_tri.
    The result of a call is a record: t_v, t_e, t_f are the vertices, edges and faces, t_f2e and t_dir the
    face/edge map and its directions.  [fuel] is a bound on the number of passes of the model; the result
    [None] says that it did not suffice. *)
From mathcomp Require Import all_ssreflect all_algebra.
Require Import Coq.Strings.String.
From Verif.Model Require Import Py NP Tri.
From Verif.Spec Require Import TriSpec.
From Verif.Proof Require Import NPLib TriMap TriStep TriRefine TriFull TriLoop TriShrink TriTop TriVerts TriRun TriDec TriEx.
Import Order.Theory GRing.Theory Num.Theory.

(** ------------------------------------------------------------------ C36 *)
(** the edges: different, sorted, exactly the sides of the faces; the map describes the faces *)
Theorem C36_map : forall (argsort : seq nat -> seq nat) (fs : seq face),
  argsortn_ok argsort -> all proper fs -> fs != [::] ->
  exists es f2e dir, [/\ map_face_2_edge argsort (Rows fs) = Ok (es, f2e, dir),
    uniq es /\ sorted elex es, (forall e, e \in es = (e.1 < e.2) && has (fun f => has_side f e) fs) & consistent es fs f2e dir].
Proof. by move=> argsort fs Ha Hp H0; exact: (map_spec Ha Hp H0). Qed.
Print Assumptions C36_map.

Theorem C36_one_face : forall (argsort : seq nat -> seq nat) (f : face),
  map_face_2_edge argsort (Flat f) = map_face_2_edge argsort (Rows [:: f]).
Proof. exact: map_flat. Qed.
Print Assumptions C36_one_face.

Theorem C36_rejects : forall (argsort : seq nat -> seq nat), argsortn_ok argsort ->
  map_face_2_edge argsort BadFaces = throw "wrongInput:f_mat"%string /\ map_face_2_edge argsort (Rows [::]) = IndexError.
Proof. exact: map_bad. Qed.
Print Assumptions C36_rejects.

Example C36_nonvacuous : argsortn_ok sargsort /\
  map_face_2_edge sargsort (Rows [:: (0, 1, 2); (0, 3, 1)]) =
  Ok ([:: (0, 1); (0, 2); (0, 3); (1, 2); (1, 3)], [:: (0, 3, 1); (2, 4, 0)], [:: (true, true, true); (true, false, true)]).
Proof. by split; [exact: sargsort_ok|exact: two_map]. Qed.

(** ------------------------------------------------------------------ C37 *)
(** the map describes the returned faces if no pass split a face without splitting its neighbours *)
Theorem C37_consistent : forall (R : rcfType) d (argsort : seq nat -> seq nat) (m : R) adjust,
  argsortn_ok argsort -> (forall x y : seq 'rV[R]_d, adjust x = Ok y -> size y = size x) ->
  forall fuel (vs : seq 'rV[R]_d) fm n_max t s, good_faces (size vs) fm ->
  shrink_face_tri argsort m adjust fuel vs fm n_max = Some (Ok (t, s)) ->
  (forall k tk sk, k < s_steps s -> shrink_face_tri argsort m adjust fuel vs fm (Some k) = Some (Ok (tk, sk)) ->
     uniform m (t_len tk) (t_f2e tk)) ->
  consistent (t_e t) (t_f t) (t_f2e t) (t_dir t).
Proof. exact: shrink_uniform. Qed.
Print Assumptions C37_consistent.

(** and only then: after the first pass that does so the map is wrong *)
Theorem C37_consistent_iff : forall (R : rcfType) d (argsort : seq nat -> seq nat) (m : R) adjust,
  argsortn_ok argsort -> (forall x y : seq 'rV[R]_d, adjust x = Ok y -> size y = size x) ->
  forall fuel (vs : seq 'rV[R]_d) fm k tk sk t s, good_faces (size vs) fm ->
  shrink_face_tri argsort m adjust fuel vs fm (Some k) = Some (Ok (tk, sk)) ->
  shrink_face_tri argsort m adjust fuel vs fm (Some k.+1) = Some (Ok (t, s)) -> s_steps s = k.+1 ->
  (forall j tj sj, j < k -> shrink_face_tri argsort m adjust fuel vs fm (Some j) = Some (Ok (tj, sj)) ->
     uniform m (t_len tj) (t_f2e tj)) ->
  (consistent (t_e t) (t_f t) (t_f2e t) (t_dir t) <-> uniform m (t_len tk) (t_f2e tk)).
Proof. exact: shrink_uniform_iff. Qed.
Print Assumptions C37_consistent_iff.

(** false of the code: that the map is right for any subset of refined faces *)
Theorem C37_partial_refinement_refuted : forall R : rcfType, exists t s,
  [/\ shrink_face_tri sargsort (24%:R : R)%R (@Ok _) 1 (map (pt R) two_v) (Rows two_f) (Some 1) = Some (Ok (t, s)),
      s_steps s = 1 & ~ consistent (t_e t) (t_f t) (t_f2e t) (t_dir t)].
Proof. exact: two_partial. Qed.
Print Assumptions C37_partial_refinement_refuted.

(** ------------------------------------------------------------------ C38 *)
(** full passes: closed stays closed; the numbers of faces, edges and vertices *)
Theorem C38_closed : forall (R : rcfType) d (argsort : seq nat -> seq nat) (m : R) adjust,
  argsortn_ok argsort -> (forall x y : seq 'rV[R]_d, adjust x = Ok y -> size y = size x) ->
  forall fuel (vs : seq 'rV[R]_d) fm n_max t s, good_faces (size vs) fm -> closed (faces_of fm) -> simple (faces_of fm) ->
  shrink_face_tri argsort m adjust fuel vs fm n_max = Some (Ok (t, s)) ->
  (forall k tk sk, k < s_steps s -> shrink_face_tri argsort m adjust fuel vs fm (Some k) = Some (Ok (tk, sk)) ->
     all (fun l => (m < l)%R) (t_len tk)) ->
  [/\ closed (t_f t), simple (t_f t), size (t_f t) = 4 ^ s_steps s * size (faces_of fm), 2 * size (t_e t) = 3 * size (t_f t) &
      2 * size (t_v t) = 2 * size vs + (4 ^ s_steps s - 1) * size (faces_of fm)].
Proof. exact: shrink_closed. Qed.
Print Assumptions C38_closed.

(** without an adjusting function the passes are full when the edges are long enough *)
Theorem C38_full_refinement : forall (R : rcfType) d (argsort : seq nat -> seq nat) (m : R), argsortn_ok argsort ->
  forall fuel (vs : seq 'rV[R]_d) fm n, good_faces (size vs) fm -> ~~ one_row fm -> (0 <= m)%R ->
  (forall f e, f \in faces_of fm -> e \in sides f -> (m * 2%:R ^+ n < 2%:R * edge_len vs e)%R) -> n <= fuel ->
  exists t s, [/\ shrink_face_tri argsort m (@Ok _) fuel vs fm (Some n) = Some (Ok (t, s)), s_steps s = n,
    consistent (t_e t) (t_f t) (t_f2e t) (t_dir t) &
    closed (faces_of fm) -> simple (faces_of fm) ->
    [/\ closed (t_f t), simple (t_f t), size (t_f t) = 4 ^ n * size (faces_of fm), 2 * size (t_e t) = 3 * size (t_f t) &
        2 * size (t_v t) = 2 * size vs + (4 ^ n - 1) * size (faces_of fm)]].
Proof. exact: shrink_full. Qed.
Print Assumptions C38_full_refinement.

(** two faces on the same three vertices: closed, but not after a full pass *)
Theorem C38_double_face_refuted : forall R : rcfType, closed pillow_f /\ exists t s,
  [/\ shrink_face_tri sargsort (1%:R : R)%R (@Ok _) 1 (map (pt R) two_v) (Rows pillow_f) (Some 1) = Some (Ok (t, s)),
      s_steps s = 1, all (fun l => (1 < l)%R) [seq edge_len (map (pt R) two_v) e | e <- flatten (map sides pillow_f)] & ~ closed (t_f t)].
Proof. by move=> R; split; [exact: pillow_closed|exact: pillow_open]. Qed.
Print Assumptions C38_double_face_refuted.

(** a pass that splits only some faces of a closed surface *)
Theorem C38_partial_refinement_refuted : forall R : rcfType, [/\ closed tetra_f, simple tetra_f & exists t s,
  [/\ shrink_face_tri sargsort (6%:R : R)%R (@Ok _) 1 (map (pt R) flat_v) (Rows tetra_f) (Some 1) = Some (Ok (t, s)),
      s_steps s = 1 & ~ closed (t_f t)]].
Proof. by move=> R; split; [exact: tetra_closed|exact: tetra_simple|exact: tetra_partial]. Qed.
Print Assumptions C38_partial_refinement_refuted.

Example C38_nonvacuous : forall R : rcfType, exists t s,
  [/\ shrink_face_tri sargsort (1%:R : R)%R (@Ok _) 2 (map (pt R) tetra_v) (Rows tetra_f) (Some 2) = Some (Ok (t, s)),
      s_steps s = 2, closed (t_f t), size (t_f t) = 64 & size (t_v t) = 34].
Proof. exact: tetra_full. Qed.

(** ------------------------------------------------------------------ C39 *)
(** whatever the adjusting function, the given vertices are the first of the result *)
Theorem C39_old_vertices : forall (R : rcfType) d (argsort : seq nat -> seq nat) (m : R), argsortn_ok argsort ->
  forall adjust fuel (vs : seq 'rV[R]_d) fm n_max t s, good_faces (size vs) fm ->
  shrink_face_tri argsort m adjust fuel vs fm n_max = Some (Ok (t, s)) -> exists w, t_v t = vs ++ w.
Proof. exact: shrink_keeps. Qed.
Print Assumptions C39_old_vertices.

(** an adjusting function that works on each vertex: the others are adjusted midpoints *)
Theorem C39_new_vertices : forall (R : rcfType) d (argsort : seq nat -> seq nat) (m : R), argsortn_ok argsort ->
  forall g fuel (vs : seq 'rV[R]_d) fm n_max t s, good_faces (size vs) fm ->
  shrink_face_tri argsort m (fun x => Ok [seq g v | v <- x]) fuel vs fm n_max = Some (Ok (t, s)) -> grown g vs (t_v t).
Proof. exact: shrink_grown. Qed.
Print Assumptions C39_new_vertices.

(** without an adjusting function: a return before the limit of passes leaves no side longer than m *)
Theorem C39_done : forall (R : rcfType) d (argsort : seq nat -> seq nat) (m : R), argsortn_ok argsort ->
  forall fuel (vs : seq 'rV[R]_d) fm n_max t s, good_faces (size vs) fm ->
  shrink_face_tri argsort m (@Ok _) fuel vs fm n_max = Some (Ok (t, s)) ->
  (forall n, n_max = Some n -> s_steps s < n) ->
  forall f e, f \in t_f t -> e \in sides f -> (edge_len (t_v t) e <= m)%R.
Proof. exact: shrink_done. Qed.
Print Assumptions C39_done.

(** with one: if no pass split a face without its neighbours *)
Theorem C39_done_uniform : forall (R : rcfType) d (argsort : seq nat -> seq nat) (m : R) adjust,
  argsortn_ok argsort -> (forall x y : seq 'rV[R]_d, adjust x = Ok y -> size y = size x) ->
  forall fuel (vs : seq 'rV[R]_d) fm n_max t s, good_faces (size vs) fm ->
  shrink_face_tri argsort m adjust fuel vs fm n_max = Some (Ok (t, s)) ->
  (forall n, n_max = Some n -> s_steps s < n) ->
  (forall k tk sk, k < s_steps s -> shrink_face_tri argsort m adjust fuel vs fm (Some k) = Some (Ok (tk, sk)) ->
     uniform m (t_len tk) (t_f2e tk)) ->
  forall f e, f \in t_f t -> e \in sides f -> (edge_len (t_v t) e <= m)%R.
Proof. exact: shrink_done_uniform. Qed.
Print Assumptions C39_done_uniform.

(** false of the code for adjusting functions in general: no limit of passes, a long side remains *)
Theorem C39_done_adjusted_refuted : forall R : rcfType, exists t s,
  [/\ shrink_face_tri sargsort (24%:R : R)%R (@bump_first R) 2 (map (pt R) two_v) (Rows two_f) None = Some (Ok (t, s)),
      s_steps s = 2 & exists f e, [/\ f \in t_f t, e \in sides f & (24%:R < edge_len (t_v t) e)%R]].
Proof. exact: bump_long. Qed.
Print Assumptions C39_done_adjusted_refuted.

(** without an adjusting function it does return: k passes suffice for sides up to 2^k m *)
Theorem C39_terminates : forall (R : rcfType) d (argsort : seq nat -> seq nat) (m : R), argsortn_ok argsort ->
  forall k (vs : seq 'rV[R]_d) fm, good_faces (size vs) fm -> ~~ one_row fm -> (0 < m)%R ->
  (forall f e, f \in faces_of fm -> e \in sides f -> (edge_len vs e <= 2%:R ^+ k * m)%R) ->
  exists t s, shrink_face_tri argsort m (@Ok _) k vs fm None = Some (Ok (t, s)) /\ s_steps s <= k.
Proof. exact: shrink_terminates. Qed.
Print Assumptions C39_terminates.

(** one face given as a matrix with one row raises, instead of being refined *)
Theorem C39_one_row : forall (R : rcfType) d (argsort : seq nat -> seq nat) (m : R), argsortn_ok argsort ->
  forall adjust fuel (vs : seq 'rV[R]_d) f n_max, good_faces (size vs) (Rows [:: f]) ->
  (if n_max is Some n then 0 < n else true) ->
  (exists2 e, e \in sides f & (m < edge_len vs e)%R) -> 0 < fuel ->
  shrink_face_tri argsort m adjust fuel vs (Rows [:: f]) n_max = Some IndexError.
Proof. exact: shrink_one_row. Qed.
Print Assumptions C39_one_row.

(** ------------------------------------------------------------------ C70 *)
Theorem C70_stats : forall (R : rcfType) d (argsort : seq nat -> seq nat) (m : R), argsortn_ok argsort ->
  forall adjust fuel (vs : seq 'rV[R]_d) fm n_max t s, (forall x y, adjust x = Ok y -> size y = size x) -> good_faces (size vs) fm ->
  shrink_face_tri argsort m adjust fuel vs fm n_max = Some (Ok (t, s)) -> stats_of m (size (t_v t)) (size (t_f t)) (size (t_e t)) s.
Proof. exact: shrink_stats. Qed.
Print Assumptions C70_stats.
