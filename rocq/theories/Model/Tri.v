(** Model of gras/geom/tri/tri.py: triangulations.

    A face matrix is the list of its rows, an edge matrix likewise; vertex numbers are natural numbers
    (negative python indices are not modelled), coordinates are exact reals, int32 does not overflow.
    [argsort] is np.argsort with its default (unstable) kind. *)
From mathcomp Require Import all_ssreflect all_algebra.
Require Import Coq.Strings.String.
From Verif.Model Require Import Py NP.
Set Implicit Arguments.
Unset Strict Implicit.
Unset Printing Implicit Defensive.
Import Order.Theory GRing.Theory Num.Theory.
Local Open Scope ring_scope.

Definition edge := (nat * nat)%type.
Definition face := (nat * nat * nat)%type.
Definition f0 (f : face) : nat := f.1.1.
Definition f1 (f : face) : nat := f.1.2.
Definition f2 (f : face) : nat := f.2.

(** the argument f_mat: a vector, a matrix with three columns, anything else *)
Inductive fmat := Flat of face | Rows of seq face | BadFaces.

(** np.cumsum *)
Fixpoint cumsum_from (a : nat) (s : seq nat) : seq nat :=
  if s is x :: s' then (a + x)%N :: cumsum_from (a + x)%N s' else [::].
Definition cumsum (s : seq nat) : seq nat := cumsum_from 0 s.

(** np.sort of a row of two *)
Definition sort2 (a b : nat) : edge := if (a <= b)%N then (a, b) else (b, a).

(** the order of the rows in np.unique(axis=0) *)
Definition elex (e e' : edge) : bool := (e.1 < e'.1)%N || ((e.1 == e'.1) && (e.2 <= e'.2)%N).

(** np.bincount *)
Definition bincount (s : seq nat) : seq nat := [seq count_mem k s | k <- iota 0 (if s is [::] then 0%N else (\max_(x <- s) x).+1)].

Definition e_def : edge := (0%N, 0%N).
Definition f_def : face := (0%N, 0%N, 0%N).
Definition d_def : bool * bool * bool := (false, false, false).

(** tri.py:62-63 *)
Definition pos_edges (fs : seq face) : seq edge :=
  flatten [seq [:: sort2 (f0 f) (f1 f); sort2 (f0 f) (f2 f); sort2 (f1 f) (f2 f)] | f <- fs].

Section Discrete.
Variable argsort : seq nat -> seq nat.

(** tri.py:52-70; np.unique sorts the rows and returns the position of each row among the unique ones *)
Definition get_face_edge_info (fm : fmat) : res (seq face * seq edge * seq nat * seq nat) :=
  match fm with
  | BadFaces => throw "wrongInput:f_mat"
  | Flat _ | Rows _ =>
    let fs := match fm with Flat f => [:: f] | Rows fs => fs | BadFaces => [::] end in
    let n := size fs in
    let pos := pos_edges fs in
    let ind_f := flatten [seq nseq 3 i | i <- iota 0 n] in
    let e_mat := sort elex (undup pos) in
    let inv := [seq seq.index e e_mat | e <- pos] in
    let si := argsort inv in
    let inv := [seq nth 0%N inv i | i <- si] in
    let ind_f := [seq nth 0%N ind_f i | i <- si] in
    Ok (fs, e_mat, ind_f, bincount inv)
  end.

(** v[idx] = 1 for a vector of zeros and ones *)
Definition set_ones (idx : seq nat) (v : seq nat) : seq nat :=
  [seq (if p.1 \in idx then 1%N else p.2) | p <- zip (iota 0 (size v)) v].

(** tri.py:83-89 [ind_edge_num_vec] for one face and one edge *)
Definition edge_num (f : face) (e : edge) : int :=
  let b2i (b : bool) : int := (nat_of_bool b)%:Z in
  1 * b2i ((f0 f, f1 f) == e) - 1 * b2i ((f1 f, f0 f) == e)
  + 2%:Z * b2i ((f1 f, f2 f) == e) - 2%:Z * b2i ((f2 f, f1 f) == e)
  + 3%:Z * b2i ((f0 f, f2 f) == e) - 3%:Z * b2i ((f2 f, f0 f) == e).

(** np.lexsort((b, a)): the indices sorted by a, then by b, stable *)
Definition lexsort2 (b a : seq nat) : seq nat :=
  sort (fun i j => elex (nth 0%N a i, nth 0%N b i) (nth 0%N a j, nth 0%N b j)) (iota 0 (size a)).

(** np.reshape(v, (3, n)).T: n rows of three *)
Definition rows3 {T} (d : T) (n : nat) (v : seq T) : seq (T * T * T) :=
  [seq (nth d v i, nth d v (n + i), nth d v (n + n + i)) | i <- iota 0 n].

(** tri.py:73-98.  For one face f2e_mat and f2e_is_dir_mat are vectors of three, here a list with one
    row; [np.abs(num) - 1] orders as np.abs(num). *)
Definition map_face_2_edge (fm : fmat) : res (seq edge * seq (nat * nat * nat) * seq (bool * bool * bool)) :=
  let* (fs, e_mat, ind_f, ind_shift) := get_face_edge_info fm in
  let n_faces := size fs in
  let n_edges := size e_mat in
  let f2e := nseq (sumn ind_shift) 0%N in
  if f2e is [::] then IndexError else
  let f2e := set_ones [:: 0%N] f2e in
  let f2e := set_ones (cumsum (take (size ind_shift).-1 ind_shift)) f2e in
  let f2e := [seq x.-1 | x <- cumsum f2e] in
  let num := [seq edge_num (nth f_def fs p.1) (nth e_def e_mat p.2) | p <- zip ind_f f2e] in
  let ind_sort := lexsort2 ind_f [seq `|x|%N | x <- num] in
  let f2e := [seq nth 0%N f2e i | i <- ind_sort] in
  let dirs := [seq (0 < nth 0 num i)%R | i <- ind_sort] in
  Ok (e_mat, rows3 0%N n_faces f2e, rows3 false n_faces dirs).

End Discrete.

(** the booleans of the rows of an index matrix *)
Definition at3 {T} (d : T) (s : seq T) (r : nat * nat * nat) : T * T * T :=
  (nth d s r.1.1, nth d s r.1.2, nth d s r.2).
Definition in3 (i : nat) (r : nat * nat * nat) : bool := [|| i == r.1.1, i == r.1.2 | i == r.2].
Definition zip3 {A B C} (a : seq A) (b : seq B) (c : seq C) : seq (A * B * C) := zip (zip a b) c.
Definition negs (m : seq bool) : seq bool := [seq ~~ b | b <- m].

Section Shrink.
Variables (R : rcfType) (d : nat).
Notation vert := 'rV[R]_d.
Variable argsort : seq nat -> seq nat.

(** tri.py:131-132 and 273-274 *)
Definition vlen (x : vert) : R := Num.sqrt (\sum_j x 0 j * x 0 j).
Definition edge_len (vs : seq vert) (e : edge) : R := vlen (nth 0 vs e.1 - nth 0 vs e.2).

(** v_mat, e_mat, f_mat, f2e_mat, f2e_is_dir_mat, e_length_vec *)
Record tri := Tri { t_v : seq vert; t_e : seq edge; t_f : seq face;
                    t_f2e : seq (nat * nat * nat); t_dir : seq (bool * bool * bool); t_len : seq R }.

Record stats := Stats { s_steps : nat; s_vert : seq nat; s_face : seq nat; s_edge : seq nat;
                        s_shrink : seq nat; s_max : seq R }.

Variable max_len : R.
(** f_vert_adjust_func *)
Variable adjust : seq vert -> res (seq vert).

(** tri.py:145 *)
Definition is_long (t : tri) : seq bool := [seq max_len < l | l <- t_len t].

(** tri.py:147-152 *)
Definition split_faces (t : tri) : seq bool :=
  [seq (let: (a, b, c) := at3 false (is_long t) r in [|| a, b | c]) | r <- t_f2e t].

(** tri.py:155-158 *)
Definition split_edges (t : tri) : seq bool :=
  let part := mask (split_faces t) (t_f2e t) in
  [seq nth false (is_long t) i || has (in3 i) part | i <- iota 0 (size (t_e t))].

(** tri.py:191-192 *)
Definition kept_edges (t : tri) : seq bool :=
  let rest := mask (negs (split_faces t)) (t_f2e t) in
  [seq has (in3 i) rest | i <- iota 0 (size (t_e t))].

(** tri.py:161-164 *)
Definition midpoints (t : tri) : seq vert :=
  [seq 2%:R^-1 *: (nth 0 (t_v t) e.1 + nth 0 (t_v t) e.2) | e <- mask (split_edges t) (t_e t)].

(** tri.py:154-280: one pass of the loop *)
Definition step (t : tri) : res tri :=
  let is_f := split_faces t in
  let is_e := split_edges t in
  let nv := size (t_v t) in
  let part := mask is_f (t_f2e t) in
  let dpart := mask is_f (t_dir t) in
  let v1 := [seq e.1 | e <- mask is_e (t_e t)] in
  let v2 := [seq e.2 | e <- mask is_e (t_e t)] in
  let vnew := midpoints t in
  let nnew := size vnew in
  let ns := count id is_f in
  let ind_e_part := [seq (x + nv).-1 | x <- cumsum [seq nat_of_bool b | b <- is_e]] in
  let m12 := [seq nth 0%N ind_e_part r.1.1 | r <- part] in
  let m23 := [seq nth 0%N ind_e_part r.1.2 | r <- part] in
  let m13 := [seq nth 0%N ind_e_part r.2 | r <- part] in
  let p1 := [seq f0 f | f <- mask is_f (t_f t)] in
  let p2 := [seq f1 f | f <- mask is_f (t_f t)] in
  let p3 := [seq f2 f | f <- mask is_f (t_f t)] in
  let f_rest := mask (negs is_f) (t_f t) in
  let f2e_rest := mask (negs is_f) (t_f2e t) in
  let dir_rest := mask (negs is_f) (t_dir t) in
  let is_kept := kept_edges t in
  let ind_kept := [seq x.-1 | x <- cumsum [seq nat_of_bool b | b <- is_kept]] in
  let f2e_rest := [seq at3 0%N ind_kept r | r <- f2e_rest] in
  let e_rest := mask is_kept (t_e t) in
  let len_rest := mask is_kept (t_len t) in
  let ne := size e_rest in
  (* internal edges and faces *)
  let e1 := zip m12 m23 ++ zip m12 m13 ++ zip m23 m13 in
  let f1 := zip3 m12 m23 m13 in
  let f2e1 := [seq (ne + i, ne + i + 2 * ns, ne + i + ns)%N | i <- iota 0 ns] in
  let d1 := nseq ns (true, true, true) in
  (* halves of edges, faces at the corners *)
  let newv := iota nv nnew in
  let e2 := zip v1 newv ++ zip newv v2 in
  let f2 := zip3 m12 m13 p1 ++ zip3 m23 m12 p2 ++ zip3 m13 m23 p3 in
  let dm1 := [seq (~~ x.2, ~~ x.1.1) | x <- dpart] in
  let dm2 := [seq (x.1.1, ~~ x.1.2) | x <- dpart] in
  let dm3 := [seq (x.1.2, x.2) | x <- dpart] in
  let half (b : bool) (m : nat) := (ne + (3 * ns + b * nnew + m - nv))%N in
  let corner (sh : nat) (dm : seq (bool * bool)) (ma mb : seq nat) :=
    [seq (ne + (x.1.1 + sh), half x.1.2.1 x.2.1, half x.1.2.2 x.2.2)%N | x <- zip3 (iota 0 ns) dm (zip ma mb)] in
  let f2e2 := corner ns dm1 m13 m12 ++ corner 0%N dm2 m12 m23 ++ corner (2 * ns)%N dm3 m23 m13 in
  let d2 := [seq (true, x.1, x.2) | x <- dm1] ++ [seq (false, x.1, x.2) | x <- dm2] ++ [seq (false, x.1, x.2) | x <- dm3] in
  (* faces of zero area on the edges shared with a face that is not split *)
  let both := [seq p.1 && p.2 | p <- zip is_e is_kept] in
  let ekb := mask both ind_kept in
  let mid := mask both ind_e_part in
  let f3 := [seq (p.1, (nth e_def e_rest p.2).1, (nth e_def e_rest p.2).2) | p <- zip mid ekb] in
  let f2e3 := [seq (let i := (p.1 - nv + 3 * ns + ne)%N in (i, i + nnew, p.2)%N) | p <- zip mid ekb] in
  let d3 := nseq (size mid) (true, true, true) in
  let* vnew := adjust vnew in
  let vs := t_v t ++ vnew in
  let es := e_rest ++ e1 ++ e2 in
  Ok (Tri vs es (f_rest ++ f1 ++ f2 ++ f3) (f2e_rest ++ f2e1 ++ f2e2 ++ f2e3) (dir_rest ++ d1 ++ d2 ++ d3)
          (len_rest ++ [seq edge_len vs e | e <- e1 ++ e2])).

(** np.max of the edge lengths *)
Definition rmax (s : seq R) : R := if s is x :: s' then foldr Num.max x s' else 0.

(** tri.py:143-297.  [fuel] bounds the number of passes ([None]: it was not enough); [n_max] is
    n_max_steps, [None] for infinity.  A matrix with one row is indexed wrongly at tri.py:182. *)
Fixpoint shrink_loop (fuel : nat) (i : nat) (n_max : option nat) (one_row : bool) (t : tri) (s : stats)
  : option (res (tri * stats)) :=
  if has id (is_long t) && (if n_max is Some m then (i <= m)%N else true) then
    if fuel is k.+1 then
      if one_row then Some IndexError else
      match step t with
      | Ok t' => shrink_loop k i.+1 n_max false t'
          (Stats i (rcons (s_vert s) (size (t_v t'))) (rcons (s_face s) (size (t_f t'))) (rcons (s_edge s) (size (t_e t')))
             (rcons (s_shrink s) (count id (split_edges t))) (rcons (s_max s) (rmax (t_len t))))
      | Err e => Some (Err e)
      end
    else None
  else Some (Ok (t, s)).

(** tri.py:101-297 [shrink_face_tri] with is_stat_collected; without it the first two components *)
Definition shrink_face_tri (fuel : nat) (vs : seq vert) (fm : fmat) (n_max : option nat) : option (res (tri * stats)) :=
  match map_face_2_edge argsort fm with
  | Err e => Some (Err e)
  | Ok (es, f2e, dirs) =>
    if has (fun e : edge => (size vs <= maxn e.1 e.2)%N) es then Some IndexError else
    let fs := match fm with Flat f => [:: f] | Rows fs => fs | BadFaces => [::] end in
    let t := Tri vs es fs f2e dirs [seq edge_len vs e | e <- es] in
    let one := if fm is Rows [:: _] then true else false in
    shrink_loop fuel 1 n_max one t (Stats 0 [:: size vs] [:: size fs] [:: size es] [::] [::])
  end.

End Shrink.
