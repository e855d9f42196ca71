(** Model of gras/geom/tri/tri.py: ell_tube_2_tri, ell_tube_discr_tri, is_face, is_tri_equal.
    Face matrices are lists of rows, vertex numbers natural numbers, as in Model/Tri.v. *)
From mathcomp Require Import all_ssreflect all_algebra.
From Verif.Model Require Import Py NP IsMember Tri Gen.
Set Implicit Arguments.
Unset Strict Implicit.
Unset Printing Implicit Defensive.
Import Order.Theory GRing.Theory Num.Theory.
Local Open Scope ring_scope.

(** ------------------------------------------------------------------ tubes *)
Definition iface := (int * int * int)%type.

(** tri.py:10-16 [ie_mat], flattened column by column: the columns are numbered by adtime_vec, the cumulative
    sums of ones down a column are 1, ..., n_e_points - 1 *)
Definition tube_ie (ne np : int) : seq int :=
  let adtime := [seq (k%:Z - 1) * ne | k <- iota 1 (absz (np - 1))] in
  flatten [seq [seq i%:Z + a | i <- iota 1 (absz (ne - 1))] | a <- adtime].

(** tri.py:9-23.  np.tile and np.ones refuse negative sizes.  The numbers are integral floats. *)
Definition ell_tube_2_tri (ne np : int) : res (seq iface) :=
  if (ne < 1) || (np < 1) then ValueError else
  let ttime := [seq k%:Z * ne | k <- iota 1 (absz (np - 1))] in
  let ie := tube_ie ne np in
  let part11 := [seq (x, x + 1, x + 1 + ne) | x <- ie] in
  let part12 := [seq (x + 1 + ne, x + ne, x) | x <- ie] in
  let part21 := [seq (t, t + 1 - ne, t + 1) | t <- ttime] in
  let part22 := [seq (t + 1, t + ne, t) | t <- ttime] in
  Ok [seq ((f.1.1 - 1, f.1.2 - 1), f.2 - 1) | f : iface <- part11 ++ part12 ++ part21 ++ part22].

(** tri.py:26-28 *)
Definition ell_tube_discr_tri (n_dim m_dim : nat) : seq (seq nat) :=
  let base := rcons (iota 0 n_dim) 0%N in
  [seq [seq (b + x)%N | x <- base] | b <- [seq (n_dim * k)%N | k <- iota 0 m_dim]].

(** ------------------------------------------------------------------ is_face *)
(** an order of the rows of an edge matrix viewed as np.void; the order is that of the bytes, of which only
    equality matters here (C05) *)
Definition ecmp (x y : edge) : comparison :=
  match PeanoNat.Nat.compare x.1 y.1 with Eq => PeanoNat.Nat.compare x.2 y.2 | c => c end.

(** np.split(v, ids) *)
Fixpoint np_split_from {T} (a : nat) (v : seq T) (ids : seq nat) : seq (seq T) :=
  if ids is i :: r then drop a (take i v) :: np_split_from i v r else [:: drop a v].
Definition np_split {T} (v : seq T) (ids : seq nat) : seq (seq T) := np_split_from 0 v ids.

(** tri.py:337-346 *)
Fixpoint attach_loop (fnl : seq (seq nat)) (is_edge : seq bool) (ind_edge : seq nat) (i_edge : nat) : seq (seq nat) :=
  match is_edge with
  | [::] => [::]
  | true :: r => nth [::] fnl (nth 0%N ind_edge i_edge) :: attach_loop fnl r ind_edge i_edge.+1
  | false :: r => [::] :: attach_loop fnl r ind_edge i_edge
  end.

(** tri.py:327-346 *)
Definition get_edge_attachements (fnl : seq (seq nat)) (e_mat check : seq edge) : res (seq (seq nat)) :=
  let check := [seq sort2 e.1 e.2 | e <- check] in
  match is_member ecmp check e_mat with
  | Some (is_edge, ind_edge) => Ok (attach_loop fnl is_edge ind_edge 0)
  | None => IndexError
  end.

(** tri.py:358-372, one row *)
Definition fnum_row (d : int * int) (v : seq nat) : int * int :=
  match v with
  | [:: a] => (a%:Z, d.2)
  | [:: a; b] => (a%:Z, b%:Z)
  | _ => d
  end.

Definition flip_or_not (r : int * int) (b : bool) : int * int := if b then (r.2, r.1) else r.

(** tri.py:378-398, one row *)
Definition comb_mat : seq (bool * bool * bool) :=
  [:: (false, false, false); (true, false, false); (false, true, false); (true, true, false);
      (false, false, true); (true, false, true); (false, true, true); (true, true, true)].
Definition intersect_row (one two three : int * int) : bool :=
  foldl (fun res c =>
    let a := flip_or_not one c.1.1 in let b := flip_or_not two c.1.2 in let d := flip_or_not three c.2 in
    res || (((a.1 == b.1) && (b.1 == d.1)) || ((a.2 == b.2) && (b.2 == d.2)))) false comb_mat.

Section IsFace.
Variable argsort : seq nat -> seq nat.

(** tri.py:326-400; f_to_check_mat is a matrix with three columns *)
Definition is_face (fm : fmat) (gs : seq face) : res (seq bool) :=
  let* (fs, e_mat, ind_f, ind_shift) := get_face_edge_info argsort fm in
  let fnl := if size ind_shift == 1%N then [:: ind_f]
             else np_split ind_f (cumsum (take (size ind_shift).-1 ind_shift)) in
  let* f12 := get_edge_attachements fnl e_mat [seq (f0 g, f1 g) | g <- gs] in
  let* f23 := get_edge_attachements fnl e_mat [seq (f1 g, f2 g) | g <- gs] in
  let* f13 := get_edge_attachements fnl e_mat [seq (f0 g, f2 g) | g <- gs] in
  let m12 := [seq fnum_row (-121%:Z, -122%:Z) v | v <- f12] in
  let m23 := [seq fnum_row (-231%:Z, -232%:Z) v | v <- f23] in
  let m13 := [seq fnum_row (-131%:Z, -132%:Z) v | v <- f13] in
  Ok [seq intersect_row r.1.1 r.1.2 r.2 | r <- zip3 m12 m23 m13].

End IsFace.

(** ------------------------------------------------------------------ is_tri_equal *)
Section Equal.
Variable R : rcfType.
Notation A := (arr (xnum R)).
Variables (argsort : seq nat -> seq nat) (xargsort : seq (xnum R) -> seq nat).

(** the text returned with the verdict *)
Inductive report := NoReport | FacesDiffer | UniqueFacesDiffer | VertsDiffer of xnum R & xnum R | FaceNumber | VertNumber.

(** ind_vec[f_mat] *)
Definition take_faces (ind : seq nat) (fs : seq face) : res (seq face) :=
  if all (fun f => all (fun v => v < size ind)%N [:: f0 f; f1 f; f2 f]) fs
  then Ok [seq (nth 0%N ind (f0 f), nth 0%N ind (f1 f), nth 0%N ind (f2 f)) | f <- fs] else IndexError.

(** tri.py:403-440; the face matrices have three columns *)
Definition is_tri_equal (v1 : A) (fs1 : seq face) (v2 : A) (fs2 : seq face) (tol : xnum R) : res (bool * report) :=
  if dim v1 0 != dim v2 0 then Ok (false, VertNumber) else
  if size fs1 != size fs2 then Ok (false, FaceNumber) else
  let* (w1, _, ind1) := sort_rows_tol xargsort v1 tol in
  let* (w2, _, ind2) := sort_rows_tol xargsort v2 tol in
  let* g1 := take_faces ind1 fs1 in
  let* g2 := take_faces ind2 fs2 in
  let* df := np_sub w1 w2 in
  let* real_tol := np_max (np_abs df) in
  if ~~ xle real_tol tol then Ok (false, VertsDiffer real_tol tol) else
  if size (undup g1) != size (undup g2) then Ok (false, UniqueFacesDiffer) else
  let* b1 := is_face argsort (Rows g2) g1 in
  let* b2 := if all id b1 then is_face argsort (Rows g1) g2 else Ok [::] in
  Ok (if all id b1 && all id b2 then (true, NoReport) else (false, FacesDiffer)).

End Equal.
