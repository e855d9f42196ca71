(** Specification of faces up to the order of their vertices, of equal triangulations and of tubes. *)
From mathcomp Require Import all_ssreflect all_fingroup all_algebra.
From Verif.Model Require Import Py NP Tri.
From Verif.Spec Require Import TriSpec GenSpec.
Set Implicit Arguments.
Unset Strict Implicit.
Unset Printing Implicit Defensive.
Import Order.Theory GRing.Theory Num.Theory.

(** how often the unordered pair e occurs as a side *)
Definition attached (fs : seq face) (e : edge) : nat :=
  count (fun s => (s == e) || (s == flip e)) (flatten [seq sides f | f <- fs]).
(** no side belongs to more than two faces *)
Definition manifold (fs : seq face) : bool := all (fun f => all (fun e => attached fs e <= 2) (sides f)) fs.
(** three times the same vertex *)
Definition constant (g : face) : bool := (f0 g == f1 g) && (f1 g == f2 g).
(** some row has the same vertices *)
Definition is_face_of (fs : seq face) (g : face) : bool := has (same_verts g) fs.

(** renumbering of vertices *)
Definition pnum m (s : 'S_m) (v : nat) : nat := if insub v is Some i then val (s i) else v.
Definition renum (p : nat -> nat) (f : face) : face := (p (f0 f), p (f1 f), p (f2 f)).
(** the vertices of the faces are numbers below m *)
Definition faces_below (m : nat) (fs : seq face) : bool := all (fun f => all (fun v => v < m) (verts f)) fs.

Section Sep.
Variable R : rcfType.
(** any two rows differ by more than the tolerance in the sense of sort_rows_tol (C11): some column separates them *)
Definition separated m n (tol : R) (M : 'M[R]_(m, n)) : Prop :=
  forall i j, i != j -> exists c, ~~ tied tol M c i j.
(** row i of the one matrix is row p i of the other, up to the tolerance *)
Definition near m n (tol : R) (M1 M2 : 'M[R]_(m, n)) (p : 'S_m) : Prop :=
  forall i j, (`|M1 i j - M2 (p i) j| <= tol)%R.
End Sep.

(** a tube of rings of ne vertices, numbered ring by ring; the two triangles of the cell between the vertices i and
    i + 1 of ring j and of ring j + 1 *)
Definition tube_vertex (ne j i : nat) : nat := j * ne + i %% ne.
Definition tube_cell (ne j i : nat) : seq face :=
  let a := tube_vertex ne j i in let b := tube_vertex ne j i.+1 in
  let c := tube_vertex ne j.+1 i in let d := tube_vertex ne j.+1 i.+1 in [:: (a, b, d); (d, c, a)].
Definition tube_cells (ne np : nat) : seq face :=
  flatten [seq flatten [seq tube_cell ne j i | i <- iota 0 ne] | j <- iota 0 np.-1].
(** the same numbers as python integers *)
Definition int_face (f : face) : int * int * int := ((f0 f)%:Z, (f1 f)%:Z, (f2 f)%:Z)%R.
(** a side on the first or on the last of np rings *)
Definition end_ring (ne np : nat) (e : edge) : bool :=
  ((e.1 < ne) && (e.2 < ne)) || ((np.-1 * ne <= e.1) && (np.-1 * ne <= e.2)).
