(** Specification vocabulary for gras/geom/sup: supporting lines and planes. *)
From mathcomp Require Import all_ssreflect all_algebra.
From Verif.Model Require Import Py NP.
Set Implicit Arguments.
Unset Strict Implicit.
Unset Printing Implicit Defensive.
Import GRing.Theory Num.Theory.
Local Open Scope ring_scope.

Section SupSpec.
Variable R : rcfType.

(** <l_i, x> = s_i, where l_i is row i of D *)
Definition on_plane n d (D : 'M[R]_(n, d)) (s : 'cV[R]_n) (i : 'I_n) (x : 'rV[R]_d) : Prop :=
  \sum_j D i j * x 0 j = s i 0.
(** the rows of D at the given places are linearly independent: only the trivial combination is 0 *)
Definition indep k n d (D : 'M[R]_(n, d)) (f : 'I_k -> 'I_n) : Prop :=
  forall c : 'I_k -> R, (forall j, \sum_i c i * D (f i) j = 0) -> forall i, c i = 0.
(** the next direction, the first one after the last *)
Definition cyc n (i : 'I_n.+1) : 'I_n.+1 := inord (if i == n :> nat then 0%N else i.+1).
(** the places i, j *)
Definition two n (i j : 'I_n) : 'I_2 -> 'I_n := fun k => if k == 0 then i else j.
(** the planes at the given places have a point in common *)
Definition common k n d (D : 'M[R]_(n, d)) (s : 'cV[R]_n) (f : 'I_k -> 'I_n) : Prop :=
  exists x, forall i, on_plane D s (f i) x.
(** a table of faces as an integer array; places may be given from the end by negative numbers *)
Definition faces_are n m (faces : arr int) (F : 'I_n -> 'I_3 -> 'I_m) : Prop :=
  shape faces = [:: n; 3%N] /\
  forall i j, getn 0 faces [:: val i; val j] = Posz (F i j) \/ getn 0 faces [:: val i; val j] = Posz (F i j) - Posz m.
End SupSpec.
