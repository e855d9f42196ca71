(** Specification vocabulary for stacks of matrices: the Moore-Penrose inverse. *)
From mathcomp Require Import all_ssreflect all_algebra.
From Verif.Spec Require Import MatSpec.
Set Implicit Arguments.
Unset Strict Implicit.
Unset Printing Implicit Defensive.
Import GRing.Theory.
Local Open Scope ring_scope.

Definition penrose (R : rcfType) m n (B : 'M[R]_(m, n)) (P : 'M[R]_(n, m)) : Prop :=
  [/\ B *m P *m B = B, P *m B *m P = P, (B *m P)^T = B *m P & (P *m B)^T = P *m B].
