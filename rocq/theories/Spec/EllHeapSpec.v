(** Specification vocabulary for objects in a heap.  From the model only the data types are used. *)
Require Import Coq.Lists.List.
From mathcomp Require Import all_ssreflect all_algebra.
From Verif.Model Require Import Py NP Linalg La Ellipsoid EllHeap.
From Verif.Spec Require Import MatSpec EllSpec EllipsoidSpec.
Set Implicit Arguments.
Unset Strict Implicit.
Unset Printing Implicit Defensive.
Import GRing.Theory Num.Theory.
Local Open Scope ring_scope.

(** in the heap h the object r has the value v *)
Definition obj T (h : seq T) (r : nat) (v : T) : Prop := List.nth_error h r = Some v.
(** the objects rs have the values vs *)
Definition objs T (h : seq T) (rs : seq nat) (vs : seq T) : Prop := List.Forall2 (obj h) rs vs.
(** every object of h is in h' with the same value *)
Definition preserved T (h h' : seq T) : Prop := forall r v, obj h r v -> obj h' r v.
(** rs are pairwise different objects that do not exist in h *)
Definition fresh T (h : seq T) (rs : seq nat) : Prop := uniq rs /\ forall r, r \in rs -> (size h <= r)%N.

Section EllHeapSpec.
Variable R : rcfType.

(** the objects a call is meant to change *)
Definition targets (c : call R) : seq nat :=
  match c with
  | CProjection a _ => data a
  | CSetShape r _ | CSetCenter r _ => [:: r]
  | CGetProjection _ _ | CCopy _ | CRepMat _ _ | CNew _ _ => [::]
  end.
(** no call of the history changes r *)
Definition untouched (cs : seq (call R)) (r : nat) : Prop := List.Forall (fun c => r \notin targets c) cs.

(** the columns of B scaled to length 1 *)
Definition unit_cols n k (B : 'M[R]_(n, k)) : 'M[R]_(n, k) := \matrix_(i, j) (B i j / len (col j B)).
Definition nonzero_cols n k (B : 'M[R]_(n, k)) : Prop := forall j, col j B != 0.
(** no two different columns have a scalar product above t *)
Definition acute_below n k (t : R) (B : 'M[R]_(n, k)) : Prop := forall i j, i != j -> dotv (col i B) (col j B) <= t.
Definition ortho_cols n k (B : 'M[R]_(n, k)) : Prop := forall i j, i != j -> dotv (col i B) (col j B) = 0.

(** t is the largest absolute tolerance of es *)
Definition greatest_tol (es : seq (ell R)) (t : R) : Prop :=
  (exists2 e, List.In e es & p_abs (e_props e) = Fin t) /\
  (forall e u, List.In e es -> p_abs (e_props e) = Fin u -> u <= t).

(** es are ellipsoids of dimension n *)
Definition all_dim n (es : seq (ell R)) : Prop :=
  List.Forall (fun e => exists (c : 'cV[R]_n) (Q : 'M[R]_n) t, repr e c Q t) es.

(** e' holds the image of the ellipsoid of e under the transposed of B, with the same properties *)
Definition image_of n k (B : 'M[R]_(n, k)) (e e' : ell R) : Prop :=
  e_props e' = e_props e /\
  forall (c : 'cV[R]_n) (Q : 'M[R]_n) t, repr e c Q t ->
  exists (c' : 'cV[R]_k) (Q' : 'M[R]_k), [/\ repr e' c' Q' t,
    (forall y, in_ell c' Q' y <-> exists2 x, in_ell c Q x & y = B^T *m x) &
    (forall l s, max_over (in_ell c' Q') l s <-> max_over (in_ell c Q) (B *m l) s)].

End EllHeapSpec.
