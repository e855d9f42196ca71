(** Model of the operators of ellipsoids and hyperplanes: python calls the special method, which calls a class method on
    lists of one object and takes the first entry of the result.  Several of these class methods have the body [pass]. *)
From mathcomp Require Import all_ssreflect all_algebra.
Require Import Coq.Strings.String.
From Verif.Model Require Import Py NP Linalg La Ellipsoid Hyperplane Compare Dict EllEq.
Set Implicit Arguments.
Unset Strict Implicit.
Unset Printing Implicit Defensive.
Local Open Scope ring_scope.

(** what a class method returns: None if its body is [pass] *)
Inductive ret (T : Type) := RNone | RVal of T.
Arguments RNone {T}.

(** [r.flatten()[0]] *)
Definition flat0 T (r : ret (arr T)) : res T :=
  match r with
  | RNone => AttributeError
  | RVal a => if data a is x :: _ then Ok x else IndexError
  end.
(** [r, _ = ...] followed by [np.array(r).flatten()[0]] *)
Definition unpack0 T U (r : ret (arr T * U)) : res T :=
  match r with
  | RNone => TypeError
  | RVal (a, _) => flat0 (RVal a)
  end.
(** [x] in a list *)
Definition one T (x : T) : arr T := Arr [:: 1%N] [:: x].

Section Operators.
Variables (R : rcfType) (la : linalg R) (cfg : props R).
Notation ell := (ell R).
Notation hp := (hp R).
Notation A := (arr (xnum R)).

(** Ellipsoid.py:236-263 [ge], [gt], [le], [lt]: the bodies are [pass] *)
Inductive cmp := Ge | Gt | Le | Lt.
Definition cmp_cls (o : cmp) (a b : arr ell) : ret (arr bool) := RNone.
(** Ellipsoid.py:241-242,249-250,257-258,265-266 [__ge__], [__gt__], [__le__], [__lt__] *)
Definition cmp_op (o : cmp) (x y : ell) : res bool := flat0 (cmp_cls o (one x) (one y)).

(** Ellipsoid.py:268-271 and Hyperplane.py:234-237 [ne] *)
Definition ne_cls T (a b : arr T) : ret (arr bool * string) := RNone.
(** Ellipsoid.py:273-275 and Hyperplane.py:239-241 [__ne__] *)
Definition ne_op T (x y : T) : res bool := unpack0 (ne_cls (one x) (one y)).

(** AEllipsoid.py:212-214,222-224 [plus], [minus] and 81-83 [mtimes] *)
Inductive arith := Add | Radd | Sub | Rsub | Rmul.
Definition arith_cls (o : arith) (b : A) (a : arr ell) : ret (arr ell) := RNone.
(** AEllipsoid.py:216-220,226-230 [__add__], [__radd__], [__sub__], [__rsub__] and 85-86 [__rmul__] *)
Definition arith_op (o : arith) (b : A) (x : ell) : res ell := flat0 (arith_cls o b (one x)).

(** Ellipsoid.py:718-719 [__neg__] *)
Definition neg_op (x : ell) : res ell := let* r := uminus la cfg (one x) in flat0 (RVal r).
(** Hyperplane.py:312-313 [__neg__] *)
Definition hp_neg_op (x : hp) : res hp := let* r := hp_uminus cfg (one x) in flat0 (RVal r).

End Operators.
