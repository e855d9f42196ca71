(** Python-level vocabulary shared by all models: exceptions as values, dynamic values, dicts. *)
Require Import Coq.Strings.String Coq.Lists.List Coq.ZArith.ZArith Coq.QArith.QArith.
Import ListNotations.
Local Open Scope string_scope.

(** Exceptions.  [Tagged t] is the ValueError raised by
    gen/common/common.py:64-71 [throw_error(t, ...)] (the caller prefix and the free text of the
    message are not kept here; Model/Common.v models them).  [PyExc n] is a built-in python/numpy
    exception of class n. *)
Inductive exc : Type :=
| Tagged (tag : string)
| PyExc (cls : string).

(** Result of a python call: a value or a raised exception. *)
Inductive res (A : Type) : Type :=
| Ok (a : A)
| Err (e : exc).
Arguments Ok {A} a.
Arguments Err {A} e.

Definition rbind {A B} (x : res A) (f : A -> res B) : res B :=
  match x with Ok a => f a | Err e => Err e end.

Definition is_ok {A} (x : res A) : bool := match x with Ok _ => true | Err _ => false end.

(** Python floats as far as argument validation looks at them: finite rationals, infinities, nan.
    (np.float64 is a subclass of float and is covered.) *)
Inductive pyfloat : Type := FFin (q : Q) | FPInf | FNInf | FNaN.

(** Dynamic values that can occur in the configuration / keyword arguments.  [VOther] stands for
    any object that is not a str, bool, int or float (lists, arrays, None, ...). *)
Inductive pyval : Type :=
| VStr (s : string)
| VBool (b : bool)
| VInt (z : Z)
| VFloat (f : pyfloat)
| VOther (n : nat).

(** Python dict with string keys: insertion ordered association list, keys distinct. *)
Definition dict (V : Type) := list (string * V).

Fixpoint dget {V} (d : dict V) (k : string) : option V :=
  match d with
  | [] => None
  | (k', v) :: d' => if String.eqb k k' then Some v else dget d' k
  end.

(** d[k] = v : overwrite in place or append *)
Fixpoint dset {V} (d : dict V) (k : string) (v : V) : dict V :=
  match d with
  | [] => [(k, v)]
  | (k', v') :: d' => if String.eqb k k' then (k', v) :: d' else (k', v') :: dset d' k v
  end.

(** del d[k] (k present) *)
Fixpoint ddel {V} (d : dict V) (k : string) : dict V :=
  match d with
  | [] => []
  | (k', v') :: d' => if String.eqb k k' then d' else (k', v') :: ddel d' k
  end.

Definition dmem {V} (d : dict V) (k : string) : bool :=
  match dget d k with Some _ => true | None => false end.

Definition dkeys {V} (d : dict V) : list string := map fst d.
