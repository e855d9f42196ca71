(** Specification of dict_compare. *)
Require Import Coq.Lists.List Coq.Sorting.Permutation.
From mathcomp Require Import all_ssreflect all_algebra.
Require Import Coq.Strings.String.
From Verif.Model Require Import Py NP Compare Dict.
From Verif.Spec Require Import CompareSpec.
Set Implicit Arguments.
Unset Strict Implicit.
Unset Printing Implicit Defensive.
Local Open Scope ring_scope.

Section Spec.
Variable R : rcfType.
Notation value := (value R).
Implicit Types (v w x y : value) (d : seq (string * value)) (l : seq value).

(** the report prints as the empty string *)
Definition no_report (r : rep R) : bool := match r with R0 => true | RRows l => nilp l | _ => false end.

(** elements of arrays and lists by number *)
Definition v0 : value := VOther _ "" 0.
Definition el l i : value := nth v0 l i.
Definition keys d : seq string := [seq p.1 | p <- d].

(** x and y agree: the same types and kinds, equal strings, numbers within the tolerances, the same keys *)
Inductive agree (atol : xnum R) (rtol : option (xnum R)) : value -> value -> Prop :=
| ag_num ty k a b : shape a = shape b -> (forall i, close atol rtol (nth NaN (data a) i) (nth NaN (data b) i)) -> (* past the end both are NaN *)
    agree atol rtol (VNum ty k a) (VNum ty k b)
| ag_str s : agree atol rtol (VStr _ s) (VStr _ s)
| ag_other ty i : agree atol rtol (VOther _ ty i) (VOther _ ty i)
| ag_list l l' : size l = size l' -> (forall i, (i < size l)%N -> agree atol rtol (el l i) (el l' i)) -> agree atol rtol (VList l) (VList l')
| ag_obj sh l l' : size l = size l' -> (forall i, (i < size l)%N -> agree atol rtol (el l i) (el l' i)) -> agree atol rtol (VObj sh l) (VObj sh l')
| ag_dict d d' : (forall k, In k (keys d) <-> In k (keys d')) -> (forall k v w, dget d k = Some v -> dget d' k = Some w -> agree atol rtol v w) ->
    agree atol rtol (VDict d) (VDict d').

(** the same up to the numbers: the types, kinds and shapes agree *)
Inductive same_sort : value -> value -> Prop :=
| ss_num ty k a b : shape a = shape b -> same_sort (VNum ty k a) (VNum ty k b)
| ss_str s t : same_sort (VStr _ s) (VStr _ t)
| ss_other ty i j : same_sort (VOther _ ty i) (VOther _ ty j)
| ss_list l l' : size l = size l' -> (forall i, (i < size l)%N -> same_sort (el l i) (el l' i)) -> same_sort (VList l) (VList l')
| ss_obj sh l l' : size l = size l' -> (forall i, (i < size l)%N -> same_sort (el l i) (el l' i)) -> same_sort (VObj sh l) (VObj sh l')
| ss_dict d d' : same_sort (VDict d) (VDict d').
(** np.asarray of a list: the dtype depends on the types, kinds and shapes of the elements only *)
Definition lkind_ok (lkind : seq value -> res kind) : Prop :=
  forall l l', size l = size l' -> (forall i, (i < size l)%N -> same_sort (el l i) (el l' i)) -> lkind l = lkind l'.

(** type names that are not those of strings, lists and dicts *)
Definition plain_type (ty : string) : bool := ~~ (String.eqb ty "str" || String.eqb ty "list" || String.eqb ty "dict").
(** supported values: numbers that are not booleans; lists of which numpy can make an array; arrays of dicts only, or without
    dicts and not zero-dimensional; dicts without duplicate keys *)
Inductive ok_value (lkind : seq value -> res kind) : value -> Prop :=
| ok_num ty k a : plain_type ty -> (match k with KI | KU | KF => true | _ => false end) -> wf_arr a -> ok_value lkind (VNum ty k a)
| ok_str s : ok_value lkind (VStr _ s)
| ok_other ty i : plain_type ty -> ok_value lkind (VOther _ ty i)
| ok_list k l : lkind l = Ok k -> (forall i, (i < size l)%N -> ok_value lkind (el l i)) -> ok_value lkind (VList l)
| ok_obj sh l : size l = prodn sh -> (forall i, (i < size l)%N -> ok_value lkind (el l i)) ->
    (~~ nilp l && all (@is_dict R) l || ~~ nilp sh && ~~ has (@is_dict R) l) -> ok_value lkind (VObj sh l)
| ok_dict d : NoDup (keys d) -> (forall k v, dget d k = Some v -> ok_value lkind v) -> ok_value lkind (VDict d).

(** lists and arrays that are compared have the same size, arrays of dicts are not compared with other arrays *)
Definition container v : nat := match v with VList _ => 1 | VObj _ _ => 2 | VDict _ => 3 | _ => 0 end.
Inductive aligned : value -> value -> Prop :=
| al_list l l' : size l = size l' -> (forall i, (i < size l)%N -> aligned (el l i) (el l' i)) -> aligned (VList l) (VList l')
| al_obj sh l l' : size l = size l' -> ~~ has (@is_dict R) l -> ~~ has (@is_dict R) l' -> (forall i, (i < size l)%N -> aligned (el l i) (el l' i)) -> aligned (VObj sh l) (VObj sh l')
| al_dicts sh sh' l l' : ~~ nilp l && all (@is_dict R) l -> ~~ nilp l' && all (@is_dict R) l' ->
    (forall i, (i < size l)%N -> (i < size l')%N -> aligned (el l i) (el l' i)) -> aligned (VObj sh l) (VObj sh' l')
| al_dict d d' : (forall k v w, dget d k = Some v -> dget d' k = Some w -> aligned v w) -> aligned (VDict d) (VDict d')
| al_other x y : container x != container y -> aligned x y
| al_flat x y : container x = 0%N -> container y = 0%N -> aligned x y.

(** the same value with the keys of its dicts in another order *)
Inductive reordered : value -> value -> Prop :=
| re_num ty k a : reordered (VNum ty k a) (VNum ty k a)
| re_str s : reordered (VStr _ s) (VStr _ s)
| re_other ty i : reordered (VOther _ ty i) (VOther _ ty i)
| re_list l l' : size l = size l' -> (forall i, (i < size l)%N -> reordered (el l i) (el l' i)) -> reordered (VList l) (VList l')
| re_obj sh l l' : size l = size l' -> (forall i, (i < size l)%N -> reordered (el l i) (el l' i)) -> reordered (VObj sh l) (VObj sh l')
| re_dict d d' : Permutation (keys d) (keys d') -> (forall k v w, dget d k = Some v -> dget d' k = Some w -> reordered v w) -> reordered (VDict d) (VDict d').

(** an argument of dict_compare as an array of values; arguments made of dicts *)
Definition as_array (a : dict_arg R) : value :=
  match a with ADict d => VObj [:: 1%N] [:: VDict d] | AArr sh l => VObj sh l | AOther => v0 end.
Definition dict_like (a : dict_arg R) : bool := ~~ nilp (elems a) && all (@is_dict R) (elems a).
End Spec.
