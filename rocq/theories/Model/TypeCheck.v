(** The checks with which the methods of ellipsoids and hyperplanes begin
    (elltool/core/abasicellipsoid/ABasicEllipsoid.py, ellipsoid/Ellipsoid.py, hyperplane/Hyperplane.py), on arbitrary
    python arguments.  The other models start where these checks have passed.

    An argument is an object, a nested list (or tuple) of objects, or an array of objects.  Objects are of a type T;
    [inst x] is isinstance(x, cls) and [iter x] tells that an object is itself iterable (a string, a dictionary, a
    generator), which np.array takes as one entry.

    Simplifications: lists do not contain arrays; the limit of 32 axes of numpy and the warning about ragged lists
    are not modelled (from numpy 1.24 a ragged list is an error of np.array instead of the error raised here). *)
From mathcomp Require Import all_ssreflect.
Require Import Coq.Strings.String.
From Verif.Model Require Import Py NP.
Set Implicit Arguments.
Unset Strict Implicit.
Unset Printing Implicit Defensive.

Inductive nested (T : Type) : Type :=
| Obj (x : T)
| Lst (l : seq (nested T)).
Arguments Obj {T} x.
Arguments Lst {T} l.

Inductive arg (T : Type) : Type :=
| ANest (v : nested T)
| AArr (a : arr T).
Arguments ANest {T} v.
Arguments AArr {T} a.

(** the longest common prefix of two shapes *)
Fixpoint lcp (s t : seq nat) : seq nat :=
  match s, t with
  | a :: s', b :: t' => if a == b then a :: lcp s' t' else [::]
  | _, _ => [::]
  end.
Definition common (ss : seq (seq nat)) : seq nat :=
  match ss with [::] => [::] | s :: ss' => foldl lcp s ss' end.

(** np.array of a nested list: its shape is the longest one that all parts share, its entries the parts at this depth *)
Fixpoint np_shape T (v : nested T) : seq nat :=
  match v with
  | Obj _ => [::]
  | Lst l => size l :: common (map (@np_shape T) l)
  end.
Fixpoint np_entries T (d : nat) (v : nested T) : seq (nested T) :=
  match d with
  | 0 => [:: v]
  | d'.+1 => match v with Obj _ => [:: v] | Lst l => flatten (map (np_entries d') l) end
  end.
Definition np_array T (v : arg T) : arr (nested T) :=
  match v with
  | ANest v => Arr (np_shape v) (np_entries (size (np_shape v)) v)
  | AArr a => Arr (shape a) (map Obj (data a))
  end.
(** isinstance(x, collections.Iterable) *)
Definition iterable T (iter : T -> bool) (v : arg T) : bool :=
  match v with ANest (Obj x) => iter x | _ => true end.
(** isinstance(x, cls) *)
Definition isinst T (inst : T -> bool) (v : nested T) : bool :=
  match v with Obj x => inst x | Lst _ => false end.
Definition isinst_arg T (inst : T -> bool) (v : arg T) : bool :=
  match v with ANest v => isinst inst v | AArr _ => false end.

(** ABasicEllipsoid.py:60-70 *)
Definition check_if_scalar T (inst iter : T -> bool) (ell_arr : arg T) : res unit :=
  if iterable iter ell_arr then
    let a := np_array ell_arr in
    if size (data a) != 1%N then throw "wrongInput:ell_arr" else
    match data a with
    | e :: _ => if ~~ isinst inst e then throw "wrongInput:ell_arr" else Ok tt
    | [::] => IndexError
    end
  else if ~~ isinst_arg inst ell_arr then throw "wrongInput:ell_arr" else Ok tt.

(** the loop of ABasicEllipsoid.py:82-84 *)
Fixpoint check_loop T (inst : T -> bool) (err_tag : string) (es : seq (nested T)) : res unit :=
  match es with
  | [::] => Ok tt
  | e :: es' => if ~~ isinst inst e then throw err_tag else check_loop inst err_tag es'
  end.
(** ABasicEllipsoid.py:72-87; Ellipsoid.py:204-217 and Hyperplane.py:84-90 call it for their class *)
Definition check_is_me T (inst iter : T -> bool) (ell_arr : arg T) (var_name err_tag : string) : res unit :=
  let tag := if ~~ String.eqb var_name "" then (err_tag ++ ":" ++ var_name)%string else err_tag in
  if iterable iter ell_arr then
    let a := np_array ell_arr in
    if (0 < size (data a))%N then check_loop inst tag (data a) else Ok tt
  else if ~~ isinst_arg inst ell_arr then throw tag else Ok tt.
