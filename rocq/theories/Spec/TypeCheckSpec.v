(** Specification vocabulary for C82: nested lists that are rectangular. *)
Require Import Coq.Lists.List.
From mathcomp Require Import all_ssreflect.

From Verif.Model Require Import NP TypeCheck.
Set Implicit Arguments.
Unset Strict Implicit.
Unset Printing Implicit Defensive.

(** [rect P s v]: v is a rectangular nested list of shape s whose objects satisfy P *)
Inductive rect T (P : T -> Prop) : seq nat -> nested T -> Prop :=
| RectObj x : P x -> rect P [::] (Obj x)
| RectNil : rect P [:: 0%N] (Lst [::])
| RectLst s v l : (forall u, In u (v :: l) -> rect P s u) -> rect P (size (v :: l) :: s) (Lst (v :: l)).

(** an argument that stands for an array of shape s of objects satisfying P *)
Definition arr_of T (P : T -> Prop) (s : seq nat) (v : arg T) : Prop :=
  match v with
  | ANest v => rect P s v
  | AArr a => shape a = s /\ (forall x, In x (data a) -> P x)
  end.

(** the object at a multi-index of a nested list *)
Fixpoint at_idx T (v : nested T) (idx : seq nat) : option T :=
  match v, idx with
  | Obj x, [::] => Some x
  | Lst l, i :: idx' => match nth_error l i with Some u => at_idx u idx' | None => None end
  | _, _ => None
  end.
