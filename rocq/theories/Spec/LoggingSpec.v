(** Specification vocabulary for C83: the hierarchy of dotted names. *)
Require Import Coq.Strings.String Coq.Strings.Ascii.
From mathcomp Require Import all_ssreflect.
From Verif.Model Require Import Throw.
From Verif.Spec Require Import ThrowSpec.
Set Implicit Arguments.
Unset Strict Implicit.
Unset Printing Implicit Defensive.
Local Open Scope string_scope.

(** the logger a is the logger n, or above it *)
Definition above (a n : string) : Prop := a = n \/ a = "" \/ exists t, n = a ++ "." ++ t.

(** the names of the loggers for the callers of a sequence of warnings *)
Definition caller_names (ws : seq (seq frame * seq string)) (names : seq string) : Prop :=
  size names = size ws /\
  forall i, (i < size ws)%N -> exists f st, (nth ([::], [::]) ws i).1 = f :: st /\ (named f -> qualified f (nth "" names i)).
