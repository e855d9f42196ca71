(** Specification of the texts of errors. *)
Require Import Coq.Strings.String Coq.Strings.Ascii.
From mathcomp Require Import all_ssreflect.
From Verif.Model Require Import Throw.
Set Implicit Arguments.
Unset Strict Implicit.
Unset Printing Implicit Defensive.
Local Open Scope string_scope.

(** name is the qualified name of the function of the frame f: module, class and function, as far as there are any,
    separated by dots; the code of a module has no name *)
Definition code_name (f : frame) : string := if String.eqb (fr_code f) "<module>" then "" else fr_code f.
Definition qualified (f : frame) (name : string) : Prop :=
  match fr_module f, fr_self f with
  | Some m, Some c => name = m ++ "." ++ c ++ "." ++ code_name f
  | Some m, None => name = m ++ "." ++ code_name f
  | None, Some c => name = c ++ "." ++ code_name f
  | None, None => name = code_name f
  end.

(** the capital of a letter; all other characters as they are *)
Definition capital (a b : ascii) : Prop :=
  (exists2 i, (i < 26)%N & a = ascii_of_nat (97 + i) /\ b = ascii_of_nat (65 + i)) \/
  (~ (exists2 i, (i < 26)%N & a = ascii_of_nat (97 + i))) /\ b = a.
(** t is s in capitals with colons for dots, character by character *)
Definition heading (s t : string) : Prop :=
  String.length t = String.length s /\
  forall i a b, String.get i s = Some a -> String.get i t = Some b ->
    if Ascii.eqb a "."%char then b = ":"%char else capital a b.

(** module and class names are not empty (python forbids it) *)
Definition named (f : frame) : Prop := fr_module f <> Some "" /\ fr_self f <> Some "".

(** module.class of the frame, or the name of the function if there is neither *)
Definition owner (f : frame) (name : string) : Prop :=
  match fr_module f, fr_self f with
  | Some m, Some c => name = m ++ "." ++ c
  | Some m, None => name = m
  | None, Some c => name = c
  | None, None => name = code_name f
  end.
