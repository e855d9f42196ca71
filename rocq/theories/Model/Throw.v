(** Model of gen/common/common.py: get_caller_name_ext, get_caller_name, throw_error, throw_warn.

    A stack frame is what the code reads of it.  A function gets the frames of its callers, the direct caller first, and
    pushes its own frame when it calls.  Strings are strings of bytes and upper() works on ASCII letters.  The number of
    levels to skip is a natural number. *)
Require Import Coq.Strings.String Coq.Strings.Ascii.
From mathcomp Require Import all_ssreflect.
Set Implicit Arguments.
Unset Strict Implicit.
Unset Printing Implicit Defensive.
Local Open Scope string_scope.

(** inspect.getmodule(frame).__name__ or None; the class of the local variable self, if there is one; f_code.co_name *)
Record frame := Frame { fr_module : option string; fr_self : option string; fr_code : string }.

(** the frames of the functions of common.py *)
Definition common_frame (code : string) : frame := Frame (Some "ellipy.gen.common.common") None code.

(** common.py:7-37 *)
Definition get_caller_name_ext (callers : seq frame) (skip : nat) : string * string :=
  let stack := common_frame "get_caller_name_ext" :: callers in
  if (size stack < skip + 1)%N then ("", "") else
  let f := nth (common_frame "") stack skip in
  let name := ((if fr_module f is Some m then [:: m] else [::]) ++ (if fr_self f is Some c then [:: c] else [::]))%SEQ in
  ((if String.eqb (fr_code f) "<module>" then "" else fr_code f), String.concat "." name).

(** results and exceptions: the text of the ValueError *)
Inductive outcome (T : Type) := Returned (x : T) | Raised (text : string).
Arguments Raised {T} _.

Definition up (c : ascii) : ascii :=
  let n := nat_of_ascii c in if (97 <= n <= 122)%N then ascii_of_nat (n - 32) else c.
Fixpoint smap (f : ascii -> ascii) (s : string) : string :=
  match s with EmptyString => EmptyString | String c r => String (f c) (smap f r) end.
Definition upper (s : string) : string := smap up s.
(** s.replace('.', ':') *)
Definition colons (s : string) : string := smap (fun c => if Ascii.eqb c "."%char then ":"%char else c) s.

(** common.py:40-61 *)
Definition get_caller_name (callers : seq frame) (skip : nat) (mode : string) : outcome string :=
  let inner := common_frame "get_caller_name" :: callers in
  let (code_name, class_name) := get_caller_name_ext inner (skip + 1) in
  if String.eqb mode "default" then Returned (if String.eqb class_name "" then code_name else class_name)
  else if String.eqb mode "full" then Returned (if String.eqb class_name "" then code_name else class_name ++ "." ++ code_name)
  else
    let (code_name, class_name) := get_caller_name_ext inner 1 in
    Raised (upper (class_name ++ "." ++ code_name) ++ "wrongInput: Unknown mode: " ++ mode).

(** common.py:64-71; the returned value is the text of the exception that is returned *)
Definition throw_error (callers : seq frame) (tag message : string) (steps : nat) (throw : bool) : outcome string :=
  match get_caller_name (common_frame "throw_error" :: callers) (steps + 1) "full" with
  | Raised t => Raised t
  | Returned name =>
      let e := upper (colons name) ++ ":" ++ tag ++ ":" ++ message in
      if throw then Raised e else Returned e
  end.

(** common.py:74-76; the value is the text of the warning *)
Definition throw_warn (callers : seq frame) (tag message : string) : outcome string :=
  match get_caller_name (common_frame "throw_warn" :: callers) 2 "full" with
  | Raised t => Raised t
  | Returned name => Returned (upper (colons name) ++ ":" ++ tag ++ ":" ++ message)
  end.
