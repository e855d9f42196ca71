(** C64: throw_error, throw_warn and get_caller_name (gen/common/common.py).
    [qualified f name]: name is module.class.function of the frame f; [heading name t]: t is name in capitals with colons for
    dots; [nth _ st k]: the frame k levels up from the caller. *)
Require Import Coq.Strings.String Coq.Strings.Ascii.
From mathcomp Require Import all_ssreflect.
From Verif.Model Require Import Throw.
From Verif.Spec Require Import ThrowSpec.
From Verif.Proof Require Import ThrowProof.
Set Implicit Arguments.
Unset Strict Implicit.
Unset Printing Implicit Defensive.
Local Open Scope string_scope.

(** throw_error(tag, message) raises, with the heading of its caller, the tag and the message *)
Theorem C64_raises :
  forall (f : frame) (st : seq frame) (tag message : string), named f ->
  exists name head, [/\ qualified f name, heading name head &
    throw_error (f :: st) tag message 1 true = Raised (head ++ ":" ++ tag ++ ":" ++ message)].
Proof.
move=> f st tag msg Hf; have [name [head [H1 H2 H3]]] := throw_run (f :: st) tag msg 1 true.
by exists name, head; split=> //; apply: H3.
Qed.
Print Assumptions C64_raises.

(** the heading is determined by the name *)
Theorem C64_heading_unique : forall s t t', heading s t -> heading s t' -> t = t'.
Proof. exact: heading_uniq. Qed.
Print Assumptions C64_heading_unique.

(** with n_caller_stack_steps_up = k+1 the name is that of the frame k levels further up, empty beyond the top of the
    stack, and of throw_error itself for 0; with throw=False the exception is returned *)
Theorem C64_steps :
  forall (st : seq frame) tag message steps (throw : bool),
  exists name head, [/\ heading name head,
    throw_error st tag message steps throw = (if throw then Raised (head ++ ":" ++ tag ++ ":" ++ message) else Returned (head ++ ":" ++ tag ++ ":" ++ message)) &
    match steps with
    | 0 => name = "ellipy.gen.common.common.throw_error"
    | k.+1 => if (k < size st)%N then named (nth (common_frame "") st k) -> qualified (nth (common_frame "") st k) name else name = ""
    end].
Proof. exact: throw_run. Qed.
Print Assumptions C64_steps.

Theorem C64_warn :
  forall (st : seq frame) tag message,
  exists name head, [/\ heading name head, throw_warn st tag message = Returned (head ++ ":" ++ tag ++ ":" ++ message) &
    match st with [::] => name = "" | f :: _ => named f -> qualified f name end].
Proof. exact: warn_run. Qed.
Print Assumptions C64_warn.

(** get_caller_name in the default mode: module and class *)
Theorem C64_default :
  forall (st : seq frame) k, exists2 name, get_caller_name st k.+1 "default" = Returned name &
  if (k < size st)%N then named (nth (common_frame "") st k) -> owner (nth (common_frame "") st k) name else name = "".
Proof. exact: default_run. Qed.
Print Assumptions C64_default.

(** an unknown mode of get_caller_name is refused *)
Theorem C64_mode :
  forall (st : seq frame) skip mode, mode <> "default" -> mode <> "full" ->
  get_caller_name st skip mode = Raised ("ELLIPY.GEN.COMMON.COMMON.GET_CALLER_NAMEwrongInput: Unknown mode: " ++ mode).
Proof. exact: mode_run. Qed.
Print Assumptions C64_mode.

(** Ellipsoid.get_boundary called from a script *)
Definition ex_method : frame := Frame (Some "ellipy.elltool.core.ellipsoid.Ellipsoid") (Some "Ellipsoid") "get_boundary".
Definition ex_script : frame := Frame (Some "__main__") None "<module>".
Example C64_ex :
  [/\ named ex_method, named ex_script,
      throw_error [:: ex_method; ex_script] "wrongDim" "must be 2 or 3" 1 true =
        Raised "ELLIPY:ELLTOOL:CORE:ELLIPSOID:ELLIPSOID:ELLIPSOID:GET_BOUNDARY:wrongDim:must be 2 or 3",
      throw_error [:: ex_method; ex_script] "wrongDim" "must be 2 or 3" 2 false = Returned "__MAIN__::wrongDim:must be 2 or 3" &
      throw_error [:: ex_method; ex_script] "wrongDim" "must be 2 or 3" 3 true = Raised ":wrongDim:must be 2 or 3"].
Proof. by []. Qed.
