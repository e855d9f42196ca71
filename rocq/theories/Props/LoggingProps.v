(** C83: the warnings written through get_logger (gen/logging/logging.py, called in elltool/core/ellipsoid/Ellipsoid.py).
    [warns now ws no_logs]: the lines written by the warnings ws, in order, by a program that has not logged before; a warning
    is the stack of its caller and its messages.  [above a n]: the logger a is n or an ancestor of n. *)
Require Import Coq.Strings.String Coq.Strings.Ascii.
From mathcomp Require Import all_ssreflect.
From Verif.Model Require Import Throw Logging.
From Verif.Spec Require Import ThrowSpec LoggingSpec.
From Verif.Proof Require Import ThrowProof LoggingProof.
Set Implicit Arguments.
Unset Strict Implicit.
Unset Printing Implicit Defensive.
Local Open Scope string_scope.

(** warning i writes each of its messages, under the name of its caller, as many times as there have been warnings up to it
    from the same caller or from callers above it *)
Theorem C83_lines :
  forall now ws, (forall i, (i < size ws)%N -> exists f st, (nth ([::], [::]) ws i).1 = f :: st /\ named f) ->
  exists names outs st, [/\ caller_names ws names, warns now ws no_logs = Returned (outs, st), size outs = size ws &
    forall i, (i < size ws)%N -> exists2 N, nth [::] outs i = flatten [seq nseq N (line now (nth "" names i) m) | m <- (nth ([::], [::]) ws i).2] &
      exists js, [/\ uniq js, size js = N & forall j, j \in js <-> (j <= i)%N /\ above (nth "" names j) (nth "" names i)]].
Proof. exact: warns_lines. Qed.
Print Assumptions C83_lines.

(** so a message is written once if nothing at or above the function has warned before *)
Theorem C83_once_partial :
  forall now ws, (forall i, (i < size ws)%N -> exists f st, (nth ([::], [::]) ws i).1 = f :: st /\ named f) ->
  exists names outs st, [/\ caller_names ws names, warns now ws no_logs = Returned (outs, st) &
    forall i, (i < size ws)%N -> (forall j, (j < i)%N -> ~ above (nth "" names j) (nth "" names i)) ->
      nth [::] outs i = [seq line now (nth "" names i) m | m <- (nth ([::], [::]) ws i).2]].
Proof. exact: warns_once. Qed.
Print Assumptions C83_once_partial.

(** k warnings of one function write k (k + 1) / 2 times as many lines as a warning has messages *)
Theorem C83_same_caller :
  forall now callers msgs k, exists outs st, warns now (nseq k (callers, msgs)) no_logs = Returned (outs, st) /\
    (size (flatten outs)).*2 = (size msgs * (k * k.+1))%N.
Proof. exact: warns_same. Qed.
Print Assumptions C83_same_caller.

(** is_bigger, called twice for degenerate ellipsoids by a script: the second warning is written twice *)
Definition ex_bigger : seq frame :=
  [:: Frame (Some "ellipy.elltool.core.ellipsoid.Ellipsoid") (Some "Ellipsoid") "is_bigger"; Frame (Some "__main__") None "<module>"].
Definition ex_msg : string := "           Regularizing...".
Definition ex_line : string :=
  "T [ellipy.elltool.core.ellipsoid.Ellipsoid.Ellipsoid.is_bigger] INFO                Regularizing...".
Theorem C83_once_refuted :
  exists st, warns "T" [:: (ex_bigger, [:: ex_msg]); (ex_bigger, [:: ex_msg])] no_logs = Returned ([:: [:: ex_line]; [:: ex_line; ex_line]], st).
Proof. by eexists; vm_compute. Qed.
Print Assumptions C83_once_refuted.

(** a warning of a function does not repeat one of another function *)
Example C83_nonvacuous :
  let f := Frame (Some "a") None "f" in let g := Frame (Some "a") None "g" in
  [/\ named f, named g, ~ above "a.f" "a.g", above "a" "a.f" &
      exists st, warns "T" [:: ([:: f], [:: "x"]); ([:: g], [:: "y"])] no_logs = Returned ([:: [:: "T [a.f         ] INFO     x"]; [:: "T [a.g         ] INFO     y"]], st)].
Proof.
split=> //; [by case=> [//|[//|[t] []]]|by right; right; exists "f"|by eexists; vm_compute].
Qed.
