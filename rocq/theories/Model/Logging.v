(** Model of gen/logging/logging.py and of the loggers of python's logging module as far as it uses them.

    The state is the list of handlers that get_logger has attached, in order, each with the name of its logger, and the names
    of the loggers whose level it has set.  A record goes to the handlers of its logger and, as propagate is on, to those of
    all loggers above it in the hierarchy of dotted names, up to the root logger (the empty name).

    Simplifications: nobody else configures loggers; the time in a line is an argument. *)
Require Import Coq.Strings.String Coq.Strings.Ascii.
From mathcomp Require Import all_ssreflect.
From Verif.Model Require Import Throw.
Set Implicit Arguments.
Unset Strict Implicit.
Unset Printing Implicit Defensive.
Local Open Scope string_scope.

Record logs := Logs { handlers : seq string; debug : seq string }.
Definition no_logs : logs := Logs [::] [::].

(** the parts of a name before each of its dots, the shortest first *)
Fixpoint dot_prefixes (s : string) : seq string :=
  match s with
  | EmptyString => [::]
  | String c r => ((if Ascii.eqb c "."%char then [:: ""] else [::]) ++ [seq String c p | p <- dot_prefixes r])%SEQ
  end.
(** the loggers a record passes: Manager._fixupParents looks for i > 0 with name[i] a dot, from the right; the root is last *)
Definition ancestors (name : string) : seq string :=
  if String.eqb name "" then [:: ""]
  else (name :: rev [seq p <- dot_prefixes name | ~~ String.eqb p ""] ++ [:: ""])%SEQ.

(** logging.py:5-14; getLogger(name) gives the same logger for the same name *)
Definition get_logger (callers : seq frame) (st : logs) : outcome (string * logs) :=
  match get_caller_name (Frame (Some "ellipy.gen.logging.logging") None "get_logger" :: callers) 2 "full" with
  | Raised t => Raised t
  | Returned caller_name =>
      Returned (caller_name, Logs (rcons (handlers st) caller_name) (rcons (debug st) caller_name))
  end.

(** '%-12s' *)
Fixpoint spaces (n : nat) : string := match n with 0 => "" | n'.+1 => String " "%char (spaces n') end.
Definition pad (w : nat) (s : string) : string := s ++ spaces (w - String.length s).
(** logging.py:9-10, for an INFO record *)
Definition line (now name msg : string) : string := now ++ " [" ++ pad 12 name ++ "] " ++ pad 8 "INFO" ++ " " ++ msg.

(** the level that applies is that of the nearest logger that has one; here DEBUG, or WARNING of the root *)
Definition enabled (st : logs) (name : string) : bool :=
  has (fun a => has (String.eqb a) (debug st)) (ancestors name).
(** logger.info(msg): the lines written *)
Definition info (now : string) (st : logs) (name msg : string) : seq string :=
  if enabled st name then
    flatten [seq nseq (count (String.eqb a) (handlers st)) (line now name msg) | a <- ancestors name]
  else [::].

(** a warning of Ellipsoid.py:402-404, 422-424, 478-480, 527-529: get_logger and one info for each message *)
Definition warn (now : string) (callers : seq frame) (msgs : seq string) (st : logs) : outcome (seq string * logs) :=
  match get_logger callers st with
  | Raised t => Raised t
  | Returned (name, st) => Returned (flatten [seq info now st name m | m <- msgs], st)
  end.
(** a sequence of warnings, each with the stack of its caller and its messages; the lines of each of them *)
Fixpoint warns (now : string) (ws : seq (seq frame * seq string)) (st : logs) : outcome (seq (seq string) * logs) :=
  match ws with
  | [::] => Returned ([::], st)
  | (callers, msgs) :: ws' =>
      match warn now callers msgs st with
      | Raised t => Raised t
      | Returned (out, st) =>
          match warns now ws' st with
          | Raised t => Raised t
          | Returned (outs, st) => Returned (out :: outs, st)
          end
      end
  end.
