(** Specification vocabulary for gras/sym: words in a string. *)
Require Import Coq.Lists.List.
From mathcomp Require Import all_ssreflect.
Require Import Coq.Strings.String Coq.Strings.Ascii.
From Verif.Model Require Import Py NP La Sym.
Set Implicit Arguments.
Unset Strict Implicit.
Unset Printing Implicit Defensive.

Section SymSpec.
Variable alnum : nat -> bool.

(** str.isalnum on ASCII: digits and letters *)
Definition alnum_ok : Prop :=
  forall c, (c < 128)%N -> alnum c = [|| (48 <= c <= 57), (65 <= c <= 90) | (97 <= c <= 122)]%N.

(** a letter, digit or underscore *)
Definition wchar (c : nat) : bool := alnum c || (c == 95).

(** c stands in s, not next to a letter, digit or underscore *)
Definition stands_alone (c : nat) (s : str) : Prop :=
  exists a b, [/\ s = a ++ c :: b, (a = [::] \/ exists a' d, a = rcons a' d /\ ~~ wchar d) &
                 (b = [::] \/ exists d b', b = d :: b' /\ ~~ wchar d)].

(** s cut into words and the text between them: every piece is a non-empty run of word characters or of
    other characters, of alternating kinds *)
Inductive pieces : str -> seq str -> Prop :=
| PNil : pieces [::] [::]
| PCons p s ps : p != [::] -> all wchar p || all (fun c => ~~ wchar c) p ->
    (if s is c :: _ then wchar c != wchar (head 0 p) else True) -> pieces s ps -> pieces (p ++ s) (p :: ps).

(** w stands in s as a whole word *)
Definition word_in (w s : str) : Prop :=
  exists a b, [/\ s = a ++ w ++ b, (a = [::] \/ exists a' d, a = rcons a' d /\ ~~ wchar d) &
                 (b = [::] \/ exists d b', b = d :: b' /\ ~~ wchar d)].

Definition no_blanks (s : str) : str := [seq c <- s | c != 32].
Definition identifier (s : str) : Prop := s <> [::] /\ all wchar s.
End SymSpec.

(** isalnum for the ASCII characters only *)
Definition ascii_alnum (c : nat) : bool := [|| (48 <= c <= 57), (65 <= c <= 90) | (97 <= c <= 122)]%N.
