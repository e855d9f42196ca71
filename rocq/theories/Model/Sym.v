(** Model of gras/sym/sym.py.

    Strings are lists of code points.  The regular expressions of the module are kept as such and
    interpreted by a backtracking matcher for the constructs they use (re of python 3 on str patterns).
    [alnum] is str.isalnum.  Simplifications: an entry that is not a string is given by the two texts
    python makes of it; from_var_name is read as a regular expression by the code, and is modelled
    when it consists of word characters; in the template to_var_name, a backslash escape is modelled
    when it is a bad one. *)
From mathcomp Require Import all_ssreflect.
Require Import Coq.Strings.String Coq.Strings.Ascii.
From Verif.Model Require Import Py NP La.
Set Implicit Arguments.
Unset Strict Implicit.
Unset Printing Implicit Defensive.

Definition str := seq nat.
(** a string literal *)
Fixpoint lit (s : string) : str := if s is String c s' then nat_of_ascii c :: lit s' else [::].
Definition cp (c : ascii) : nat := nat_of_ascii c.
Definition newline : nat := 10.

Section Sym.
Variable alnum : nat -> bool.
(** \w *)
Definition word (c : nat) : bool := alnum c || (c == cp "_").

(** regular expressions *)
Inductive rx :=
| Ch of nat          (* a character *)
| NonWord            (* \W *)
| Bol | Eol          (* ^ and $ *)
| WordB              (* \b *)
| Cat of rx & rx
| Alt of rx & rx.

(** a position in a string: the characters before it, last one first, and those after it *)
Definition pos := (str * str)%type.
Definition wordb (s : str) : bool := if s is c :: _ then word c else false.

(** the ends of the matches of r at a position, in the order they are tried *)
Fixpoint rx_ends (r : rx) (p : pos) : seq pos :=
  match r with
  | Ch c => if p.2 is d :: s then if c == d then [:: (d :: p.1, s)] else [::] else [::]
  | NonWord => if p.2 is d :: s then if word d then [::] else [:: (d :: p.1, s)] else [::]
  | Bol => if p.1 is [::] then [:: p] else [::]
  | Eol => if (p.2 == [::]) || (p.2 == [:: newline]) then [:: p] else [::]
  | WordB => if wordb p.1 != wordb p.2 then [:: p] else [::]
  | Cat r1 r2 => flatten [seq rx_ends r2 q | q <- rx_ends r1 p]
  | Alt r1 r2 => rx_ends r1 p ++ rx_ends r2 p
  end.

(** re.search(r, s): is there a match at some position at or after (l, s) *)
Fixpoint search_from (r : rx) (l s : str) : bool :=
  (rx_ends r (l, s) != [::]) || (if s is c :: s' then search_from r (c :: l) s' else false).
Definition search (r : rx) (s : str) : bool := search_from r [::] s.

(** an entry of a matrix: a string, or something else with its texts str(x) and, in var_replace, the
    fixed-point notation of a float or str(x) of an integer (sym.py:34-41) *)
Inductive entry := Text of str | Number of str & str.
Definition text1 (e : entry) : str := match e with Text s => s | Number s _ => s end.
Definition text2 (e : entry) : str := match e with Text s => s | Number _ s => s end.

(** the pattern of sym.py:10-12, 14-16 for the variable c *)
Definition dep_rx (c : nat) : rx :=
  Alt (Cat NonWord (Cat (Ch c) NonWord)) (Alt (Cat Bol (Cat (Ch c) NonWord))
  (Alt (Cat NonWord (Cat (Ch c) Eol)) (Cat Bol (Cat (Ch c) Eol)))).

(** sym.py:7-21; np.vectorize raises ValueError for an empty array *)
Definition is_dependent (m : arr entry) (is_discrete : bool) : res bool :=
  if size (data m) == 0 then ValueError else
  let c := if is_discrete then cp "k" else cp "t" in
  Ok (has (fun e => search (dep_rx c) (text1 e)) (data m)).

(** the pattern \b + s + \b for a string s of word characters *)
Definition word_rx (s : str) : rx := Cat WordB (foldr (fun c r => Cat (Ch c) r) WordB s).

(** the template of re.sub: the text of the replacement.  An unknown escape of an ASCII letter (or a
    lone backslash at the end) raises re.error when the template is parsed *)
Definition bad_escape (c : nat) : bool :=
  ((65 <= c <= 90) || (97 <= c <= 122)) && (c \notin lit "abfgnrtv").
Fixpoint template (s : str) : res str :=
  match s with
  | [::] => Ok [::]
  | c :: s' =>
    if c == cp "\" then
      match s' with
      | [::] => Err (PyExc "re.error"%string)
      | d :: _ => if bad_escape d then Err (PyExc "re.error"%string) else unmodelled
      end
    else let* t := template s' in Ok (c :: t)
  end.

(** re.sub(r, value, s) for expressions without empty matches: leftmost matches, not overlapping *)
Fixpoint sub_loop (n : nat) (r : rx) (value l s : str) : str :=
  if n is n'.+1 then
    match rx_ends r (l, s), s with
    | q :: _, _ => value ++ sub_loop n' r value q.1 q.2
    | [::], c :: s' => c :: sub_loop n' r value (c :: l) s'
    | [::], [::] => [::]
    end
  else [::].
Definition re_sub (r : rx) (value s : str) : str := sub_loop (size s).+1 r value [::] s.

(** a variable name argument: a string or something else *)
Inductive name := Name of str | NotStr.

(** sym.py:24-48 *)
Definition var_replace (m : arr entry) (from to : name) : res (arr str) :=
  if np_size m == 0 then throw "wrongInput:m_mat" else
  match from, to with
  | NotStr, _ => throw "wrongInput:from_var_name"
  | Name _, NotStr => throw "wrongInput:to_var_name"
  | Name f, Name t =>
    if (f == [::]) || ~~ all word f then unmodelled else
    let* value := template (lit "(" ++ t ++ lit ")") in
    Ok (np_map (fun e => re_sub (word_rx f) value (filter (fun c => c != cp " ") (text2 e))) m)
  end.
End Sym.
