(** Properties C46 and C47: variables in symbolic matrices. *)
Require Import Coq.Lists.List.
From mathcomp Require Import all_ssreflect.
Require Import Coq.Strings.String Coq.Strings.Ascii.
From Verif.Model Require Import Py NP La Sym.
From Verif.Spec Require Import SymSpec.
From Verif.Proof Require Import SymProof.
Set Implicit Arguments.
Unset Strict Implicit.
Unset Printing Implicit Defensive.

(** C46: is_dependent is true exactly when the text of some entry contains the variable (116 is t, 107 is
    k) not next to a letter, digit or underscore *)
Theorem C46_dependent (alnum : nat -> bool) (m : arr entry) (is_discrete : bool) : alnum_ok alnum -> data m <> [::] ->
  exists b, is_dependent alnum m is_discrete = Ok b /\
  (b = true <-> exists e, In e (data m) /\ stands_alone alnum (if is_discrete then 107 else 116) (text1 e)).
Proof. by move=> H; exact: is_dependent_spec. Qed.
Print Assumptions C46_dependent.

(** an empty matrix is refused by numpy *)
Theorem C46_empty alnum m is_discrete : data m = [::] -> is_dependent alnum m is_discrete = ValueError.
Proof. by rewrite /is_dependent => ->. Qed.
Print Assumptions C46_empty.

(** C47: blanks are removed; in what remains, cut into words and the text between them, the words equal to
    from are replaced by to in brackets and all the rest stays *)
Theorem C47_replace (alnum : nat -> bool) m f t : np_size m <> 0 -> identifier alnum f -> 92 \notin t ->
  exists o, [/\ var_replace alnum m (Name f) (Name t) = Ok o, shape o = shape m &
    Forall2 (fun e s => forall ps, pieces alnum (no_blanks (text2 e)) ps ->
      s = flatten [seq if p == f then lit "(" ++ t ++ lit ")" else p | p <- ps]) (data m) (data o)].
Proof. exact: var_replace_spec. Qed.
Print Assumptions C47_replace.

(** the cutting always exists, and its words are the whole words of the string *)
Theorem C47_pieces alnum s : exists ps, [/\ pieces alnum s ps, flatten ps = s &
  forall w, identifier alnum w -> w \in ps <-> word_in alnum w s].
Proof.
exists (cut alnum s); split; [exact: cut_pieces|exact: pieces_flatten (cut_pieces _ _)|].
move=> w Hw; split; [exact: piece_occurs (cut_pieces _ _)|exact: occurs_piece (cut_pieces _ _)].
Qed.
Print Assumptions C47_pieces.

(** an entry without the word is unchanged apart from blanks *)
Theorem C47_unchanged alnum m f t : np_size m <> 0 -> identifier alnum f -> 92 \notin t ->
  exists o, var_replace alnum m (Name f) (Name t) = Ok o /\
    Forall2 (fun e s => ~ word_in alnum f (no_blanks (text2 e)) -> s = no_blanks (text2 e)) (data m) (data o).
Proof. exact: var_replace_unchanged. Qed.
Print Assumptions C47_unchanged.

(** wrong arguments, in the order of the checks *)
Theorem C47_rejects alnum m from to : (np_size m = 0 -> var_replace alnum m from to = throw "wrongInput:m_mat") /\
  (np_size m <> 0 -> (from = NotStr -> var_replace alnum m from to = throw "wrongInput:from_var_name") /\
    (from <> NotStr -> to = NotStr -> var_replace alnum m from to = throw "wrongInput:to_var_name")).
Proof. exact: var_replace_rejects. Qed.
Print Assumptions C47_rejects.

(** the words are those after the removal of blanks: a blank may have separated a word from another *)
Theorem C47_merges :
  (word_in ascii_alnum (lit "t") (lit "a t") /\
   var_replace ascii_alnum (one "a t") (Name (lit "t")) (Name (lit "x")) = Ok (Arr [:: 1; 1] [:: lit "at"])) /\
  (~ word_in ascii_alnum (lit "ab") (lit "a b") /\
   var_replace ascii_alnum (one "a b") (Name (lit "ab")) (Name (lit "x")) = Ok (Arr [:: 1; 1] [:: lit "(x)"])).
Proof. exact: var_replace_merges. Qed.
Print Assumptions C47_merges.

(** to is a template of re.sub: a backslash in it is not literal *)
Theorem C47_backslash_refuted :
  exists m t, var_replace ascii_alnum m (Name (lit "t")) (Name t) = Err (PyExc "re.error"%string).
Proof. exact: var_replace_backslash. Qed.
Print Assumptions C47_backslash_refuted.

(** ** Cases meeting the hypotheses *)
Example C46_ex : alnum_ok ascii_alnum /\
  [/\ is_dependent ascii_alnum (Arr [:: 1; 3] [:: Text (lit "sin(at)"); Text (lit "cos(2*t)"); Text (lit "1")]) false = Ok true,
      is_dependent ascii_alnum (Arr [:: 1; 3] [:: Text (lit "sin(at)"); Text (lit "cos(2*t)"); Text (lit "1")]) true = Ok false,
      is_dependent ascii_alnum (one "t1+_t+tt") false = Ok false & is_dependent ascii_alnum (one "k") true = Ok true].
Proof. by []. Qed.
Example C47_ex : [/\ identifier ascii_alnum (lit "t"), 92 \notin lit "T-t" &
  var_replace ascii_alnum (Arr [:: 1; 2] [:: Text (lit "t*at + sin( t )"); Number (lit "1e-05") (lit "0.00001")])
    (Name (lit "t")) (Name (lit "T-t")) = Ok (Arr [:: 1; 2] [:: lit "(T-t)*at+sin((T-t))"; lit "0.00001"])].
Proof. by split; vm_compute. Qed.
