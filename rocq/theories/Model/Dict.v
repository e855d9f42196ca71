(** Model of gen/dict/dict.py: dict_compare, dict_compare_vec.

    Values ([value]): numbers and numeric arrays with their python type and dtype kind, strings, other objects,
    lists, object arrays of any shape, dicts with string keys.  Not modelled: complex numbers, arrays of strings,
    top-level arguments that are nested lists.  np.asarray(l).dtype.kind of a list l is an argument of the model
    ([lkind]); it may raise.  Reports are trees from which the text is printed; what matters is when they are empty. *)
From mathcomp Require Import all_ssreflect all_algebra.
Require Import Coq.Strings.String.
From Verif.Model Require Import Py NP Compare.
Set Implicit Arguments.
Unset Strict Implicit.
Unset Printing Implicit Defensive.
Local Open Scope ring_scope.

(** dtype.kind: one of b, i, u, f; U; O *)
Inductive kind := KB | KI | KU | KF | KStr | KObj.
Definition kind_eqb (a b : kind) : bool :=
  match a, b with KB, KB | KI, KI | KU, KU | KF, KF | KStr, KStr | KObj, KObj => true | _, _ => false end.

Section Dict.
Variable R : rcfType.
Notation X := (xnum R).
Notation A := (arr X).

(** [VNum ty k a]: an object of the numeric type [ty] ("int", "float", "numpy.ndarray", ...) with dtype kind k and
    np.array value a.  [VOther ty id]: an object that is equal to itself only. *)
Inductive value : Type :=
| VNum (ty : string) (k : kind) (a : A)
| VStr (s : string)
| VOther (ty : string) (id : nat)
| VList (l : seq value)
| VObj (sh : seq nat) (l : seq value)
| VDict (d : seq (string * value)).

Definition is_dict (v : value) : bool := if v is VDict _ then true else false.

(** type(x), as far as equality of types goes *)
Definition type_of (v : value) : string :=
  match v with
  | VNum ty _ _ => ty
  | VStr _ => "str"
  | VOther ty _ => ty
  | VList _ => "list"
  | VObj _ _ => "numpy.ndarray"
  | VDict _ => "dict"
  end%string.

(** report_str; [R0] is the empty string *)
Inductive rep : Type :=
| R0
| RTypes
| RSizes (sx sy : seq nat)
| RMax (r : Compare.report R)
| RDictSizes
| RIdx (i : nat) (r : rep)
| RValues
| RKeys (xy yx : seq string)
| RField (nested : bool) (key : string) (r : rep)
| RRows (l : seq (nat * rep)).

Definition out := (bool * rep)%type.

Variable lkind : seq value -> res kind.
Variables (abs_tol rel_tol : tolarg R).

(** np.asarray(v).dtype.kind (dict.py:72-73) *)
Definition kind_of (v : value) : res kind :=
  match v with
  | VNum _ k _ => Ok k
  | VStr _ => Ok KStr
  | VOther _ _ | VObj _ _ | VDict _ => Ok KObj
  | VList l => lkind l
  end.

(** dict.py:80-106: numbers and numeric arrays of the same type and kind.  The test x_dtype == 'fc' is never true, so
    all entries are compared.  numpy has no subtraction of booleans. *)
Definition num_compare (k : kind) (a b : A) : res out :=
  if shape a != shape b then Ok (false, RSizes (shape a) (shape b)) else
  let* o := abs_rel_compare (np_flatten a) (np_flatten b) abs_tol rel_tol (abs_op R) in
  match k with
  | KB => TypeError
  | _ => if co_equal o then Ok (true, R0) else Ok (false, RMax (co_report o))
  end.

(** the comparisons of one value with others: comp_fun(x, .) and dict_compare_scalar(x, .) *)
Record clo := Clo { c_dict : bool; c_comp : value -> res out; c_scalar : value -> res (bool * seq rep) }.
Definition clo0 : clo := Clo false (fun _ => IndexError) (fun _ => IndexError).

(** y[i] *)
Definition item (y : value) (i : nat) : res value :=
  match y with
  | VList l => if (i < size l)%N then Ok (nth y l i) else IndexError
  | VObj (n :: sh) l =>
      if (i < n)%N then
        if sh is [::] then Ok (nth y l i) else Ok (VObj sh (take (prodn sh) (drop (i * prodn sh) l)))
      else IndexError
  | VObj [::] _ => IndexError
  | _ => TypeError
  end.

(** dict.py:117-128: element by element up to the first difference *)
Fixpoint comp_items (fs : seq (value -> res out)) (y : value) (i : nat) : res out :=
  match fs with
  | [::] => Ok (true, R0)
  | f :: r =>
      let* v := item y i in
      let* o := f v in
      if o.1 then (if r is [::] then Ok o else comp_items r y i.+1) else Ok (false, RIdx i o.2)
  end.

(** dict.py:43-49,147-170: dict_compare_vec of flat arrays; zip of nothing cannot be unpacked *)
Fixpoint comp_dicts (cs : seq clo) (ys : seq value) : res (seq (bool * seq rep)) :=
  match cs, ys with
  | c :: cs', y :: ys' => let* o := c_scalar c y in let* r := comp_dicts cs' ys' in Ok (o :: r)
  | _, _ => Ok [::]
  end.
Definition dict_compare_vec (cs : seq clo) (ys : seq value) : res (seq bool * rep) :=
  if size cs != size ys then Ok ([:: false], RDictSizes) else
  let* os := comp_dicts cs ys in
  if os is [::] then ValueError else
  let rows := flatten [seq (if p.2.1 then [::] else [seq (p.1, r) | r <- p.2.2]) | p <- zip (iota 0 (size os)) os] in
  Ok ([seq o.1 | o <- os], if rows is [::] then R0 else RRows rows).

(** dict.py:6-40 for two arrays of dicts *)
Definition dict_compare_arr (shx : seq nat) (cs : seq clo) (shy : seq nat) (ys : seq value) : res out :=
  if ~~ (if cs is c :: _ then c_dict c else true) then throw "wrongInput:dict_x" else
  if ~~ (if ys is y :: _ then is_dict y else true) then throw "wrongInput:dict_y" else
  if shx != shy then Ok (false, RDictSizes) else
  let* r := dict_compare_vec cs ys in Ok (all id r.1, r.2).

(** dict.py:108-128 for an object array of shape [sh] with the elements [cs] *)
Fixpoint comp_obj (sh : seq nat) (cs : seq clo) (y : value) : res out :=
  if y is VObj shy ys then
    if (if cs is c :: _ then c_dict c else false) then dict_compare_arr sh cs shy ys
    else match sh with
    | [::] => TypeError
    | n :: sh' =>
        comp_items [seq (if sh' is [::] then c_comp (nth clo0 cs i) else comp_obj sh' (take (prodn sh') (drop (i * prodn sh') cs))) | i <- iota 0 n] y 0
    end
  else Ok (false, RTypes).

Definition kmem (k : string) (l : seq string) : bool := has (String.eqb k) l.
Definition key_sort {T} (l : seq (string * T)) : seq (string * T) := sort (fun a b => String.leb a.1 b.1) l.

(** dict.py:131-145: all keys, in order *)
Fixpoint comp_fields (fs : seq (string * (value -> res out))) (nested : string -> bool) (dy : seq (string * value)) : res (bool * seq rep) :=
  match fs with
  | [::] => Ok (true, [::])
  | (k, f) :: r =>
      match dget dy k with
      | None => Err (PyExc "KeyError")
      | Some v =>
          let* o := f v in
          let* q := comp_fields r nested dy in
          Ok (if o.1 then q else (false, RField (nested k) k o.2 :: q.2))
      end
  end.

(** dict.py:54-66,131-145: dict_compare_scalar for a dict x, given comp_fun of its values *)
Definition comp_scalar (fs : seq (string * (value -> res out))) (nested : string -> bool) (y : value) : res (bool * seq rep) :=
  match y with
  | VDict dy =>
      let kx := [seq p.1 | p <- fs] in
      let ky := [seq p.1 | p <- dy] in
      let xy := [seq k <- kx | ~~ kmem k ky] in
      let yx := [seq k <- ky | ~~ kmem k kx] in
      if nilp xy && nilp yx then comp_fields (key_sort fs) nested dy
      else Ok (false, [:: RKeys (sort String.leb xy) (sort String.leb yx)])
  | _ => throw "wrongInput"
  end.

(** dict.py:68-130 *)
Fixpoint comp_fun (x y : value) {struct x} : res out :=
  let* kx := kind_of x in
  let* ky := kind_of y in
  if ~~ (String.eqb (type_of x) (type_of y) && kind_eqb kx ky) then Ok (false, RTypes) else
  match x with
  | VNum _ k a => if y is VNum _ _ b then num_compare k a b else Ok (false, RTypes)
  | VStr s => if y is VStr t then (if String.eqb s t then Ok (true, R0) else Ok (false, RValues)) else Ok (false, RTypes)
  | VOther _ i => if y is VOther _ j then (if i == j then Ok (true, R0) else Ok (false, RValues)) else Ok (false, RTypes)
  | VList l => comp_items [seq comp_fun v | v <- l] y 0
  | VObj sh l => comp_obj sh [seq Clo (is_dict v) (comp_fun v) (fun w =>
        match v with
        | VDict d => comp_scalar [seq (p.1, comp_fun p.2) | p <- d] (fun k => if dget d k is Some u then is_dict u else false) w
        | _ => throw "wrongInput"
        end) | v <- l] y
  | VDict d => 
      dict_compare_arr [:: 1%N] [:: Clo true (fun _ => IndexError) (fun w => comp_scalar [seq (p.1, comp_fun p.2) | p <- d] (fun k => if dget d k is Some u then is_dict u else false) w)] [:: 1%N] [:: y]
  end.

(** dict.py:54-66,131-145 *)
Definition dict_compare_scalar (v w : value) : res (bool * seq rep) :=
  match v with
  | VDict d => comp_scalar [seq (p.1, comp_fun p.2) | p <- d] (fun k => if dget d k is Some u then is_dict u else false) w
  | _ => throw "wrongInput"
  end.
Definition close_over (v : value) : clo := Clo (is_dict v) (comp_fun v) (dict_compare_scalar v).

(** an argument of dict_compare: a dict; an array (shape, elements) or a list of elements that are not sequences *)
Inductive dict_arg := ADict (d : seq (string * value)) | AArr (sh : seq nat) (l : seq value) | AOther.
Definition elems (a : dict_arg) : seq value := match a with ADict d => [:: VDict d] | AArr _ l => l | AOther => [::] end.
Definition shape_of (a : dict_arg) : seq nat := match a with ADict _ => [:: 1%N] | AArr sh _ => sh | AOther => [::] end.

(** dict.py:6-40 *)
Definition dict_compare (x y : dict_arg) : res out :=
  match x, y with
  | AOther, _ => throw "wrongInput:dict_x"
  | _, AOther => if ~~ (if elems x is v :: _ then is_dict v else true) then throw "wrongInput:dict_x" else throw "wrongInput:dict_y"
  | _, _ => dict_compare_arr (shape_of x) [seq close_over v | v <- elems x] (shape_of y) (elems y)
  end.

End Dict.
