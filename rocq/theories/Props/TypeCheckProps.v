(** C82: the checks with which the methods of ellipsoids and hyperplanes begin
    (elltool/core/abasicellipsoid/ABasicEllipsoid.py). *)
Require Import Coq.Lists.List.
From mathcomp Require Import all_ssreflect.
Require Import Coq.Strings.String.
From Verif.Model Require Import Py NP TypeCheck.
From Verif.Spec Require Import TypeCheckSpec.
From Verif.Proof Require Import TypeCheckProof.

(** _check_is_me accepts exactly the objects of the class and the rectangular nested lists and arrays of them *)
Theorem C82_check_is_me :
  forall (T : Type) (inst iter : T -> bool) (v : arg T) (var_name err_tag : string),
  ((exists s, arr_of inst s v) -> check_is_me inst iter v var_name err_tag = Ok tt) /\
  (~ (exists s, arr_of inst s v) -> check_is_me inst iter v var_name err_tag =
     throw (if String.eqb var_name "" then err_tag else (err_tag ++ ":" ++ var_name)%string)).
Proof. exact: check_is_me_spec. Qed.
Print Assumptions C82_check_is_me.

(** _check_if_scalar accepts exactly the arguments that stand for one object, with any number of axes *)
Theorem C82_check_if_scalar :
  forall (T : Type) (inst iter : T -> bool) (v : arg T), (if v is AArr a then wf_arr a else true) ->
  ((exists k, arr_of inst (nseq k 1%N) v) -> check_if_scalar inst iter v = Ok tt) /\
  (~ (exists k, arr_of inst (nseq k 1%N) v) -> check_if_scalar inst iter v = throw "wrongInput:ell_arr").
Proof. exact: check_if_scalar_spec. Qed.
Print Assumptions C82_check_if_scalar.

(** the array the methods go on with has the shape of an accepted list and its objects at their places *)
Theorem C82_np_array :
  forall (T : Type) (inst : T -> bool) s (v : nested T), rect inst s v ->
  [/\ shape (np_array (ANest v)) = s, wf_arr (np_array (ANest v)) &
      forall idx, valid_idx s idx -> exists x, [/\ at_idx v idx = Some x, inst x &
        nth_error (data (np_array (ANest v))) (ravel s idx) = Some (Obj x)]].
Proof. exact: np_array_spec. Qed.
Print Assumptions C82_np_array.

(** a list that holds an object and, after it, a list is refused, even if all the objects are of the class *)
Theorem C82_ragged :
  forall (T : Type) (inst iter : T -> bool) x (l l1 l2 : seq (nested T)) (err_tag : string),
  check_is_me inst iter (ANest (Lst (l1 ++ Obj x :: l2 ++ [:: Lst l]))) "" err_tag = throw err_tag.
Proof. exact: ragged_refused. Qed.
Print Assumptions C82_ragged.

(** the two classes: true stands for an ellipsoid, false for a hyperplane; a 2 x 2 list of ellipsoids is accepted as such
    and refused as hyperplanes, one in double brackets is a scalar, and an empty list passes for either class *)
Example C82_nonvacuous :
  let E := Obj true in let H := Obj false in let no := fun _ : bool => false in
  [/\ check_is_me id no (ANest (Lst [:: Lst [:: E; E]; Lst [:: E; E]])) "first" "wrongInput" = Ok tt,
      check_is_me negb no (ANest (Lst [:: Lst [:: E; E]; Lst [:: E; E]])) "first" "wrongInput" = throw "wrongInput:first",
      check_is_me id no (ANest (Lst [:: E; H])) "" "wrongInput" = throw "wrongInput",
      check_if_scalar id no (ANest (Lst [:: Lst [:: E]])) = Ok tt &
      check_is_me id no (ANest (Lst [::])) "" "wrongInput" = Ok tt /\ check_is_me negb no (ANest (Lst [::])) "" "wrongInput" = Ok tt].
Proof. by []. Qed.
