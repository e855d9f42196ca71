(** C08-C10: dict_compare. *)
Require Import Coq.Lists.List Coq.Sorting.Permutation.
From mathcomp Require Import all_ssreflect all_algebra.
Require Import Coq.Strings.String.
From Verif.Model Require Import Py NP Compare Dict.
From Verif.Spec Require Import CompareSpec DictSpec.
From Verif.Proof Require Import CompareProof DictProof.
Import Order.Theory GRing.Theory Num.Theory.
Local Open Scope ring_scope.

(** C10: for arrays of dicts (or single dicts) of supported values whose lists have equal lengths at corresponding places the
    call returns; the verdict is True iff the values agree at every level, and the report is empty iff the verdict is True. *)
Theorem C10_verdict :
  forall (R : rcfType) (lkind : seq (value R) -> res kind) (at_ : xnum R) (rt : tolarg R) (rt' : option (xnum R)),
    legal_tol at_ -> (rt = TNone /\ rt' = None \/ exists2 t, rt = TVal t /\ rt' = Some t & legal_tol t) -> lkind_ok lkind ->
    forall x y : dict_arg R, dict_like x -> dict_like y ->
      ok_value lkind (as_array x) -> ok_value lkind (as_array y) -> aligned (as_array x) (as_array y) ->
      exists b r, dict_compare lkind (TVal at_) rt x y = Ok (b, r) /\ (b <-> agree at_ rt' (as_array x) (as_array y)) /\ b = no_report r.
Proof. by move=> R lkind at_ rt rt' Ha Hr Hl x y Dx Dy Ox Oy Al; apply: dict_compare_main. Qed.
Print Assumptions C10_verdict.

(** C10: a dict that is longer in a list is taken for equal: ['a'] is compared with the beginning of ['a', 'b']. *)
Theorem C10_prefix_refuted :
  forall R : rcfType, exists (x y : seq (string * value R)) (lkind : seq (value R) -> res kind),
    [/\ lkind_ok lkind, ok_value lkind (VDict x), ok_value lkind (VDict y), ~ agree (Fin 0) None (VDict x) (VDict y) &
      dict_compare lkind (TVal (Fin 0)) TNone (ADict x) (ADict y) = Ok (true, R0 R)].
Proof. exact: prefix_refuted. Qed.
Print Assumptions C10_prefix_refuted.

(** C10: two empty arrays cannot be compared: zip of nothing is unpacked. *)
Theorem C10_empty_raises :
  forall (R : rcfType) (lkind : seq (value R) -> res kind) at_ rt, dict_compare lkind at_ rt (AArr [:: 0%N] [::]) (AArr [:: 0%N] [::]) = ValueError.
Proof. by []. Qed.
Print Assumptions C10_empty_raises.

(** C10: arrays of dicts of different shapes are different, whatever they hold. *)
Theorem C10_shapes :
  forall (R : rcfType) (lkind : seq (value R) -> res kind) at_ rt (x y : dict_arg R), dict_like x -> dict_like y -> shape_of x <> shape_of y ->
    dict_compare lkind at_ rt x y = Ok (false, RDictSizes R).
Proof. exact: dict_shapes. Qed.
Print Assumptions C10_shapes.

(** C08: a dict (or array of dicts) of supported values equals itself, with an empty report. *)
Theorem C08_reflexive :
  forall (R : rcfType) (lkind : seq (value R) -> res kind) (at_ : xnum R) (rt : tolarg R),
    legal_tol at_ -> (rt = TNone \/ exists2 t, rt = TVal t & legal_tol t) -> lkind_ok lkind ->
    forall x : dict_arg R, dict_like x -> ok_value lkind (as_array x) ->
      exists2 r, dict_compare lkind (TVal at_) rt x x = Ok (true, r) & no_report r.
Proof. exact: dict_compare_refl. Qed.
Print Assumptions C08_reflexive.

(** C08: reordering the keys, at any level and in both arguments, does not change the result (verdict, report or exception). *)
Theorem C08_key_order :
  forall (R : rcfType) (lkind : seq (value R) -> res kind) (at_ rt : tolarg R), lkind_ok lkind ->
    forall x x' y y' : dict_arg R, ok_value lkind (as_array x) ->
      reordered (as_array x) (as_array x') -> reordered (as_array y) (as_array y') ->
      dict_compare lkind at_ rt x y = dict_compare lkind at_ rt x' y'.
Proof. by move=> R lkind at_ rt Hl x x' y y'; exact: dict_compare_reorder. Qed.
Print Assumptions C08_key_order.

(** C08: booleans are not supported: a dict with a boolean cannot be compared with itself. *)
Theorem C08_bool_refuted :
  forall (R : rcfType) (lkind : seq (value R) -> res kind) b,
    dict_compare lkind (TVal (Fin 0)) TNone (ADict [:: ("a"%string, VNum "bool" KB (Arr [::] [:: Fin b]))]) (ADict [:: ("a"%string, VNum "bool" KB (Arr [::] [:: Fin b]))]) = TypeError.
Proof. exact: bool_refuted. Qed.
Print Assumptions C08_bool_refuted.

(** C09: the verdict is symmetric, for supported values with lists of equal lengths. *)
Theorem C09_symmetric :
  forall (R : rcfType) (lkind : seq (value R) -> res kind) (at_ : xnum R) (rt : tolarg R),
    legal_tol at_ -> (rt = TNone \/ exists2 t, rt = TVal t & legal_tol t) -> lkind_ok lkind ->
    forall x y : dict_arg R, dict_like x -> dict_like y ->
      ok_value lkind (as_array x) -> ok_value lkind (as_array y) -> aligned (as_array x) (as_array y) ->
      exists b r r', dict_compare lkind (TVal at_) rt x y = Ok (b, r) /\ dict_compare lkind (TVal at_) rt y x = Ok (b, r').
Proof. exact: dict_compare_sym. Qed.
Print Assumptions C09_symmetric.

(** C09: with lists of different lengths one order gives True and the other raises IndexError. *)
Theorem C09_lists_refuted :
  forall R : rcfType, exists (x y : seq (string * value R)) (lkind : seq (value R) -> res kind),
    [/\ lkind_ok lkind, ok_value lkind (VDict x), ok_value lkind (VDict y),
      dict_compare lkind (TVal (Fin 0)) TNone (ADict x) (ADict y) = Ok (true, R0 R) &
      dict_compare lkind (TVal (Fin 0)) TNone (ADict y) (ADict x) = IndexError].
Proof. exact: lists_refuted. Qed.
Print Assumptions C09_lists_refuted.

(** a nested dict, and the same dict with its keys in another order, meet the hypotheses; a dict with a further key is different *)
Example C08_C09_C10_nonvacuous (R : rcfType) :
  [/\ lkind_ok (@lk_ex R), dict_like (ADict (d_ex R)), ok_value (@lk_ex R) (as_array (ADict (d_ex R))),
      reordered (as_array (ADict (d_ex R))) (as_array (ADict (d_ex2 R))) & d_ex R <> d_ex2 R] /\
  [/\ ok_value (@lk_ex R) (as_array (ADict (d_ex3 R))), aligned (as_array (ADict (d_ex R))) (as_array (ADict (d_ex3 R))) &
      ~ agree (Fin 0) None (as_array (ADict (d_ex R))) (as_array (ADict (d_ex3 R)))].
Proof. exact: dict_examples. Qed.
