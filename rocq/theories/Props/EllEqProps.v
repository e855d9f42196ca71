(** C60: equality of ellipsoids and hyperplanes (abasicellipsoid/ABasicEllipsoid.py:_is_equal_internal, eq, is_equal, __eq__).
    [comparable a b]: arrays that are compared element by element; [elt x0 a i]: the element of a at position i, or its only
    element; [least s m]: m is the least of the numbers s; [same_ell], [same_hp]: agreement within tolerances. *)
Require Import Coq.Lists.List.
From mathcomp Require Import all_ssreflect all_algebra.
Require Import Coq.Strings.String.
From Verif.Model Require Import Py NP Linalg La Ellipsoid Hyperplane Compare Dict EllEq.
From Verif.Spec Require Import MatSpec LinalgSpec CompareSpec DictSpec EllSpec EllipsoidSpec HypSpec EllEqSpec.
From Verif.Proof Require Import NPLib LinalgSat OpsEx EllEqProof EllEqEx.
Set Implicit Arguments.
Unset Strict Implicit.
Unset Printing Implicit Defensive.
Import Order.Theory GRing.Theory Num.Theory.
Local Open Scope ring_scope.

(** the verdict: the centres and the positive semidefinite square roots of the shapes agree entry by entry within the least
    absolute or relative tolerance of all objects; the report is empty iff all are equal *)
Theorem C60_ell_verdict :
  forall (R : rcfType) (la : linalg R) (a b : arr (ell R)),
  eigh_ok la -> comparable a b -> (forall x, In x (data a) -> valid x) -> (forall x, In x (data b) -> valid x) ->
  exists at_ rt bs r,
    [/\ is_equal (ell_cls la) a b false = Ok (Arr (common_shape a b) bs, r), size bs = prodn (common_shape a b),
        no_report r = all id bs &
        [/\ least [seq p_abs (e_props e) | e <- (data a ++ data b)%SEQ] at_, least [seq p_rel (e_props e) | e <- (data a ++ data b)%SEQ] rt, 0 < at_, 0 < rt &
        forall i e0, (i < prodn (common_shape a b))%N -> nth false bs i <-> same_ell at_ rt (elt e0 a i) (elt e0 b i)]].
Proof. exact: ell_verdict. Qed.
Print Assumptions C60_ell_verdict.

Theorem C60_ell_reflexive :
  forall (R : rcfType) (la : linalg R) (a : arr (ell R)),
  eigh_ok la -> wf_arr a -> (0 < size (data a))%N -> (forall x, In x (data a) -> valid x) ->
  exists2 r, is_equal (ell_cls la) a a false = Ok (Arr (shape a) (nseq (size (data a)) true), r) & no_report r.
Proof. exact: ell_refl. Qed.
Print Assumptions C60_ell_reflexive.

Theorem C60_ell_symmetric :
  forall (R : rcfType) (la : linalg R) (a b : arr (ell R)),
  eigh_ok la -> comparable a b -> comparable b a -> (forall x, In x (data a) -> valid x) -> (forall x, In x (data b) -> valid x) ->
  exists e r r', is_equal (ell_cls la) a b false = Ok (e, r) /\ is_equal (ell_cls la) b a false = Ok (e, r').
Proof. exact: ell_sym. Qed.
Print Assumptions C60_ell_symmetric.

(** the operator == *)
Theorem C60_ell_operator :
  forall (R : rcfType) (la : linalg R) (x y : ell R),
  eigh_ok la -> valid x -> valid y ->
  exists at_ rt b, [/\ eq_op (ell_cls la) x y = Ok b, least [:: p_abs (e_props x); p_abs (e_props y)] at_,
    least [:: p_rel (e_props x); p_rel (e_props y)] rt & b <-> same_ell at_ rt x y].
Proof. exact: ell_op. Qed.
Print Assumptions C60_ell_operator.

(** a pair of balls against itself, against one ball, and the ball in a list: the hypotheses hold *)
Example C60_ell_ex (R : rcfType) :
  let a := Arr [:: 2%N] (two_balls R) in
  let b := Arr [::] [:: ball_at (0 : 'cV[R]_2) 4%:R] in
  [/\ eigh_ok (the_linalg R), comparable a b, comparable b a, forall x, In x (data a) -> valid x & forall x, In x (data b) -> valid x].
Proof.
split; first by have [] := the_linalg_ok R.
- by split=> //; apply: Or33.
- by split=> //; apply: Or32.
- exact: two_valid.
- by move=> x [<-|//]; apply: ball_valid; exact: ler0n.
Qed.

(** hyperplanes with non-zero normals: the verdict compares the unit normals and the shifts, made non-negative *)
Theorem C60_hyp_verdict :
  forall (R : rcfType) (a b : arr (hp R)),
  comparable a b -> (forall x, In x (data a) -> proper_hp x) -> (forall x, In x (data b) -> proper_hp x) ->
  exists at_ rt bs r,
    [/\ is_equal (hp_cls R) a b false = Ok (Arr (common_shape a b) bs, r), size bs = prodn (common_shape a b),
        no_report r = all id bs &
        [/\ least [seq h_abs e | e <- (data a ++ data b)%SEQ] at_, least [seq h_rel e | e <- (data a ++ data b)%SEQ] rt, 0 < at_, 0 < rt &
        forall i e0, (i < prodn (common_shape a b))%N -> nth false bs i <-> same_hp at_ rt (elt e0 a i) (elt e0 b i)]].
Proof. exact: hp_verdict. Qed.
Print Assumptions C60_hyp_verdict.

Theorem C60_hyp_reflexive :
  forall (R : rcfType) (a : arr (hp R)),
  wf_arr a -> (0 < size (data a))%N -> (forall x, In x (data a) -> proper_hp x) ->
  exists2 r, is_equal (hp_cls R) a a false = Ok (Arr (shape a) (nseq (size (data a)) true), r) & no_report r.
Proof. exact: hp_refl. Qed.
Print Assumptions C60_hyp_reflexive.

Theorem C60_hyp_symmetric :
  forall (R : rcfType) (a b : arr (hp R)),
  comparable a b -> comparable b a -> (forall x, In x (data a) -> proper_hp x) -> (forall x, In x (data b) -> proper_hp x) ->
  exists e r r', is_equal (hp_cls R) a b false = Ok (e, r) /\ is_equal (hp_cls R) b a false = Ok (e, r').
Proof. exact: hp_sym. Qed.
Print Assumptions C60_hyp_symmetric.

Theorem C60_hyp_operator :
  forall (R : rcfType) (x y : hp R), proper_hp x -> proper_hp y ->
  exists at_ rt b, [/\ eq_op (hp_cls R) x y = Ok b, least [:: h_abs x; h_abs y] at_,
    least [:: h_rel x; h_rel y] rt & b <-> same_hp at_ rt x y].
Proof. exact: hp_op. Qed.
Print Assumptions C60_hyp_operator.

(** hyperplanes that describe the same set are equal, unless they contain the origin *)
Theorem C60_hyp_same_set_partial :
  forall (R : rcfType) (h1 h2 : hp R) n (v w : 'cV[R]_n) s r t t',
  hrepr h1 v s t -> hrepr h2 w r t' -> solid v s t -> solid w r t' -> v != 0 -> w != 0 -> s != 0 ->
  (forall x, on_hp v s x <-> on_hp w r x) ->
  exists2 rp, is_equal (hp_cls R) (Arr [:: 1%N] [:: h1]) (Arr [:: 1%N] [:: h2]) false = Ok (Arr [:: 1%N] [:: true], rp) & no_report rp.
Proof. exact: hp_same_set. Qed.
Print Assumptions C60_hyp_same_set_partial.

Example C60_hyp_ex (R : rcfType) :
  [/\ proper_hp (hp_at (e1 R) 1), proper_hp (hp_at (- e1 R) (- 1)) & forall x, on_hp (e1 R) 1 x <-> on_hp (- e1 R) (- 1) x].
Proof.
split; [exact: proper2 (e1_n0 R)|by apply: proper2; rewrite oppr_eq0 e1_n0|].
by move=> x; rewrite /on_hp MatLib.dotvNl; split=> [->|/oppr_inj].
Qed.

(** ... which fails for {x | <e1, x> = 0}: the sign of the normal is not determined by the shift 0 *)
Theorem C60_hyp_same_set_refuted :
  forall R : rcfType,
  (forall x, on_hp (e1 R) 0 x <-> on_hp (- e1 R) 0 x) /\
  exists rp, is_equal (hp_cls R) (Arr [:: 1%N] [:: hp_at (e1 R) 0]) (Arr [:: 1%N] [:: hp_at (- e1 R) 0]) false = Ok (Arr [:: 1%N] [:: false], rp).
Proof. exact: hp_zero_shift. Qed.
Print Assumptions C60_hyp_same_set_refuted.

(** errors *)
Theorem C60_raises :
  forall (R : rcfType) T (c : cls R T) (a b : arr T) p,
  [/\ data a = [::] -> data b = [::] -> is_equal c a b p = Ok (Arr [:: 1%N] [:: true], R0 R),
      (size (data a) == 0%N) != (size (data b) == 0%N) -> is_equal c a b p = throw "wrongInput" &
      (1 < size (data a))%N -> (1 < size (data b))%N -> shape a <> shape b -> is_equal c a b p = throw "wrongSizes"].
Proof. by move=> R T c a b p; split; [exact: eq_empty|exact: eq_one_empty|exact: eq_sizes]. Qed.
Print Assumptions C60_raises.

(** eq([E], E) is False: the array of shape (1,) is tiled to itself and then compared with the shape () *)
Theorem C60_single_shape_refuted :
  forall (R : rcfType) la (e : ell R), eigh_ok la -> valid e ->
  is_equal (ell_cls la) (Arr [:: 1%N] [:: e]) (Arr [::] [:: e]) false = Ok (Arr [::] [:: false], RDictSizes R).
Proof. exact: ell_single_shape. Qed.
Print Assumptions C60_single_shape_refuted.

(** is_equal(.., is_prop_included=True) always fails: there are no transforms of the properties *)
Theorem C60_properties_refuted :
  forall (R : rcfType) la (e : ell R), eigh_ok la -> valid e ->
  is_equal (ell_cls la) (Arr [:: 1%N] [:: e]) (Arr [:: 1%N] [:: e]) true = KeyError.
Proof. exact: ell_prop. Qed.
Print Assumptions C60_properties_refuted.
