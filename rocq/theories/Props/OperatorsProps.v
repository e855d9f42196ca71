(** C87: the operators of ellipsoids and hyperplanes (Ellipsoid.py, AEllipsoid.py, ABasicEllipsoid.py, Hyperplane.py). *)
Require Import Coq.Lists.List.
From mathcomp Require Import all_ssreflect all_algebra.
Require Import Coq.Strings.String.
From Verif.Model Require Import Py NP Linalg La Ellipsoid Hyperplane Compare Dict EllEq Operators.
From Verif.Spec Require Import MatSpec LinalgSpec CompareSpec DictSpec EllSpec EllipsoidSpec HypSpec EllEqSpec.
From Verif.Proof Require Import NPLib MatLib LinalgSat OpsEx EllEqProof EllEqEx OperatorsProof.
Import Order.Theory GRing.Theory Num.Theory.
Local Open Scope ring_scope.

(** -(-E) == E *)
Theorem C87_neg_twice :
  forall (R : rcfType) (la : linalg R) cfg p t (e : ell R), eigh_ok la -> eigvalsh_ok la ->
  props_of cfg (no_kw R) p t -> valid e ->
  exists f g, [/\ neg_op la cfg e = Ok f, neg_op la cfg f = Ok g, eq_op (ell_cls la) g e = Ok true,
    eq_op (ell_cls la) e g = Ok true &
    forall n (c : 'cV[R]_n) (Q : 'M[R]_n) t', repr e c Q t' -> repr f (- c) Q t /\ repr g c Q t].
Proof. exact: neg_twice. Qed.
Print Assumptions C87_neg_twice.

(** (-E == -F) is (E == F) for ellipsoids with the configured tolerances *)
Theorem C87_neg_both :
  forall (R : rcfType) (la : linalg R) cfg p t (e f : ell R), eigh_ok la -> eigvalsh_ok la ->
  props_of cfg (no_kw R) p t -> valid e -> valid f -> e_props e = p -> e_props f = p ->
  exists e' f', [/\ neg_op la cfg e = Ok e', neg_op la cfg f = Ok f' &
    eq_op (ell_cls la) e' f' = eq_op (ell_cls la) e f].
Proof. exact: neg_cong. Qed.
Print Assumptions C87_neg_both.

(** -E == E exactly when the centre is the origin up to half the tolerance *)
Theorem C87_neg_self :
  forall (R : rcfType) (la : linalg R) cfg p t r n (e : ell R) (c : 'cV[R]_n) Q, eigh_ok la -> eigvalsh_ok la ->
  props_of cfg (no_kw R) p t -> p_rel p = Fin r -> r < 2%:R -> repr e c Q t -> e_props e = p ->
  exists f b, [/\ neg_op la cfg e = Ok f, eq_op (ell_cls la) f e = Ok b & b <-> forall i, 2%:R * `|c i 0| <= t].
Proof. exact: neg_self. Qed.
Print Assumptions C87_neg_self.

(** -H == H for hyperplanes off the origin *)
Theorem C87_hyp_neg :
  forall (R : rcfType) cfg t0 r0 n (h : hp R) (v : 'cV[R]_n) s t, tols_of cfg t0 r0 -> (0 < n)%N ->
  hrepr h v s t -> solid v s t -> solid v s t0 -> v != 0 -> s != 0 ->
  exists2 h', hp_neg_op cfg h = Ok h' & hrepr h' (- v) (- s) t0 /\ eq_op (hp_cls R) h' h = Ok true.
Proof. exact: hp_neg_eq. Qed.
Print Assumptions C87_hyp_neg.

(** FALSE of the code: that == is transitive *)
Theorem C87_eq_transitive_refuted :
  forall (R : rcfType) (la : linalg R), eigh_ok la ->
  exists e f g : ell R, [/\ valid e, valid f, valid g &
    [/\ eq_op (ell_cls la) e f = Ok true, eq_op (ell_cls la) f g = Ok true & eq_op (ell_cls la) e g = Ok false]].
Proof. exact: eq_not_transitive. Qed.
Print Assumptions C87_eq_transitive_refuted.

(** FALSE of the code: that x != y is the negation of x == y; != always raises, where == answers *)
Theorem C87_ne_refuted :
  forall (R : rcfType) (la : linalg R), eigh_ok la ->
  (forall x y : ell R, valid x -> valid y -> (exists b, eq_op (ell_cls la) x y = Ok b) /\ ne_op x y = TypeError) /\
  (forall x y : hp R, proper_hp x -> proper_hp y -> (exists b, eq_op (hp_cls R) x y = Ok b) /\ ne_op x y = TypeError).
Proof.
move=> R la Hla; split=> x y Hx Hy; split=> //.
  by have [_ [_ [b [E _ _ _]]]] := ell_op Hla Hx Hy; exists b.
by have [_ [_ [b [E _ _ _]]]] := hp_op Hx Hy; exists b.
Qed.
Print Assumptions C87_ne_refuted.

(** FALSE of the code: that ellipsoids can be compared, shifted or multiplied with operators; all of them raise *)
Theorem C87_arithmetic_refuted :
  forall R : rcfType,
  (forall o (x y : ell R), cmp_op o x y = AttributeError) /\
  (forall o b (x : ell R), arith_op o b x = AttributeError).
Proof. by []. Qed.
Print Assumptions C87_arithmetic_refuted.

(** the unit ball at (3, 3) and the hyperplane x = 1 meet the hypotheses *)
Example C87_nonvacuous : forall R : rcfType,
  [/\ eigh_ok (the_linalg R), eigvalsh_ok (the_linalg R), props_of (std_props R) (no_kw R) (std_props R) (10%:R ^- 7),
      repr (ball_at (const_mx 3%:R : 'cV[R]_2) 1) (const_mx 3%:R : 'cV[R]_2) 1%:M (10%:R ^- 7) &
      e_props (ball_at (const_mx 3%:R : 'cV[R]_2) 1) = std_props R /\ proper_hp (hp_at (e1 R) 1)].
Proof.
move=> R; have [H1 [H2 _]] := the_linalg_ok R; split=> //; first exact: std_props_ok.
  by apply: ball_repr; exact: ler01.
by split=> //; exact: proper2 (e1_n0 R).
Qed.
