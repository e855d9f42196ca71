(** The grid of depth 1 is well separated. *)
From mathcomp Require Import all_ssreflect all_algebra.
From mathcomp Require Import ring.
From Verif.Model Require Import Py NP Tri Sphere SpherePart.
From Verif.Spec Require Import TriSpec SphereSpec PartSpec.
From Verif.Proof Require Import NPLib MatLib TriMap TriStep TriRefine TriFull TriLoop TriShrink TriTop TriDec SphereProof Icosa SphereFan SphereFan2 SphereIco SphereIco2.
From mathcomp.zify Require Import zify.
Set Implicit Arguments.
Unset Strict Implicit.
Unset Printing Implicit Defensive.
Import Order.Theory GRing.Theory Num.Theory.
Local Open Scope ring_scope.

Section Sep.
Variables (R : rcfType) (tr : trig R) (argsort : seq nat -> seq nat).
Hypotheses (Hg : angle_ok tr (t_pi tr / 5%:R) 10) (Harg : argsortn_ok argsort).
Notation q := (Num.sqrt (5%:R : R)).
Notation K := (q / 5%:R).
Notation iv v := (nth 0 (ico_verts tr) v).

Lemma K0 : 0 < K. Proof. by rewrite divr_gt0 ?ltr0n ?q0. Qed.
Lemma K1 : K < 2%:R^-1.
Proof.
rewrite ltr_pdivr_mulr ?ltr0n // -(ltr_pexpn2r (n := 2)) // ?nnegrE ?mulr_ge0 ?invr_ge0 ?ler0n ?(ltW (q0 _)) // q2.
by rewrite exprMn exprVn -!natrX mulrC ltr_pdivl_mulr ?ltr0n // -natrM ltr_nat.
Qed.
Lemma dot_le u v : (u < 12)%N -> (v < 12)%N -> u != v -> dotp (iv u) (iv v) <= K.
Proof.
move=> Hu Hv uv; case: (gram Hg Hu Hv uv) => [->|[_ [->|->]]]; rewrite ?lexx //; apply: (le_trans _ (ltW K0)); rewrite oppr_le0 ?ler01 ?(ltW K0) //.
Qed.
Lemma dot_le1 u v : (u < 12)%N -> (v < 12)%N -> dotp (iv u) (iv v) <= 1.
Proof.
move=> Hu Hv; case: (eqVneq u v) => [->|uv]; first by rewrite (iv_unit Hg).
apply: (le_trans (dot_le Hu Hv uv)); apply/ltW/(lt_le_trans K1); rewrite invf_le1 ?ltr0n // ler1n //.
Qed.
Lemma dotDl (x y z : 'rV[R]_3) : dotp (x + y) z = dotp x z + dotp y z.
Proof. by rewrite /dotp -big_split; apply: eq_bigr => j _; rewrite mxE mulrDl. Qed.
Lemma dotZl c (x z : 'rV[R]_3) : dotp (c *: x) z = c * dotp x z.
Proof. by rewrite /dotp mulr_sumr; apply: eq_bigr => j _; rewrite mxE mulrA. Qed.

(** the points of depth 1 *)
Definition mid_of (x : 'rV[R]_3) : Prop := exists a b c, [/\ (a < 12)%N, (b < 12)%N, a != b, 0 < c & c ^+ 2 * (2%:R + 2%:R * K) = 1 /\ x = c *: (iv a + iv b)].
Definition old_of (x : 'rV[R]_3) : Prop := exists2 a, (a < 12)%N & x = iv a.

Lemma sep_old_old a b : (a < 12)%N -> (b < 12)%N -> iv a != iv b -> dotp (iv a) (iv b) <= 9%:R / 10%:R.
Proof.
move=> Ha Hb ab; have n : a != b by apply: contraNneq ab => ->.
apply: (le_trans (dot_le Ha Hb n)); apply/ltW/(lt_le_trans K1).
by rewrite ler_pdivl_mulr ?ltr0n // mulrC ler_pdivr_mulr ?ltr0n // -natrM ler_nat.
Qed.
Lemma c_half c : 0 < c -> c ^+ 2 * (2%:R + 2%:R * K) = 1 -> c * (1 + K) <= 9%:R / 10%:R.
Proof.
move=> c0 E; have E2 : (c * (1 + K)) ^+ 2 = (1 + K) / 2%:R.
  have X : (c * (1 + K)) ^+ 2 = c ^+ 2 * (2%:R + 2%:R * K) * ((1 + K) / 2%:R) by field.
  by rewrite X E mul1r.
have k0 := K0; have k1 := K1; have P : 0 < c * (1 + K) by rewrite mulr_gt0 // addr_gt0.
rewrite -(ler_pexpn2r (n := 2)) // ?nnegrE ?(ltW P) ?divr_ge0 ?ler0n // E2.
have Q : 1 + K <= 3%:R / 2%:R.
  have -> : 3%:R / 2%:R = 1 + 2%:R^-1 :> R by field.
  by rewrite ler_add2l ltW.
apply: (le_trans (y := 3%:R / 2%:R / 2%:R)); first by rewrite ler_pmul2r ?invr_gt0 ?ltr0n.
rewrite exprMn exprVn -!natrX ler_pdivl_mulr ?ltr0n // (_ : 3%:R / 2%:R / 2%:R * (10 ^ 2)%:R = 75%:R) ?ler_nat //.
by have -> : (10 ^ 2)%:R = 100%:R :> R by []; field.
Qed.
Lemma sep_old_mid a x : (a < 12)%N -> mid_of x -> dotp x (iv a) <= 9%:R / 10%:R.
Proof.
move=> Ha [u [v [c [Hu Hv uv c0 [E ->]]]]]; rewrite dotZl dotDl; apply: le_trans (c_half c0 E); rewrite ler_pmul2l //.
case: (eqVneq u a) => [eu|nu]; first by rewrite eu in uv *; apply: ler_add; [exact: dot_le1|apply: dot_le; rewrite // eq_sym].
by rewrite addrC; apply: ler_add; [exact: dot_le1|exact: dot_le].
Qed.
Lemma c_uniq c c' : 0 < c -> 0 < c' -> c ^+ 2 * (2%:R + 2%:R * K) = 1 -> c' ^+ 2 * (2%:R + 2%:R * K) = 1 -> c = c'.
Proof.
move=> c0 c0' E1 E2; have L0 : 2%:R + 2%:R * K != 0 by rewrite lt0r_neq0 // addr_gt0 ?ltr0n // pmulr_rgt0 ?ltr0n // K0.
by have /eqP := mulIf L0 (etrans E1 (esym E2)); rewrite eqr_expn2 ?ltW // => /eqP.
Qed.
Lemma sep_mid_mid x y : mid_of x -> mid_of y -> x != y -> dotp x y <= 9%:R / 10%:R.
Proof.
move=> [a [b [c [Ha Hb ab c0 [E ->]]]]] [a' [b' [c' [Ha' Hb' ab' c0' [E' ->]]]]] xy.
have ce := c_uniq c0 c0' E E'; rewrite -{c' c0' E'}ce in xy *.
rewrite dotZl dotC dotZl mulrA -expr2 dotDl [dotp (iv a') _]dotC [dotp (iv b') _]dotC !dotDl.
have B : dotp (iv a) (iv a') + dotp (iv b) (iv a') + (dotp (iv a) (iv b') + dotp (iv b) (iv b')) <= 1 + K + (K + K).
  have l1 := dot_le1; have lk := dot_le; have k1 : K <= 1 by apply/ltW/(lt_le_trans K1); rewrite invf_le1 ?ltr0n // ler1n.
  case: (eqVneq a a') => [e1|n1]; first subst a'.
    have n2 : b != b' by apply: contraNneq xy => ->.
    by do !apply: ler_add; [exact: l1|apply: lk; rewrite // eq_sym|exact: lk|exact: lk].
  case: (eqVneq b b') => [e2|n2]; first subst b'.
    by rewrite addrC (addrC (dotp (iv a) (iv b))); do !apply: ler_add; [exact: l1|exact: lk|exact: lk|apply: lk; rewrite // eq_sym].
  case: (eqVneq b a') => [e3|n3]; first subst a'.
    have n4 : a != b' by apply: contraNneq xy => ->; rewrite addrC.
    by rewrite (addrC (dotp (iv a) (iv b))); do !apply: ler_add; [exact: l1|exact: lk|exact: lk|exact: lk].
  by rewrite addrC; do !apply: ler_add; [exact: l1|exact: lk|exact: lk|exact: lk].
apply: (le_trans (y := c ^+ 2 * (1 + K + (K + K)))); first by rewrite ler_pmul2l ?exprn_gt0.
have k0 := K0; have k1 := K1.
have Q : 1 + K + (K + K) <= (9%:R / 10%:R) * (2%:R + 2%:R * K).
  rewrite -subr_ge0 (_ : _ - _ = (6%:R / 5%:R) * (2%:R / 3%:R - K)); last by field.
  rewrite mulr_ge0 ?divr_ge0 ?ler0n // subr_ge0; apply/ltW/(lt_le_trans k1).
  by rewrite ler_pdivl_mulr ?ltr0n // mulrC ler_pdivr_mulr ?ltr0n // -natrM ler_nat.
apply: (le_trans (y := c ^+ 2 * ((9%:R / 10%:R) * (2%:R + 2%:R * K)))); first by rewrite ler_pmul2l ?exprn_gt0.
by rewrite mulrCA E mulr1.
Qed.

Lemma depth1 fuel vs fs : (1 <= fuel)%N -> sphere_tri tr argsort fuel (IInt 1) = Some (Ok (vs, fs)) -> forall x, x \in vs -> old_of x \/ mid_of x.
Proof.
move=> Hf; have [t0 [Es Hb Ev Ef L0]] := ico_start Hg Harg.
have [t1 St Hb1] := ball_step Hb; have Hl := ball_long Hb.
have Hr : full_run 0 (@normvert R) 1 t0 t1 by split=> //; exists t1.
have [s' El _] := loop_full (k := 0%N) (s := stats0 t0) Hf (erefl _) Hr.
rewrite /sphere_tri /= Es El => -[<- _] x /(nthP 0)[i Hi <-].
case: (ltnP i (size (t_v t0))) => H1.
  by left; exists i; [rewrite Ev in H1|rewrite (old Hb St H1) Ev].
have [k Hk Ek] : exists2 k, (k < size (t_e t0))%N & i = (size (t_v t0) + k)%N.
  exists (i - size (t_v t0))%N; last by rewrite subnKC.
  by move: Hi; rewrite (size_next Hb St); move: (size (t_v t0)) (size (t_e t0)) H1 => ? ?; lia.
have /flattenP[l /mapP[f ff El2] Hd] : nth e_def (t_e t0) k \in all_darts (t_f t0).
  by have [[_ _ _ _ [_ Ho]] _ _] := Hb; rewrite (perm_mem Ho) mem_cat mem_nth.
rewrite Ef in ff; rewrite El2 in Hd.
have [I1 I2 I3] : [/\ (nth e_def (t_e t0) k).1 \in verts f, (nth e_def (t_e t0) k).2 \in verts f & (nth e_def (t_e t0) k).1 != (nth e_def (t_e t0) k).2].
  have := face_uniq ff; rewrite /verts /= !inE !negb_or => /andP[/andP[n1 n2] /andP[n3 _]].
  by move: Hd; rewrite /darts !inE => /or3P[]/eqP-> /=; rewrite !eqxx ?orbT //; split=> //; rewrite eq_sym.
have N1 := new_cf Hb St Hk; rewrite -Ek in N1; right.
exists (nth e_def (t_e t0) k).1, (nth e_def (t_e t0) k).2, (cf t0 k); split=> //; [exact: face_below ff _ I1|exact: face_below ff _ I2|exact: cf0 Hb k|].
rewrite Ev in N1; split=> //.
have [_ Hu _] := Hb1; have := dot_unit (Hu _ (mem_nth 0 Hi)); rewrite N1 dotZl dotC dotZl mulrA -expr2.
have b1 := face_below ff I1; have b2 := face_below ff I2.
rewrite dotDl [dotp _ (_ + _)]dotC [dotp (iv (nth e_def (t_e t0) k).2) (_ + _)]dotC !dotDl !(iv_unit Hg) // [dotp (iv (nth e_def (t_e t0) k).2) _]dotC !(in_face Hg ff I1 I2 I3).
by rewrite (_ : 1 + K + (K + 1) = 2%:R + 2%:R * K) //; ring.
Qed.
Theorem depth1_sep fuel vs fs : (1 <= fuel)%N -> sphere_tri tr argsort fuel (IInt 1) = Some (Ok (vs, fs)) ->
  forall x y, x \in vs -> y \in vs -> x != y -> dir_tol R <= vlen (x - y).
Proof.
move=> Hf E x y xv yv xy; have D := depth1 Hf E.
have B : dotp x y <= 9%:R / 10%:R.
  case: (D _ xv) (D _ yv) => [[a Ha ex]|mx] [[b Hb ey]|my].
  - by rewrite ex ey in xy *; exact: sep_old_old.
  - by rewrite ex dotC; exact: sep_old_mid.
  - by rewrite ey; exact: sep_old_mid.
  - exact: sep_mid_mid.
have [[_ _ _ U _] _ _ _] := sphere_fan Hg Harg Hf E.
have S : \sum_j (x - y) 0 j * (x - y) 0 j = 2%:R - 2%:R * dotp x y.
  have e1 := dot_unit (U _ xv); have e2 := dot_unit (U _ yv).
  rewrite {1}(_ : 2%:R = dotp x x + dotp y y); last by rewrite e1 e2.
  by rewrite /dotp !sum3 !mxE; move: (x 0 0) (x 0 1) (x 0 2%:R) (y 0 0) (y 0 1) (y 0 2%:R) => ? ? ? ? ? ?; ring.
have L : 5%:R^-1 <= \sum_j (x - y) 0 j * (x - y) 0 j.
  rewrite S (_ : 5%:R^-1 = 2%:R - 2%:R * (9%:R / 10%:R)); last by field.
  by rewrite ler_add2l ler_opp2 ler_pmul2l ?ltr0n.
rewrite /vlen -[dir_tol R]ger0_norm ?invr_ge0 ?exprn_ge0 ?ler0n // -sqrtr_sqr; apply: ler_wsqrtr; apply: le_trans L.
rewrite /dir_tol exprVn lef_pinv ?posrE ?exprn_gt0 ?ltr0n // -!natrX ler_nat -expnM.
by apply: (@leq_trans (10 ^ 1)%N) => //; rewrite leq_exp2l.
Qed.
End Sep.
