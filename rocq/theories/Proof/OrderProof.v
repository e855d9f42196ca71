(** is_bigger as an order. *)
From mathcomp Require Import all_ssreflect all_algebra.
From mathcomp.algebra_tactics Require Import ring.
Require Import Coq.Strings.String.
From Verif.Model Require Import Py NP NP3 Linalg La EllGeom Ellipsoid EllHeap.
From Verif.Spec Require Import MatSpec LinalgSpec OrthSpec EllSpec EllipsoidSpec EllHeapSpec.
From Verif.Proof Require Import NPLib MatLib LaBasic LinalgSat EllLib EllGeomProof EllScalProof EllScalEx OpsEx RegProof CoreProof EllHeapProof ProjProof.
Set Implicit Arguments.
Unset Strict Implicit.
Unset Printing Implicit Defensive.
Import Order.Theory GRing.Theory Num.Theory.
Local Open Scope ring_scope.

Section OrderLaws.
Variable R : rcfType.
Variable la : linalg R.
Notation ell := (ell R).

Lemma bigger_true e1 e2 n (c1 c2 : 'cV[R]_n) (Q1 Q2 : 'M[R]_n) t1 t2 : linalg_ok la -> (0 < n)%N ->
  repr e1 c1 Q1 t1 -> repr e2 c2 Q2 t2 -> (forall x, x != 0 -> t1 * sqn x < qf Q1 x) -> wellcond Q1 ->
  is_bigger la e1 e2 = Ok true <-> forall x, x != 0 -> qf Q2 x < (1 + t1) * qf Q1 x.
Proof.
move=> Hla n0 H1 H2 Hnd Hw; have [b E Hb] := is_bigger_run Hla n0 H1 H2 Hnd Hw; rewrite E -Hb.
by split=> [[]|->].
Qed.

Theorem bigger_refl e n (c : 'cV[R]_n) Q t : linalg_ok la -> (0 < n)%N -> repr e c Q t ->
  (forall x, x != 0 -> t * sqn x < qf Q x) -> wellcond Q -> is_bigger la e e = Ok true.
Proof.
move=> Hla n0 H Hnd Hw; apply/(bigger_true Hla n0 H H Hnd Hw) => x x0.
have [[_ _ _ t0] _] := H; have q0 : 0 < qf Q x by apply: le_lt_trans (Hnd x x0); rewrite mulr_ge0 ?sqn_ge0 ?ltW.
by rewrite ltr_pmull // ltr_addl.
Qed.

(** neither the centres nor the tolerance of the second ellipsoid matter *)
Theorem bigger_shapes e1 e2 e1' e2' n (c1 c2 c1' c2' : 'cV[R]_n) (Q1 Q2 : 'M[R]_n) t1 t2 t2' : linalg_ok la -> (0 < n)%N ->
  repr e1 c1 Q1 t1 -> repr e2 c2 Q2 t2 -> repr e1' c1' Q1 t1 -> repr e2' c2' Q2 t2' ->
  (forall x, x != 0 -> t1 * sqn x < qf Q1 x) -> wellcond Q1 ->
  is_bigger la e1 e2 = is_bigger la e1' e2'.
Proof.
move=> Hla n0 H1 H2 H1' H2' Hnd Hw; have [b -> Hb] := is_bigger_run Hla n0 H1 H2 Hnd Hw.
have [b' -> Hb'] := is_bigger_run Hla n0 H1' H2' Hnd Hw; congr Ok; apply/idP/idP => h; [exact/Hb'/Hb|exact/Hb/Hb'].
Qed.

(** transitivity up to the tolerances *)
Theorem bigger_trans e1 e2 e3 n (c1 c2 c3 : 'cV[R]_n) (Q1 Q2 Q3 : 'M[R]_n) t1 t2 t3 : linalg_ok la -> (0 < n)%N ->
  repr e1 c1 Q1 t1 -> repr e2 c2 Q2 t2 -> repr e3 c3 Q3 t3 ->
  (forall x, x != 0 -> t1 * sqn x < qf Q1 x) -> wellcond Q1 -> (forall x, x != 0 -> t2 * sqn x < qf Q2 x) -> wellcond Q2 ->
  is_bigger la e1 e2 = Ok true -> is_bigger la e2 e3 = Ok true ->
  (forall x, in_ell 0 Q3 x -> in_ell 0 (((1 + t1) * (1 + t2)) *: Q1) x) /\
  (t2 <= t1 -> (forall x, in_ell 0 Q2 x -> in_ell 0 Q1 x) -> is_bigger la e1 e3 = Ok true) /\
  ((forall x, in_ell 0 Q3 x -> in_ell 0 Q2 x) -> is_bigger la e1 e3 = Ok true).
Proof.
move=> Hla n0 H1 H2 H3 Hd1 Hw1 Hd2 Hw2.
move=> /(bigger_true Hla n0 H1 H2 Hd1 Hw1) K12 /(bigger_true Hla n0 H2 H3 Hd2 Hw2) K23.
have [[_ _ _ t10] [HQ1 Hp1 _]] := H1; have [[_ _ _ t20] [HQ2 Hp2 _]] := H2; have [[_ _ _ t30] [HQ3 Hp3 _]] := H3.
have a1 : 0 < 1 + t1 by rewrite addr_gt0 ?ltr01.
have a2 : 0 < 1 + t2 by rewrite addr_gt0 ?ltr01.
split; [|split].
- have qz x : qf (((1 + t1) * (1 + t2)) *: Q1) x = (1 + t1) * (1 + t2) * qf Q1 x by rewrite /qf -scalemxAl dotvZr.
  apply/ell_subset_center => //.
  + by apply/matrixP => i j; rewrite !mxE -{1}HQ1 mxE.
  + by move=> x; rewrite qz mulr_ge0 // mulr_ge0 // ltW.
  move=> x; rewrite qfD qfN subr_ge0 qz; have [->|x0] := eqVneq x 0; first by rewrite /qf !mulmx0 dotv0r mulr0.
  apply/ltW/(lt_trans (K23 x x0)); by rewrite -mulrA mulrCA ltr_pmul2l // K12.
- move=> t21 /(ell_subset_center 0 HQ2 Hp2 HQ1 Hp1) S; apply/(bigger_true Hla n0 H1 H3 Hd1 Hw1) => x x0.
  apply: lt_le_trans (K23 x x0) _; apply: ler_pmul; [exact: ltW|exact: Hp2|by rewrite ler_add2l|].
  by have := S x; rewrite qfD qfN subr_ge0.
- move=> /(ell_subset_center 0 HQ3 Hp3 HQ2 Hp2) S; apply/(bigger_true Hla n0 H1 H3 Hd1 Hw1) => x x0.
  by apply: le_lt_trans (K12 x x0); have := S x; rewrite qfD qfN subr_ge0.
Qed.

(** each bigger than the other: equal up to the tolerances *)
Theorem bigger_anti e1 e2 n (c1 c2 : 'cV[R]_n) (Q1 Q2 : 'M[R]_n) t1 t2 : linalg_ok la -> (0 < n)%N ->
  repr e1 c1 Q1 t1 -> repr e2 c2 Q2 t2 ->
  (forall x, x != 0 -> t1 * sqn x < qf Q1 x) -> wellcond Q1 -> (forall x, x != 0 -> t2 * sqn x < qf Q2 x) -> wellcond Q2 ->
  is_bigger la e1 e2 = Ok true -> is_bigger la e2 e1 = Ok true ->
  forall x, x != 0 -> - t2 * qf Q2 x < qf Q2 x - qf Q1 x < t1 * qf Q1 x.
Proof.
move=> Hla n0 H1 H2 Hd1 Hw1 Hd2 Hw2 /(bigger_true Hla n0 H1 H2 Hd1 Hw1) K12 /(bigger_true Hla n0 H2 H1 Hd2 Hw2) K21 x x0.
have h1 := K12 x x0; have h2 := K21 x x0; apply/andP; split.
  by rewrite mulNr ltr_oppl opprB ltr_subl_addr addrC -{1}[qf Q2 x]mul1r -mulrDl.
by rewrite ltr_subl_addr addrC -{1}[qf Q1 x]mul1r -mulrDl.
Qed.

(** projections keep the order *)
Theorem bigger_projection cfg n k (B : 'M[R]_(n, k)) h a e1 e2 (c1 c2 : 'cV[R]_n) (Q1 Q2 : 'M[R]_n) t1 t2 :
  linalg_ok la -> objs h (data a) [:: e1; e2] -> (0 < k <= n)%N -> orthocols B ->
  repr e1 c1 Q1 t1 -> repr e2 c2 Q2 t2 -> (forall x, x != 0 -> t1 * sqn x < qf Q1 x) -> wellcond Q1 ->
  is_bigger la e1 e2 = Ok true ->
  exists h' b e1' e2', [/\ get_projection la cfg a (mat B) h = (h', Ok b), objs h' (data b) [:: e1'; e2'] & is_bigger la e1' e2' = Ok true].
Proof.
move=> Hla Ho /andP[k0 kn] HB H1 H2 Hd1 Hw1 /(bigger_true Hla (leq_trans k0 kn) H1 H2 Hd1 Hw1) K.
have n0 := leq_trans k0 kn; have [_ [Hev _]] := Hla.
have Hd : all_dim n [:: e1; e2] by constructor; [exists c1, Q1, t1|constructor; [exists c2, Q2, t2|constructor]].
have [t _ [Ht t0]] := @tol_run R n [:: e1; e2] [::] isT Hd.
have dots i j : dotv (col i B) (col j B) = (i == j)%:R by rewrite -dot_cols HB mxE.
have nz : nonzero_cols B.
  by move=> j; apply/eqP => E; have := dots j j; rewrite E MatLib.dotv0l eqxx => /eqP; rewrite eq_sym oner_eq0.
have Ha : acute_below t B by move=> i j ij; rewrite dots (negbTE ij) ltW.
have [h' [b [es' [E1 _ E2 E3 E4]]]] := get_projection_run cfg Hev Ho Hd Ht kn nz Ha.
rewrite (orthonormal_unit HB) in E3; inversion E3 as [|x y l l' I1 E3' X Y]; subst.
inversion E3' as [|x2 y2 l2 l2' I2 E3'' X2 Y2]; subst; inversion E3''; subst.
exists h', b, y, y2; split=> //.
have [_ /(_ _ _ _ H1) [d1 [S1 [G1 _ P1]]]] := I1; have [_ /(_ _ _ _ H2) [d2 [S2 [G2 _ P2]]]] := I2.
have [_ [HQ1 Hp1 _]] := H1; have [_ [HQ2 Hp2 _]] := H2; have [[_ _ _ t10] [HS1 Hs1 _]] := G1; have [_ [HS2 Hs2 _]] := G2.
have supp (Q : 'M[R]_n) (S : 'M[R]_k) c d : symm Q -> psd Q -> symm S -> psd S ->
  (forall l s, max_over (in_ell d S) l s <-> max_over (in_ell c Q) (B *m l) s) -> forall x, qf S x = qf Q (B *m x).
  move=> HQ Hp HS Hs P x.
  have w (l : 'cV[R]_k) : dotv l d + Num.sqrt (qf S l) = dotv (B *m l) c + Num.sqrt (qf Q (B *m l)).
    by apply: max_over_uniq (ell_support c (B *m l) HQ Hp); apply/P; exact: ell_support.
  have qf_opp m (M : 'M[R]_m) u : qf M (- u) = qf M u by rewrite /qf mulmxN dotvNl dotvNr opprK.
  have w1 := w x; have := w (- x); rewrite !mulmxN !dotvNl !qf_opp => w2.
  have : Num.sqrt (qf S x) = Num.sqrt (qf Q (B *m x)).
    have E (p q u v : R) : p + u = q + v -> - p + u = - q + v -> u = v.
      move=> h1 h2; have f2 : 2%:R != 0 :> R by rewrite pnatr_eq0.
      have h3 : u * 2%:R = v * 2%:R.
        have -> : u * 2%:R = (p + u) + (- p + u) by ring.
        by rewrite h1 h2; ring.
      exact: (mulIf f2) h3.
    exact: E w1 w2.
  by move/(congr1 (fun u => u ^+ 2)); rewrite !sqr_sqrtr.
have q1 := supp _ _ _ _ HQ1 Hp1 HS1 Hs1 P1; have q2 := supp _ _ _ _ HQ2 Hp2 HS2 Hs2 P2.
have sB x : sqn (B *m x) = sqn x by rewrite /sqn dotv_mulr mulmxA HB mul1mx.
have B0 (x : 'cV[R]_k) : x != 0 -> B *m x != 0 by move=> x0; rewrite -sqn_gt0 sB sqn_gt0.
apply/(bigger_true Hla k0 G1 G2).
- by move=> x x0; rewrite q1 -sB; apply: Hd1; exact: B0.
- move=> x y' Ex Ey; rewrite !q1; have := Hw1 (B *m x) (B *m y'); rewrite !sB => /(_ Ex Ey); apply: le_lt_trans.
  by rewrite ler_wpmul2r ?Hp1 // ler_wpmul2r ?invr_ge0 ?exprn_ge0 ?ler0n // ler_nat.
by move=> x x0; rewrite q1 q2; apply: K; exact: B0.
Qed.
End OrderLaws.

(** balls with the squared radii 1, 1 + t/2 and (1 + t/2)^2 *)
Section Balls.
Variable R : rcfType.
Lemma ball_strict (r : R) : 1 <= r -> forall x : 'cV[R]_2, x != 0 -> 10%:R ^- 7 * sqn x < qf (r%:M) x.
Proof. by move=> r1 x x0; rewrite qf_scal ltr_pmul2r ?sqn_gt0 //; apply: lt_le_trans (ten7_1 R) _. Qed.
Lemma ball_wellcond (r : R) : 1 <= r -> wellcond (r%:M : 'M[R]_2).
Proof.
move=> r1 x y Ex Ey; rewrite !qf_scal Ex Ey !mulr1 gtr_pmull ?(lt_le_trans ltr01) //.
by rewrite ltr_pdivr_mulr ?exprn_gt0 ?ltr0n // mul1r -natrX ltr_nat -{1}(expn1 2) ltn_exp2l.
Qed.
Theorem bigger_not_trans (la : linalg R) : linalg_ok la ->
  let t := 10%:R ^- 7 in let b := fun r => ball_at (0 : 'cV[R]_2) r in let s := 1 + t / 2%:R in
  [/\ is_bigger la (b 1) (b s) = Ok true, is_bigger la (b s) (b (s * s)) = Ok true & is_bigger la (b 1) (b (s * s)) = Ok false].
Proof.
move=> Hla t b s; have t0 : 0 < t by exact: ten7.
have s1 : 1 < s by rewrite /s ltr_addl divr_gt0 ?ltr0n.
have s0 : 0 < s := lt_trans ltr01 s1.
have st : s < 1 + t by rewrite /s ltr_add2l ltr_pdivr_mulr ?ltr0n // ltr_pmulr // ltr1n.
have st2 : 1 + t < s * s.
  have -> : s * s = 1 + t + (t / 2%:R) * (t / 2%:R).
    have f2 : 2%:R != 0 :> R by rewrite pnatr_eq0.
    by rewrite /s; move: (t) => w; field.
  by rewrite ltr_addl mulr_gt0 // divr_gt0 ?ltr0n.
have rp r : 1 <= r -> repr (b r) 0 (r%:M : 'M[R]_2) t by move=> r1; apply: ball_repr; exact: le_trans ler01 r1.
have T r q : 1 <= r -> 1 <= q -> is_bigger la (b r) (b q) = Ok true <-> q < (1 + t) * r.
  move=> r1 q1; rewrite (bigger_true Hla (isT : (0 < 2)%N) (rp r r1) (rp q q1) (ball_strict r1) (ball_wellcond r1)).
  split=> [H|h x x0]; last by rewrite !qf_scal mulrA ltr_pmul2r ?sqn_gt0.
  have x0 : (delta_mx 0 0 : 'cV[R]_2) != 0.
    by apply/eqP => /matrixP/(_ 0 0); rewrite !mxE eqxx => /eqP; rewrite oner_eq0.
  by have := H _ x0; rewrite !qf_scal mulrA ltr_pmul2r ?sqn_gt0.
have ss1 : 1 <= s * s by rewrite ltW // (lt_trans s1) // ltr_pmulr.
split; [by apply/T => //; rewrite ?mulr1 // ltW|by apply/T; rewrite ?(ltW s1) // ltr_pmul2r|].
have [x E _] := is_bigger_run Hla (isT : (0 < 2)%N) (rp 1 (lexx _)) (rp _ ss1) (ball_strict (lexx _)) (ball_wellcond (lexx _)).
rewrite E; case: x E => // /T; rewrite mulr1 => /(_ (lexx _) ss1) h.
by have := lt_trans st2 h; rewrite ltxx.
Qed.
End Balls.
