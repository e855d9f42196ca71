(** Concrete cases of the geometric difference. *)
From mathcomp Require Import all_ssreflect all_algebra ring.
Require Import Coq.Strings.String.
From Verif.Model Require Import Py NP NP3 Linalg SupDiff.
From Verif.Spec Require Import MatSpec LinalgSpec SphereSpec SupDiffSpec.
From Verif.Proof Require Import NPLib NP3Lib MatLib LinalgSat SphereProof SphereEx SupDiffProof SupDiff3.
Set Implicit Arguments.
Unset Strict Implicit.
Unset Printing Implicit Defensive.
Import Order.Theory GRing.Theory Num.Theory.
Local Open Scope ring_scope.

(** matrices of integers *)
Definition zat (t : seq (seq int)) (i j : nat) : int := nth 0 (nth [::] t i) j.
Definition zmx m n (t : seq (seq int)) : 'M[ralg]_(m, n) := \matrix_(i, j) (zat t i j)%:~R.

Fixpoint zdot (m : nat) (t u : seq (seq int)) (k : nat) : int :=
  if m is p.+1 then zdot p t u k + zat t p k * zat u p 0 else 0.
Lemma zdotE m n t u (k : 'I_n) : dotv (col k (zmx m n t)) (zmx m 1 u) = (zdot m t u k)%:~R.
Proof.
rewrite /dotv; transitivity (\sum_(i < m) (zat t i k * zat u i 0)%:~R : ralg).
  by apply: eq_bigr => i _; rewrite !mxE rmorphM.
by elim: m => [|m IH]; rewrite ?big_ord0 // big_ord_recr /= IH rmorphD.
Qed.

Definition zvertex m n (t d : seq (seq int)) (ks : seq nat) (u : seq (seq int)) : bool :=
  all (fun k => zdot m t u k <= zat d k 0) (iota 0 n) && all (fun k => (n <= k)%N || (zdot m t u k == zat d k 0)) ks.
Lemma zvertexE m n t d ks u : zvertex m n t d ks u -> vertex (zmx m n t) (zmx n 1 d) ks (zmx m 1 u).
Proof.
case/andP=> /allP H1 /allP H2; split=> k.
  by rewrite zdotE mxE ler_int H1 // mem_iota ltn_ord.
by move=> /H2; rewrite leqNgt ltn_ord /= zdotE mxE => /eqP->.
Qed.

Lemma sub_zero m n (M : 'M[ralg]_(m, n)) : M - 0 = M. Proof. exact: subr0. Qed.

Definition hull_of T (fs : seq T) (_ : arr (xnum ralg)) : res (seq T) := Ok fs.

(** the square, with a redundant direction *)
Definition sq_l : seq (seq int) := [:: [:: 1; 1; 0; -1; 0]; [:: 0; 1; 1; 0; -1]].
Definition sq_d : seq (seq int) := [:: [:: 1]; [:: 3%:Z]; [:: 1]; [:: 1]; [:: 1]].
Definition sq_faces : seq (nat * nat) := [:: (0, 2); (2, 3); (3, 4); (4, 0)]%N.


Lemma sq_pos (k : 'I_5) : (0 : 'cV[ralg]_5) k 0 < zmx 5 1 sq_d k 0.
Proof. by rewrite !mxE ltr0z; case: k => -[|[|[|[|[|]]]]]. Qed.

Lemma square_ex : exists out : 'cV[ralg]_5,
  sup_geom_diff_2d (the_linalg ralg) (hull_of sq_faces) (vec (zmx 5 1 sq_d)) (vec (0 : 'cV[ralg]_5)) (mat (zmx 2 5 sq_l)) = Ok (vec out) /\
  forall k, val k = 1%N -> out k 0 = 2%:R.
Proof.
have Hla : lstsq_ok (the_linalg ralg) by have := the_linalg_ok ralg; rewrite /linalg_ok; tauto.
pose P (i j : nat) := zmx 2 1 [:: [:: 1]; [:: 1]].
have [] := @diff_2d_values _ _ (hull_of sq_faces) 5 (zmx 2 5 sq_l) (zmx 5 1 sq_d) 0 sq_faces Hla isT sq_pos erefl P.
- by move=> i j; rewrite !inE => /or4P[] /eqP[-> ->].
- move=> i j k Hf Hb; have [-> -> Hk] : [/\ i = 0%N, j = 2%N & val k = 1%N].
    by move: Hf Hb; rewrite !inE; case: k => -[|[|[|[|[|]]]]] // Hk; case/or4P => /eqP[-> ->].
  split.
    split; [by []|by []|by rewrite subr0; apply: zvertexE; vm_compute|].
    move=> i' j' Hi Hj; rewrite subr0; apply/eqP => /matrixP/(_ ord0 ord0)/eqP.
    by rewrite !mxE Hi Hj /= !divr1 oner_eq0.
  by rewrite zdotE Hk ltr0z.
move=> out [E H]; exists out; split; first exact: E.
move=> k Hk; have [_ [[i [j [_ _ ->]]]|[Hn _]]] := H k; first by rewrite zdotE Hk.
by have := Hn 0%N 2%N isT; rewrite Hk.
Qed.

(** a strip cut off, with a redundant direction in the place of number 0 *)
Definition cut_l : seq (seq int) := [:: [:: 1; 1; -1; 1]; [:: 0; 1; 0; -1]].
Definition cut_d : seq (seq int) := [:: [:: 2%:Z]; [:: 1]; [:: 1]; [:: 1]].
Lemma cut_pos (k : 'I_4) : (0 : 'cV[ralg]_4) k 0 < zmx 4 1 cut_d k 0.
Proof. by rewrite !mxE ltr0z; case: k => -[|[|[|[|]]]]. Qed.

Lemma cut_facet : facet2 (zmx 2 4 cut_l) (zmx 4 1 cut_d - 0) 1 3 (zmx 2 1 [:: [:: 1]; [:: 0]]).
Proof.
split; [by []|by []|by rewrite subr0; apply: zvertexE; vm_compute|].
move=> i' j' Hi Hj; rewrite subr0; apply/eqP => /matrixP/(_ 1 ord0)/eqP.
by rewrite !mxE Hi Hj /= !divr1 -subr_eq0 opprK (pnatr_eq0 _ 2).
Qed.

Lemma cut_ex (a b : nat * nat) : a \in [:: (1, 2); (2, 1)]%N -> b \in [:: (2, 3); (3, 2)]%N ->
  let f c := sup_geom_diff_2d (the_linalg ralg) (hull_of [:: a; b; c]) (vec (zmx 4 1 cut_d)) (vec (0 : 'cV[ralg]_4)) (mat (zmx 2 4 cut_l)) in
  (exists e, f (1, 3)%N = Err e) /\ f (3, 1)%N = IndexError.
Proof.
have Hla : lstsq_ok (the_linalg ralg) by have := the_linalg_ok ralg; rewrite /linalg_ok; tauto.
move=> Ha Hb f; split.
  apply: (@diff_2d_span _ _ (hull_of [:: a; b; (1, 3)%N]) 4 (zmx 2 4 cut_l) (zmx 4 1 cut_d) 0 _ Hla isT cut_pos erefl _ _ (Ordinal (isT : (2 < 4)%N)) _ _ cut_facet) => //.
    by rewrite zdotE ltrz0.
  by left; rewrite !inE eqxx !orbT.
apply: (@diff_2d_index _ _ (hull_of [:: a; b; (3, 1)%N]) 4 (zmx 2 4 cut_l) (zmx 4 1 cut_d) 0 _ isT cut_pos erefl 1 isT isT).
  move=> x y; rewrite !inE; case/or3P => [/eqP E|/eqP E|/eqP E]; [right|right|by left].
    by move: Ha; rewrite -E !inE => /orP[] /eqP[-> ->].
  by move: Hb; rewrite -E !inE => /orP[] /eqP[-> ->].
by rewrite !inE eqxx !orbT.
Qed.

(** the cube *)
Definition cube_l : seq (seq int) := [:: [:: 1; 0; 0; -1; 0; 0; 1]; [:: 0; 1; 0; 0; -1; 0; 1]; [:: 0; 0; 1; 0; 0; -1; 1]].
Definition cube_d : seq (seq int) := [:: [:: 1]; [:: 1]; [:: 1]; [:: 1]; [:: 1]; [:: 1]; [:: 4%:Z]].
Definition cube_faces : seq (nat * nat * nat) :=
  [:: (0, 1, 2); (0, 1, 5); (0, 4, 2); (0, 4, 5); (3, 1, 2); (3, 1, 5); (3, 4, 2); (3, 4, 5)]%N.
Lemma cube_pos (k : 'I_7) : (0 : 'cV[ralg]_7) k 0 < zmx 7 1 cube_d k 0.
Proof. by rewrite !mxE ltr0z; case: k => -[|[|[|[|[|[|[|]]]]]]]. Qed.
Lemma cross_a n (S : 'M[ralg]_(3, n)) (a b c : 'I_n) : crosses S a a b c.
Proof. by exists 1, 0, 0; split; rewrite ?ltr01 ?addr0 ?ler01 // !subr0 !scale0r !addr0. Qed.
Lemma cross_b n (S : 'M[ralg]_(3, n)) (a b c : 'I_n) : crosses S b a b c.
Proof. by exists 1, 1, 0; split; rewrite ?ltr01 ?addr0 ?ler01 // subr0 subrr !scale0r add0r addr0. Qed.
Lemma cross_c n (S : 'M[ralg]_(3, n)) (a b c : 'I_n) : crosses S c a b c.
Proof. by exists 1, 0, 1; split; rewrite ?ltr01 ?add0r ?ler01 // subr0 subrr !scale0r !add0r. Qed.

Lemma lin_col n (S : 'M[ralg]_(3, n)) t w u v k a b c : (forall i, t * S i k = w * S i a + u * S i b + v * S i c) ->
  t *: col k S = w *: col a S + u *: col b S + v *: col c S.
Proof. by move=> H; apply/colP => i; rewrite !mxE H. Qed.

Lemma third (K : rcfType) : let q : K := 3%:R^-1 in let w := 1 - q - q in
  [/\ w + q + q = 1, w = q & 4%:R / 3%:R * 4%:R^-1 = q].
Proof.
have T : (3%:R : K) != 0 by rewrite pnatr_eq0.
have T4 : (4%:R : K) != 0 by rewrite pnatr_eq0.
by split=> /=; field; rewrite ?T ?T4.
Qed.
Lemma det6 (K : rcfType) : let q : K := 4%:R^-1 in
  `|(0 - 1) * (q * (1 - 0) - q * (0 - 0)) + (1 - 0) * (q * (0 - 1) - q * (1 - 0)) + (0 - 0) * (q * (0 - 0) - q * (0 - 1))| = 3%:R / 4%:R.
Proof.
move=> q; rewrite -[RHS]ger0_norm ?divr_ge0 ?ler0n // -normrN; congr `|_|; rewrite /q.
have T4 : (4%:R : K) != 0 by rewrite pnatr_eq0.
by field.
Qed.

Notation CS := (scaled (zmx 3 7 cube_l) (zmx 7 1 cube_d - 0)).
Notation o k := (Ordinal (isT : (k < 7)%N)).
Lemma cs_col (k : 'I_7) : (val k < 6)%N -> rcol CS k = ((zat cube_l 0 k)%:~R, (zat cube_l 1 k)%:~R, (zat cube_l 2 k)%:~R).
Proof. by move=> Hk; rewrite /rcol !mxE; case: k Hk => -[|[|[|[|[|[|]]]]]] // h _ /=; rewrite !subr0 !divr1. Qed.
Lemma cs_col6 : rcol CS (o 6) = (4%:R^-1, 4%:R^-1, 4%:R^-1).
Proof. by rewrite /rcol !mxE /= !subr0 !div1r. Qed.

Lemma tol_lt1 (x : ralg) : 10%:R^-1 <= x -> 10%:R ^- 5 < x.
Proof.
apply: lt_le_trans; rewrite ltf_pinv ?posrE ?exprn_gt0 ?ltr0n // -[X in X < _]expr1.
by rewrite ltr_eexpn2l // ltr1n.
Qed.
Lemma cube_steep (k a b c : 'I_7) : (k < 6)%N -> (a : nat, b : nat, c : nat) \in [:: (0, 1, 2); (3, 4, 5)]%N -> (k : nat) \in [:: a : nat; b : nat; c : nat] ->
  10%:R ^- 5 < steep CS k a b c.
Proof.
move=> Hk Hf Hm; apply: tol_lt1; rewrite steepE.
have Hl : [/\ (a < 6)%N, (b < 6)%N & (c < 6)%N] by move: Hf; rewrite !inE => /orP[] /eqP[-> -> ->].
case: Hl => ha hb hc; rewrite !cs_col //.
suff -> : `|rdet ((zat cube_l 0 k)%:~R, (zat cube_l 1 k)%:~R, (zat cube_l 2 k)%:~R) ((zat cube_l 0 a)%:~R, (zat cube_l 1 a)%:~R, (zat cube_l 2 a)%:~R)
   ((zat cube_l 0 b)%:~R, (zat cube_l 1 b)%:~R, (zat cube_l 2 b)%:~R) ((zat cube_l 0 c)%:~R, (zat cube_l 1 c)%:~R, (zat cube_l 2 c)%:~R)| = 1 :> ralg.
  by rewrite invf_le1 ?ltr0n // ler1n.
rewrite /rdet /= -!rmorphB -!rmorphM -!rmorphB -!rmorphM -!rmorphD -intr_norm.
have Z (z : int) : z = 1 -> z%:~R = 1 :> ralg by move=> ->.
apply: Z.
by move: Hm; move: Hf; rewrite !inE => /orP[] /eqP[-> -> ->] /or3P[] /eqP ->; vm_compute.
Qed.

Lemma cube_ex : exists out : 'cV[ralg]_7,
  sup_geom_diff_3d (hull_of cube_faces) (vec (zmx 7 1 cube_d)) (vec (0 : 'cV[ralg]_7)) (mat (zmx 3 7 cube_l)) = Ok (vec out) /\
  forall k, 0 < out k 0 <= (if val k == 6%N then 3%:R else 1).
Proof.
pose sg (x y : nat) : int := if x == y then 1 else -1.
pose P (f : nat * nat * nat) := let: (a, b, c) := f in zmx 3 1 [:: [:: sg a 0%N]; [:: sg b 1%N]; [:: sg c 2%N]].
have [] := @diff_3d_values _ (hull_of cube_faces) 7 (zmx 3 7 cube_l) (zmx 7 1 cube_d) 0 cube_faces isT cube_pos erefl _ P.
- move=> a b c Hf; have : all (fun f : nat * nat * nat => let: (a, b, c) := f in [&& (a < 7), (b < 7) & (c < 7)]%N) cube_faces by [].
  by move/allP/(_ _ Hf)/and3P.
- move=> a b c Hf; rewrite subr0; apply: zvertexE.
  have : all (fun f : nat * nat * nat => let: (a, b, c) := f in
    zvertex 3 7 cube_l cube_d [:: a; b; c] [:: [:: sg a 0%N]; [:: sg b 1%N]; [:: sg c 2%N]]) cube_faces by vm_compute.
  by move/allP/(_ _ Hf).
- case=> k Hk; case E: (k == 6%N).
    have -> : Ordinal Hk = o 6 by apply: val_inj; apply/eqP.
    exists (o 0), (o 1), (o 2); split=> //.
      exists (4%:R / 3%:R), 3%:R^-1, 3%:R^-1.
      have [_ F2 F3] := third [rcfType of ralg].
      split; rewrite ?divr_gt0 ?invr_ge0 ?ltr0n ?ler0n //.
        by rewrite -mulr2n -[_ *+ 2]mulr_natl ler_pdivr_mulr ?ltr0n // mul1r ler_nat.
      have e6 := cs_col6; have e0 := @cs_col (o 0) isT; have e1 := @cs_col (o 1) isT; have e2 := @cs_col (o 2) isT.
      case: e6 e0 e1 e2 => a6 b6 c6 [a0 b0 c0] [a1 b1 c1] [a2 b2 c2].
      apply: lin_col => i; have /or3P[] : [|| i == 0, i == 1 | i == 2%:R] by case: i => -[|[|[|]]].
      - by move/eqP->; rewrite a6 a0 a1 a2 /zat /= !mulr0 mulr1 !addr0 F2 F3.
      - by move/eqP->; rewrite b6 b0 b1 b2 /zat /= !mulr0 mulr1 addr0 add0r F3.
      - by move/eqP->; rewrite c6 c0 c1 c2 /zat /= !mulr0 mulr1 !add0r F3.
    apply: tol_lt1; rewrite steepE cs_col6 !cs_col // /rdet /zat /=.
    have -> := det6 [rcfType of ralg].
    by rewrite ler_pdivl_mulr ?ltr0n // mulrC ler_pdivr_mulr ?ltr0n // -natrM ler_nat.
  have Hk6 : (k < 6)%N by case: k Hk E => [|[|[|[|[|[|[|]]]]]]].
  case: (ltnP k 3) => H3.
    exists (o 0), (o 1), (o 2); split=> //; last by apply: cube_steep => //; case: k Hk E Hk6 H3 => [|[|[|]]].
    by case: k Hk E Hk6 H3 => [|[|[|//]]] h *; rewrite (bool_irrelevance h isT); [exact: cross_a|exact: cross_b|exact: cross_c].
  exists (o 3), (o 4), (o 5); split=> //; last by apply: cube_steep => //; case: k Hk E Hk6 H3 => [|[|[|[|[|[|]]]]]].
  by case: k Hk E Hk6 H3 => [|[|[|[|[|[|//]]]]]] // h *; rewrite (bool_irrelevance h isT); [exact: cross_a|exact: cross_b|exact: cross_c].
move=> out [E H]; exists out; split; first exact: E.
move=> k; have [/andP[-> H1] [f Hf Ef]] := H k.
case: (val k =P 6%N) => [K|K].
  rewrite Ef; case: f Hf {Ef} => [[a b] c] Hf; rewrite zdotE K -[3%:R]/(3%:Z%:~R) ler_int.
  have : all (fun f : nat * nat * nat => let: (a, b, c) := f in
    zdot 3 cube_l [:: [:: sg a 0%N]; [:: sg b 1%N]; [:: sg c 2%N]] 6 <= 3%:Z) cube_faces by vm_compute.
  by move/allP/(_ _ Hf).
apply: (le_trans H1); rewrite !mxE subr0.
by case: k K {E H H1 Ef} => -[|[|[|[|[|[|[|]]]]]]].
Qed.

(** the same cube, 200 times larger *)
Definition big_l : seq (seq int) := [:: [:: 1; 0; 0; -1; 0; 0]; [:: 0; 1; 0; 0; -1; 0]; [:: 0; 0; 1; 0; 0; -1]].
Lemma big_ex :
  sup_geom_diff_3d (hull_of cube_faces) (vec (const_mx 200%:R : 'cV[ralg]_6)) (vec (0 : 'cV[ralg]_6)) (mat (zmx 3 6 big_l)) =
  Ok (Arr [:: 6%N] (nseq 6 PInf)).
Proof.
apply: (@diff_3d_large _ (hull_of cube_faces) 6 (zmx 3 6 big_l) (const_mx 200%:R) 0 cube_faces isT _ erefl).
- by move=> k; rewrite !mxE ltr0n.
- move=> a b c Hf; have : all (fun f : nat * nat * nat => let: (a, b, c) := f in [&& (a < 6), (b < 6) & (c < 6)]%N) cube_faces by [].
  by move/allP/(_ _ Hf)/and3P.
move=> i k; rewrite !mxE subr0 ler_pimull ?ler0n //.
rewrite -intr_norm -[1]/(1%:~R) ler_int.
by case: i => -[|[|[|]]] // hi; case: k => -[|[|[|[|[|[|]]]]]].
Qed.
