(** Proofs about sup_geom_diff_3d. *)
From mathcomp Require Import all_ssreflect all_algebra ring.
Require Import Coq.Strings.String.
From Verif.Model Require Import Py NP NP3 Linalg SupDiff.
From Verif.Spec Require Import MatSpec LinalgSpec SphereSpec SupDiffSpec.
From Verif.Proof Require Import NPLib NP3Lib MatLib SphereProof SupDiffProof.
Set Implicit Arguments.
Unset Strict Implicit.
Unset Printing Implicit Defensive.
Import Order.Theory GRing.Theory Num.Theory.
Local Open Scope ring_scope.

Section Space.
Variable R : rcfType.
Notation X := (xnum R).
Notation A := (arr X).
Notation get := (getn (@NaN R)).

(** the computation of [hit] on real numbers *)
Definition r3 := (R * R * R)%type.
Definition lift3 (a : r3) : x3 R := let: (a0, a1, a2) := a in (Fin a0, Fin a1, Fin a2).
Definition rsub (a b : r3) : r3 := let: (a0, a1, a2) := a in let: (b0, b1, b2) := b in (a0 - b0, a1 - b1, a2 - b2).
Definition ropp (a : r3) : r3 := let: (a0, a1, a2) := a in (- a0, - a1, - a2).
Definition rcross (a b : r3) : r3 := let: (a0, a1, a2) := a in let: (b0, b1, b2) := b in
  (a1 * b2 - a2 * b1, a2 * b0 - a0 * b2, a0 * b1 - a1 * b0).
Definition rdot (a b : r3) : R := let: (a0, a1, a2) := a in let: (b0, b1, b2) := b in a0 * b0 + a1 * b1 + a2 * b2.

Lemma lift_sub a b : sub3 (lift3 a) (lift3 b) = lift3 (rsub a b). Proof. by case: a b => [[? ?] ?] [[? ?] ?]. Qed.
Lemma lift_opp a : opp3 (lift3 a) = lift3 (ropp a). Proof. by case: a => [[? ?] ?]. Qed.
Lemma lift_cross a b : cross3 (lift3 a) (lift3 b) = lift3 (rcross a b). Proof. by case: a b => [[? ?] ?] [[? ?] ?]. Qed.
Lemma lift_dot a b : dot3 (lift3 a) (lift3 b) = Fin (rdot a b). Proof. by case: a b => [[? ?] ?] [[? ?] ?]. Qed.

Definition rcol n (S : 'M[R]_(3, n)) (k : 'I_n) : r3 := (S 0 k, S 1 k, S 2%:R k).
Lemma xcolE n (S : 'M[R]_(3, n)) (k : 'I_n) : xcol (mat S) k = lift3 (rcol S k).
Proof.
have e0 : get (mat S) [:: 0%N; val k] = Fin (S 0 k) := get_mat S 0 k _.
have e1 : get (mat S) [:: 1%N; val k] = Fin (S 1 k) := get_mat S 1 k _.
have e2 : get (mat S) [:: 2%N; val k] = Fin (S 2%:R k) := get_mat S 2%:R k _.
by rewrite /xcol e0 e1 e2.
Qed.

Definition rdet (s t0 a b : r3) : R := rdot (rsub a t0) (rcross s (rsub b t0)).
Definition ru (s t0 a b : r3) : R := (rdet s t0 a b)^-1 * rdot (ropp t0) (rcross s (rsub b t0)).
Definition rv (s t0 a b : r3) : R := (rdet s t0 a b)^-1 * rdot s (rcross (ropp t0) (rsub a t0)).
Definition rt (s t0 a b : r3) : R := (rdet s t0 a b)^-1 * rdot (rsub b t0) (rcross (ropp t0) (rsub a t0)).

Lemma xle_fin (a b : R) : xle (Fin a) (Fin b) = (a <= b).
Proof. by rewrite /xle /= le_eqVlt orbC. Qed.

Lemma hitE n (S : 'M[R]_(3, n)) (k a b c : 'I_n) : let s := rcol S k in let t0 := rcol S a in let x := rcol S b in let y := rcol S c in
  hit (mat S) k (val a, val b, val c) =
  if [&& tol3 R < `|rdet s t0 x y|, - tol3 R <= ru s t0 x y, - tol3 R <= rv s t0 x y,
      ru s t0 x y + rv s t0 x y <= 1 + tol3 R & 0 < rt s t0 x y] then Some (Fin (rt s t0 x y)) else None.
Proof.
move=> s t0 x y; rewrite /hit !xcolE !lift_sub !lift_opp !lift_cross !lift_dot -/s -/t0 -/x -/y -/(rdet s t0 x y).
rewrite /xgt [xlt (Fin (tol3 R)) _]/=; case: ltP => //= Hd.
have D0 : rdet s t0 x y != 0.
  by rewrite -normr_gt0 (lt_trans _ Hd) // /tol3 invr_gt0 exprn_gt0 // ltr0n.
rewrite (negbTE D0) div1r /= /xge !xle_fin -/(ru s t0 x y) -/(rv s t0 x y) -/(rt s t0 x y).
by case: (_ <= ru _ _ _ _) => //=; case: (_ <= rv _ _ _ _) => //=; case: (_ <= _ + _).
Qed.

(** the point met, in the coordinates of the triangle *)
Lemma cramer (s t0 a b : r3) : rdet s t0 a b != 0 ->
  forall p : r3, rt s t0 a b * rdot p s = rdot p t0 + ru s t0 a b * rdot p (rsub a t0) + rv s t0 a b * rdot p (rsub b t0).
Proof.
move=> D0 p; apply: (mulfI D0); rewrite /rt /ru /rv !mulrDr !mulrA !mulfV // !mul1r.
move: s t0 a b p {D0} => [[s0 s1] s2] [[t0 t1] t2] [[a0 a1] a2] [[b0 b1] b2] [[p0 p1] p2]; rewrite /rdet /=; ring.
Qed.

Lemma hit_facet (s t0 a b p : r3) : rdet s t0 a b != 0 -> rdot p t0 = 1 -> rdot p a = 1 -> rdot p b = 1 ->
  rt s t0 a b * rdot p s = 1.
Proof.
move=> D0 H0 Ha Hb; rewrite (cramer D0 p).
have Z x : rdot p (rsub x t0) = rdot p x - rdot p t0.
  move: p x t0 {D0 H0 Ha Hb} => [[p0 p1] p2] [[x0 x1] x2] [[t0 t1] t2] /=; ring.
by rewrite !Z Ha Hb H0 subrr !mulr0 !addr0.
Qed.

(** a ray through the triangle *)
Lemma hit_cross (s t0 a b : r3) (t u v : R) : rdet s t0 a b != 0 ->
  (forall p, t * rdot p s = (1 - u - v) * rdot p t0 + u * rdot p a + v * rdot p b) ->
  [/\ rt s t0 a b = t, ru s t0 a b = u & rv s t0 a b = v].
Proof.
move=> D0 H.
have E : ropp t0 = let: (x0, x1, x2) := rsub a t0 in let: (y0, y1, y2) := rsub b t0 in let: (s0, s1, s2) := s in
   (u * x0 + v * y0 - t * s0, u * x1 + v * y1 - t * s1, u * x2 + v * y2 - t * s2).
  have := H (0, 0, 1); have := H (0, 1, 0); have := H (1, 0, 0).
  move: s t0 a b {D0 H} => [[s0 s1] s2] [[t0 t1] t2] [[a0 a1] a2] [[b0 b1] b2] /=.
  rewrite !mul0r !mul1r !addr0 !add0r => -> -> ->; congr (_, _, _); ring.
have P : forall x y : R, rdet s t0 a b * x = y -> (rdet s t0 a b)^-1 * y = x by move=> x y <-; rewrite mulKf.
split; apply: P; rewrite /rdet E; move: (rsub a t0) (rsub b t0) s {D0 H E} => [[x0 x1] x2] [[y0 y1] y2] [[s0 s1] s2] /=; ring.
Qed.

Lemma sum3 (f : 'I_3 -> R) : \sum_i f i = f 0 + f 1 + f 2%:R.
Proof. by rewrite !big_ord_recl big_ord0 addr0 addrA; congr (_ + f _ + f _); apply: val_inj. Qed.

Definition rvec (x : 'cV[R]_3) : r3 := (x 0 0, x 1 0, x 2%:R 0).
Lemma rdot_col n (S : 'M[R]_(3, n)) k x : rdot (rvec x) (rcol S k) = dotv (col k S) x.
Proof. by rewrite /dotv sum3 !mxE /=; congr (_ + _ + _); rewrite mulrC. Qed.
Lemma dot_scaled n (L : 'M[R]_(3, n)) (d : 'cV[R]_n) k x : dotv (col k (scaled L d)) x = dotv (col k L) x / d k 0.
Proof. by rewrite /dotv mulr_suml; apply: eq_bigr => i _; rewrite !mxE mulrAC. Qed.

Lemma steepE n (S : 'M[R]_(3, n)) (k a b c : 'I_n) : steep S k a b c = `|rdet (rcol S k) (rcol S a) (rcol S b) (rcol S c)|.
Proof.
rewrite /steep tripleE !mxE /rdet /=; congr `|_|.
move: (S 0 k) (S 1 k) (S 2%:R k) (S 0 a) (S 1 a) (S 2%:R a) (S 0 b) (S 1 b) (S 2%:R b) (S 0 c) (S 1 c) (S 2%:R c) => *; ring.
Qed.

Lemma ray_distP (s : A) fs k : (ray_dist s fs k = x0 /\ forall f, f \in fs -> hit s k f = None) \/
  exists f, f \in fs /\ hit s k f = Some (ray_dist s fs k).
Proof.
rewrite /ray_dist; elim/last_ind: fs => [|fs f IH]; first by left.
rewrite -cats1 foldl_cat /=; case E: (hit s k f) => [t|].
  by right; exists f; rewrite mem_cat inE eqxx orbT.
case: IH => [[H1 H2]|[g [H1 H2]]].
  by left; split=> // g; rewrite mem_cat inE => /orP[/H2|/eqP->].
by right; exists g; rewrite mem_cat H1.
Qed.

(** short vectors: a small determinant *)
Lemma rdet_small n (S : 'M[R]_(3, n)) : (forall i k, `|S i k| <= 200%:R^-1) ->
  forall k a b c, `|rdet (rcol S k) (rcol S a) (rcol S b) (rcol S c)| <= tol3 R.
Proof.
move=> HS k a b c; pose e : R := 200%:R^-1.
have e0 : 0 <= e by rewrite invr_ge0 ler0n.
have H2 i x y : `|S i x - S i y| <= e + e by rewrite (le_trans (ler_norm_sub _ _)) // ler_add.
have H3 x s y : `|x| <= e + e -> `|s| <= e -> `|y| <= e + e -> `|x * (s * y)| <= (e + e) * (e * (e + e)).
  by move=> hx hs hy; rewrite !normrM !ler_pmul // mulr_ge0.
have H6 x s y s' y' : `|x| <= e + e -> `|s| <= e -> `|y| <= e + e -> `|s'| <= e -> `|y'| <= e + e ->
    `|x * (s * y - s' * y')| <= (e + e) * (e * (e + e)) + (e + e) * (e * (e + e)).
  by move=> hx hs hy hs' hy'; rewrite mulrBr (le_trans (ler_norm_sub _ _)) // ler_add // H3.
set E := (e + e) * (e * (e + e)) + (e + e) * (e * (e + e)) in H6.
rewrite /rdet /=; apply: (@le_trans _ _ (E + E + E)).
  by rewrite (le_trans (ler_norm_add _ _)) // ler_add ?H6 // (le_trans (ler_norm_add _ _)) // ler_add ?H6.
have u0 : (200%:R : R) != 0 by rewrite pnatr_eq0.
have v0 : (10%:R : R) != 0 by rewrite pnatr_eq0.
have -> : E + E + E = 24%:R * 200%:R^-1 ^+ 3 by rewrite /E /e; ring.
rewrite /tol3 exprVn ler_pdivr_mulr ?exprn_gt0 ?ltr0n // mulrC ler_pdivl_mulr ?exprn_gt0 ?ltr0n //.
have -> : (200%:R : R) ^+ 3 = 80%:R * 10%:R ^+ 5 by ring.
by rewrite ler_pmul2r ?exprn_gt0 ?ltr0n // ler_nat.
Qed.

Section Diff3.
Variables (hull : A -> res (seq (nat * nat * nat))) (n : nat) (L : 'M[R]_(3, n)) (r1 r2 : 'cV[R]_n) (fs : seq (nat * nat * nat)).
Let d := r1 - r2.
Let S := scaled L d.
Hypotheses (n1 : n != 1%N) (Hr : forall k, r2 k 0 < r1 k 0) (Hh : hull (mat S^T) = Ok fs).
Hypothesis Hi : forall a b c, (a, b, c) \in fs -> [/\ (a < n)%N, (b < n)%N & (c < n)%N].

Let Hd k : 0 < d k 0. Proof. by rewrite !mxE subr_gt0. Qed.

Lemma run_3d : sup_geom_diff_3d hull (vec r1) (vec r2) (mat L) =
  np_div (vec d) (Arr [:: n] [seq ray_dist (mat S) fs k | k <- iota 0 n]).
Proof.
rewrite /sup_geom_diff_3d checks_ok // rbind_okE scaled_ok; last by move=> k; rewrite gt_eqF.
rewrite rbind_okE np_T_mat Hh rbind_okE.
suff -> : has (fun f : nat * nat * nat => let: (a, b, c) := f in [|| n <= a, n <= b | n <= c]%N) fs = false by [].
apply/negbTE; rewrite -all_predC; apply/allP => -[[a b] c] /Hi[ha hb hc] /=.
by rewrite leqNgt ha leqNgt hb leqNgt hc.
Qed.

Lemma get_dist (k : 'I_n) : get (Arr [:: n] [seq ray_dist (mat S) fs k | k <- iota 0 n]) [:: val k] = ray_dist (mat S) fs k.
Proof. by have kn := ltn_ord k; rewrite get_arr1 ?kn // (nth_map 0%N) ?size_iota // nth_iota. Qed.

Lemma hit_value (k : 'I_n) a b c x t : (a, b, c) \in fs -> vertex L d [:: a; b; c] x -> hit (mat S) k (a, b, c) = Some t ->
  exists2 r, t = Fin r & 0 < r /\ r * dotv (col k L) x = d k 0.
Proof.
move=> /Hi[ha hb hc] [_ Hv].
rewrite -[a]/(val (Ordinal ha)) -[b]/(val (Ordinal hb)) -[c]/(val (Ordinal hc)) hitE.
case: ifP => // /and5P[H1 _ _ _ H5] [<-]; eexists => //; split=> //.
have V e (he : (e < n)%N) : e \in [:: a; b; c] -> rdot (rvec x) (rcol S (Ordinal he)) = 1.
  by move=> H; rewrite rdot_col dot_scaled Hv // divff // gt_eqF.
set r := rt _ _ _ _; suff : r * rdot (rvec x) (rcol S k) = 1.
  by rewrite rdot_col dot_scaled mulrA => /(canRL (divfK _)) ->; rewrite ?mul1r // gt_eqF.
apply: hit_facet; last 3 first; try (by apply: V; rewrite !inE eqxx ?orbT).
by rewrite -normr_gt0 (lt_trans _ H1) // /tol3 invr_gt0 exprn_gt0 // ltr0n.
Qed.

(** every direction is met: values of the support function of the polytope *)
Theorem diff_3d_values (P : nat * nat * nat -> 'cV[R]_3) :
  (forall a b c, (a, b, c) \in fs -> vertex L d [:: a; b; c] (P (a, b, c))) ->
  (forall k, exists a b c : 'I_n, [/\ (val a, val b, val c) \in fs, crosses S k a b c & 10%:R ^- 5 < steep S k a b c]) ->
  exists out : 'cV[R]_n, sup_geom_diff_3d hull (vec r1) (vec r2) (mat L) = Ok (vec out) /\
    forall k, 0 < out k 0 <= r1 k 0 - r2 k 0 /\ exists2 f, f \in fs & out k 0 = dotv (col k L) (P f).
Proof.
move=> HP Hc.
have G (k : 'I_n) : exists r f, [/\ ray_dist (mat S) fs k = Fin r, 0 < r, f \in fs & r * dotv (col k L) (P f) = d k 0].
  case: (ray_distP (mat S) fs k) => [[_ H]|[[[a b] c] [Hf Hh']]]; last first.
    by have [r -> [r0 Er]] := hit_value Hf (HP _ _ _ Hf) Hh'; exists r, (a, b, c).
  have [a [b [c [Hf [t [u [v [t0 u0 v0 uv E]]]] Hs]]]] := Hc k.
  have := H _ Hf; rewrite hitE -steepE.
  have D0 : rdet (rcol S k) (rcol S a) (rcol S b) (rcol S c) != 0.
    by rewrite -normr_gt0 -steepE (lt_trans _ Hs) // invr_gt0 exprn_gt0 // ltr0n.
  have [|-> -> ->] := @hit_cross _ _ _ _ t u v D0.
    move=> p; have Ei i : t * S i k = (1 - u - v) * S i a + u * S i b + v * S i c.
      by have /colP/(_ i) := E; rewrite !mxE.
    have E0 := Ei 0; have E1 := Ei 1; have E2 := Ei 2%:R; case: p => [[p0 p1] p2] /=.
    rewrite !mulrDr !(mulrCA t) E0 E1 E2.
    move: (S 0 a) (S 1 a) (S 2%:R a) (S 0 b) (S 1 b) (S 2%:R b) (S 0 c) (S 1 c) (S 2%:R c) => *; ring.
  have T0 : 0 <= tol3 R by rewrite invr_ge0 exprn_ge0 // ler0n.
  rewrite [tol3 R < _]Hs t0 (le_trans _ u0) ?oppr_le0 // (le_trans _ v0) ?oppr_le0 // (le_trans uv) //.
  by rewrite ler_addl.
pose out := \col_k (d k 0 / (if ray_dist (mat S) fs (val k) is Fin r then r else 1)).
exists out; split.
  rewrite run_3d /np_div np_bin_same //; congr Ok; apply: vecE => k.
  rewrite get_vec get_dist [out k 0]mxE; have [r [f [-> r0 _ _]]] := G k.
  by rewrite xdivE // gt_eqF.
move=> k; have [r [f [E r0 Hf Er]]] := G k; rewrite [out k 0]mxE E.
have -> : r1 k 0 - r2 k 0 = d k 0 by rewrite !mxE.
have Eo : d k 0 / r = dotv (col k L) (P f) by rewrite -Er mulrC mulKf // gt_eqF.
split; last by exists f.
rewrite divr_gt0 // Eo; case: f Hf {Er Eo E} => [[a b] c] Hf; by case: (HP _ _ _ Hf) => ->.
Qed.

(** large sets: no triangle is steep enough, and all values are infinite *)
Theorem diff_3d_large : (forall i k, `|L i k| * 200%:R <= r1 k 0 - r2 k 0) ->
  sup_geom_diff_3d hull (vec r1) (vec r2) (mat L) = Ok (Arr [:: n] (nseq n (@PInf R))).
Proof.
move=> HL.
have HS i k : `|S i k| <= 200%:R^-1.
  have dk : d k 0 = r1 k 0 - r2 k 0 by rewrite !mxE.
  rewrite mxE normrM normfV (gtr0_norm (Hd k)) ler_pdivr_mulr // mulrC ler_pdivl_mulr ?ltr0n //.
  by rewrite dk.
have HN (k : 'I_n) : ray_dist (mat S) fs k = x0.
  case: (ray_distP (mat S) fs k) => [[]//|[[[a b] c] [/Hi[ha hb hc]]]].
  rewrite -[a]/(val (Ordinal ha)) -[b]/(val (Ordinal hb)) -[c]/(val (Ordinal hc)) hitE.
  by rewrite ltNge (rdet_small HS).
rewrite run_3d /np_div np_bin_same //; congr Ok.
transitivity (mkn [:: n] (fun=> @PInf R)); last first.
  have E : size (indices [:: n]) = n by rewrite size_indices /prodn /= muln1.
  by rewrite /mkn; congr Arr; rewrite -[in RHS]E; clear E; elim: (indices [:: n]) => [|i l /= ->].
apply: (@mkn_ext _ [:: n]) => idx /valid1[k ->]; rewrite get_vec get_dist HN /= eqxx.
by have H := Hd k; rewrite gt_eqF // H.
Qed.

(** without any assumption on the triangles met *)
Theorem diff_3d_any (P : nat * nat * nat -> 'cV[R]_3) :
  (forall a b c, (a, b, c) \in fs -> vertex L d [:: a; b; c] (P (a, b, c))) ->
  exists out : A, [/\ sup_geom_diff_3d hull (vec r1) (vec r2) (mat L) = Ok out, shape out = [:: n] &
    forall k : 'I_n, get out [:: val k] = PInf \/
      exists2 f, f \in fs & get out [:: val k] = Fin (dotv (col k L) (P f)) /\ 0 < dotv (col k L) (P f) <= r1 k 0 - r2 k 0].
Proof.
move=> HP; rewrite run_3d /np_div np_bin_same //; eexists; split; [by []|by []|].
move=> k; rewrite getn_mkn; last by rewrite /= ltn_ord.
rewrite get_vec get_dist; case: (ray_distP (mat S) fs k) => [[-> _]|[[[a b] c] [Hf Hh']]].
  by left; rewrite /= eqxx; have H := Hd k; rewrite gt_eqF // H.
right; exists (a, b, c) => //; have [r -> [r0 Er]] := hit_value Hf (HP _ _ _ Hf) Hh'.
have [Hl _] := HP _ _ _ Hf.
have Eo : d k 0 / r = dotv (col k L) (P (a, b, c)) by rewrite -Er mulrC mulKf // gt_eqF.
have dk : d k 0 = r1 k 0 - r2 k 0 by rewrite !mxE.
by rewrite xdivE ?gt_eqF // Eo -dk Hl -Eo divr_gt0.
Qed.
End Diff3.
End Space.
