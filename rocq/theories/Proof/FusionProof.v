(** Proofs for ell_fusion_lambda. *)
From mathcomp Require Import all_ssreflect all_algebra.
From mathcomp.algebra_tactics Require Import ring.
From mathcomp.zify Require Import zify.
From Verif.Model Require Import Py NP Linalg Fusion.
From Verif.Spec Require Import MatSpec LinalgSpec FusionSpec.
From Verif.Proof Require Import NPLib MatLib.
Set Implicit Arguments.
Unset Strict Implicit.
Unset Printing Implicit Defensive.
Import Order.Theory GRing.Theory Num.Theory.
Local Open Scope ring_scope.

(** ------------------------------------------------------------------ derivatives with a quadratic remainder *)
Section Calculus.
Variable R : rcfType.
Implicit Types (g f : R -> R) (a l m h K : R).

Definition sd g a l : Prop :=
  exists2 K, 1 <= K & forall h, `|h| * K <= 1 -> `|g (a + h) - g a - l * h| <= K * h ^+ 2.

Lemma sd_weaken g a l K K' : 1 <= K -> K <= K' -> (forall h, `|h| * K <= 1 -> `|g (a + h) - g a - l * h| <= K * h ^+ 2) ->
  forall h, `|h| * K' <= 1 -> `|g (a + h) - g a - l * h| <= K' * h ^+ 2.
Proof.
move=> K1 KK H h Hh; apply: le_trans (H h _) _; first by apply: le_trans Hh; rewrite ler_wpmul2l.
by rewrite ler_wpmul2r ?sqr_ge0.
Qed.

Lemma sd_derivative g a l : sd g a l -> derivative g a l.
Proof.
move=> [K K1 H] eps e0; have K0 : 0 < K by apply: lt_le_trans K1; rewrite ltr01.
exists (Num.min K^-1 (eps / K)); first by rewrite lt_minr invr_gt0 K0 divr_gt0.
move=> h; rewrite lt_minr => /andP[h1 h2]; apply: le_trans (H h _) _.
  by rewrite -ler_pdivl_mulr // mul1r ltW.
rewrite -real_normK ?num_real // expr2 mulrA ler_wpmul2r //.
by rewrite mulrC -ler_pdivl_mulr // ltW.
Qed.

Lemma sd_ext g f a l : (forall x, g x = f x) -> sd g a l -> sd f a l.
Proof. by move=> E [K K1 H]; exists K => // h Hh; rewrite -!E; apply: H. Qed.
Lemma sd_const c a : sd (fun=> c) a 0.
Proof. by exists 1 => // h _; rewrite subrr mul0r subr0 normr0 mul1r sqr_ge0. Qed.

Lemma small_le1 K h : 1 <= K -> `|h| * K <= 1 -> `|h| <= 1.
Proof. by move=> K1; apply: le_trans; rewrite -{1}[`|h|]mulr1 ler_wpmul2l. Qed.

Lemma sd_mul g f a l m : sd g a l -> sd f a m -> sd (fun x => g x * f x) a (l * f a + g a * m).
Proof.
move=> [K1 K11 H1] [K2 K21 H2]; set K := Num.max K1 K2.
have K1l : 1 <= K by rewrite le_maxr K11.
have {}H1 := sd_weaken K11 (_ : K1 <= K) H1; have {}H2 := sd_weaken K21 (_ : K2 <= K) H2.
have {}H1 := H1 ltac:(by rewrite le_maxr lexx); have {}H2 := H2 ltac:(by rewrite le_maxr lexx orbT).
set G := g a; set F := f a; set B := K * `|F| + `|G| * K + `|l| * `|m| + `|l| * K + `|m| * K + K * K.
exists (Num.max K B); first by rewrite le_maxr K1l.
move=> h Hh; have Hk : `|h| * K <= 1 by apply: le_trans Hh; rewrite ler_wpmul2l // le_maxr lexx.
have h1 := small_le1 K1l Hk; have := H1 h Hk; have := H2 h Hk; rewrite -/G -/F.
set e2 := f (a + h) - F - m * h; set e1 := g (a + h) - G - l * h => E2 E1.
have K0 : 0 <= K by apply: le_trans K1l; rewrite ler01.
have -> : g (a + h) * f (a + h) - G * F - (l * F + G * m) * h =
    e1 * F + G * e2 + (l * h) * (m * h) + (l * h) * e2 + (m * h) * e1 + e1 * e2.
  by rewrite /e1 /e2; ring.
have hh : `|h| ^+ 2 = h ^+ 2 by rewrite real_normK ?num_real.
have hs : h ^+ 2 <= 1 by rewrite -hh expr_le1.
have N1 : `|e1| <= K by apply: le_trans E1 _; rewrite -{2}[K]mulr1 ler_wpmul2l.
apply: le_trans (_ : B * h ^+ 2 <= _); last by rewrite ler_wpmul2r ?sqr_ge0 // le_maxr lexx orbT.
have T x y u v : `|x| <= u -> `|y| <= v -> `|x + y| <= u + v.
  by move=> Hx Hy; apply: le_trans (ler_norm_add _ _) _; apply: ler_add.
rewrite /B; clearbody e1 e2; rewrite !mulrDl.
apply: (T); [apply: (T); [apply: (T); [apply: (T); [apply: (T)|]|]|]|]; rewrite !normrM.
- by rewrite mulrAC ler_wpmul2r.
- by rewrite -mulrA ler_wpmul2l.
- by rewrite mulrACA -expr2 hh.
- rewrite -!mulrA ler_wpmul2l //; apply: le_trans E2; by rewrite -{2}[`|e2|]mul1r ler_wpmul2r.
- rewrite -!mulrA ler_wpmul2l //; apply: le_trans E1; by rewrite -{2}[`|e1|]mul1r ler_wpmul2r.
- by rewrite -mulrA; apply: ler_pmul.
Qed.

Lemma sd_exp g a l n : sd g a l -> sd (fun x => g x ^+ n.+1) a (n.+1%:R * g a ^+ n * l).
Proof.
move=> H; elim: n => [|n IH]; first by rewrite expr0 mulr1 mul1r; apply: sd_ext H => x; rewrite expr1.
have := sd_mul H IH; rewrite (_ : l * _ + _ = n.+2%:R * g a ^+ n.+1 * l).
  by apply: sd_ext => x; rewrite -exprS.
by rewrite [n.+2%:R]mulrS !exprS; ring.
Qed.

Lemma sd_inv g a l : g a != 0 -> sd g a l -> sd (fun x => (g x)^-1) a (- l / g a ^+ 2).
Proof.
set G := g a => G0 [K K1 H]; have N0 : 0 < `|G| by rewrite normr_gt0.
set L := `|l| + K; have L1 : 1 <= L by rewrite -[1]add0r ler_add.
set B := 2%:R * (`|G| * K + `|l| * L) / (`|G| ^+ 3).
exists (Num.max (Num.max K (2%:R * L / `|G|)) B); first by rewrite !le_maxr K1.
move=> h Hh; have Hk : `|h| * K <= 1 by apply: le_trans Hh; rewrite ler_wpmul2l // !le_maxr lexx.
have Hl : `|h| * (2%:R * L / `|G|) <= 1 by apply: le_trans Hh; rewrite ler_wpmul2l // !le_maxr lexx orbT.
have h1 := small_le1 K1 Hk; have := H h Hk; rewrite -/G; set e := g (a + h) - G - l * h => E.
have EG : g (a + h) = G + (l * h + e) by rewrite /e; ring.
have hh : `|h| ^+ 2 = h ^+ 2 by rewrite real_normK ?num_real.
have Hd : `|l * h + e| <= L * `|h|.
  apply: le_trans (ler_norm_add _ _) _; rewrite /L mulrDl normrM ler_add // (le_trans E) // ler_wpmul2l ?(le_trans _ K1) ?ler01 //.
  by rewrite -hh expr2 -{3}[`|h|]mul1r ler_wpmul2r.
have Hh2 : L * `|h| <= `|G| / 2%:R.
  rewrite ler_pdivl_mulr ?ltr0n //; move: Hl; rewrite mulrA ler_pdivr_mulr // mul1r; congr (_ <= _); ring.
have Gh : `|G| / 2%:R <= `|g (a + h)|.
  have : `|G| <= `|g (a + h)| + `|l * h + e|.
    by have -> : G = g (a + h) - (l * h + e) by [rewrite EG; ring]; apply: ler_norm_sub.
  rewrite -ler_subl_addr => /(le_trans _); apply; rewrite ler_subr_addr.
  have {2}-> : `|G| = `|G| / 2%:R + `|G| / 2%:R by field.
  by rewrite ler_add2l (le_trans Hd).
have Gh0 : g (a + h) != 0 by rewrite -normr_gt0 (lt_le_trans _ Gh) // divr_gt0 ?ltr0n.
have -> : (g (a + h))^-1 - G^-1 - - l / G ^+ 2 * h = (- G * e + l * h * (l * h + e)) / (G ^+ 2 * g (a + h)).
  have -> : e = g (a + h) - G - l * h by []. 
  by field; rewrite G0 Gh0.
apply: le_trans (_ : B * h ^+ 2 <= _); last by rewrite ler_wpmul2r ?sqr_ge0 // le_maxr lexx orbT.
rewrite normrM normfV ler_pdivr_mulr ?normr_gt0 ?mulf_neq0 ?expf_neq0 //.
apply: le_trans (_ : (`|G| * K + `|l| * L) * h ^+ 2 <= _).
  rewrite mulrDl; apply: le_trans (ler_norm_add _ _) _; apply: ler_add; rewrite !normrM ?normrN.
    by rewrite -mulrA ler_wpmul2l.
  by rewrite -!mulrA ler_wpmul2l // mulrC -hh expr2 mulrA ler_wpmul2r.
rewrite normrM normrX; set C := `|G| * K + `|l| * L.
have C0 : 0 <= C by rewrite addr_ge0 ?mulr_ge0 ?(le_trans _ K1) ?(le_trans _ L1) ?ler01.
rewrite /B -/C; apply: le_trans (_ : 2%:R * C / `|G| ^+ 3 * h ^+ 2 * (`|G| ^+ 2 * (`|G| / 2%:R)) <= _).
  have G1 : `|G| != 0 by rewrite gt_eqF.
  by rewrite [X in _ <= X](_ : _ = C * h ^+ 2) //; field.
apply: ler_wpmul2l; last by apply: ler_wpmul2l => //; apply: exprn_ge0.
by apply: mulr_ge0; [apply: divr_ge0; [apply: mulr_ge0; rewrite ?ler0n|apply: exprn_ge0] | exact: sqr_ge0].
Qed.

(** the derivative is unique *)
Lemma derivative_uniq g a l m : derivative g a l -> derivative g a m -> l = m.
Proof.
move=> Hl Hm; apply/eqP; rewrite -subr_eq0 -normr_le0 leNgt; apply/negP; set e := `|l - m| => e0.
have e3 : 0 < e / 3%:R by rewrite divr_gt0 ?ltr0n.
have [d1 d10 H1] := Hl _ e3; have [d2 d20 H2] := Hm _ e3.
pose h := Num.min d1 d2 / 2%:R; have m0 : 0 < Num.min d1 d2 by rewrite lt_minr d10.
have h0 : 0 < h by rewrite divr_gt0 ?ltr0n.
have hm : h < Num.min d1 d2 by rewrite ltr_pdivr_mulr ?ltr0n // mulr_natr mulr2n ltr_addl.
have nh : `|h| = h by rewrite gtr0_norm.
have {}H1 := H1 h ltac:(by rewrite nh (lt_le_trans hm) // le_minl lexx).
have {}H2 := H2 h ltac:(by rewrite nh (lt_le_trans hm) // le_minl lexx orbT).
rewrite nh in H1 H2; have : `|(l - m) * h| <= e / 3%:R * h + e / 3%:R * h.
  have -> : (l - m) * h = (g (a + h) - g a - m * h) - (g (a + h) - g a - l * h) by ring.
  by apply: le_trans (ler_norm_sub _ _) _; apply: ler_add.
rewrite normrM nh -/e -mulrDl ler_pmul2r // => H.
have : e * 3%:R <= e * 2%:R.
  by move: H; rewrite -mulrDl ler_pdivl_mulr ?ltr0n //; congr (_ <= _); ring.
by rewrite ler_pmul2l // ler_nat.
Qed.
End Calculus.

(** ------------------------------------------------------------------ determinants and quadratic functions *)
Section Fusion.
Variable R : rcfType.

Lemma char_at n (M : 'M[R]_n) x : (char_poly M).[x] = \det (x%:M - M).
Proof.
rewrite -horner_evalE /char_poly -det_map_mx; congr (\det _); apply/matrixP => i j.
rewrite mxE [LHS]horner_evalE !mxE hornerD hornerN hornerC; congr (_ - _).
by case: (i == j); rewrite ?mulr1n ?mulr0n ?hornerX ?horner0.
Qed.
(** det (I + h M) = 1 + h tr M + O(h^2) *)
Lemma det_expand n (M : 'M[R]_n) h : h != 0 -> (0 < n)%N ->
  \det (1%:M + h *: M) = \sum_(i < n.+1) (char_poly (- M))`_i * h ^+ (n - i).
Proof.
move=> h0 n0; have -> : 1%:M + h *: M = h *: (h^-1%:M - (- M)).
  by rewrite opprK scalerDr scale_scalar_mx mulfV.
rewrite detZ -char_at.
rewrite horner_coef (_ : size _ = n.+1); last by rewrite size_char_poly.
rewrite mulr_sumr; apply: eq_bigr => i _; rewrite mulrCA; congr (_ * _).
have le : (i <= n)%N by rewrite -ltnS.
by rewrite -{1}(subnK le) exprD -mulrA exprVn mulfV ?mulr1 // expf_neq0.
Qed.
Lemma det_first n (M : 'M[R]_n) : (0 < n)%N ->
  exists2 C, 0 <= C & forall h, `|h| <= 1 -> `|\det (1%:M + h *: M) - 1 - h * \tr M| <= C * h ^+ 2.
Proof.
case: n M => // n M _; set c := char_poly (- M).
have cn : c`_n.+1 = 1 by have := char_poly_monic (- M); rewrite monicE lead_coefE size_char_poly => /eqP.
have ct : c`_n = \tr M by have := char_poly_trace (- M) (ltn0Sn n); rewrite linearN opprK.
exists (\sum_(i < n) `|c`_i|); first by apply: sumr_ge0 => i _; exact: normr_ge0.
move=> h h1; have [->|h0] := eqVneq h 0.
  by rewrite scale0r addr0 det1 subrr mul0r subr0 normr0 expr0n mulr0.
rewrite det_expand // 2!big_ord_recr /= subnn expr0 mulr1 cn subSnn expr1 ct.
rewrite -/c; have E (S t : R) : S + t * h + 1 - 1 - h * t = S by ring.
rewrite E.
apply: le_trans (ler_norm_sum _ _ _) _; rewrite mulr_suml; apply: ler_sum => i _.
rewrite normrM ler_wpmul2l // normrX.
have -> : (n.+1 - i = 2 + (n.-1 - i))%N.
  by have := ltn_ord i; clear; move: (nat_of_ord i) => j; lia.
by rewrite exprD real_normK ?num_real // -{2}[h ^+ 2]mulr1 ler_wpmul2l ?sqr_ge0 // exprn_ile1.
Qed.

(** quadratic functions *)
Section Quad.
Variables (n : nat) (q1 : 'cV[R]_n) (Q1 : 'M[R]_n) (q2 : 'cV[R]_n) (Q2 : 'M[R]_n).
Hypotheses (S1 : symm Q1) (S2 : symm Q2).
Notation W := (fus_mat Q1 Q2).
Notation ctr := (fus_center q1 Q1 q2 Q2).
Notation lev := (fus_level q1 Q1 q2 Q2).
Notation fu := (fused q1 Q1 q2 Q2).
Definition bvec a : 'cV[R]_n := a *: (Q1 *m q1) + (1 - a) *: (Q2 *m q2).

Lemma qf_sub (Q : 'M[R]_n) x y : symm Q -> qf Q (x - y) = qf Q x - 2%:R * dotv (Q *m y) x + qf Q y.
Proof.
move=> HQ; rewrite /qf mulmxBr dotvBl !dotvBr.
have -> : dotv x (Q *m y) = dotv (Q *m y) x by rewrite dotvC.
have -> : dotv y (Q *m x) = dotv (Q *m y) x by rewrite dotv_mulr HQ.
ring.
Qed.
Lemma qf_add (Q : 'M[R]_n) x y : symm Q -> qf Q (x + y) = qf Q x + 2%:R * dotv (Q *m y) x + qf Q y.
Proof.
move=> HQ; have := qf_sub x (- y) HQ; rewrite opprK => ->.
have -> : qf Q (- y) = qf Q y by rewrite /qf mulmxN dotvNl dotvNr opprK.
by rewrite mulmxN dotvNl; ring.
Qed.

Lemma fus_symm a : symm (W a).
Proof. by rewrite /symm /fus_mat linearD !linearZ /= S1 S2. Qed.

Lemma fusedE a x : fu a x = qf (W a) x - 2%:R * dotv (bvec a) x + (a * qf Q1 q1 + (1 - a) * qf Q2 q2).
Proof. by rewrite /fused !qf_sub // /fus_mat qfD !qfZ /bvec dotvDl !dotvZl; ring. Qed.

Section At.
Variable a : R.
Hypothesis U : W a \in unitmx.
Lemma fus_eq : W a *m ctr a = bvec a. Proof. by rewrite mulmxA mulmxV // mul1mx. Qed.
Lemma fused_center : fu a (ctr a) = a * qf Q1 q1 + (1 - a) * qf Q2 q2 - dotv (bvec a) (ctr a).
Proof. by rewrite fusedE {1}/qf fus_eq (dotvC (ctr a)); ring. Qed.
(** completing the square *)
Lemma fused_square x : fu a x = qf (W a) (x - ctr a) + (1 - lev a).
Proof.
rewrite /fus_level qf_sub ?fus_eq; last exact: fus_symm.
have -> : qf (W a) (ctr a) = dotv (bvec a) (ctr a) by rewrite /qf fus_eq dotvC.
by rewrite fused_center fusedE; ring.
Qed.
Lemma levE : lev a = 1 - a * qf Q1 q1 - (1 - a) * qf Q2 q2 + dotv (bvec a) (ctr a).
Proof. by rewrite /fus_level fused_center; ring. Qed.

(** the formula of the code *)
Lemma lev_code : lev a = 1 - a * (1 - a) * dotv (q2 - q1) (Q2 *m (invmx (W a) *m (Q1 *m (q2 - q1)))).
Proof.
set Y := invmx _; have HY : Y^T = Y by rewrite /Y trmx_inv fus_symm.
rewrite /fus_level; congr (_ - _); set u := ctr a - q1; set v := ctr a - q2; set d := q2 - q1.
have Ew x : W a *m x = a *: (Q1 *m x) + (1 - a) *: (Q2 *m x) by rewrite mulmxDl -!scalemxAl.
have Ed : d = u - v by rewrite /d /u /v; apply/matrixP => i j; rewrite !mxE; ring.
have E0 : a *: (Q1 *m u) = - ((1 - a) *: (Q2 *m v)).
  apply/eqP; rewrite -addr_eq0; apply/eqP.
  rewrite /u /v !mulmxBr !scalerBr addrACA -Ew fus_eq /bvec; apply/matrixP => i j; rewrite !mxE; ring.
have Eu : u = (1 - a) *: (Y *m (Q2 *m d)).
  have -> : u = Y *m (W a *m u) by rewrite mulmxA mulVmx // mul1mx.
  by rewrite Ew E0 addrC -scalerBr -mulmxBr -Ed -scalemxAr.
rewrite /fused -/u -/v {1}/qf -dotvZr {1}/qf -dotvZr -[(1 - a) *: _]opprK -E0 dotvNr -dotvBl -Ed.
rewrite {1}Eu -!scalemxAr !dotvZr mulrA; congr (_ * _).
by rewrite [LHS](dotv_mulr Q1) S1 [LHS](dotv_mulr Y) HY [LHS](dotv_mulr Q2) S2 dotvC.
Qed.
End At.

(** the derivative of the level *)
Definition dlev a : R :=
  2%:R * dotv (ctr a) (Q1 *m q1) - 2%:R * dotv (ctr a) (Q2 *m q2) + qf (Q2 - Q1) (ctr a) - qf Q1 q1 + qf Q2 q2.

Lemma lin_step m (u v : 'M[R]_(n, m)) a h :
  (a + h) *: u + (1 - (a + h)) *: v = a *: u + (1 - a) *: v + h *: (u - v).
Proof. by apply/matrixP => i j; rewrite !mxE; move: (u i j) (v i j) => x y; ring. Qed.
Lemma W_step a h : W (a + h) = W a + h *: (Q1 - Q2).
Proof. exact: lin_step. Qed.
Lemma b_step a h : bvec (a + h) = bvec a + h *: (Q1 *m q1 - Q2 *m q2).
Proof. exact: lin_step. Qed.

Lemma lev_step a h : W a \in unitmx -> W (a + h) \in unitmx ->
  let r := Q1 *m q1 - Q2 *m q2 - (Q1 - Q2) *m ctr a in
  lev (a + h) - lev a - dlev a * h = h ^+ 2 * dotv r (invmx (W (a + h)) *m r).
Proof.
move=> U Uh r; set Y := invmx _; set q := ctr a; set b' := Q1 *m q1 - Q2 *m q2.
have HY : Y^T = Y by rewrite /Y trmx_inv fus_symm.
have Eq : ctr (a + h) = q + h *: (Y *m r).
  rewrite /fus_center -/(bvec _) -/Y; have -> : bvec (a + h) = W (a + h) *m q + h *: r.
    by rewrite W_step mulmxDl fus_eq // b_step /r -/b' -/q -scalemxAl -addrA -scalerDr addrC [(Q1 - Q2) *m q + _]addrC subrK addrC.
  by rewrite mulmxDr mulmxA mulVmx // mul1mx -scalemxAr.
have E1 : dotv (bvec (a + h)) (Y *m r) = dotv (ctr (a + h)) r.
  by rewrite dotv_mulr HY.
rewrite !levE // {1}Eq dotvDr dotvZr E1 Eq dotvDl dotvZl b_step -/b' dotvDl dotvZl.
rewrite (dotvC (Y *m r)) /dlev -/q /r -/b'; set Z := dotv _ (Y *m _).
have -> : dotv q (b' - (Q1 - Q2) *m q) = dotv b' q - qf (Q1 - Q2) q by rewrite dotvBr (dotvC q b').
have -> : qf (Q2 - Q1) q = - qf (Q1 - Q2) q by rewrite -qfN opprB.
have -> : dotv b' q = dotv q (Q1 *m q1) - dotv q (Q2 *m q2) by rewrite dotvC dotvBr.
ring.
Qed.
(** a bound on the solutions of nearby systems *)
Definition sum1 (x : 'cV[R]_n) : R := \sum_i `|x i 0|.
Lemma sum1_ge0 x : 0 <= sum1 x. Proof. by apply: sumr_ge0 => i _; exact: normr_ge0. Qed.
Lemma sum1_sub x y : sum1 (x - y) <= sum1 x + sum1 y.
Proof. by rewrite /sum1 -big_split; apply: ler_sum => i _; rewrite !mxE; apply: ler_norm_sub. Qed.
Lemma entry_sum1 (x : 'cV[R]_n) i : `|x i 0| <= sum1 x.
Proof. by rewrite /sum1 (bigD1 i) //= ler_addl sumr_ge0 // => j _; exact: normr_ge0. Qed.
Lemma sum1_mul (M : 'M[R]_n) x : sum1 (M *m x) <= (\sum_i \sum_j `|M i j|) * sum1 x.
Proof.
rewrite /sum1 mulr_suml; apply: ler_sum => i _; rewrite mxE mulr_suml.
by apply: le_trans (ler_norm_sum _ _ _) _; apply: ler_sum => j _; rewrite normrM ler_wpmul2l // entry_sum1.
Qed.
Lemma dotv_sum1 x y : `|dotv x y| <= sum1 x * sum1 y.
Proof.
apply: le_trans (ler_norm_sum _ _ _) _; rewrite /sum1 mulr_suml; apply: ler_sum => i _.
by rewrite normrM ler_wpmul2l // entry_sum1.
Qed.

Lemma near_solution (M E : 'M[R]_n) (r : 'cV[R]_n) : M \in unitmx -> exists2 K, 1 <= K &
  forall h, `|h| * K <= 1 -> M + h *: E \in unitmx -> `|dotv r (invmx (M + h *: E) *m r)| <= K.
Proof.
move=> UM; set Y := invmx M; set m := \sum_i \sum_j `|(Y *m E) i j|.
have m0 : 0 <= m by apply: sumr_ge0 => i _; apply: sumr_ge0 => j _; exact: normr_ge0.
set B := sum1 r * (2%:R * sum1 (Y *m r)).
have B0 : 0 <= B by rewrite !mulr_ge0 ?sum1_ge0 ?ler0n.
exists (1 + 2%:R * m + B); first by rewrite -addrA ler_addl addr_ge0 // mulr_ge0 ?ler0n.
move=> h Hh U; set z := invmx _ *m r.
have Hm : `|h| * m <= 1 / 2%:R.
  rewrite ler_pdivl_mulr ?ltr0n // -mulrA; apply: le_trans Hh; rewrite ler_wpmul2l //.
  by rewrite [m * _]mulrC addrAC ler_addr addr_ge0 ?ler01.
have Ez : z = Y *m r - h *: ((Y *m E) *m z).
  have : (M + h *: E) *m z = r by rewrite mulmxA mulmxV // mul1mx.
  move/(congr1 (mulmx Y)); rewrite mulmxDl mulmxDr mulmxA mulVmx // mul1mx => <-.
  by rewrite -scalemxAl -scalemxAr -!mulmxA addrK.
have Hz : sum1 z <= 2%:R * sum1 (Y *m r).
  have : sum1 z <= sum1 (Y *m r) + 1 / 2%:R * sum1 z.
    rewrite {1}Ez; apply: le_trans (sum1_sub _ _) _; rewrite ler_add2l.
    have -> : sum1 (h *: (Y *m E *m z)) = `|h| * sum1 (Y *m E *m z).
      by rewrite /sum1 mulr_sumr; apply: eq_bigr => i _; rewrite mxE normrM.
    apply: le_trans (_ : `|h| * (m * sum1 z) <= _); first by rewrite ler_wpmul2l // sum1_mul.
    by rewrite mulrA ler_wpmul2r // sum1_ge0.
  rewrite -ler_subl_addr => H; have -> : sum1 z = 2%:R * (sum1 z - 1 / 2%:R * sum1 z) by field.
  by rewrite ler_wpmul2l ?ler0n.
apply: le_trans (dotv_sum1 _ _) _; apply: le_trans (_ : B <= _); last first.
  by rewrite ler_addr addr_ge0 ?ler01 // mulr_ge0 ?ler0n.
by rewrite ler_wpmul2l ?sum1_ge0.
Qed.

Hypothesis n0 : (0 < n)%N.

Lemma W_stepM a h : W a \in unitmx -> W (a + h) = W a *m (1%:M + h *: (invmx (W a) *m (Q1 - Q2))).
Proof. by move=> U; rewrite W_step mulmxDr mulmx1 -scalemxAr mulmxA mulmxV // mul1mx. Qed.

Lemma sd_det a : W a \in unitmx -> sd (fun t => \det (W t)) a (\det (W a) * \tr (invmx (W a) *m (Q1 - Q2))).
Proof.
move=> U; set M := invmx _ *m _; have [C C0 H] := det_first M n0.
exists (1 + `|\det (W a)| * C); first by rewrite ler_addl mulr_ge0.
move=> h Hh; have h1 : `|h| <= 1 by apply: small_le1 Hh; rewrite ler_addl mulr_ge0.
rewrite W_stepM // det_mulmx -/M.
have E (x d t : R) : x * d - x - x * t * h = x * (d - 1 - h * t) by ring.
rewrite E normrM; apply: le_trans (_ : `|\det (W a)| * (C * h ^+ 2) <= _); first by rewrite ler_wpmul2l // H.
by rewrite mulrA ler_wpmul2r ?sqr_ge0 // ler_addr ler01.
Qed.

(** nearby matrices are invertible *)
Lemma near_unit a : W a \in unitmx -> exists2 K, 1 <= K & forall h, `|h| * K <= 1 -> W (a + h) \in unitmx.
Proof.
move=> U; have D0 : \det (W a) != 0 by move: U; rewrite unitmxE unitfE.
have [K K1 H] := sd_det U; set l := _ * \tr _ in H; set D := \det (W a) in D0 H.
have N0 : 0 < `|D| by rewrite normr_gt0.
exists (K + 2%:R * (`|l| + K) / `|D|).
  by apply: le_trans (K1) _; rewrite ler_addl divr_ge0 // mulr_ge0 ?ler0n // addr_ge0 // (le_trans _ K1) // ler01.
move=> h Hh; rewrite unitmxE unitfE; apply/eqP => E.
have K0 : 0 <= K by apply: le_trans K1; rewrite ler01.
have q0 : 0 <= 2%:R * (`|l| + K) / `|D| by rewrite divr_ge0 // mulr_ge0 ?ler0n // addr_ge0.
have Hk : `|h| * K <= 1 by apply: le_trans Hh; rewrite ler_wpmul2l // ler_addl.
have h1 := small_le1 K1 Hk; have := H h Hk; rewrite E sub0r => He.
have hh : `|h| ^+ 2 = h ^+ 2 by rewrite real_normK ?num_real.
have : `|D| <= (`|l| + K) * `|h|.
  have -> : D = - (- D - l * h) - l * h by ring.
  apply: le_trans (ler_norm_sub _ _) _; rewrite normrN normrM addrC mulrDl; apply: ler_add => //.
  apply: le_trans He _; rewrite ler_wpmul2l // -hh expr2 -{3}[`|h|]mul1r ler_wpmul2r //.
have : `|h| * (2%:R * (`|l| + K) / `|D|) <= 1 by apply: le_trans Hh; rewrite ler_wpmul2l // ler_addr.
rewrite mulrA ler_pdivr_mulr // mul1r => H1 H2.
have : 2%:R * `|D| <= `|D|.
  apply: le_trans H1; rewrite [X in _ <= X]mulrCA ler_wpmul2l ?ler0n //; by rewrite mulrC.
by rewrite -{2}[`|D|]mul1r ler_pmul2r // (ler_nat R 2 1).
Qed.

Lemma sd_lev a : W a \in unitmx -> sd lev a (dlev a).
Proof.
move=> U; set r := Q1 *m q1 - Q2 *m q2 - (Q1 - Q2) *m ctr a.
have [K K1 H] := near_unit U; have [K' K1' H'] := near_solution (Q1 - Q2) r U.
exists (Num.max K K'); first by rewrite le_maxr K1.
move=> h Hh; have Hk : `|h| * K <= 1 by apply: le_trans Hh; rewrite ler_wpmul2l // le_maxr lexx.
have Hk' : `|h| * K' <= 1 by apply: le_trans Hh; rewrite ler_wpmul2l // le_maxr lexx orbT.
rewrite lev_step ?H // -/r normrM ger0_norm ?sqr_ge0 // mulrC ler_wpmul2r ?sqr_ge0 // le_maxr; apply/orP; right.
by have := H' h Hk'; rewrite -W_step => /(_ (H h Hk)).
Qed.

Definition fus_f a : R := lev a * \det (W a) * \tr (\det (W a) *: invmx (W a) *m (Q1 - Q2)) - n%:R * \det (W a) ^+ 2 * dlev a.

Lemma vol2_derivative a : W a \in unitmx ->
  derivative (fus_vol2 q1 Q1 q2 Q2) a (- lev a ^+ n.-1 * fus_f a / \det (W a) ^+ 3).
Proof.
move=> U; have D0 : \det (W a) != 0 by move: U; rewrite unitmxE unitfE.
apply: sd_derivative; have := sd_mul (sd_exp n.-1 (sd_lev U)) (sd_inv D0 (sd_det U)); rewrite prednK //.
rewrite (_ : _ + _ = - lev a ^+ n.-1 * fus_f a / \det (W a) ^+ 3).
  by apply: sd_ext => x; rewrite /fus_vol2 detZ det_inv.
rewrite /fus_f -scalemxAl mxtraceZ (_ : lev a ^+ n = lev a * lev a ^+ n.-1); last by rewrite -exprS prednK.
move: D0; move: (\det _) (\tr _) (lev a) (dlev a) => D t L l D0; move: (L ^+ n.-1) (n%:R : R) => L' N; by field.
Qed.

(** ------------------------------------------------------------------ the code *)
Variable la : linalg R.
Hypotheses (Hinv : inv_ok la) (Hdet : det_ok la).

Lemma dot11 (u v : 'cV[R]_n) : u^T *m v = (dotv u v)%:M.
Proof. exact: dotv_outer. Qed.

Lemma map11 (x : R) (g : xnum R -> xnum R) y : g (Fin x) = Fin y -> np_map g (mat (x%:M : 'M[R]_1)) = mat (y%:M : 'M[R]_1).
Proof. by move=> E; rewrite np_map_mkn; apply: matE => i j; rewrite /= mxgetE !ord1 !mxE eqxx !mulr1n. Qed.

Lemma fusion_run a : W a \in unitmx ->
  ell_fusion_lambda la (Fin a) (mat q1) (mat Q1) (mat q2) (mat Q2) n = Ok (mat ((fus_f a)%:M : 'M[R]_1)).
Proof.
move=> U; set Y := invmx (W a); have HY : Y^T = Y by rewrite /Y trmx_inv fus_symm.
rewrite /ell_fusion_lambda /form3 /=.
rewrite !np_scale_mat np_add_mat rbind_okE -/(W a) Hinv // U -/Y rbind_okE np_T_mat np_add_mat rbind_okE np_scale_mat HY.
have -> : 1 / 2%:R *: (Y + Y) = Y by apply/matrixP => i j; rewrite !mxE; move: (Y i j) => y; field.
rewrite np_sub_mat rbind_okE np_T_mat np_scale_mat !(np_matmul_mm, rbind_okE).
rewrite np_add_mat rbind_okE np_matmul_mm rbind_okE Hdet rbind_okE np_sub_mat rbind_okE.
rewrite np_scale_mat np_matmul_mm rbind_okE np_trace_mat rbind_okE.
rewrite !np_T_mat !np_scale_mat !(np_matmul_mm, rbind_okE, np_sub_mat, np_add_mat).
have Ec : Y *m ((a *: Q1) *m q1 + ((1 - a) *: Q2) *m q2) = ctr a by rewrite -!scalemxAl.
rewrite Ec.
have T1 (c : R) (u v : 'cV[R]_n) (M : 'M[R]_n) : (c *: u^T) *m M *m v = (c * dotv u (M *m v))%:M.
  by rewrite -!scalemxAl -mulmxA dot11 scale_scalar_mx.
have T2 (u v : 'cV[R]_n) (M : 'M[R]_n) : u^T *m M *m v = (dotv u (M *m v))%:M.
  by rewrite -mulmxA dot11.
have -> : (a * (1 - a)) *: (q2 - q1)^T *m Q2 *m Y *m Q1 *m (q2 - q1) =
    (a * (1 - a) * dotv (q2 - q1) (Q2 *m (Y *m (Q1 *m (q2 - q1)))))%:M.
  by rewrite -!scalemxAl -!mulmxA dot11 scale_scalar_mx.
rewrite (@map11 _ _ (lev a)); last by rewrite (lev_code U).
rewrite (@map11 _ _ (lev a * \det (W a) * \tr (\det (W a) *: Y *m (Q1 - Q2)))) // !T1 !T2.
have -> : (2%:R * dotv (ctr a) (Q1 *m q1))%:M - (2%:R * dotv (ctr a) (Q2 *m q2))%:M +
    (dotv (ctr a) ((Q2 - Q1) *m ctr a))%:M - (dotv q1 (Q1 *m q1))%:M + (dotv q2 (Q2 *m q2))%:M = (dlev a)%:M :> 'M[R]_1.
  by rewrite -!(raddfB, raddfD).
rewrite np_scale_mat np_sub_mat scale_scalar_mx -raddfB; congr (Ok (mat _)).
Qed.

(** the same for 1-d arrays *)
Lemma fusion_run_vec a : W a \in unitmx ->
  ell_fusion_lambda la (Fin a) (vec q1) (mat Q1) (vec q2) (mat Q2) n = Ok (scal (fus_f a)).
Proof.
move=> U; set Y := invmx (W a); have HY : Y^T = Y by rewrite /Y trmx_inv fus_symm.
rewrite /ell_fusion_lambda /form3 /=.
rewrite !np_scale_mat np_add_mat rbind_okE -/(W a) Hinv // U -/Y rbind_okE np_T_mat np_add_mat rbind_okE np_scale_mat HY.
have -> : 1 / 2%:R *: (Y + Y) = Y by apply/matrixP => i j; rewrite !mxE; move: (Y i j) => y; field.
rewrite np_sub_vec rbind_okE np_T_vec np_scale_vec !(np_matmul_vm, np_matmul_vv, np_matmul_mv, rbind_okE) S1 S2 HY.
rewrite np_add_vec rbind_okE np_matmul_mv rbind_okE Hdet rbind_okE np_sub_mat rbind_okE.
rewrite np_scale_mat np_matmul_mm rbind_okE np_trace_mat rbind_okE.
rewrite !np_T_vec !np_scale_vec 2!(np_matmul_vm, rbind_okE) 2!(np_matmul_vv, rbind_okE) 2!(np_matmul_vm, rbind_okE) 2!(np_matmul_vv, rbind_okE).
rewrite np_sub_mat rbind_okE 2!(np_matmul_vm, rbind_okE) 2!(np_matmul_vv, rbind_okE) 2!(np_matmul_vm, rbind_okE) 2!(np_matmul_vv, rbind_okE).
rewrite 2!(np_matmul_vm, rbind_okE) 2!(np_matmul_vv, rbind_okE) S1 S2.
have Ec : Y *m ((a *: Q1) *m q1 + ((1 - a) *: Q2) *m q2) = ctr a by rewrite -!scalemxAl.
rewrite Ec -!dotvE.
have Ea (x y : R) : np_add (scal x) (scal y) = Ok (scal (x + y)) by [].
have Es (x y : R) : np_sub (scal x) (scal y) = Ok (scal (x - y)) by [].
have Em (x y : R) g : g (Fin x) = Fin y -> np_map g (scal x) = scal y by move=> E; rewrite /np_map /= E.
have Ez (x y : R) : np_scale (Fin x) (scal y) = scal (x * y) by [].
have Esym : (Q2 - Q1)^T = Q2 - Q1 by rewrite linearB /= S1 S2.
rewrite (Em _ (lev a)); last first.
  rewrite (lev_code U) /=; congr (Fin (1 - _)); rewrite -!scalemxAr dotvZl; congr (_ * _).
  by rewrite !dotv_mull S1 S2 HY.
rewrite (Em _ (lev a * \det (W a) * \tr (\det (W a) *: Y *m (Q1 - Q2)))) //.
rewrite Es rbind_okE Ea rbind_okE Es rbind_okE Ea rbind_okE Esym Ez Es; congr (Ok (scal _)).
rewrite /fus_f -/Y expr2; congr (_ - _ * _); rewrite /dlev /qf -!scalemxAr !dotvZl !dotv_mull S1 S2 Esym; ring.
Qed.

Lemma fusion_singular a : W a \notin unitmx ->
  ell_fusion_lambda la (Fin a) (mat q1) (mat Q1) (mat q2) (mat Q2) n = LinAlgError.
Proof.
move=> U; rewrite /ell_fusion_lambda /= !np_scale_mat np_add_mat rbind_okE -/(W a) Hinv //.
by rewrite (negbTE U).
Qed.
End Quad.

(** exchanging the ellipsoids *)
Lemma swap_mat n (Q1 Q2 : 'M[R]_n) a : fus_mat Q2 Q1 (1 - a) = fus_mat Q1 Q2 a.
Proof. by rewrite /fus_mat subKr addrC. Qed.
Lemma swap_center n (q1 : 'cV[R]_n) Q1 q2 Q2 a : fus_center q2 Q2 q1 Q1 (1 - a) = fus_center q1 Q1 q2 Q2 a.
Proof. by rewrite /fus_center swap_mat subKr [X in _ *m X]addrC. Qed.
Lemma swap_level n (q1 : 'cV[R]_n) Q1 q2 Q2 a : fus_level q2 Q2 q1 Q1 (1 - a) = fus_level q1 Q1 q2 Q2 a.
Proof. by rewrite /fus_level /fused swap_center subKr; congr (1 - _); rewrite addrC. Qed.
Lemma swap_f n (q1 : 'cV[R]_n) Q1 q2 Q2 a : fus_f q2 Q2 q1 Q1 (1 - a) = - fus_f q1 Q1 q2 Q2 a.
Proof.
rewrite /fus_f swap_level swap_mat.
have -> : dlev q2 Q2 q1 Q1 (1 - a) = - dlev q1 Q1 q2 Q2 a.
  rewrite /dlev swap_center; have -> : Q1 - Q2 = - (Q2 - Q1) by rewrite opprB.
  by rewrite qfN; ring.
have -> : Q2 - Q1 = - (Q1 - Q2) by rewrite opprB.
by rewrite mulmxN linearN /=; ring.
Qed.
End Fusion.
