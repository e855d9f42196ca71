(** Plane rotations, reflections and extremal orthogonal matrices (pure matrix algebra). *)
From mathcomp Require Import all_ssreflect all_algebra ring.
From Verif.Spec Require Import MatSpec OrthSpec.
From Verif.Proof Require Import MatLib.
Set Implicit Arguments.
Unset Strict Implicit.
Unset Printing Implicit Defensive.
Import Order.Theory GRing.Theory Num.Theory.
Local Open Scope ring_scope.

Section OL.
Variable R : rcfType.

Lemma dot_delta n (x : 'cV[R]_n) i : dotv (delta_mx i 0) x = x i 0.
Proof.
rewrite /dotv (bigD1 i) //= !(mxE, eqxx) mul1r big1 ?addr0 // => k /negbTE ki.
by rewrite [X in X * _]mxE ki mul0r.
Qed.

Lemma orthog_byD m n (O : 'M[R]_(m, n)) :
  (forall x y, dotv (O *m x) (O *m y) = dotv x y) -> orthocols O.
Proof.
move=> H; apply/orthocolsP => i j; rewrite -!col_delta H dot_delta mxE.
by rewrite eqxx andbT.
Qed.

(** equality of matrices by their action *)
Lemma mx_act m n (A B : 'M[R]_(m, n)) : (forall x : 'cV_n, A *m x = B *m x) -> A = B.
Proof.
move=> H; apply/matrixP => i j; have := H (delta_mx j 0); rewrite !col_delta.
by move/matrixP => /(_ i 0); rewrite !mxE.
Qed.
Lemma dotv_ext n (u v : 'cV[R]_n) : (forall x, dotv x u = dotv x v) -> u = v.
Proof. by move=> H; apply/matrixP => i j; rewrite (ord1 j) -!dot_delta H. Qed.

Definition rotm n (c s : R) (d w : 'cV[R]_n) : 'M[R]_n :=
  1%:M + ((c - 1) *: (d *m d^T) + s *: (d *m w^T) - s *: (w *m d^T) + (c - 1) *: (w *m w^T)).

Lemma rotmE n c s (d w x : 'cV[R]_n) : rotm c s d w *m x =
  x + ((c - 1) * dotv d x + s * dotv w x) *: d + ((c - 1) * dotv w x - s * dotv d x) *: w.
Proof.
rewrite /rotm mulmxDl mul1mx !mulmxDl mulNmx -!scalemxAl !outer_mul !scalerA.
by apply/matrixP => i j; rewrite !mxE; gring.
Qed.

Lemma rotm_orthog n c s (d w : 'cV[R]_n) : sqn d = 1 -> sqn w = 1 -> dotv d w = 0 ->
  c ^+ 2 + s ^+ 2 = 1 -> orthog (rotm c s d w).
Proof.
move=> d1 w1 dw cs; apply: orthog_byD => x y; rewrite !rotmE.
have wd : dotv w d = 0 by rewrite dotvC.
rewrite !(dotvDl, dotvDr, dotvZl, dotvZr) (dotvC x d) (dotvC x w).
rewrite -/(sqn d) -/(sqn w) d1 w1 dw wd.
transitivity (dotv x y +
  (c ^+ 2 + s ^+ 2 - 1) * (dotv d x * dotv d y + dotv w x * dotv w y)); first by ring.
by rewrite cs subrr mul0r addr0.
Qed.

(** the plane rotation takes c d + s w to d *)
Lemma rotm_src n c s (d w : 'cV[R]_n) : sqn d = 1 -> sqn w = 1 -> dotv d w = 0 ->
  c ^+ 2 + s ^+ 2 = 1 -> rotm c s d w *m (c *: d + s *: w) = d.
Proof.
move=> d1 w1 dw cs; rewrite rotmE !(dotvDr, dotvZr) (dotvC w d) -/(sqn d) -/(sqn w) d1 w1 dw.
rewrite -addrA addrACA -!scalerDl.
have -> : c + ((c - 1) * (c * 1 + s * 0) + s * (c * 0 + s * 1)) = c ^+ 2 + s ^+ 2 by ring.
have -> : s + ((c - 1) * (c * 0 + s * 1) - s * (c * 1 + s * 0)) = 0 by ring.
by rewrite cs scale1r scale0r addr0.
Qed.

(** vectors orthogonal to the plane are fixed *)
Lemma rotm_fix n c s (d w x : 'cV[R]_n) : dotv d x = 0 -> dotv w x = 0 -> rotm c s d w *m x = x.
Proof.
by move=> h1 h2; rewrite rotmE h1 h2 !mulr0 subr0 addr0 !scale0r !addr0.
Qed.

(** Sylvester *)
Lemma det_sylvester m n (P : 'M[R]_(m, n)) (Q : 'M[R]_(n, m)) :
  \det (1%:M + P *m Q) = \det (1%:M + Q *m P).
Proof.
have E1 : block_mx 1%:M (- P) Q 1%:M *m block_mx 1%:M P 0 1%:M = block_mx 1%:M 0 Q (1%:M + Q *m P).
  by rewrite mulmx_block !mul1mx !mulmx1 !mulmx0 ?mulNmx !addr0 ?mul1mx subrr addrC.
have E2 : block_mx 1%:M P 0 1%:M *m block_mx 1%:M (- P) Q 1%:M = block_mx (1%:M + P *m Q) 0 Q 1%:M.
  by rewrite mulmx_block !mul1mx !mulmx1 !mul0mx !add0r ?mulmx1 addNr.
have := congr1 (fun M => \det M) E1; have := congr1 (fun M => \det M) E2.
rewrite !det_mulmx !det_lblock !det_ublock !det1 !mul1r !mulr1 => <- <-.
by [].
Qed.

Lemma rotm_factor n c s (d w : 'cV[R]_n) :
  rotm c s d w = 1%:M + row_mx d w *m (block_mx (c - 1)%:M s%:M (- s)%:M (c - 1)%:M)
                               *m (row_mx d w)^T.
Proof.
congr (_ + _); rewrite mul_row_block tr_row_mx mul_row_col !mul_mx_scalar !mulmxDl.
rewrite -!scalemxAl; move: (d *m d^T) (d *m w^T) (w *m d^T) (w *m w^T) => M1 M2 M3 M4.
by apply/matrixP => i j; rewrite !mxE; gring.
Qed.

Lemma det22 (M : 'M[R]_(1 + 1)) : \det M =
  M (lshift 1 0) (lshift 1 0) * M (rshift 1 0) (rshift 1 0)
  - M (lshift 1 0) (rshift 1 0) * M (rshift 1 0) (lshift 1 0).
Proof.
rewrite (expand_det_row _ (lshift 1 0)) big_ord_recl big_ord1 /cofactor !det_mx11 !mxE.
have -> : ord0 = (lshift 1 0 : 'I_(1 + 1)) by apply: val_inj.
have E : lift (lshift 1 (0 : 'I_1) : 'I_2) (0 : 'I_1) = (rshift 1 0 : 'I_2) by apply: val_inj.
have E' : lift (rshift 1 (0 : 'I_1) : 'I_2) (0 : 'I_1) = (lshift 1 (0 : 'I_1) : 'I_2) by apply: val_inj.
by rewrite !E E' /= expr0 expr1 mul1r mulN1r mulrN.
Qed.

Lemma det2 (a b c d : R) : \det (block_mx a%:M b%:M c%:M d%:M : 'M[R]_(1 + 1)) = a * d - b * c.
Proof.
by rewrite det22 block_mxEul block_mxEur block_mxEdl block_mxEdr !mxE eqxx !mulr1n.
Qed.

Lemma rotm_det n c s (d w : 'cV[R]_n) : sqn d = 1 -> sqn w = 1 -> dotv d w = 0 ->
  c ^+ 2 + s ^+ 2 = 1 -> \det (rotm c s d w) = 1.
Proof.
move=> d1 w1 dw cs; rewrite rotm_factor -mulmxA det_sylvester -mulmxA.
have -> : (row_mx d w)^T *m row_mx d w = 1%:M.
  rewrite tr_row_mx mul_col_row !dotv_outer (dotvC w d) -/(sqn d) -/(sqn w) d1 w1 dw.
  by rewrite scalar_mx_block (raddf0 (@scalar_mx_additive _ _)).
rewrite mulmx1 scalar_mx_block add_block_mx !add0r -!(raddfD (@scalar_mx_additive _ _)) det2 -cs.
by rewrite addrCA subrr addr0 mulrN opprK -!expr2.
Qed.

(** the degenerate branch: w = 0 *)
Lemma rotm_w0 n c s (d x : 'cV[R]_n) : rotm c s d 0 *m x = x + ((c - 1) * dotv d x) *: d.
Proof. by rewrite rotmE dotv0l mulr0 scaler0 !addr0. Qed.

Lemma rotm_w0_orthog n c s (d : 'cV[R]_n) : sqn d = 1 -> c ^+ 2 = 1 -> orthog (rotm c s d 0).
Proof.
move=> d1 c1; apply: orthog_byD => x y; rewrite !rotm_w0.
rewrite !(dotvDl, dotvDr, dotvZl, dotvZr) (dotvC x d) -/(sqn d) d1.
transitivity (dotv x y + (c ^+ 2 - 1) * (dotv d x * dotv d y)); first by ring.
by rewrite c1 subrr mul0r addr0.
Qed.

(** defect of the degenerate branch *)
Lemma rotm_w0_defect n c s (d x y : 'cV[R]_n) : sqn d = 1 -> c ^+ 2 + s ^+ 2 = 1 ->
  dotv (rotm c s d 0 *m x) (rotm c s d 0 *m y) = dotv x y - s ^+ 2 * (dotv d x * dotv d y).
Proof.
move=> d1 cs; rewrite !rotm_w0.
rewrite !(dotvDl, dotvDr, dotvZl, dotvZr) (dotvC x d) -/(sqn d) d1.
have -> : s ^+ 2 = 1 - c ^+ 2 by rewrite -cs addrAC subrr add0r.
gring.
Qed.
Lemma rotm_w0_miss n c s (d u : 'cV[R]_n) : sqn d = 1 -> sqn u = 1 -> dotv d u = c ->
  c ^+ 2 + s ^+ 2 = 1 -> sqn (rotm c s d 0 *m u - d) = s ^+ 2 + s ^+ 4.
Proof.
move=> d1 u1 du cs; rewrite rotm_w0 du.
have -> : u + ((c - 1) * c) *: d - d = u + ((c - 1) * c - 1) *: d.
  by rewrite -addrA scalerBl scale1r.
rewrite sqnD sqnZ dotvZr (dotvC u d) du u1 d1.
have Es : s ^+ 2 = 1 - c ^+ 2 by rewrite -cs addrAC subrr add0r.
have -> : s ^+ 4 = (1 - c ^+ 2) ^+ 2 by rewrite -Es -exprM.
by rewrite Es; ring.
Qed.

(** Householder reflection *)
Definition haus n (w : 'cV[R]_n) : 'M[R]_n := 1%:M - (2%:R / sqn w) *: (w *m w^T).
Lemma hausE n (w x : 'cV[R]_n) : haus w *m x = x - (2%:R / sqn w * dotv w x) *: w.
Proof. by rewrite mulmxBl mul1mx -scalemxAl outer_mul scalerA. Qed.
Lemma haus_orthog n (w : 'cV[R]_n) : w != 0 -> orthog (haus w).
Proof.
rewrite -sqn_gt0 => w0; apply: orthog_byD => x y; rewrite !hausE.
rewrite !(dotvBl, dotvBr, dotvZl, dotvZr) (dotvC x w) -/(sqn w).
set q := 2%:R / sqn w; have Eq : q * sqn w = 2%:R by rewrite divfK // gt_eqF.
transitivity (dotv x y + q * (q * sqn w - 2%:R) * (dotv w x * dotv w y)); first by gring.
by rewrite Eq subrr mulr0 mul0r addr0.
Qed.
Lemma haus_sym n (w : 'cV[R]_n) : symm (haus w).
Proof.
rewrite /symm (raddfB (@trmx_additive _ _ _)) /= trmx1 linearZ /= trmx_mul trmxK //.
Qed.
(** it exchanges two vectors of equal length *)
Lemma haus_swap n (u v : 'cV[R]_n) : sqn u = sqn v -> u != v -> haus (u - v) *m u = v.
Proof.
move=> E uv; have w0 : 0 < sqn (u - v) by rewrite sqn_gt0 subr_eq0.
rewrite hausE; suff -> : 2%:R / sqn (u - v) * dotv (u - v) u = 1.
  by rewrite scale1r opprB addrCA subrr addr0.
have D : 2%:R * dotv (u - v) u = sqn (u - v).
  by rewrite sqnB -E dotvBl -/(sqn u) (dotvC v u); ring.
by rewrite mulrAC D divff // lt0r_neq0.
Qed.

(** a vector of the same length in the direction of v *)
Lemma unit_transl n (O : 'M[R]_n) (u v : 'cV[R]_n) : O *m unitv u = unitv v ->
  O *m u = (len u / len v) *: v.
Proof.
by move=> H; rewrite -[u in LHS]unitvK -scalemxAr H /unitv scalerA.
Qed.
Lemma transl_unit n (O : 'M[R]_n) (u v : 'cV[R]_n) : u != 0 -> v != 0 ->
  O *m u = (len u / len v) *: v -> O *m unitv u = unitv v.
Proof.
move=> u0 v0 H; rewrite /unitv -scalemxAr H scalerA mulrA mulVf ?mul1r // len_eq0 //.
Qed.

(** ---------------------------------------------- extremal problems *)
(** orthogonal matrices with prescribed first column, split *)
Lemma split_cols n (a : 'cV[R]_(1 + n)) (V : 'M[R]_(1 + n, n)) : orthog (row_mx a V) ->
  [/\ sqn a = 1, V^T *m V = 1%:M, V^T *m a = 0, a^T *m V = 0 & a *m a^T + V *m V^T = 1%:M].
Proof.
move=> H; have H1 := H; rewrite /orthog tr_row_mx mul_col_row scalar_mx_block in H1.
case/eq_block_mx: H1 => h1 h2 h3 h4; split=> //.
  by rewrite /sqn dotvE h1 mxE.
by move/orthogC: H; rewrite tr_row_mx mul_row_col.
Qed.

Section Ext.
Variables (n : nat) (a b : 'cV[R]_(1 + n)) (V U : 'M[R]_(1 + n, n)).
Hypotheses (HV : orthog (row_mx a V)) (HU : orthog (row_mx b U)).

(** gluing: b a^T + U W V^T *)
Definition glue (W : 'M[R]_n) : 'M[R]_(1 + n) := U *m W *m V^T + b *m a^T.

Lemma glueE W : glue W = row_mx b U *m block_mx 1%:M 0 0 W *m (row_mx a V)^T.
Proof.
by rewrite mul_row_block !mulmx0 addr0 add0r mulmx1 tr_row_mx mul_row_col addrC.
Qed.
Lemma glue_orthog W : orthog W -> orthog (glue W).
Proof.
move=> HW; rewrite glueE; apply: orthogM; last exact: orthogT.
apply: orthogM => //; rewrite /orthog tr_block_mx !trmx0 trmx1 mulmx_block.
by rewrite !mulmx0 !mul0mx !addr0 !add0r mulmx1 HW -scalar_mx_block.
Qed.
Lemma glue_a W : glue W *m a = b.
Proof.
have [a1 _ Va _ _] := split_cols HV; rewrite mulmxDl outer_mul -!mulmxA Va !mulmx0 add0r.
by rewrite -/(sqn a) a1 scale1r.
Qed.
(** every orthogonal matrix taking a to b is of this form *)
Lemma glue_all P : orthog P -> P *m a = b -> exists2 W, orthog W & P = glue W.
Proof.
move=> HP Pa.
have [a1 VV Va aV aV1] := split_cols HV; have [b1 UU Ub bU bU1] := split_cols HU.
exists (U^T *m P *m V).
  have PV : b^T *m (P *m V) = 0.
    by rewrite -Pa trmx_mul -mulmxA (mulmxA P^T) HP mul1mx aV.
  rewrite /orthog !trmx_mul trmxK -!mulmxA (mulmxA U) (_ : U *m U^T = 1%:M - b *m b^T); last first.
    by rewrite -bU1 addrAC subrr add0r.
  rewrite mulmxBl mul1mx -(mulmxA b) PV mulmx0 subr0 (mulmxA P^T) HP mul1mx; exact: VV.
apply: mx_act => x.
have -> : x = (a *m a^T + V *m V^T) *m x by rewrite aV1 mul1mx.
rewrite mulmxDl 2!mulmxDr; congr (_ + _).
  by rewrite outer_mul -!scalemxAr glue_a Pa.
rewrite /glue mulmxDl -!mulmxA (mulmxA a^T) aV mul0mx mulmx0 addr0 (mulmxA V^T) VV mul1mx.
rewrite (mulmxA U) (_ : U *m U^T = 1%:M - b *m b^T); last by rewrite -bU1 addrAC subrr add0r.
rewrite mulmxBl mul1mx -(mulmxA b) -{2}Pa trmx_mul -(mulmxA a^T) (mulmxA P^T) HP mul1mx.
by rewrite (mulmxA a^T) aV mul0mx mulmx0 subr0.
Qed.

Lemma glue_dot W x y : dotv (glue W *m x) y = dotv a x * dotv b y + dotv (W *m (V^T *m x)) (U^T *m y).
Proof.
rewrite /glue mulmxDl outer_mul dotvDl dotvZl addrC; congr (_ + _).
by rewrite -!mulmxA dotv_mull.
Qed.
Lemma glue_tr W A : \tr (glue W *m A) = dotv a (A *m b) + \tr (W *m (V^T *m A *m U)).
Proof.
rewrite /glue mulmxDl mxtraceD addrC; congr (_ + _).
  by rewrite -mulmxA mxtrace_mulC -mulmxA dotv_outer mxtrace_scalar mulr1n.
by rewrite -!mulmxA mxtrace_mulC -!mulmxA.
Qed.
End Ext.

(** the directional criterion: upper bound and the maximiser *)
Lemma dir_bound n (W : 'M[R]_n) x y : orthog W -> dotv (W *m x) y <= len x * len y.
Proof. by move=> HW; rewrite -(orthog_len x HW); exact: cauchy_len. Qed.

(** the trace criterion *)
Lemma tr_bound n (W M N : 'M[R]_n) (s : 'cV[R]_n) : orthog W -> orthog M -> orthog N ->
  (forall i, 0 <= s i 0) -> \tr (W *m (M *m diagv s *m N)) <= \sum_i s i 0.
Proof.
move=> HW HM HN s0; rewrite !mulmxA mxtrace_mulC !mulmxA.
have HO : orthog (N *m W *m M) by apply: orthogM => //; apply: orthogM.
move: (N *m W *m M) HO => O HO; rewrite /mxtrace; apply: ler_sum => i _.
rewrite mul_mx_diag !mxE -{2}[s i 0]mul1r; apply: ler_wpmul2r => //.
by apply: le_trans (ler_norm _) _; apply: orthog_entry.
Qed.
Lemma tr_attain n (M N : 'M[R]_n) (s : 'cV[R]_n) : orthog M -> orthog N ->
  \tr ((M *m N)^T *m (M *m diagv s *m N)) = \sum_i s i 0.
Proof.
move=> HM HN; rewrite trmx_mul -!mulmxA (mulmxA M^T) HM mul1mx mxtrace_mulC -mulmxA.
have /orthogC -> := HN; rewrite mulmx1 /mxtrace; apply: eq_bigr => i _.
by rewrite diagvE eqxx.
Qed.

End OL.
