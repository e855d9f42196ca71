(** Linear algebra over a real closed field used by the proofs. *)
From mathcomp Require Import all_ssreflect all_algebra ring.
From Verif.Spec Require Import MatSpec.
Set Implicit Arguments.
Unset Strict Implicit.
Unset Printing Implicit Defensive.
Import Order.Theory GRing.Theory Num.Theory.
Local Open Scope ring_scope.

Section Dot.
Variable R : rcfType.
Implicit Types (m n : nat).

Lemma dotvE n (u v : 'cV[R]_n) : dotv u v = (u^T *m v) 0 0.
Proof. by rewrite mxE; apply: eq_bigr => i _; rewrite mxE. Qed.
Lemma dotvC n (u v : 'cV[R]_n) : dotv u v = dotv v u.
Proof. by apply: eq_bigr => i _; rewrite mulrC. Qed.
Lemma dotvDl n (u v w : 'cV[R]_n) : dotv (u + v) w = dotv u w + dotv v w.
Proof. by rewrite /dotv -big_split; apply: eq_bigr => i _; rewrite mxE mulrDl. Qed.
Lemma dotvDr n (u v w : 'cV[R]_n) : dotv w (u + v) = dotv w u + dotv w v.
Proof. by rewrite !(dotvC w) dotvDl. Qed.
Lemma dotvZl n a (u v : 'cV[R]_n) : dotv (a *: u) v = a * dotv u v.
Proof. by rewrite /dotv mulr_sumr; apply: eq_bigr => i _; rewrite mxE mulrA. Qed.
Lemma dotvZr n a (u v : 'cV[R]_n) : dotv u (a *: v) = a * dotv u v.
Proof. by rewrite dotvC dotvZl dotvC. Qed.
Lemma dotvNl n (u v : 'cV[R]_n) : dotv (- u) v = - dotv u v.
Proof. by rewrite -scaleN1r dotvZl mulN1r. Qed.
Lemma dotvNr n (u v : 'cV[R]_n) : dotv u (- v) = - dotv u v.
Proof. by rewrite dotvC dotvNl dotvC. Qed.
Lemma dotvBl n (u v w : 'cV[R]_n) : dotv (u - v) w = dotv u w - dotv v w.
Proof. by rewrite dotvDl dotvNl. Qed.
Lemma dotvBr n (u v w : 'cV[R]_n) : dotv w (u - v) = dotv w u - dotv w v.
Proof. by rewrite dotvDr dotvNr. Qed.
Lemma dotv0l n (u : 'cV[R]_n) : dotv 0 u = 0.
Proof. by rewrite -(scale0r u) dotvZl mul0r. Qed.
Lemma dotv0r n (u : 'cV[R]_n) : dotv u 0 = 0.
Proof. by rewrite dotvC dotv0l. Qed.
Lemma dotv_mulr m n (A : 'M[R]_(m, n)) u v : dotv u (A *m v) = dotv (A^T *m u) v.
Proof. by rewrite !dotvE trmx_mul trmxK mulmxA. Qed.
Lemma dotv_mull m n (A : 'M[R]_(m, n)) u v : dotv (A *m u) v = dotv u (A^T *m v).
Proof. by rewrite dotvC dotv_mulr dotvC. Qed.
Lemma dotv_outer n (u v : 'cV[R]_n) : u^T *m v = (dotv u v)%:M.
Proof. by rewrite [LHS]mx11_scalar -dotvE. Qed.
Lemma outer_mul m n (u : 'cV[R]_m) (v w : 'cV[R]_n) : u *m v^T *m w = dotv v w *: u.
Proof. by rewrite -mulmxA dotv_outer mul_mx_scalar. Qed.

Lemma sqn_ge0 n (u : 'cV[R]_n) : 0 <= sqn u.
Proof. by apply: sumr_ge0 => i _; rewrite -expr2 sqr_ge0. Qed.
Lemma sqn_eq0 n (u : 'cV[R]_n) : (sqn u == 0) = (u == 0).
Proof.
apply/idP/idP => [|/eqP->]; last by rewrite /sqn dotv0l.
rewrite psumr_eq0 => [/allP H|i _]; last by rewrite -expr2 sqr_ge0.
apply/eqP/matrixP => i j; rewrite (ord1 j) !mxE.
by have := H i (mem_index_enum i); rewrite /= -expr2 sqrf_eq0 => /eqP.
Qed.
Lemma sqn_gt0 n (u : 'cV[R]_n) : (0 < sqn u) = (u != 0).
Proof. by rewrite lt_def sqn_ge0 sqn_eq0 andbT. Qed.
Lemma sqnZ n a (u : 'cV[R]_n) : sqn (a *: u) = a ^+ 2 * sqn u.
Proof. by rewrite /sqn dotvZl dotvZr mulrA. Qed.
Lemma sqnN n (u : 'cV[R]_n) : sqn (- u) = sqn u.
Proof. by rewrite /sqn dotvNl dotvNr opprK. Qed.
Lemma sqnD n (u v : 'cV[R]_n) : sqn (u + v) = sqn u + 2%:R * dotv u v + sqn v.
Proof. by rewrite /sqn dotvDl !dotvDr (dotvC v u); ring. Qed.
Lemma sqnB n (u v : 'cV[R]_n) : sqn (u - v) = sqn u - 2%:R * dotv u v + sqn v.
Proof. by rewrite sqnD dotvNr sqnN; ring. Qed.
Lemma sqn0 n : sqn (0 : 'cV[R]_n) = 0.
Proof. exact: dotv0l. Qed.

Lemma len_ge0 n (u : 'cV[R]_n) : 0 <= len u. Proof. exact: sqrtr_ge0. Qed.
Lemma len_sq n (u : 'cV[R]_n) : len u ^+ 2 = sqn u. Proof. by rewrite sqr_sqrtr ?sqn_ge0. Qed.
Lemma len_eq0 n (u : 'cV[R]_n) : (len u == 0) = (u == 0).
Proof. by rewrite -sqrf_eq0 len_sq sqn_eq0. Qed.
Lemma len_gt0 n (u : 'cV[R]_n) : (0 < len u) = (u != 0).
Proof. by rewrite lt_def len_ge0 len_eq0 andbT. Qed.
Lemma len0 n : len (0 : 'cV[R]_n) = 0.
Proof. by apply/eqP; rewrite len_eq0. Qed.
Lemma lenZ n a (u : 'cV[R]_n) : len (a *: u) = `|a| * len u.
Proof.
apply: (@pexpIrn _ 2) => //; rewrite ?nnegrE ?len_ge0 ?mulr_ge0 ?len_ge0 //.
by rewrite exprMn !len_sq sqnZ real_normK ?num_real.
Qed.

Lemma sqn_unitv n (u : 'cV[R]_n) : u != 0 -> sqn (unitv u) = 1.
Proof. by move=> u0; rewrite sqnZ -len_sq exprVn mulVf // expf_neq0 // len_eq0. Qed.
Lemma unitvK n (u : 'cV[R]_n) : len u *: unitv u = u.
Proof.
have [->|u0] := eqVneq u 0; first by rewrite len0 scale0r.
by rewrite scalerA mulfV ?len_eq0 // scale1r.
Qed.

Lemma cauchy_schwarz n (u v : 'cV[R]_n) : dotv u v ^+ 2 <= sqn u * sqn v.
Proof.
have [->|v0] := eqVneq v 0; first by rewrite dotv0r sqn0 mulr0 expr0n.
have vp : 0 < sqn v by rewrite sqn_gt0.
have := sqn_ge0 (sqn v *: u - dotv u v *: v).
rewrite sqnB !sqnZ dotvZl dotvZr.
have -> : sqn v ^+ 2 * sqn u - 2%:R * (sqn v * (dotv u v * dotv u v)) + dotv u v ^+ 2 * sqn v =
   sqn v * (sqn u * sqn v - dotv u v ^+ 2) by ring.
by rewrite pmulr_rge0 // subr_ge0.
Qed.
Lemma cauchy_len n (u v : 'cV[R]_n) : dotv u v <= len u * len v.
Proof.
have H := cauchy_schwarz u v.
have [le0|gt0] := leP (dotv u v) 0; first by apply: le_trans le0 _; rewrite mulr_ge0 ?len_ge0.
rewrite -(@ler_pexpn2r _ 2) ?nnegrE ?(ltW gt0) ?mulr_ge0 ?len_ge0 //.
by rewrite exprMn !len_sq.
Qed.
Lemma cauchy_abs n (u v : 'cV[R]_n) : `|dotv u v| <= len u * len v.
Proof.
rewrite ler_norml cauchy_len andbT ler_oppl -dotvNl.
apply: le_trans (cauchy_len _ _) _; by rewrite -scaleN1r lenZ normrN1 mul1r.
Qed.

(** ------------------------------------------------------------ orthogonal matrices *)
Lemma orthogC n (O : 'M[R]_n) : orthog O <-> O *m O^T = 1%:M.
Proof. by split=> /mulmx1C. Qed.
Lemma orthogT n (O : 'M[R]_n) : orthog O -> orthog O^T.
Proof. by move/orthogC => H; rewrite /orthog trmxK. Qed.
Lemma orthogM n (O P : 'M[R]_n) : orthog O -> orthog P -> orthog (O *m P).
Proof.
move=> HO HP; rewrite /orthog trmx_mul mulmxA -(mulmxA P^T) HO mulmx1; exact: HP.
Qed.
Lemma orthog1 n : orthog (1%:M : 'M[R]_n).
Proof. by rewrite /orthog trmx1 mulmx1. Qed.
Lemma orthogN n (O : 'M[R]_n) : orthog O -> orthog (- O).
Proof. by move=> H; rewrite /orthog (raddfN (@trmx_additive _ _ _)) /= mulNmx mulmxN opprK. Qed.
Lemma orthog_unit n (O : 'M[R]_n) : orthog O -> O \in unitmx.
Proof. by move=> H; case: (mulmx1_unit H). Qed.
Lemma orthog_dot m n (O : 'M[R]_(m, n)) u v : orthocols O -> dotv (O *m u) (O *m v) = dotv u v.
Proof. by move=> H; rewrite dotv_mull mulmxA H mul1mx. Qed.
Lemma orthog_sqn m n (O : 'M[R]_(m, n)) u : orthocols O -> sqn (O *m u) = sqn u.
Proof. exact: orthog_dot. Qed.
Lemma orthog_len m n (O : 'M[R]_(m, n)) u : orthocols O -> len (O *m u) = len u.
Proof. by move=> H; rewrite /len orthog_sqn. Qed.
Lemma orthogK n (O : 'M[R]_n) (A : 'M[R]_n) : orthog O -> O^T *m (O *m A) = A.
Proof. by move=> H; rewrite mulmxA H mul1mx. Qed.

Lemma dot_col m n (A B : 'M[R]_(m, n)) i j : dotv (col i A) (col j B) = (A^T *m B) i j.
Proof. by rewrite mxE; apply: eq_bigr => k _; rewrite !mxE. Qed.
Lemma orthocolsP m n (O : 'M[R]_(m, n)) :
  orthocols O <-> forall i j, dotv (col i O) (col j O) = (i == j)%:R.
Proof.
split=> [H i j|H]; first by rewrite dot_col H mxE.
by apply/matrixP => i j; rewrite -dot_col H mxE.
Qed.

(** entries of an orthogonal matrix are at most 1 in magnitude *)
Lemma orthog_entry n (O : 'M[R]_n) i j : orthog O -> `|O i j| <= 1.
Proof.
move=> H; have := congr1 (fun M : 'M_n => M j j) H; rewrite !mxE eqxx mulr1n => Hj.
have : O i j ^+ 2 <= 1.
  rewrite -Hj (bigD1 i) //= !mxE -expr2 ler_addl.
  by apply: sumr_ge0 => k _; rewrite mxE -expr2 sqr_ge0.
by rewrite -[X in X <= _]real_normK ?num_real // expr_le1.
Qed.

(** ------------------------------------------------------------ diagonal forms *)
Lemma diagvE n (d : 'cV[R]_n) i j : diagv d i j = (d i 0) *+ (i == j).
Proof. by rewrite !mxE; case: eqP => [->|]. Qed.
Lemma mul_diagv n (d x : 'cV[R]_n) : diagv d *m x = \col_i (d i 0 * x i 0).
Proof. by apply/matrixP => i j; rewrite mul_diag_mx !mxE (ord1 j). Qed.
Lemma tr_diagv n (d : 'cV[R]_n) : (diagv d)^T = diagv d.
Proof. exact: tr_diag_mx. Qed.
Lemma mul_diagv2 n (d e : 'cV[R]_n) : diagv d *m diagv e = diagv (\col_i (d i 0 * e i 0)).
Proof.
apply/matrixP => i j; rewrite mul_diag_mx !mxE; case: eqP => [->|]; by rewrite ?mulr1n ?mulr0n ?mulr0.
Qed.
Lemma diagv_const n (a : R) : diagv (const_mx a : 'cV_n) = a%:M.
Proof. by apply/matrixP => i j; rewrite !mxE. Qed.
Lemma add_diagv n (d e : 'cV[R]_n) : diagv d + diagv e = diagv (d + e).
Proof. by apply/matrixP => i j; rewrite !mxE; case: eqP => _; rewrite ?mulr1n ?mulr0n ?addr0. Qed.
Lemma qf_diagv n (d x : 'cV[R]_n) : qf (diagv d) x = \sum_i d i 0 * x i 0 ^+ 2.
Proof. by rewrite /qf mul_diagv; apply: eq_bigr => i _; rewrite !mxE; ring. Qed.
Lemma qf_conj n (A V : 'M[R]_n) x : qf (V *m A *m V^T) x = qf A (V^T *m x).
Proof. by rewrite /qf -!mulmxA dotv_mulr. Qed.
Lemma qf_mulT m n (B : 'M[R]_(m, n)) x : qf (B^T *m B) x = sqn (B *m x).
Proof. by rewrite /qf /sqn -mulmxA dotv_mulr trmxK. Qed.
Lemma qfD n (A B : 'M[R]_n) x : qf (A + B) x = qf A x + qf B x.
Proof. by rewrite /qf mulmxDl dotvDr. Qed.
Lemma qfZ n a (A : 'M[R]_n) x : qf (a *: A) x = a * qf A x.
Proof. by rewrite /qf -scalemxAl dotvZr. Qed.
Lemma qfN n (A : 'M[R]_n) x : qf (- A) x = - qf A x.
Proof. by rewrite /qf mulNmx dotvNr. Qed.
Lemma qf_scal n a (x : 'cV[R]_n) : qf a%:M x = a * sqn x.
Proof. by rewrite /qf mul_scalar_mx dotvZr. Qed.
Lemma qfT n (A : 'M[R]_n) x : qf A^T x = qf A x.
Proof. by rewrite /qf dotv_mulr trmxK dotvC. Qed.

Lemma eig_symm n (A : 'M[R]_n) d V : eigdec A d V -> symm A.
Proof. by case=> _ ->; rewrite /symm !trmx_mul trmxK tr_diagv mulmxA. Qed.
Lemma eig_qf n (A : 'M[R]_n) d V x : eigdec A d V ->
  qf A x = \sum_i d i 0 * (V^T *m x) i 0 ^+ 2.
Proof. by case=> _ ->; rewrite qf_conj qf_diagv. Qed.
Lemma eig_sqn n (A : 'M[R]_n) d V x : eigdec A d V -> sqn x = \sum_i (V^T *m x) i 0 ^+ 2.
Proof.
case=> H _; rewrite -[LHS](orthog_sqn _ (orthogT H)).
by apply: eq_bigr => i _; rewrite expr2.
Qed.
(** Rayleigh bounds *)
Lemma eig_lower n (A : 'M[R]_n) d V c : eigdec A d V -> (forall i, c <= d i 0) ->
  forall x, c * sqn x <= qf A x.
Proof.
move=> HE Hc x; rewrite (eig_qf _ HE) (eig_sqn _ HE) mulr_sumr.
by apply: ler_sum => i _; apply: ler_wpmul2r; rewrite ?sqr_ge0.
Qed.
Lemma eig_upper n (A : 'M[R]_n) d V c : eigdec A d V -> (forall i, d i 0 <= c) ->
  forall x, qf A x <= c * sqn x.
Proof.
move=> HE Hc x; rewrite (eig_qf _ HE) (eig_sqn _ HE) mulr_sumr.
by apply: ler_sum => i _; apply: ler_wpmul2r; rewrite ?sqr_ge0.
Qed.
Lemma col_delta m n (A : 'M[R]_(m, n)) i : A *m delta_mx i 0 = col i A.
Proof. by rewrite colE. Qed.
Lemma eig_vec n (A : 'M[R]_n) d V i : eigdec A d V -> A *m col i V = d i 0 *: col i V.
Proof.
case=> H ->; rewrite -col_delta -!mulmxA (mulmxA V^T) H mul1mx.
have -> : diagv d *m (delta_mx i 0 : 'cV[R]_n) = d i 0 *: delta_mx i 0.
  by apply/matrixP => k l; rewrite (ord1 l) mul_diagv !mxE; case: (eqVneq k i) => [->|_] //=; rewrite !mulr0.
by rewrite -scalemxAr.
Qed.
Lemma eig_sqn_col n (A : 'M[R]_n) d V i : eigdec A d V -> sqn (col i V) = 1.
Proof. by case=> /orthocolsP/(_ i i); rewrite eqxx. Qed.
Lemma eig_attained n (A : 'M[R]_n) d V i : eigdec A d V -> qf A (col i V) = d i 0.
Proof. by move=> HE; rewrite /qf (eig_vec _ HE) dotvZr -/(sqn _) (eig_sqn_col _ HE) mulr1. Qed.
Lemma eig_psd n (A : 'M[R]_n) d V : eigdec A d V -> psd A <-> forall i, 0 <= d i 0.
Proof.
move=> HE; split=> H; first by move=> i; rewrite -(eig_attained i HE).
by move=> x; have := eig_lower HE H x; rewrite mul0r.
Qed.
Lemma eig_posdef n (A : 'M[R]_n) d V : eigdec A d V -> posdef A <-> forall i, 0 < d i 0.
Proof.
move=> HE; split=> H.
  move=> i; rewrite -(eig_attained i HE); apply: H.
  by rewrite -sqn_gt0 (eig_sqn_col _ HE) ltr01.
move=> x x0; rewrite (eig_qf _ HE) lt_def sumr_ge0 ?andbT; last first.
  by move=> i _; rewrite mulr_ge0 ?sqr_ge0 // ltW.
rewrite psumr_eq0; last by move=> i _; rewrite mulr_ge0 ?sqr_ge0 // ltW.
apply/negP => /allP Hz; case/negP: x0; rewrite -sqn_eq0 (eig_sqn _ HE) big1 // => i _.
by have := Hz i (mem_index_enum i); rewrite /= mulf_eq0 (gt_eqF (H i)) => /eqP.
Qed.
Lemma eig_trace n (A : 'M[R]_n) d V : eigdec A d V -> \tr A = \sum_i d i 0.
Proof.
case=> H ->; rewrite mxtrace_mulC mulmxA H mul1mx mxtrace_diag.
by apply: eq_bigr => i _; rewrite mxE.
Qed.
Lemma eig_det n (A : 'M[R]_n) d V : eigdec A d V -> \det A = \prod_i d i 0.
Proof.
case=> H ->; rewrite !det_mulmx mulrC mulrA -det_mulmx H det1 mul1r det_diag.
by apply: eq_bigr => i _; rewrite mxE.
Qed.

Lemma lowsym_symm n (A : 'M[R]_n) : symm A -> lowsym A = A.
Proof.
move=> H; apply/matrixP => i j; rewrite mxE; case: ifP => // _.
by rewrite -[in LHS]H mxE.
Qed.
Lemma symm_lowsym n (A : 'M[R]_n) : symm (lowsym A).
Proof.
apply/matrixP => i j; rewrite !mxE; case: (ltngtP i j) => // /ord_inj ->; by [].
Qed.

(** ------------------------------------------------------------ singular values *)
Lemma rdiagE m n (s : 'cV[R]_(minn m n)) (i : 'I_m) (j : 'I_n) (k : 'I_(minn m n)) :
  k = i :> nat -> rdiag s i j = if i == j :> nat then s k 0 else 0.
Proof.
move=> Hk; rewrite mxE; case: ifP => [/eqP Hij|Hij].
  by rewrite (big_pred1 k) // => l; rewrite -Hij -Hk andbb.
by rewrite big_pred0 // => l; apply/negP => /andP[/eqP H1 /eqP H2]; rewrite -H1 H2 eqxx in Hij.
Qed.

End Dot.

(** ring after turning matrix entries and scalar products into variables *)
Ltac gring := repeat match goal with
  | |- context [dotv ?u ?v] => move: (dotv u v) => ?
  | |- context [fun_of_matrix ?M ?i ?j] => move: (fun_of_matrix M i j) => ?
  end; clear; ring.
