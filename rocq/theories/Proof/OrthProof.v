(** The orth_transl family of gras/la/la.py. *)
From mathcomp Require Import all_ssreflect all_algebra ring.
Require Import Coq.Strings.String.
From Verif.Model Require Import Py NP Linalg Compare La.
From Verif.Spec Require Import MatSpec LinalgSpec OrthSpec.
From Verif.Proof Require Import NPLib MatLib OrthLib LaBasic.
Set Implicit Arguments.
Unset Strict Implicit.
Unset Printing Implicit Defensive.
Import Order.Theory GRing.Theory Num.Theory.
Local Open Scope ring_scope.

Section OP.
Variable R : rcfType.
Notation X := (xnum R).
Notation A := (arr X).

Lemma dot_sum_col b n (u v : 'cV[R]_n) : dot_sum (colarr b u) (colarr b v) = Ok (Fin (dotv u v)).
Proof.
rewrite /dot_sum; case: b => /=; last by rewrite np_sum_mulvv -dotvE.
rewrite np_mul_mat rbind_okE np_sum_mat; congr (Ok (Fin _)); apply: eq_bigr => i _.
by rewrite big_ord1 mxE.
Qed.
Lemma divs_col b n a (v : 'cV[R]_n) : a != 0 -> np_divs (colarr b v) (Fin a) = colarr b (a^-1 *: v).
Proof. by case: b => /= a0; rewrite ?np_divs_mat ?np_divs_vec. Qed.
Lemma sub_col b n (u v : 'cV[R]_n) : np_sub (colarr b u) (colarr b v) = Ok (colarr b (u - v)).
Proof. by case: b => /=; rewrite ?np_sub_mat ?np_sub_vec. Qed.
Lemma scale_col b n a (v : 'cV[R]_n) : np_scale (Fin a) (colarr b v) = colarr b (a *: v).
Proof. by case: b => /=; rewrite ?np_scale_mat ?np_scale_vec. Qed.
Lemma dim0_col b n (v : 'cV[R]_n) : ninp_dim0 (RealArr (colarr b v)) = Ok n.
Proof. by case: b. Qed.
Lemma size_col b n (v : 'cV[R]_n) : np_size (colarr b v) = n.
Proof. by case: b; rewrite /np_size /= !muln1. Qed.

Lemma set_col_sq b m n (M : 'M[R]_(m, n)) (j : 'I_n) (v : 'cV[R]_m) :
  np_set_col (mat M) j (np_squeeze (colarr b v)) =
  Ok (mat (\matrix_(i, k) (if k == j then v i 0 else M i k))).
Proof.
case: (eqVneq m 1%N) => [m1|m1]; last first.
  by case: b => /=; rewrite ?np_squeeze_col ?np_squeeze_vec // np_set_col_vec.
subst m; have -> : np_squeeze (colarr b v) = scal (v 0 0).
  case: b => //; rewrite /= /np_squeeze /scal /=; congr (Arr _ [:: Fin _]).
    exact: (mxgetE v 0 0).
  exact: (mxgetE v 0 0).
rewrite np_set_col_scal; congr (Ok (mat _)); apply/matrixP => i k; rewrite !mxE.
by rewrite (ord1 i).
Qed.

Lemma mat_block2 (a b c d : R) :
  Arr [:: 2%N; 2%N] [:: Fin a; Fin b; Fin c; Fin d] =
  mat (block_mx a%:M b%:M c%:M d%:M : 'M[R]_(1 + 1)).
Proof.
set M := block_mx _ _ _ _; rewrite /mat /mkn /=; congr (Arr _ [:: _; _; _; _]); congr Fin.
- rewrite (mxgetE M (lshift 1 0) (lshift 1 0)) block_mxEul mxE eqxx mulr1n //.
- rewrite (mxgetE M (lshift 1 0) (rshift 1 0)) block_mxEur mxE eqxx mulr1n //.
- rewrite (mxgetE M (rshift 1 0) (lshift 1 0)) block_mxEdl mxE eqxx mulr1n //.
- rewrite (mxgetE M (rshift 1 0) (rshift 1 0)) block_mxEdr mxE eqxx mulr1n //.
Qed.

Lemma set2_row n (d w : 'cV[R]_n) :
  (\matrix_(i, k) (if k == 1 then w i 0 else
    (\matrix_(i, k) (if k == 0 then d i 0 else (0 : 'M[R]_(n, 2)) i k)) i k)) =
  row_mx d w :> 'M_(n, 1 + 1).
Proof.
apply/matrixP => i k; rewrite !mxE; case: (splitP k) => j Ej.
  have -> : k = 0 by apply: val_inj; rewrite /= Ej (ord1 j).
  by rewrite (ord1 j).
have -> : k = 1 by apply: val_inj; rewrite /= Ej (ord1 j).
by rewrite (ord1 j).
Qed.

Definition oc n (u d : 'cV[R]_n) := dotv (unitv u) (unitv d).
Definition os n (u d : 'cV[R]_n) := Num.sqrt (1 - oc u d ^+ 2).
Definition ow n (u d : 'cV[R]_n) : 'cV[R]_n :=
  if 10%:R ^- 7 < os u d then (os u d)^-1 *: (unitv u - oc u d *: unitv d) else 0.

Lemma oc_le1 n (u d : 'cV[R]_n) : u != 0 -> d != 0 -> oc u d ^+ 2 <= 1.
Proof.
move=> u0 d0; apply: le_trans (cauchy_schwarz _ _) _.
by rewrite !sqn_unitv // mulr1.
Qed.
Lemma oc_os n (u d : 'cV[R]_n) : u != 0 -> d != 0 -> oc u d ^+ 2 + os u d ^+ 2 = 1.
Proof.
move=> u0 d0; rewrite /os sqr_sqrtr ?subr_ge0 ?oc_le1 //.
by rewrite addrCA subrr addr0.
Qed.
Lemma os_ge0 n (u d : 'cV[R]_n) : 0 <= os u d. Proof. exact: sqrtr_ge0. Qed.
Lemma tol7_gt0 : 0 < (10%:R ^- 7 : R).
Proof. by rewrite invr_gt0 exprn_gt0 // ltr0n. Qed.

Lemma orth_transl_run b n (src dst : 'cV[R]_n) : src != 0 -> dst != 0 ->
  orth_transl (RealArr (colarr b src)) (RealArr (colarr b dst)) =
  Ok (mat (rotm (oc src dst) (os src dst) (unitv dst) (ow src dst))).
Proof.
move=> s0 d0; rewrite /orth_transl dim0_col rbind_okE !real_arrE !rbind_okE !dot_sum_col !rbind_okE.
have -> : xeq (Fin (dotv dst dst)) x0 = false by rewrite /= -/(sqn dst) gt_eqF // sqn_gt0.
have -> : xeq (Fin (dotv src src)) x0 = false by rewrite /= -/(sqn src) gt_eqF // sqn_gt0.
rewrite -/(sqn src) -/(sqn dst) !xsqrtE ?sqn_ge0 // -/(len src) -/(len dst).
rewrite !divs_col ?len_eq0 // -/(unitv src) -/(unitv dst) dot_sum_col rbind_okE -/(oc src dst).
cbv zeta.
have -> : xsub x1 (xmul (Fin (oc src dst)) (Fin (oc src dst))) = Fin (1 - oc src dst ^+ 2) by [].
rewrite xmaxE (max_idPl _) ?subr_ge0 ?oc_le1 // xsqrtE ?subr_ge0 ?oc_le1 // -/(os src dst).
rewrite np_zeros_mat (set_col_sq b _ (0 : 'I_2)) rbind_okE.
have -> : xgt (xabs (Fin (os src dst))) (orth_tol R) = (10%:R ^- 7 < os src dst).
  by rewrite /xgt /= ger0_norm ?os_ge0.
set Q := (\matrix_(i, k) _); set d := unitv dst in Q *.
have -> : (if 10%:R ^- 7 < os src dst
   then
    let* t := np_sub (colarr b (unitv src)) (np_scale (Fin (oc src dst)) (colarr b d))
    in np_set_col (mat Q) 1 (np_squeeze (np_divs t (Fin (os src dst))))
   else np_set_col (mat Q) 1 (np_scalar x0)) = Ok (mat (row_mx d (ow src dst) : 'M_(n, 1 + 1))).
  rewrite -set2_row /ow; case: ifP => h.
    rewrite scale_col sub_col rbind_okE divs_col; last by rewrite gt_eqF // (lt_trans tol7_gt0 h).
    by rewrite (set_col_sq b _ (1 : 'I_2)).
  rewrite -[np_scalar x0]/(scal 0) (np_set_col_scal _ (1 : 'I_2)); congr (Ok (mat _)).
  by apply/matrixP => i k; rewrite !mxE; case: eqP => //; rewrite mxE.
rewrite rbind_okE.
have -> : Arr [:: 2%N; 2%N] [:: xsub (Fin (oc src dst)) x1; Fin (os src dst);
    xopp (Fin (os src dst)); xsub (Fin (oc src dst)) x1] = 
  mat (block_mx (oc src dst - 1)%:M (os src dst)%:M (- os src dst)%:M (oc src dst - 1)%:M : 'M[R]_(1 + 1)).
  by rewrite -mat_block2.
rewrite np_matmul_mm rbind_okE np_T_mat np_matmul_mm rbind_okE np_eye_mat np_add_mat.
by rewrite -rotm_factor.
Qed.

Lemma oc_mul n (u d : 'cV[R]_n) : oc u d * (len u * len d) = dotv u d.
Proof.
have -> : dotv u d = dotv (len u *: unitv u) (len d *: unitv d) by rewrite !unitvK.
by rewrite dotvZl dotvZr /oc mulrC mulrA.
Qed.

Lemma os_big n (u d : 'cV[R]_n) : u != 0 -> d != 0 ->
  10%:R ^- 14 * (sqn u * sqn d) < sqn u * sqn d - dotv u d ^+ 2 -> 10%:R ^- 7 < os u d.
Proof.
move=> u0 d0 H; rewrite -(@ltr_pexpn2r _ 2) ?nnegrE ?os_ge0 ?(ltW tol7_gt0) //.
rewrite /os sqr_sqrtr ?subr_ge0 ?oc_le1 //.
have p0 : 0 < sqn u * sqn d by rewrite mulr_gt0 // sqn_gt0.
rewrite -(ltr_pmul2r p0) exprVn -exprM mulrBl mul1r.
suff -> : oc u d ^+ 2 * (sqn u * sqn d) = dotv u d ^+ 2 by [].
rewrite -(len_sq u) -(len_sq d) -!exprMn; congr (_ ^+ 2).
exact: oc_mul.
Qed.

Lemma oc_par n (u d : 'cV[R]_n) : u != 0 -> d != 0 -> 
  dotv u d ^+ 2 = sqn u * sqn d -> oc u d ^+ 2 = 1.
Proof.
move=> u0 d0 H; have p0 : 0 < sqn u * sqn d by rewrite mulr_gt0 // sqn_gt0.
apply: (mulIf (lt0r_neq0 p0)); rewrite mul1r -[RHS]H -(len_sq u) -(len_sq d) -!exprMn; congr (_ ^+ 2).
exact: oc_mul.
Qed.


Lemma src_decomp n (u d : 'cV[R]_n) : 10%:R ^- 7 < os u d ->
  unitv u = oc u d *: unitv d + os u d *: ow u d.
Proof.
move=> h; rewrite /ow h (scalerA (os u d)) mulfV ?scale1r; last by rewrite gt_eqF // (lt_trans tol7_gt0 h).
by rewrite addrCA subrr addr0.
Qed.
Lemma ow_orth n (u d : 'cV[R]_n) : u != 0 -> d != 0 -> 10%:R ^- 7 < os u d ->
  dotv (unitv d) (ow u d) = 0 /\ sqn (ow u d) = 1.
Proof.
move=> u0 d0 h; have s0 : os u d != 0 by rewrite gt_eqF // (lt_trans tol7_gt0 h).
rewrite /ow h; split.
  by rewrite dotvZr dotvBr dotvZr -/(sqn (unitv d)) sqn_unitv // mulr1 dotvC -/(oc u d) subrr mulr0.
rewrite sqnZ sqnB sqnZ !sqn_unitv // dotvZr -/(oc u d) mulr1.
have -> : 1 - 2%:R * (oc u d * oc u d) + oc u d ^+ 2 = 1 - oc u d ^+ 2 by ring.
have -> : 1 - oc u d ^+ 2 = os u d ^+ 2 by rewrite -(oc_os u0 d0) addrAC subrr add0r.
by rewrite exprVn mulVf // expf_neq0.
Qed.

(** exact in both regimes *)
Lemma rot_clear n (u d : 'cV[R]_n) : u != 0 -> d != 0 -> clear_angle u d ->
  transl (rotm (oc u d) (os u d) (unitv d) (ow u d)) u d.
Proof.
move=> u0 d0; case=> H.
  have c1 := oc_par u0 d0 H.
  have sz : os u d = 0 by rewrite /os c1 subrr sqrtr0.
  have -> : ow u d = 0 by rewrite /ow sz ltNge (ltW tol7_gt0).
  split; first by apply: rotm_w0_orthog; rewrite ?sqn_unitv.
  apply: unit_transl; rewrite rotm_w0 dotvC -/(oc u d) -{1}[unitv u](subrK (oc u d *: unitv d)).
  have -> : unitv u - oc u d *: unitv d = 0.
    apply/eqP; rewrite -sqn_eq0 sqnB sqnZ !sqn_unitv // dotvZr -/(oc u d) mulr1 -expr2 c1.
    by apply/eqP; ring.
  by rewrite add0r mulrBl -expr2 c1 mul1r scalerBl scale1r addrCA subrr addr0.
have h := os_big u0 d0 H; have [dw w1] := ow_orth u0 d0 h.
split; first by apply: rotm_orthog; rewrite ?sqn_unitv // oc_os.
by apply: unit_transl; rewrite (src_decomp h) rotm_src ?sqn_unitv // oc_os.
Qed.

Theorem orth_transl_exact b n (src dst : 'cV[R]_n) : src != 0 -> dst != 0 -> clear_angle src dst ->
  exists O, orth_transl (RealArr (colarr b src)) (RealArr (colarr b dst)) = Ok (mat O) /\
    transl O src dst.
Proof. by move=> s0 d0 H; rewrite orth_transl_run //; eexists; split; [reflexivity|exact: rot_clear]. Qed.

(** outside of the plane of the two vectors nothing moves; the determinant is 1 *)
Theorem orth_transl_plane b n (src dst : 'cV[R]_n) (O : 'M[R]_n) : src != 0 -> dst != 0 ->
  orth_transl (RealArr (colarr b src)) (RealArr (colarr b dst)) = Ok (mat O) ->
  forall x, dotv src x = 0 -> dotv dst x = 0 -> O *m x = x.
Proof.
move=> s0 d0; rewrite orth_transl_run // => /Ok_inj/mat_inj <- x sx dx; apply: rotm_fix.
  by rewrite dotvZl dx mulr0.
rewrite /ow; case: ifP => _; last by rewrite dotv0l.
by rewrite dotvZl dotvBl !dotvZl sx dx !mulr0 subrr mulr0.
Qed.
Theorem orth_transl_det b n (src dst : 'cV[R]_n) (O : 'M[R]_n) : src != 0 -> dst != 0 ->
  10%:R ^- 14 * (sqn src * sqn dst) < sqn src * sqn dst - dotv src dst ^+ 2 ->
  orth_transl (RealArr (colarr b src)) (RealArr (colarr b dst)) = Ok (mat O) -> \det O = 1.
Proof.
move=> s0 d0 H; rewrite orth_transl_run // => /Ok_inj/mat_inj <-.
have h := os_big s0 d0 H; have [dw w1] := ow_orth s0 d0 h.
by apply: rotm_det; rewrite ?sqn_unitv // oc_os.
Qed.

(** always: the error is of the order of the tolerance *)
Theorem orth_transl_error b n (src dst : 'cV[R]_n) : src != 0 -> dst != 0 ->
  exists O, [/\ orth_transl (RealArr (colarr b src)) (RealArr (colarr b dst)) = Ok (mat O),
    sqn (O *m unitv src - unitv dst) <= 2%:R * 10%:R ^- 14 &
    forall x, `|sqn (O *m x) - sqn x| <= 10%:R ^- 14 * sqn x].
Proof.
move=> s0 d0; rewrite orth_transl_run //; eexists; split; first by reflexivity.
  case: (ltP (10%:R ^- 7) (os src dst)) => h.
    have [dw w1] := ow_orth s0 d0 h.
    rewrite (src_decomp h) rotm_src ?sqn_unitv ?oc_os // subrr sqn0.
    by rewrite mulr_ge0 ?invr_ge0 ?exprn_ge0 ?ler0n.
  have -> : ow src dst = 0 by rewrite /ow ltNge h.
  rewrite (rotm_w0_miss (c := oc src dst)) ?sqn_unitv ?oc_os //; last by rewrite dotvC.
  have h2 : os src dst ^+ 2 <= 10%:R ^- 14.
    have -> : 10%:R ^- 14 = (10%:R ^- 7) ^+ 2 :> R by rewrite exprVn -exprM.
    by rewrite ler_pexpn2r ?nnegrE ?os_ge0 ?(ltW tol7_gt0).
  rewrite mulr2n mulrDl !mul1r ler_add //.
  have -> : os src dst ^+ 4 = os src dst ^+ 2 * os src dst ^+ 2 by rewrite -exprD.
  rewrite -[_ ^- _]mulr1; apply: ler_pmul; rewrite ?sqr_ge0 //.
  by apply: le_trans h2 _; rewrite invf_le1 ?exprn_gt0 ?ltr0n // exprn_ege1 // ler1n.
move=> x; case: (ltP (10%:R ^- 7) (os src dst)) => h.
  have [dw w1] := ow_orth s0 d0 h.
  rewrite orthog_sqn; last by apply: rotm_orthog; rewrite ?sqn_unitv // oc_os.
  by rewrite subrr normr0 mulr_ge0 ?sqn_ge0 ?invr_ge0 ?exprn_ge0 ?ler0n.
have -> : ow src dst = 0 by rewrite /ow ltNge h.
rewrite /sqn rotm_w0_defect ?sqn_unitv ?oc_os // addrAC subrr add0r normrN -expr2.
rewrite ger0_norm; last by rewrite mulr_ge0 ?sqr_ge0.
apply: ler_pmul; rewrite ?sqr_ge0 //.
  have -> : 10%:R ^- 14 = (10%:R ^- 7) ^+ 2 :> R by rewrite exprVn -exprM.
  by rewrite ler_pexpn2r ?nnegrE ?os_ge0 ?(ltW tol7_gt0).
by apply: le_trans (cauchy_schwarz _ _) _; rewrite sqn_unitv // mul1r.
Qed.

Theorem orth_transl_dst0 b n (src : 'cV[R]_n) :
  orth_transl (RealArr (colarr b src)) (RealArr (colarr b (0 : 'cV_n))) =
  throw "wrongInput:dst_zero".
Proof.
by rewrite /orth_transl dim0_col rbind_okE !real_arrE !rbind_okE !dot_sum_col !rbind_okE dotv0l /= eqxx.
Qed.
Theorem orth_transl_src0 b n (dst : 'cV[R]_n) : dst != 0 ->
  orth_transl (RealArr (colarr b (0 : 'cV_n))) (RealArr (colarr b dst)) =
  throw "wrongInput:src_zero".
Proof.
move=> d0.
rewrite /orth_transl dim0_col rbind_okE !real_arrE !rbind_okE !dot_sum_col !rbind_okE dotv0l /=.
by rewrite gt_eqF ?eqxx // sqn_gt0.
Qed.


(** ------------------------------------------------ C20 orth_transl_haus *)
Lemma sum_sq_col b n (v : 'cV[R]_n) : np_sum (np_sq (colarr b v)) = Fin (sqn v).
Proof.
case: b => /=.
  rewrite /np_sq np_map_mkn (_ : mkn _ _ = mat (\matrix_(i, j) (v i j * v i j))); last first.
    by apply: matE => i j; rewrite mxE /= mxgetE.
  by rewrite np_sum_mat; congr Fin; apply: eq_bigr => i _; rewrite big_ord1 mxE.
rewrite /np_sq (vec_map (w := \col_i (v i 0 * v i 0))); last by move=> i; rewrite mxE.
by rewrite np_sum_vec; congr Fin; apply: eq_bigr => i _; rewrite mxE.
Qed.

Lemma expand_col b n (v : 'cV[R]_n) :
  (if ndim (colarr b v) == 1%N then np_expand 1 (colarr b v) else colarr b v) = mat v.
Proof. by case: b => //=; rewrite np_expand1_vec. Qed.

Lemma haus_run b n (src dst : 'cV[R]_n) : src != 0 -> dst != 0 ->
  let w := unitv src - unitv dst in
  orth_transl_haus (colarr b src) (colarr b dst) =
  Ok (mat (if sqn w < 10%:R ^- 14 then 1%:M else haus w)).
Proof.
move=> s0 d0 w; rewrite /orth_transl_haus; cbv zeta.
rewrite !sum_sq_col !xsqrtE ?sqn_ge0 // -/(len src) -/(len dst).
rewrite !divs_col ?len_eq0 // -/(unitv src) -/(unitv dst) sub_col rbind_okE expand_col -/w.
rewrite -[mat w]/(colarr true w) sum_sq_col [colarr true w]/= np_T_mat np_matmul_mm rbind_okE.
rewrite size_col np_eye_mat.
have -> : xlt (Fin (sqn w)) (Fin (10%:R ^- 14)) = (sqn w < 10%:R ^- 14) by [].
case: ltP => h.
  by rewrite np_scale_mat np_sub_mat scale0r subr0.
rewrite xdivE ?np_scale_mat ?np_sub_mat // gt_eqF //.
by apply: lt_le_trans h; rewrite invr_gt0 exprn_gt0 // ltr0n.
Qed.

Theorem haus_exact b n (src dst : 'cV[R]_n) : src != 0 -> dst != 0 ->
  unitv src = unitv dst \/ 10%:R ^- 14 <= sqn (unitv src - unitv dst) ->
  exists O, orth_transl_haus (colarr b src) (colarr b dst) = Ok (mat O) /\ transl O src dst.
Proof.
move=> s0 d0 H; rewrite haus_run //; eexists; split; first by reflexivity.
case: ltP => h.
  split; first exact: orthog1.
  apply: unit_transl; rewrite mul1mx; case: H => // H.
  by have := le_lt_trans H h; rewrite ltxx.
have w0 : unitv src - unitv dst != 0.
  rewrite -sqn_gt0; apply: lt_le_trans h; rewrite invr_gt0 exprn_gt0 // ltr0n //.
split; first exact: haus_orthog.
by apply: unit_transl; apply: haus_swap; rewrite ?sqn_unitv // -subr_eq0.
Qed.

(** in every case the result is orthogonal and misses the direction of dst by at most 1e-7 *)
Theorem haus_error b n (src dst : 'cV[R]_n) : src != 0 -> dst != 0 ->
  exists O, [/\ orth_transl_haus (colarr b src) (colarr b dst) = Ok (mat O), orthog O, symm O &
    sqn (O *m unitv src - unitv dst) < 10%:R ^- 14].
Proof.
move=> s0 d0; rewrite haus_run //; eexists; split; first by reflexivity.
- case: ltP => h; first exact: orthog1.
  apply: haus_orthog; rewrite -sqn_gt0; apply: lt_le_trans h.
  by rewrite invr_gt0 exprn_gt0 // ltr0n.
- by case: ltP => h; [rewrite /symm trmx1 | exact: haus_sym].
case: (ltP (sqn (unitv src - unitv dst)) _) => h; first by rewrite mul1mx.
rewrite haus_swap ?sqn_unitv // ?subrr ?sqn0 ?invr_gt0 ?exprn_gt0 ?ltr0n //.
rewrite -subr_eq0 -sqn_gt0; apply: lt_le_trans h.
by rewrite invr_gt0 exprn_gt0 // ltr0n.
Qed.


(** ------------------------------------------------ C21 orth_transl_qr *)
Lemma np_mul_row11 n (v : 'cV[R]_n) (a : R) :
  np_mul (vec v) (mat (a%:M : 'M_1)) = Ok (mat ((a *: v)^T)).
Proof.
rewrite /np_mul /np_bin.
have -> : bshape (shape (vec v)) (shape (mat (a%:M : 'M[R]_1))) = Some [:: 1%N; n].
  by rewrite /bshape /=; case: eqP => [->|] //; case: eqP => [->|].
congr Ok; apply: matE => i j.
rewrite (ord1 i) [bidx _ _]/= [bidx [:: 1%N; 1%N] _]/=.
have -> : getn NaN (mat (a%:M : 'M[R]_1)) [:: 0%N; 0%N] = Fin a.
  by rewrite (get_mat (a%:M : 'M[R]_1) 0 0) mxE eqxx.
have -> : bidx [:: n] [:: 0%N; val j] = [:: val j].
  by rewrite /bidx /=; congr [:: _]; case: eqP => // n1; case: j => k; rewrite n1 /= ltnS leqn0 => /eqP->.
by rewrite get_vec /= !mxE mulrC.
Qed.

Lemma set_col_row m n (M : 'M[R]_(m, n)) (j : 'I_n) (v : 'cV[R]_m) :
  np_set_col (mat M) j (mat v^T) =
  Ok (mat (\matrix_(i, k) (if k == j then v i 0 else M i k))).
Proof. by rewrite -np_set_col_vec -[in RHS](trmxK v) -vec_dataT. Qed.

Lemma map11 (f : X -> X) (a b : R) : f (Fin a) = Fin b ->
  np_map f (mat (a%:M : 'M_1)) = mat (b%:M : 'M[R]_1).
Proof.
move=> H; rewrite np_map_mkn; apply: matE => i j; rewrite (ord1 i) (ord1 j) /=.
by rewrite (mxgetE (a%:M : 'M[R]_1) 0 0) !mxE eqxx !mulr1n.
Qed.

Lemma at2_mat m n (M : 'M[R]_(m, n)) (i : 'I_m) (j : 'I_n) : np_at2 (mat M) i j = Ok (Fin (M i j)).
Proof. by rewrite /np_at2 /= !ltn_ord /= get_mat. Qed.

Lemma mul_cols2 n (Q : 'M[R]_(n, 2)) (T : 'M[R]_2) j :
  col j (Q *m T) = T 0 j *: col 0 Q + T 1 j *: col 1 Q.
Proof.
apply/matrixP => i l; rewrite (ord1 l) !mxE big_ord_recl big_ord1.
have -> : lift ord0 0 = 1 :> 'I_2 by apply: val_inj.
by rewrite ![_ * Q _ _]mulrC.
Qed.

Lemma orth_transl_qr_run (la : linalg R) b1 b2 k (src dst : 'cV[R]_k.+2) : qr_ok la ->
  src != 0 -> dst != 0 ->
  exists q0 q1 c s, [/\ orth_transl_qr la (RealArr (colarr b1 src)) (RealArr (colarr b2 dst)) =
     Ok (mat (rotm c s q0 q1)), 
     [/\ sqn q0 = 1, sqn q1 = 1 & dotv q0 q1 = 0], c ^+ 2 + s ^+ 2 = 1 & 
     exists e, [/\ e ^+ 2 = 1, unitv dst = e *: q0 & unitv src = e *: (c *: q0 + s *: q1)]].
Proof.
move=> Hla s0 d0; rewrite /orth_transl_qr !real_arrE !rbind_okE !dot_sum_col !rbind_okE.
have -> : xeq (Fin (dotv dst dst)) x0 = false by rewrite /= -/(sqn dst) gt_eqF // sqn_gt0.
have -> : xeq (Fin (dotv src src)) x0 = false by rewrite /= -/(sqn src) gt_eqF // sqn_gt0.
rewrite !expand_col; cbv zeta.
have -> : dim_res (mat src) 0 = Ok k.+2 by [].
rewrite rbind_okE [_ == 1%N]/= np_hstack_mat rbind_okE.
have [Q [T [-> HQ HT E]]] := Hla k.+2 2%N (row_mx dst src : 'M_(k.+2, 1 + 1)) isT isT.
rewrite -[minn k.+2 2]/2%N in Q T HQ HT E *.
rewrite rbind_okE; cbv beta iota.
have Ed : dst = T 0 0 *: col 0 Q.
  have : col 0 (row_mx dst src : 'M_(k.+2, 1 + 1)) = dst.
    by apply/matrixP => i j; rewrite !mxE (ord1 j); case: splitP => // l; rewrite (ord1 l).
  by rewrite E mul_cols2 (HT 1 0) // scale0r addr0 => <-.
have Es : src = T 0 1 *: col 0 Q + T 1 1 *: col 1 Q.
  have : col 1 (row_mx dst src : 'M_(k.+2, 1 + 1)) = src.
    by apply/matrixP => i j; rewrite !mxE (ord1 j); case: splitP => l; rewrite (ord1 l).
  by rewrite E mul_cols2 => <-.
have q00 : sqn (col 0 Q) = 1 by move/orthocolsP: HQ => /(_ 0 0).
have q11 : sqn (col 1 Q) = 1 by move/orthocolsP: HQ => /(_ 1 1).
have q01 : dotv (col 0 Q) (col 1 Q) = 0 by move/orthocolsP: HQ => /(_ 0 1).
set q0 := col 0 Q in Ed Es q00 q01 *; set q1 := col 1 Q in Es q11 q01 *.
set a := T 0 0 in Ed *; set b := T 0 1 in Es *; set d := T 1 1 in Es *.
have a0 : a != 0 by apply: contra_neq d0 => az; rewrite Ed az scale0r.
have sd : sqn dst = a ^+ 2 by rewrite Ed sqnZ q00 mulr1.
have ld : len dst = `|a| by rewrite /len sd sqrtr_sqr.
have ss : sqn src = b ^+ 2 + d ^+ 2.
  by rewrite Es sqnD !sqnZ q00 q11 dotvZl dotvZr q01 !mulr0 addr0 !mulr1.
have l0 : 0 < len src by rewrite len_gt0.
set e := Num.sg a; have e2 : e ^+ 2 = 1 by rewrite sqr_sg a0.
have ea : e * `|a| = a by rewrite -numEsg.
have na : `|a| != 0 by rewrite normr_eq0.
pose c := e * (b / len src); pose s := e * (d / len src).
have cs : c ^+ 2 + s ^+ 2 = 1.
  rewrite /c /s !exprMn e2 !mul1r -mulrDl -ss -len_sq exprVn mulfV // expf_neq0 // gt_eqF //.
exists q0, q1, c, s; split=> //; last first.
  exists e; split=> //.
    rewrite /unitv ld {1}Ed scalerA; congr (_ *: _).
    by rewrite -{2}ea mulrCA mulVf ?mulr1.
  rewrite /unitv {2}Es !scalerDr !scalerA /c /s !mulrA -expr2 e2 !mul1r.
  by rewrite ![(len src)^-1 * _]mulrC.
rewrite np_T_mat np_matmul_mm rbind_okE dotv_outer.
have -> : xmul (Fin (dotv dst dst)) (Fin (dotv src src)) = Fin ((len dst * len src) ^+ 2).
  by rewrite exprMn !len_sq.
rewrite xsqrtE ?sqr_ge0 // sqrtr_sqr ger0_norm ?mulr_ge0 ?len_ge0 //.
have -> : np_divs (mat ((dotv dst src)%:M : 'M_1)) (Fin (len dst * len src)) = mat (c%:M : 'M[R]_1).
  apply: map11; rewrite xdivE; last by rewrite mulf_neq0 // ?gt_eqF // len_gt0.
  congr Fin; rewrite Es Ed dotvZl dotvDr !dotvZr q01 -/(sqn q0) q00 mulr0 addr0 mulr1 -Es -Ed ld.
  rewrite /c -{1}ea; have := lt0r_neq0 l0; move: (len src) (`|a|) na (e) => l x x0' e' l0'.
  by clear -l0' x0'; field; rewrite l0' x0'.
rewrite np_mul_mat rbind_okE.
have -> : (\matrix_(i, j) ((c%:M : 'M[R]_1) i j * (c%:M : 'M[R]_1) i j)) = (c ^+ 2)%:M.
  by apply/matrixP => i j; rewrite !mxE (ord1 i) (ord1 j) eqxx !mulr1n.
have -> : np_neg (np_sqrt (np_map (fun x => xsub x1 x) (mat ((c ^+ 2)%:M : 'M_1)))) =
    mat ((- `|s|)%:M : 'M[R]_1).
  have c1 : 1 - c ^+ 2 = s ^+ 2 by rewrite -cs addrAC subrr add0r.
  rewrite (map11 (b := s ^+ 2)); last by rewrite xsubE c1.
  rewrite /np_sqrt (map11 (b := `|s|)) ?xsqrtE ?sqr_ge0 ?sqrtr_sqr //.
  by rewrite /np_neg (map11 (b := - `|s|)).
rewrite (at2_mat T 0 0) rbind_okE (at2_mat T 1 1) rbind_okE -/a -/d.
have -> : (if xlt (xmul (Fin a) (Fin d)) x0 then np_neg (mat ((- `|s|)%:M : 'M_1))
           else mat ((- `|s|)%:M : 'M_1)) = mat ((- s)%:M : 'M[R]_1).
  rewrite [xlt _ _]/= /np_neg (map11 (b := `|s|)); last by rewrite /= opprK.
  have ads : a * d = `|a| * len src * s.
    rewrite /s -{1}ea; have := lt0r_neq0 l0; move: (len src) (`|a|) (e) => l x e' l0'.
    by clear -l0'; field; rewrite l0'.
  have p0 : 0 < `|a| * len src by rewrite mulr_gt0 // normr_gt0.
  rewrite ads; case: ltP => h; congr (mat _%:M).
    by rewrite ltr0_norm // -(pmulr_rlt0 _ p0).
  by rewrite ger0_norm // -(pmulr_rge0 _ p0).
rewrite (np_col_mat Q 0) rbind_okE (np_col_mat Q 1) rbind_okE -/q0 -/q1.
rewrite (map11 (b := c - 1)) // np_neg_vec !np_mul_row11 !rbind_okE np_add_mat rbind_okE.
rewrite np_zeros_mat -(raddfD (@trmx_additive _ _ _)) /= (set_col_row _ (0 : 'I_2)) rbind_okE.
rewrite np_add_mat rbind_okE.
rewrite -(raddfD (@trmx_additive _ _ _)) /= (set_col_row _ (1 : 'I_2)) rbind_okE set2_row.
rewrite np_T_mat np_matmul_mm rbind_okE np_eye_mat np_add_mat; congr (Ok (mat (_ + _))).
have -> : Q^T = (row_mx q0 q1 : 'M_(k.+2, 1 + 1))^T.
  congr (_^T); apply/matrixP => i j; rewrite !mxE; case: (splitP (j : 'I_(1 + 1))) => l El; rewrite (ord1 l) !mxE.
    by congr (Q _ _); apply: val_inj; rewrite /= El (ord1 l).
  by congr (Q _ _); apply: val_inj; rewrite /= El (ord1 l).
rewrite tr_row_mx; etransitivity; first exact: (@mul_row_col R k.+2 1 1 k.+2).
rewrite !mulmxDl -!scalemxAl mulNmx; move: (q0 *m q0^T) (q0 *m q1^T) (q1 *m q0^T) (q1 *m q1^T) => M1 M2 M3 M4.
by apply/matrixP => i j; rewrite !mxE; gring.
Qed.

Theorem orth_transl_qr_exact (la : linalg R) b1 b2 k (src dst : 'cV[R]_k.+2) : qr_ok la ->
  src != 0 -> dst != 0 ->
  exists O, [/\ orth_transl_qr la (RealArr (colarr b1 src)) (RealArr (colarr b2 dst)) = Ok (mat O),
    transl O src dst & \det O = 1].
Proof.
move=> Hla s0 d0.
have [q0 [q1 [c [s [-> [h0 h1 h01] cs [e [e2 Ed Es]]]]]]] := orth_transl_qr_run b1 b2 Hla s0 d0.
eexists; split; first by reflexivity.
  split; first exact: rotm_orthog.
  by apply: unit_transl; rewrite Es Ed -scalemxAr rotm_src.
exact: rotm_det.
Qed.
Theorem orth_transl_qr_1 (la : linalg R) b1 b2 (src dst : 'cV[R]_1) : src != 0 -> dst != 0 ->
  exists O, orth_transl_qr la (RealArr (colarr b1 src)) (RealArr (colarr b2 dst)) = Ok (mat O) /\
    transl O src dst.
Proof.
move=> s0 d0; rewrite /orth_transl_qr !real_arrE !rbind_okE !dot_sum_col !rbind_okE.
have -> : xeq (Fin (dotv dst dst)) x0 = false by rewrite /= -/(sqn dst) gt_eqF // sqn_gt0.
have -> : xeq (Fin (dotv src src)) x0 = false by rewrite /= -/(sqn src) gt_eqF // sqn_gt0.
rewrite !expand_col; cbv zeta.
have -> : dim_res (mat src) 0 = Ok 1%N by [].
rewrite rbind_okE eqxx np_matmul_mm rbind_okE.
rewrite [src *m dst]mx11_scalar (map11 (b := Num.sg ((src *m dst) 0 0))) //.
rewrite mxE big_ord1; eexists; split; first by reflexivity.
have nz (v : 'cV[R]_1) : v != 0 -> v 0 0 != 0.
  by apply: contra_neq => v0; rewrite [v]mx11_scalar v0 (raddf0 (@scalar_mx_additive _ _)).
have [x0' y0] := (nz _ s0, nz _ d0); split.
  rewrite /orthog tr_scalar_mx -scalar_mxM; congr (_%:M).
  by rewrite -expr2 sqr_sg mulf_neq0.
have Hl (v : 'cV[R]_1) : len v = `|v 0 0|.
  by rewrite /len /sqn /dotv big_ord1 -expr2 sqrtr_sqr.
rewrite mul_scalar_mx !Hl; apply/matrixP => i j; rewrite !mxE (ord1 i) (ord1 j) sgrM.
rewrite mulrAC -normrEsg [in RHS]mulrAC {2}(numEsg (dst 0 0)) mulrA mulfK ?normr_eq0 //.
Qed.

(** ------------------------------------------------ C22, C23 *)
Lemma e_firstE m : e_first R m.+1 = vec (@e1 R m).
Proof.
rewrite /e_first subSS subn0 -[vec _]/(Arr [:: m.+1] (data (vec (@e1 R m)))) data_vec; congr Arr.
rewrite -[iota 0 m.+1]/(0%N :: iota 1 m) map_cons; congr cons.
  by rewrite (mxgetE (@e1 R m) 0 0) mxE.
rewrite (iotaDl 1 0) -map_comp; apply: (@eq_from_nth _ NaN); rewrite ?size_nseq ?size_map ?size_iota //.
move=> i im; rewrite nth_nseq im (nth_map 0%N) ?size_iota // nth_iota //=.
have im' : (i.+1 < m.+1)%N by [].
by rewrite (mxgetE (@e1 R m) (Ordinal im') 0) mxE.
Qed.

Lemma e1_n0 m : @e1 R m != 0.
Proof. by apply/eqP => /matrixP/(_ 0 0); rewrite !mxE eqxx => /eqP; rewrite oner_eq0. Qed.
Lemma sqn_e1 m : sqn (@e1 R m) = 1.
Proof. by rewrite /sqn dot_delta mxE eqxx. Qed.
Lemma len_e1 m : len (@e1 R m) = 1.
Proof. by rewrite /len sqn_e1 sqrtr1. Qed.

Lemma orth_e1 m (src : 'cV[R]_(1 + m)) : src != 0 -> clear_angle (e1 R m) src ->
  exists V, orth_transl (RealArr (e_first R (1 + m))) (RealArr (vec src)) =
            Ok (mat (row_mx (unitv src) V)) /\ orthog (row_mx (unitv src) V).
Proof.
move=> s0 H; rewrite e_firstE.
have [O [-> [HO Oe]]] := orth_transl_exact false (e1_n0 m) s0 H.
have E : O = row_mx (unitv src) (rsubmx (O : 'M_(1 + m, 1 + m))).
  rewrite (_ : unitv src = lsubmx (O : 'M_(1 + m, 1 + m))) ?hsubmxK //.
  rewrite /unitv -[_^-1]mul1r -(len_e1 m) -Oe col_delta; apply/matrixP => i j; rewrite !mxE (ord1 j).
  by congr (O _ _); apply: val_inj.
by exists (rsubmx (O : 'M_(1 + m, 1 + m))); rewrite -E.
Qed.

Lemma np_col0_row m n (a : 'cV[R]_m) (V : 'M[R]_(m, n)) :
  np_col (mat (row_mx a V)) 0 = Ok (vec a).
Proof.
rewrite (np_col_mat (row_mx a V) (lshift n 0)) colKl; congr (Ok (vec _)).
by apply/matrixP => i j; rewrite mxE (ord1 j).
Qed.

Lemma np_mul_outer m n (b : 'cV[R]_m) (a : 'cV[R]_n) :
  np_mul (mat b) (vec a) = Ok (mat (b *m a^T)).
Proof.
rewrite /np_mul /np_bin.
have -> : bshape (shape (mat b)) (shape (vec a)) = Some [:: m; n].
  by rewrite /bshape /=; case: eqP => [->|].
congr Ok; apply: matE => i j.
have -> : bidx (shape (mat b)) [:: val i; val j] = [:: val i; 0%N].
  rewrite /bidx /=; congr [:: _; _]; case: eqP => // m1.
  by case: i => k; rewrite m1 /= ltnS leqn0 => /eqP->.
have -> : bidx (shape (vec a)) [:: val i; val j] = [:: val j].
  rewrite /bidx /=; congr [:: _]; case: eqP => // m1.
  by case: j => k; rewrite m1 /= ltnS leqn0 => /eqP->.
by rewrite (get_mat b i 0) get_vec /= mxE big_ord1 !mxE.
Qed.

Lemma matmul_col b m n (M : 'M[R]_(m, n)) (v : 'cV[R]_n) :
  exists b', np_matmul (mat M) (colarr b v) = Ok (colarr b' (M *m v)).
Proof.
by case: b; [exists true; rewrite /= np_matmul_mm | exists false; rewrite /= np_matmul_mv].
Qed.
Lemma reshape_col b n (v : 'cV[R]_n) :
  np_reshape [:: np_size (colarr b v); 1%N] (colarr b v) = Ok (mat v).
Proof.
rewrite size_col; case: b => /=; last exact: np_reshape_col.
by rewrite /np_reshape size_mkn /= muln1 eqxx.
Qed.

Lemma uppertri_col m (T : 'M[R]_(m.+1, 1)) (Q : 'M[R]_m.+1) : uppertri T ->
  Q *m T = T 0 0 *: col 0 Q.
Proof.
move=> HT; rewrite -col_delta scalemxAr; congr (_ *m _); apply/matrixP => i j; rewrite (ord1 j) !mxE.
case: (eqVneq i 0) => [->|i0]; rewrite ?mulr1 //=.
by rewrite (HT i 0) ?lt0n // ?mulr0.
Qed.

Definition flip1 m (Q : 'M[R]_m.+1) : 'M[R]_m.+1 :=
  \matrix_(i, k) (if k == 0 then (- col 0 Q) i 0 else Q i k).
Lemma flip1_orthog m (Q : 'M[R]_m.+1) : orthog Q -> orthog (flip1 Q).
Proof.
move=> HQ; have -> : flip1 Q = Q *m diagv (sgcol R (pred1 0)); last first.
  by apply: orthogM => //; exact: orthog_sg.
apply/matrixP => i k; rewrite mul_mx_diag !mxE; case: (eqVneq k 0) => [->|k0] /=.
  by rewrite expr1 mulrN1.
by rewrite (negbTE k0) expr0 mulr1.
Qed.

Theorem max_dir_spec (la : linalg R) b1 b2 k (src dst smax dmax : 'cV[R]_(k.+2)) :
  qr_complete_ok la -> src != 0 -> dst != 0 ->
  clear_angle (e1 R k.+1) src -> clear_angle (e1 R k.+1) dst ->
  exists O, [/\ orth_transl_max_dir la (vec src) (vec dst) (colarr b1 smax) (colarr b2 dmax) =
                Ok (mat O), transl O src dst &
    forall P, transl P src dst -> dotv (P *m smax) dmax <= dotv (O *m smax) dmax].
Proof.
move=> Hla s0 d0 Hs Hd; rewrite /orth_transl_max_dir -[vec src]/(colarr false src) size_col.
rewrite [colarr false src]/= [(1 < _)%N]/=.
have [V [-> HV]] := orth_e1 s0 Hs; have [U [-> HU]] := orth_e1 d0 Hd.
rewrite 2!rbind_okE.
have -> : dim (mat (row_mx (unitv src) V)) 1 = (1 + k.+1)%N by [].
have -> : dim (mat (row_mx (unitv dst) U)) 1 = (1 + k.+1)%N by [].
rewrite !(@np_cols_rsub R _ 1 k.+1) // !row_mxKr 2!rbind_okE !np_col0_row 2!rbind_okE !np_T_mat.
have [b1' ->] := matmul_col b1 V^T smax; have [b2' ->] := matmul_col b2 U^T dmax.
rewrite 2!rbind_okE !reshape_col 2!rbind_okE.
set a1 := V^T *m smax; set c1 := U^T *m dmax.
have [Qs [Ts [-> HQs HTs Es]]] := Hla _ _ a1 isT isT.
have [Qd [Td [-> HQd HTd Ed]]] := Hla _ _ c1 isT isT.
rewrite 2!rbind_okE; cbv beta iota.
rewrite (at2_mat Ts 0 0) rbind_okE (at2_mat Td 0 0) rbind_okE.
pose fl := (0 < Ts 0 0) (+) (0 < Td 0 0).
pose Qd' := if fl then flip1 Qd else Qd.
have -> : (if xgt (Fin (Ts 0 0)) x0 (+) xgt (Fin (Td 0 0)) x0
   then let* c := np_col (mat Qd) 0 in np_set_col (mat Qd) 0 (np_neg c)
   else Ok (mat Qd)) = Ok (mat Qd').
  rewrite -[_ (+) _]/fl /Qd'; case: ifP => // _.
  by rewrite (np_col_mat Qd 0) rbind_okE np_neg_vec (np_set_col_vec _ 0).
rewrite rbind_okE !np_T_mat np_matmul_mm rbind_okE np_matmul_mm rbind_okE np_matmul_mm rbind_okE.
rewrite -[vec (unitv dst)]/(colarr false (unitv dst)) reshape_col rbind_okE np_mul_outer rbind_okE.
rewrite np_add_mat -(mulmxA U) -[_ + _]/(glue (unitv src) (unitv dst) V U (Qd' *m Qs^T)).
have HQ' : orthog Qd' by rewrite /Qd'; case: ifP => // _; exact: flip1_orthog.
have HW : orthog (Qd' *m Qs^T) by apply: orthogM => //; exact: orthogT.
eexists; split; first by reflexivity.
  split; first exact: glue_orthog.
  by apply: unit_transl; apply: glue_a.
move=> P [HP /(transl_unit s0 d0) HPs].
have [W HW2 ->] := glue_all HV HU HP HPs.
rewrite !glue_dot -/a1 -/c1 ler_add2l; apply: le_trans (dir_bound _ _ HW2) _.
have Ls : len a1 = `|Ts 0 0| by rewrite Es uppertri_col // lenZ (_ : len _ = 1) ?mulr1 // /len;
  move/orthocolsP: HQs => /(_ 0 0); rewrite eqxx -/(sqn _) => ->; rewrite sqrtr1.
have Ld : len c1 = `|Td 0 0| by rewrite Ed uppertri_col // lenZ (_ : len _ = 1) ?mulr1 // /len;
  move/orthocolsP: HQd => /(_ 0 0); rewrite eqxx -/(sqn _) => ->; rewrite sqrtr1.
rewrite Ls Ld.
have -> : Qd' *m Qs^T *m a1 = Ts 0 0 *: col 0 Qd'.
  by rewrite Es -mulmxA (mulmxA Qs^T) HQs mul1mx uppertri_col.
have -> : col 0 Qd' = (-1) ^+ fl *: col 0 Qd.
  rewrite /Qd'; case: (fl); rewrite ?expr1 ?expr0 ?scale1r // scaleN1r.
  by apply/matrixP => i j; rewrite !mxE.
have -> : dotv (Ts 0 0 *: ((-1) ^+ fl *: col 0 Qd)) c1 = (-1) ^+ fl * (Ts 0 0 * Td 0 0).
  rewrite Ed uppertri_col // !dotvZl dotvZr.
  move/orthocolsP: HQd => /(_ 0 0); rewrite eqxx => ->.
  by rewrite mulr1 mulrCA.
rewrite -normrM /fl; case: (ltgtP 0 (Ts 0 0)) => h1; case: (ltgtP 0 (Td 0 0)) => h2 /=;
  rewrite ?expr0 ?expr1 ?mul1r ?mulN1r.
- by rewrite ger0_norm // mulr_ge0 // ltW.
- by rewrite ler0_norm // mulr_ge0_le0 // ltW.
- by rewrite -h2 mulr0 normr0 oppr0.
- by rewrite ler0_norm // mulr_le0_ge0 // ltW.
- by rewrite ger0_norm // mulr_le0 // ltW.
- by rewrite -h2 mulr0 normr0.
- by rewrite -h1 mul0r normr0 oppr0.
- by rewrite -h1 mul0r normr0.
- by rewrite -h1 mul0r normr0.
Qed.

Theorem max_tr_spec (la : linalg R) k (src dst : 'cV[R]_(k.+2)) (M : 'M[R]_(k.+2)) :
  svd_ok la -> src != 0 -> dst != 0 ->
  clear_angle (e1 R k.+1) src -> clear_angle (e1 R k.+1) dst ->
  exists O, [/\ orth_transl_max_tr la (vec src) (vec dst) (mat M) = Ok (mat O), transl O src dst &
    forall P, transl P src dst -> \tr (P *m M) <= \tr (O *m M)].
Proof.
move=> Hla s0 d0 Hs Hd; rewrite /orth_transl_max_tr.
have -> : dim_res (vec src) 0 = Ok (k.+2) by [].
rewrite rbind_okE [_ == 1%N]/=.
have [V [-> HV]] := orth_e1 s0 Hs; have [U [-> HU]] := orth_e1 d0 Hd.
rewrite 2!rbind_okE np_T_mat tr_row_mx.
have -> : dim (mat (col_mx (unitv src)^T V^T)) 0 = (1 + k.+1)%N by [].
have -> : dim (mat (row_mx (unitv dst) U)) 1 = (1 + k.+1)%N by [].
rewrite (@np_rows_dsub R 1 k.+1) // col_mxKd rbind_okE (@np_cols_rsub R _ 1 k.+1) // row_mxKr rbind_okE.
rewrite !np_col0_row 2!rbind_okE !np_expand1_vec; cbv zeta.
rewrite np_matmul_mm rbind_okE np_matmul_mm rbind_okE.
have [Mm [s [N [-> Hsv]]]] := Hla _ _ (V^T *m M *m U) isT isT.
have [HM HN _ _ _] := Hsv; have [s' [_ EK _ Hs0]] := svd_sq_dec Hsv.
rewrite rbind_okE; cbv beta iota; rewrite np_matmul_mm rbind_okE !np_T_mat np_matmul_mm rbind_okE np_matmul_mm rbind_okE.
rewrite np_matmul_mm rbind_okE np_add_mat.
rewrite -[_ + _]/(glue (unitv src) (unitv dst) V U (Mm *m N)^T).
eexists; split; first by reflexivity.
  split; last by apply: unit_transl; apply: glue_a.
  by apply: glue_orthog => //; apply: orthogT; apply: orthogM.
move=> P [HP /(transl_unit s0 d0) HPs].
have [W HW2 ->] := glue_all HV HU HP HPs.
rewrite !glue_tr ler_add2l EK tr_attain //; exact: tr_bound.
Qed.

(** one dimension *)
Lemma nz11 (v : 'cV[R]_1) : v != 0 -> v 0 0 != 0.
Proof. by apply: contra_neq => v0; rewrite [v]mx11_scalar v0 (raddf0 (@scalar_mx_additive _ _)). Qed.
Lemma len11 (v : 'cV[R]_1) : len v = `|v 0 0|.
Proof. by rewrite /len /sqn /dotv big_ord1 -expr2 sqrtr_sqr. Qed.

Theorem max_dir_1 (la : linalg R) b (src dst : 'cV[R]_1) smax dmax : src != 0 -> dst != 0 ->
  exists O : 'M[R]_1, orth_transl_max_dir la (colarr b src) (colarr b dst) smax dmax =
    Ok (colarr b O) /\ transl O src dst.
Proof.
move=> s0 d0; rewrite /orth_transl_max_dir size_col [(1 < 1)%N]/=.
have Hm (v : 'cV[R]_1) : np_map (@xsign R) (colarr b v) = colarr b ((Num.sg (v 0 0))%:M : 'M[R]_1).
  case: b => /=.
    by rewrite {1}[v]mx11_scalar (map11 (b := Num.sg (v 0 0))).
  by apply: vec_map => i; rewrite (ord1 i) mxE eqxx.
rewrite !Hm; exists ((Num.sg (src 0 0) * Num.sg (dst 0 0))%:M); split.
  case: b {Hm} => /=; rewrite ?np_mul_mat ?np_mul_vec; congr (Ok _).
    by congr mat; apply/matrixP => i j; rewrite (ord1 i) (ord1 j) !mxE eqxx !mulr1n.
  by congr vec; apply/matrixP => i j; rewrite (ord1 i) (ord1 j) !mxE eqxx !mulr1n.
split.
  rewrite /orthog tr_scalar_mx -scalar_mxM; congr (_%:M).
  by rewrite -expr2 exprMn !sqr_sg !nz11 // mulr1.
rewrite mul_scalar_mx !len11; apply/matrixP => i j; rewrite !mxE (ord1 i) (ord1 j).
by rewrite mulrAC -normrEsg [in RHS]mulrAC {2}(numEsg (dst 0 0)) mulrA mulfK // normr_eq0 nz11.
Qed.

Lemma max_tr_1 (la : linalg R) (src dst : 'cV[R]_1) M :
  orth_transl_max_tr la (vec src) (vec dst) M = Ok (mat (1%:M : 'M[R]_1)).
Proof.
rewrite /orth_transl_max_tr.
have -> : dim_res (vec src) 0 = Ok 1%N by [].
rewrite rbind_okE eqxx; congr Ok; apply: matE => i j.
by rewrite (ord1 i) (ord1 j) mxE eqxx.
Qed.

(** ------------------------------------------------ C28 ml_orth_transl *)
Lemma mapM_ok T U (f : T -> res U) (g : T -> U) (s : seq T) :
  (forall x, f x = Ok (g x)) -> mapM f s = Ok (map g s).
Proof. by move=> H; elim: s => //= x s ->; rewrite H. Qed.

Lemma mapM_in (T : eqType) U (f : T -> res U) (g : T -> U) (s : seq T) :
  (forall x, x \in s -> f x = Ok (g x)) -> mapM f s = Ok (map g s).
Proof.
elim: s => //= x s IH H; rewrite H ?mem_head //= IH // => y ys; apply: H.
by rewrite inE ys orbT.
Qed.

Lemma valid4 m n k p idx : valid_idx [:: m; n; k; p] idx ->
  exists (i : 'I_m) (j : 'I_n) (l : 'I_k) (q : 'I_p), idx = [:: val i; val j; val l; val q].
Proof.
case: idx => [|i [|j [|l [|q [|]]]]] //=; rewrite ?andbF // andbT => /and4P[hi hj hl hq].
by exists (Ordinal hi), (Ordinal hj), (Ordinal hl), (Ordinal hq).
Qed.

Lemma get_slices n k p (D : 'I_p -> 'M[R]_(n, k)) (i : 'I_n) (j : 'I_k) (l : 'I_p) :
  getn NaN (slices D) [:: val i; val j; val l] = Fin (D l i j).
Proof. by rewrite getn_mkn /= ?ltn_ord // valK mxgetE. Qed.

Lemma mat_col_get n k (S : 'M[R]_(n, k)) (v : 'I_k) :
  mkn [:: n; 1%N] (fun idx => getn NaN (mat S) [:: nth 0%N idx 0; val v]) = mat (col v S).
Proof. by apply: matE => i j; rewrite /= get_mat mxE. Qed.
Lemma mat_col_slices n k p (D : 'I_p -> 'M[R]_(n, k)) (v : 'I_k) (l : 'I_p) :
  mkn [:: n; 1%N] (fun idx => getn NaN (slices D) [:: nth 0%N idx 0; val v; val l]) = mat (col v (D l)).
Proof. by apply: matE => i j; rewrite /= get_slices mxE. Qed.

Lemma ml_run n k p (S : 'M[R]_(n, k)) (D : 'I_p -> 'M[R]_(n, k)) (src dst : A) :
  np_reshape [:: n; k] src = Ok (mat S) -> np_reshape [:: n; k; p] dst = Ok (slices D) ->
  shape dst = [:: n; k; p] \/ (shape dst = [:: n; k] /\ p = 1%N) \/
    (shape dst = [:: n] /\ k = 1%N /\ p = 1%N) ->
  (forall v, col v S != 0) -> (forall v l, col v (D l) != 0) ->
  exists2 o, ml_orth_transl src dst = Ok o & shape o = [:: n; n; p; k] /\
    forall v l, exists2 O, orth_transl (RealArr (mat (col v S))) (RealArr (mat (col v (D l)))) = Ok (mat O) &
      forall i j : 'I_n, getn NaN o [:: val i; val j; val l; val v] = Fin (O i j).
Proof.
move=> Hs Hd Hsh S0 D0; rewrite /ml_orth_transl.
have -> : (if (ndim dst <= 2)%N then 1%N else dim dst 2) = p.
  by rewrite /ndim /dim; case: Hsh => [->|[[-> ->]|[-> [_ ->]]]].
have -> : (if (ndim dst <= 1)%N then 1%N else dim dst 1) = k.
  by rewrite /ndim /dim; case: Hsh => [->|[[-> _]|[-> [-> _]]]].
have -> : dim_res dst 0 = Ok n.
  by rewrite /dim_res /ndim /dim; case: Hsh => [->|[[-> _]|[-> _]]].
cbv zeta; rewrite rbind_okE Hs rbind_okE Hd rbind_okE.
pose rm (v : 'I_k) (l : 'I_p) := rotm (oc (col v S) (col v (D l))) (os (col v S) (col v (D l)))
  (unitv (col v (D l))) (ow (col v S) (col v (D l))).
pose G (a b : nat) : A := match insub a, insub b with Some v, Some l => mat (rm v l) | _, _ => np_scalar NaN end.
rewrite (mapM_in (g := fun a => [seq G a b | b <- iota 0 p])); last first.
  move=> a; rewrite mem_iota add0n /= => ha.
  apply: (mapM_in (g := G a)) => b; rewrite mem_iota add0n /= => hb.
  rewrite (mat_col_get S (Ordinal ha)) (mat_col_slices D (Ordinal ha) (Ordinal hb)).
  rewrite -![mat (col _ _)]/(colarr true (col _ _)) orth_transl_run // /G.
  by rewrite (insubT (fun a => a < k)%N ha) (insubT (fun a => a < p)%N hb).
rewrite rbind_okE; eexists; first by reflexivity.
split=> // v l; exists (rm v l).
  by rewrite -[mat (col v S)]/(colarr true _) -[mat (col v (D l))]/(colarr true _) orth_transl_run.
move=> i j; rewrite getn_mkn /= ?ltn_ord //.
rewrite (nth_map 0%N) ?size_iota ?ltn_ord // nth_iota ?ltn_ord // add0n.
by rewrite (nth_map 0%N) ?size_iota ?ltn_ord // nth_iota ?ltn_ord // add0n /G !valK get_mat.
Qed.

End OP.
