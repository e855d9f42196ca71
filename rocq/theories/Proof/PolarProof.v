(** The polar of an ellipsoid: Ellipsoid._get_scalar_polar_internal and polar. *)
From mathcomp Require Import all_ssreflect all_algebra.
Require Import Coq.Strings.String.
From mathcomp.algebra_tactics Require Import ring.
From Verif.Model Require Import Py NP NP3 Linalg Compare La Core EllGeom Ellipsoid.
From Verif.Spec Require Import MatSpec LinalgSpec EllSpec EllipsoidSpec.
From Verif.Proof Require Import NPLib NP3Lib MatLib OrthLib LaBasic Decomp OrthProof GenProof EllLib EllGeomProof RankLib EllipsoidProof EllScalProof CoreProof RegProof MinksumProof.
Set Implicit Arguments.
Unset Strict Implicit.
Unset Printing Implicit Defensive.
Import Order.Theory GRing.Theory Num.Theory.
Local Open Scope ring_scope.

Section Polar.
Variable R : rcfType.
Notation X := (xnum R).
Notation A := (arr X).

(** the closed form the code computes *)
Definition pol_k n (c : 'cV[R]_n) (Q : 'M[R]_n) : R := qf (invmx Q) c.
Definition pol_c n (c : 'cV[R]_n) (Q : 'M[R]_n) : 'cV[R]_n := - (1 - pol_k c Q)^-1 *: (invmx Q *m c).
Definition pol_q n (c : 'cV[R]_n) (Q : 'M[R]_n) : 'M[R]_n :=
  (1 - pol_k c Q)^-1 *: invmx Q + pol_c c Q *m (pol_c c Q)^T.

Lemma qf_outer n (v x : 'cV[R]_n) : qf (v *m v^T) x = dotv v x ^+ 2.
Proof. by rewrite /qf -mulmxA dotv_outer mul_mx_scalar dotvZr dotvC expr2 dotvC. Qed.
Lemma qf_add n (M N : 'M[R]_n) x : qf (M + N) x = qf M x + qf N x.
Proof. by rewrite /qf mulmxDl dotvDr. Qed.
Lemma symm_outer n (v : 'cV[R]_n) : symm (v *m v^T).
Proof. by rewrite /symm trmx_mul trmxK. Qed.
Lemma symm_add n (M N : 'M[R]_n) : symm M -> symm N -> symm (M + N).
Proof. by rewrite /symm linearD /= => -> ->. Qed.

Lemma pol_symm n (c : 'cV[R]_n) Q : symm Q -> symm (pol_q c Q).
Proof. by move=> HQ; apply: symm_add (symm_outer _); apply: symm_scale; exact: symm_inv. Qed.
Lemma pol_posdef n (c : 'cV[R]_n) Q : symm Q -> posdef Q -> pol_k c Q < 1 -> posdef (pol_q c Q).
Proof.
move=> HQ Hp k1 x x0; rewrite qf_add qf_scale qf_outer; apply: ltr_paddr; first exact: sqr_ge0.
by apply: mulr_gt0; [rewrite invr_gt0 subr_gt0|exact: posdef_inv].
Qed.

Lemma pol_inv n (c : 'cV[R]_n) Q : symm Q -> posdef Q -> pol_k c Q < 1 ->
  invmx (pol_q c Q) = (1 - pol_k c Q) *: (Q - c *m c^T).
Proof.
move=> HQ Hp k1; have uQ := posdef_unit Hp.
have uP := posdef_unit (pol_posdef HQ Hp k1).
suff E : pol_q c Q *m ((1 - pol_k c Q) *: (Q - c *m c^T)) = 1%:M by rewrite -[RHS](mulKmx uP) E mulmx1.
have k0 : 1 - pol_k c Q != 0 by rewrite gt_eqF // subr_gt0.
have Eu : (invmx Q *m c)^T *m Q = c^T by rewrite trmx_mul (symm_inv HQ) mulmxKV.
have Ek : (invmx Q *m c)^T *m c = (pol_k c Q)%:M by rewrite dotv_outer dotvC.
rewrite /pol_q /pol_c; move: (pol_k c Q) k0 Ek => k k0 Ek.
set u := invmx Q *m c in Eu Ek *.
have E1 : invmx Q *m (Q - c *m c^T) = 1%:M - u *m c^T by rewrite mulmxBr mulVmx // mulmxA.
have E2 : u *m u^T *m (Q - c *m c^T) = (1 - k) *: (u *m c^T).
  rewrite -mulmxA mulmxBr Eu [u^T *m (c *m _)]mulmxA Ek mul_scalar_mx mulmxBr -scalemxAr.
  by rewrite scalerBl scale1r.
rewrite -scalemxAr mulmxDl -scalemxAl E1 [(- _ *: u)^T]linearZ /= -scalemxAl -scalemxAr -!scalemxAl E2.
move: (u *m c^T) => W; apply/matrixP => i j; rewrite !mxE; move: (W i j) ((i == j)%:R) => w d; field.
by rewrite -[1 - k]/(1 - k) k0.
Qed.

Lemma pol_k_lt1 n (c : 'cV[R]_n) Q : symm Q -> posdef Q ->
  posdef (Q - c *m c^T) -> pol_k c Q < 1.
Proof.
move=> HQ Hp HM; have uQ := posdef_unit Hp; rewrite /pol_k.
have [z0|z0] := eqVneq (invmx Q *m c) 0; first by rewrite /qf z0 dotv0r ltr01.
have := HM _ z0; have -> : qf (Q - c *m c^T) (invmx Q *m c) = qf (invmx Q) c * (1 - qf (invmx Q) c).
  have -> : Q - c *m c^T = Q + (- 1) *: (c *m c^T) by rewrite scaleN1r.
  rewrite qf_add qf_scale qf_outer /qf mulKVmx // [dotv (_ *m _) c]dotvC; move: (dotv _ _) => w; ring.
have k0 : 0 < qf (invmx Q) c.
  by apply: posdef_inv => //; apply/eqP => E; case/eqP: z0; rewrite E mulmx0.
by rewrite pmulr_rgt0 // subr_gt0.
Qed.

Lemma pol_k_pol n (c : 'cV[R]_n) Q : symm Q -> posdef Q -> pol_k c Q < 1 ->
  pol_k (pol_c c Q) (pol_q c Q) < 1.
Proof.
move=> HQ Hp k1; apply: pol_k_lt1 (pol_symm _ HQ) (pol_posdef HQ Hp k1) _.
rewrite addrK => x x0; rewrite qf_scale; apply: mulr_gt0; first by rewrite invr_gt0 subr_gt0.
exact: posdef_inv.
Qed.

(** membership in the polar through the support function *)
Lemma in_polarP n (c y : 'cV[R]_n) Q : symm Q -> psd Q ->
  in_polar (in_ell c Q) y <-> dotv y c + Num.sqrt (qf Q y) <= 1.
Proof.
move=> HQ Hq; have [Hub [x Hx Ex]] := ell_support c y HQ Hq; split=> [H|H z Hz].
  by rewrite -Ex dotvC; exact: H.
by rewrite dotvC; exact: le_trans (Hub _ Hz) H.
Qed.

Lemma qf_invc n (c x : 'cV[R]_n) Q : symm Q -> posdef Q -> dotv x c ^+ 2 <= pol_k c Q * qf Q x.
Proof.
move=> HQ Hp; have uQ := posdef_unit Hp.
have := psd_cauchy x (invmx Q *m c) HQ (posdef_psd Hp).
rewrite mulKVmx // => /le_trans; apply; rewrite mulrC le_eqVlt; apply/orP; left; apply/eqP; congr (_ * _).
by rewrite /pol_k /qf mulKVmx // dotvC.
Qed.

Theorem pol_set n (c y : 'cV[R]_n) Q : symm Q -> posdef Q -> pol_k c Q < 1 ->
  in_ell (pol_c c Q) (pol_q c Q) y <-> in_polar (in_ell c Q) y.
Proof.
move=> HQ Hp k1; have Hq := posdef_psd Hp; have uQ := posdef_unit Hp.
apply: (iff_trans (in_ellP_inv _ _ (pol_symm _ HQ) (pol_posdef HQ Hp k1))).
apply: iff_trans (iff_sym (in_polarP c y HQ Hq)).
have K : 0 < 1 - pol_k c Q by rewrite subr_gt0.
have E : qf (invmx (pol_q c Q)) (y - pol_c c Q) = (1 - pol_k c Q) * (qf Q y - dotv y c ^+ 2 + 2%:R * dotv y c) + pol_k c Q.
  rewrite pol_inv // qf_scale.
  have -> : Q - c *m c^T = Q + (- 1) *: (c *m c^T) by rewrite scaleN1r.
  rewrite qf_add qf_scale qf_outer /pol_c scaleNr opprK.
  have Eq : qf Q (y + (1 - pol_k c Q)^-1 *: (invmx Q *m c)) =
            qf Q y + 2%:R * (1 - pol_k c Q)^-1 * dotv y c + (1 - pol_k c Q)^-2 * pol_k c Q.
    rewrite /qf mulmxDr -scalemxAr mulKVmx // !dotvDr !dotvDl !dotvZr !dotvZl.
    have -> : dotv (invmx Q *m c) (Q *m y) = dotv y c.
      by rewrite dotv_mull (symm_inv HQ) mulKmx // dotvC.
    rewrite -[dotv (invmx Q *m c) c]dotvC -/(qf (invmx Q) c) -/(pol_k c Q).
    by move: (dotv y c) (dotv y (Q *m y)) (pol_k c Q) K => s q k K; field; rewrite gt_eqF.
  rewrite Eq dotvDr dotvZr -/(qf (invmx Q) c) -/(pol_k c Q) [dotv c y]dotvC.
  by move: (dotv y c) (qf Q y) (pol_k c Q) K => s q k K; field; rewrite gt_eqF.
rewrite {}E; have -> : ((1 - pol_k c Q) * (qf Q y - dotv y c ^+ 2 + 2%:R * dotv y c) + pol_k c Q <= 1) =
  (qf Q y <= (1 - dotv y c) ^+ 2).
  rewrite -lter_sub_addr -[X in _ <= X]mulr1 ler_pmul2l // -subr_ge0 -[RHS]subr_ge0; congr (_ <= _); ring.
have q0 : 0 <= qf Q y := Hq y.
split=> [H|]; last first.
  rewrite -ler_subr_addl => H; rewrite -[qf Q y]sqr_sqrtr //; apply: ler_expn2r => //; rewrite nnegrE.
    exact: sqrtr_ge0.
  exact: le_trans (sqrtr_ge0 _) H.
have s1 : dotv y c <= 1.
  rewrite leNgt; apply/negP => s1.
  have y0 : y != 0 by apply/eqP => E; move: s1; rewrite E dotv0l ltNge ler01.
  have qp := Hp _ y0.
  have : dotv y c ^+ 2 < qf Q y.
    by apply: le_lt_trans (qf_invc c y HQ Hp) _; rewrite gtr_pmull.
  move=> /lt_le_trans/(_ H); rewrite -subr_gt0.
  have -> : (1 - dotv y c) ^+ 2 - dotv y c ^+ 2 = 1 - 2%:R * dotv y c by ring.
  rewrite subr_gt0 => h; have : 1 < (1 : R).
    apply: lt_trans (h); apply: lt_le_trans (s1) _; rewrite ler_pemull ?ler1n //.
    exact: le_trans ler01 (ltW s1).
  by rewrite ltxx.
rewrite -ler_subr_addl -[1 - _]ger0_norm ?subr_ge0 // -sqrtr_sqr; by rewrite ler_sqrt' // sqr_ge0.
Qed.

(** the polar of the polar *)
Lemma bipolar_set n (c x : 'cV[R]_n) Q : symm Q -> posdef Q -> pol_k c Q < 1 ->
  in_polar (in_polar (in_ell c Q)) x <-> in_ell c Q x.
Proof.
move=> HQ Hp k1; have Hq := posdef_psd Hp; split=> [H|H y Hy]; last by rewrite dotvC; exact: Hy.
apply/in_ellP_dual => // l.
have [->|l0] := eqVneq l 0; first by rewrite !dotv0l add0r sqrtr_ge0.
have r0 : 0 < dotv l c + Num.sqrt (qf Q l).
  have ql := Hp _ l0; have := qf_invc c l HQ Hp => hk.
  have : `|dotv l c| < Num.sqrt (qf Q l).
    rewrite -sqrtr_sqr ltr_sqrt //; apply: le_lt_trans hk _; by rewrite gtr_pmull.
  by rewrite ltr_norml => /andP[h _]; rewrite addrC -[dotv l c]opprK subr_gt0 ltr_oppl.
have h : in_polar (in_ell c Q) ((dotv l c + Num.sqrt (qf Q l))^-1 *: l).
  by move=> z Hz; rewrite dotvZr [dotv z l]dotvC mulrC ler_pdivr_mulr // mul1r; exact: ell_support_ub.
by have := H _ h; rewrite dotvZl mulrC ler_pdivr_mulr // mul1r.
Qed.

Lemma bipolar_data n (c : 'cV[R]_n) Q : symm Q -> posdef Q -> pol_k c Q < 1 ->
  pol_c (pol_c c Q) (pol_q c Q) = c /\ pol_q (pol_c c Q) (pol_q c Q) = Q.
Proof.
move=> HQ Hp k1; have k2 := pol_k_pol HQ Hp k1.
have HQ2 := pol_symm c HQ; have Hp2 := pol_posdef HQ Hp k1.
apply: ell_inj (pol_symm _ HQ2) (posdef_psd (pol_posdef HQ2 Hp2 k2)) (HQ) (posdef_psd Hp) _ => x.
apply: (iff_trans (pol_set x HQ2 Hp2 k2)); apply: iff_trans (bipolar_set x HQ Hp k1).
by split=> H y Hy; apply: H; apply/pol_set.
Qed.

(** ------------------------------------------------------------------ the code *)
Variable la : linalg R.

Lemma np_div_row11 n (v : 'cV[R]_n) (a : R) : a != 0 ->
  np_div (vec v) (mat (a%:M : 'M[R]_1)) = Ok (mat (a^-1 *: v)^T).
Proof.
move=> a0; rewrite /np_div /np_bin.
have -> : bshape (shape (vec v)) (shape (mat (a%:M : 'M[R]_1))) = Some [:: 1%N; n].
  by rewrite /bshape /=; case: eqP => [->|] //; case: eqP => [->|].
congr Ok; apply: matE => i j.
rewrite (ord1 i) [bidx _ _]/= [bidx [:: 1%N; 1%N] _]/=.
have -> : getn NaN (mat (a%:M : 'M[R]_1)) [:: 0%N; 0%N] = Fin a.
  by rewrite (get_mat (a%:M : 'M[R]_1) 0 0) mxE eqxx.
have -> : bidx [:: n] [:: 0%N; val j] = [:: val j].
  by rewrite /bidx /=; congr [:: _]; case: eqP => // n1; case: j => k; rewrite n1 /= ltnS leqn0 => /eqP->.
by rewrite get_vec /= (negbTE a0) !mxE mulrC.
Qed.

Lemma np_div_mat11 n (M : 'M[R]_n) (a : R) : a != 0 ->
  np_div (mat M) (mat (a%:M : 'M_1)) = Ok (mat (a^-1 *: M)).
Proof.
move=> a0; rewrite /np_div /np_bin.
have -> : bshape (shape (mat M)) (shape (mat (a%:M : 'M[R]_1))) = Some [:: n; n].
  by rewrite /bshape /=; case: eqP => [->|].
congr Ok; apply: matE => i j; rewrite mxE.
have -> : bidx (shape (mat M)) [:: nat_of_ord i; nat_of_ord j] = [:: nat_of_ord i; nat_of_ord j].
  have H (u : 'I_n) : (if n == 1%N then 0%N else u) = u :> nat.
    by case: eqP => // En; case: u => u /=; rewrite En; case: u.
  by rewrite /bidx /= !H.
by rewrite get_mat (get_mat (a%:M : 'M[R]_1) 0 0) /= mxE mulr1n (negbTE a0) mulrC.
Qed.

Lemma np_mul_rowcol n (v : 'cV[R]_n) : np_mul (mat v^T) (mat v) = Ok (mat (v *m v^T)).
Proof.
rewrite /np_mul /np_bin.
have -> : bshape (shape (mat v^T)) (shape (mat v)) = Some [:: n; n].
  by rewrite /bshape /=; case: eqP => [<-|] //=; case: eqP => [->|].
congr Ok; apply: matE => i j.
have -> : bidx (shape (mat v^T)) [:: val i; val j] = [:: 0%N; val j].
  rewrite /bidx /=; congr [:: _; _]; case: eqP => // m1.
  by case: j => k; rewrite m1 /= ltnS leqn0 => /eqP->.
have -> : bidx (shape (mat v)) [:: val i; val j] = [:: val i; 0%N].
  rewrite /bidx /=; congr [:: _; _]; case: eqP => // m1.
  by case: i => k; rewrite m1 /= ltnS leqn0 => /eqP->.
by rewrite (get_mat v i 0) (get_mat v^T 0 j) /= !mxE big_ord1 mulrC !mxE.
Qed.

(** the robust branch, for any centre off the boundary condition k = 1 *)
Lemma polar_scalar_data cfg e n (c : 'cV[R]_n) Q t : inv_ok la -> lstsq_ok la -> (0 < n)%N ->
  repr e c Q t -> posdef Q -> pol_k c Q != 1 ->
  polar_scalar la cfg e true =
  mk_ell la cfg (CBoth (RealArr (mat (pol_c c Q)^T)) (RealArr (mat (pol_q c Q)))) (no_kw R).
Proof.
move=> Hi Hl n0 [[E1 E2 _ _] [HQ _ _]] Hp k1; have uQ := posdef_unit Hp.
rewrite /polar_scalar; cbv zeta; rewrite E1 E2 Hi // uQ rbind_okE np_T_mat np_add_mat rbind_okE.
rewrite (@quad_invs _ la n Q c 0 (vec c) _ "inv" Hi Hl n0 (HoldsVec c)) //; [|by right|by left].
rewrite rbind_okE subr0 -/(pol_k c Q) (map11 (b := 1 - pol_k c Q)) // lstsq_unitv // rbind_okE np_neg_vec.
have k0 : 1 - pol_k c Q != 0 by rewrite subr_eq0 eq_sym.
rewrite np_div_row11 // rbind_okE np_divs_mat ?pnatr_eq0 // np_div_mat11 // rbind_okE np_T_mat trmxK.
rewrite np_mul_rowcol rbind_okE np_add_mat rbind_okE scalerN -scaleNr -/(pol_c c Q).
congr (mk_ell _ _ (CBoth _ (RealArr (mat (_ + _)))) _); congr (_ *: _).
rewrite trmx_inv HQ -mulr2n -scaler_nat scalerA mulVf ?scale1r // pnatr_eq0 //.
Qed.

Lemma polar_scalar_run cfg p t0 e n (c : 'cV[R]_n) Q t : inv_ok la -> lstsq_ok la -> eigvalsh_ok la ->
  (0 < n)%N -> repr e c Q t -> posdef Q -> pol_k c Q < 1 -> props_of cfg (no_kw R) p t0 ->
  polar_scalar la cfg e true = Ok (Ell (vec (pol_c c Q)) (mat (pol_q c Q)) p).
Proof.
move=> Hi Hl He n0 Hr Hp k1 Hpr; rewrite (polar_scalar_data _ Hi Hl n0 Hr) // ?lt_eqF //.
have [_ [HQ _ _]] := Hr; have t1 : 0 < t0 by case: Hpr.
apply: (ctor_run Hpr _ He n0 (HoldsRow _)).1.
by apply: near_psd_exact => //; [exact: pol_symm|exact/posdef_psd/pol_posdef].
Qed.

Lemma inside_k n (c : 'cV[R]_n) Q : symm Q -> posdef Q -> origin_inside (in_ell c Q) -> pol_k c Q < 1.
Proof.
move=> HQ Hp [r r0 H]; have uQ := posdef_unit Hp.
have [c0|c0] := eqVneq c 0; first by rewrite /pol_k c0 /qf dotv0l ltr01.
set u := invmx Q *m c.
have u0 : u != 0 by apply/eqP => E; case/eqP: c0; rewrite -(mulKVmx uQ c) -/u E mulmx0.
have su : 0 < sqn u by rewrite sqn_gt0.
have h : in_ell c Q (- Num.sqrt (r / sqn u) *: u).
  apply: H; rewrite sqnZ sqrrN sqr_sqrtr ?divr_ge0 ?(ltW su) ?(ltW r0) //.
  by rewrite divfK // gt_eqF.
have := ell_support_ub (- u) h.
have Eu : qf Q (- u) = pol_k c Q.
  by rewrite /qf mulmxN dotvNl dotvNr opprK /u mulKVmx // dotvC.
rewrite Eu !dotvNl dotvZr [dotv u c]dotvC -/(qf (invmx Q) c) -/(pol_k c Q) mulNr opprK => h2.
have k0 : 0 < pol_k c Q by apply: posdef_inv.
have : 0 < - pol_k c Q + Num.sqrt (pol_k c Q).
  by apply: lt_le_trans h2; apply: mulr_gt0 => //; rewrite sqrtr_gt0 divr_gt0.
rewrite addrC subr_gt0 -{1}[pol_k c Q]sqr_sqrtr ?(ltW k0) // expr2 gtr_pmull ?sqrtr_gt0 // => s1.
by rewrite -[pol_k c Q]sqr_sqrtr ?(ltW k0) // expr_lt1 ?sqrtr_ge0.
Qed.

Lemma repr_posdef e n (c : 'cV[R]_n) Q t : repr e c Q t -> (forall x, x != 0 -> t * sqn x < qf Q x) -> posdef Q.
Proof.
move=> [[_ _ _ t0] _] H x x0; apply: lt_trans (H x x0); apply: mulr_gt0 => //; by rewrite sqn_gt0.
Qed.

Lemma mul_bound m n (M : 'M[R]_(m, n)) : exists2 a : R, 0 <= a & forall x, sqn (M *m x) <= a * sqn x.
Proof.
exists (\sum_i sqn (row i M)^T) => [|x]; first by apply: sumr_ge0 => i _; exact: sqn_ge0.
rewrite {1}/sqn {1}/dotv mulr_suml; apply: ler_sum => i _; rewrite -expr2.
have -> : (M *m x) i 0 = dotv (row i M)^T x; last exact: cauchy_schwarz.
by rewrite dotvE trmxK -row_mul [RHS]mxE.
Qed.

Lemma pol_inside n (c : 'cV[R]_n) Q : symm Q -> psd Q -> origin_inside (in_polar (in_ell c Q)).
Proof.
move=> HQ Hq; have [S E] := psd_rootT HQ Hq; have [a a0 Ha] := mul_bound S^T.
pose b := sqn c + a + 1; have b1 : 0 < b by rewrite ltr_paddl ?ltr01 // addr_ge0 // sqn_ge0.
exists ((4%:R * b)^-1) => [|y Hy]; first by rewrite invr_gt0 mulr_gt0 // ltr0n.
have b0 := ltW b1.
have h (w d : R) : 0 <= w -> w <= b -> d <= w * sqn y -> d <= 2%:R^-1 ^+ 2.
  move=> w0 wb hd; apply: le_trans hd _; apply: le_trans (_ : b * (4%:R * b)^-1 <= _).
    by apply: ler_pmul => //; exact: sqn_ge0.
  rewrite le_eqVlt; apply/orP; left; apply/eqP; field; by rewrite gt_eqF.
have half : (2%:R^-1 + 2%:R^-1 : R) = 1 by field.
have h2 : 0 <= 2%:R^-1 :> R by rewrite invr_ge0 ler0n.
apply/in_polarP => //; rewrite -half; apply: ler_add.
  have : dotv y c ^+ 2 <= 2%:R^-1 ^+ 2.
    apply: (h (sqn c)); rewrite ?sqn_ge0 //; last by rewrite mulrC; exact: cauchy_schwarz.
    by rewrite /b -addrA ler_addl addr_ge0 ?ler01.
  move=> hs; apply: le_trans (ler_norm _) _; rewrite -sqrtr_sqr -[X in _ <= X]ger0_norm //.
  by rewrite -[X in _ <= X]sqrtr_sqr ler_sqrt' ?sqr_ge0.
rewrite -[X in _ <= X]ger0_norm // -[X in _ <= X]sqrtr_sqr ler_sqrt' ?sqr_ge0 //; apply: (h a) => //.
  by rewrite /b addrAC ler_addr addr_ge0 ?ler01 ?sqn_ge0.
by rewrite -E qf_mulT'; exact: Ha.
Qed.

Lemma is_degenerate_no sh es : eigvalsh_ok la ->
  List.Forall (fun e => exists n (c : 'cV[R]_n) Q t, [/\ (0 < n)%N, repr e c Q t & forall x, x != 0 -> t * sqn x < qf Q x]) es ->
  exists2 bs, is_degenerate la (Arr sh es) = Ok (Arr sh bs) & has id bs = false.
Proof.
move=> He H; have Hg : List.Forall (@good R) es.
  by apply: List.Forall_impl H => e [n [c [Q [t [n0 Hr _]]]]]; exists n, c, Q, t.
have [bs Eb Hb] := is_degenerate_run sh Hg He; exists bs => // {Eb Hg}.
elim: Hb H => //= e b es' bs' Hb _ IH H; inversion H as [|? ? [n [c [Q [t [n0 Hr Hd]]]]] Ht]; subst.
by have /(_ n c Q t Hr) [_ ->] := Hb; rewrite ?IH.
Qed.

Theorem polar_run cfg p t0 e n (c : 'cV[R]_n) Q t : inv_ok la -> lstsq_ok la -> eigvalsh_ok la ->
  (0 < n)%N -> repr e c Q t -> (forall x, x != 0 -> t * sqn x < qf Q x) ->
  origin_inside (in_ell c Q) -> props_of cfg (no_kw R) p t0 ->
  polar la cfg (Arr [:: 1%N] [:: e]) =
    Ok (Arr [:: 1%N] [:: Ell (vec (pol_c c Q)) (mat (pol_q c Q)) p]).
Proof.
move=> Hi Hl He n0 Hr Hd Ho Hpr; have Hp := repr_posdef Hr Hd; have [_ [HQ _ _]] := Hr.
have [|bs Eb Hb] := @is_degenerate_no [:: 1%N] [:: e] He.
  by constructor=> //; exists n, c, Q, t.
rewrite /polar Eb rbind_okE /np_any; cbn [data]; rewrite Hb.
by rewrite /polar_loop; cbn [data shape]; rewrite (polar_scalar_run Hi Hl He n0 Hr Hp (inside_k HQ Hp Ho) Hpr).
Qed.

Theorem polar_spec cfg p t0 e n (c : 'cV[R]_n) Q t : inv_ok la -> lstsq_ok la -> eigvalsh_ok la ->
  (0 < n)%N -> repr e c Q t -> (forall x, x != 0 -> t * sqn x < qf Q x) ->
  origin_inside (in_ell c Q) -> props_of cfg (no_kw R) p t0 ->
  exists e' (c' : 'cV[R]_n) Q', [/\ polar la cfg (Arr [:: 1%N] [:: e]) = Ok (Arr [:: 1%N] [:: e']),
    repr e' c' Q' t0, origin_inside (in_ell c' Q') &
    forall y, in_ell c' Q' y <-> in_polar (in_ell c Q) y].
Proof.
move=> Hi Hl He n0 Hr Hd Ho Hpr; have Hp := repr_posdef Hr Hd; have [_ [HQ Hq _]] := Hr.
have k1 := inside_k HQ Hp Ho.
exists (Ell (vec (pol_c c Q)) (mat (pol_q c Q)) p), (pol_c c Q), (pol_q c Q); split.
- exact: (polar_run Hi Hl He n0 Hr Hd Ho Hpr).
- by apply: mk_repr Hpr _ _; [exact: pol_symm|exact/posdef_psd/pol_posdef].
- have [r r0 H] := pol_inside c HQ Hq; exists r => // x hx; by apply/pol_set => //; exact: H.
- by move=> y; exact: pol_set.
Qed.

(** applying polar twice gives the ellipsoid back (with the configured properties) *)
Theorem polar_twice cfg p t0 e n (c : 'cV[R]_n) Q t : inv_ok la -> lstsq_ok la -> eigvalsh_ok la ->
  (0 < n)%N -> repr e c Q t -> (forall x, x != 0 -> t * sqn x < qf Q x) ->
  origin_inside (in_ell c Q) -> props_of cfg (no_kw R) p t0 ->
  forall e' (c' : 'cV[R]_n) Q', polar la cfg (Arr [:: 1%N] [:: e]) = Ok (Arr [:: 1%N] [:: e']) ->
  repr e' c' Q' t0 -> (forall x, x != 0 -> t0 * sqn x < qf Q' x) ->
  polar la cfg (Arr [:: 1%N] [:: e']) = Ok (Arr [:: 1%N] [:: Ell (vec c) (mat Q) p]).
Proof.
move=> Hi Hl He n0 Hr Hd Ho Hpr e' c' Q'; rewrite (polar_run Hi Hl He n0 Hr Hd Ho Hpr) => -[<-] Hr' Hd'.
have Hp := repr_posdef Hr Hd; have [_ [HQ Hq _]] := Hr; have k1 := inside_k HQ Hp Ho.
have HP : symm (pol_q c Q) := pol_symm _ HQ; have Pp := pol_posdef HQ Hp k1.
have R' : repr (Ell (vec (pol_c c Q)) (mat (pol_q c Q)) p) (pol_c c Q) (pol_q c Q) t0.
  by apply: mk_repr Hpr _ _ => //; exact: posdef_psd.
have [_ EQ _] := repr_uniq R' Hr'; rewrite -EQ in Hd'.
have Hin : origin_inside (in_ell (pol_c c Q) (pol_q c Q)).
  by have [r r0 H] := pol_inside c HQ Hq; exists r => // x hx; apply/pol_set => //; exact: H.
rewrite (polar_run Hi Hl He n0 R' Hd' Hin Hpr).
by have [-> ->] := bipolar_data HQ Hp k1.
Qed.

(** refusals *)
Lemma polar_degenerate cfg s es e n (c : 'cV[R]_n) Q t x : eigvalsh_ok la -> List.Forall (@good R) es ->
  List.In e es -> repr e c Q t -> x != 0 -> qf Q x <= t * sqn x ->
  polar la cfg (Arr s es) = throw "degenerateEllipsoid".
Proof.
move=> He Hg Hin Hr x0 Hx; have [bs Eb Hb] := is_degenerate_run s Hg He.
rewrite /polar Eb rbind_okE; suff -> : np_any (Arr s bs) = true by [].
rewrite /np_any [data _]/= => {Eb Hg}.
elim: Hb Hin => //= e1 b es' bs' H1 _ IH [E|/IH -> ]; last by rewrite orbT.
subst e1; have /(_ n c Q t Hr) := H1; case: b {H1} => //= -[/(_ erefl) /(_ x x0)].
by rewrite ltNge Hx.
Qed.

Lemma polar_able_nd n es : (0 < n)%N -> List.Forall (polar_able n) es ->
  List.Forall (fun e => exists n (c : 'cV[R]_n) Q t, [/\ (0 < n)%N, repr e c Q t & forall x, x != 0 -> t * sqn x < qf Q x]) es.
Proof.
by move=> n0 H; apply: List.Forall_impl H => e [c [Q [t [Hr Hd _]]]]; exists n, c, Q, t.
Qed.

(** two or more ellipsoids along one axis, or an array with more axes *)
Lemma polar_many cfg p t0 n k e1 e2 es : inv_ok la -> lstsq_ok la -> eigvalsh_ok la -> (0 < n)%N ->
  props_of cfg (no_kw R) p t0 -> List.Forall (polar_able n) [:: e1, e2 & es] ->
  polar la cfg (Arr [:: k] [:: e1, e2 & es]) = IndexError.
Proof.
move=> Hi Hl He n0 Hpr H; have [bs Eb Hb] := is_degenerate_no [:: k] He (polar_able_nd n0 H).
rewrite /polar Eb rbind_okE /np_any; cbn [data]; rewrite Hb /polar_loop; cbn [data shape].
inversion H as [|? ? [c1 [Q1 [t1 [R1 D1 O1]]]] H2]; subst.
inversion H2 as [|? ? [c2 [Q2 [t2 [R2 D2 O2]]]] _]; subst.
have P1 := repr_posdef R1 D1; have P2 := repr_posdef R2 D2.
have [_ [S1 _ _]] := R1; have [_ [S2 _ _]] := R2.
rewrite (polar_scalar_run Hi Hl He n0 R1 P1 (inside_k S1 P1 O1) Hpr) rbind_okE.
by rewrite (polar_scalar_run Hi Hl He n0 R2 P2 (inside_k S2 P2 O2) Hpr).
Qed.
Lemma polar_axes cfg p t0 n k l s e es : eigvalsh_ok la -> (0 < n)%N ->
  props_of cfg (no_kw R) p t0 -> List.Forall (polar_able n) (e :: es) ->
  polar la cfg (Arr [:: k, l & s] (e :: es)) = AttributeError.
Proof.
move=> He n0 Hpr H; have [bs Eb Hb] := is_degenerate_no [:: k, l & s] He (polar_able_nd n0 H).
by rewrite /polar Eb rbind_okE /np_any; cbn [data]; rewrite Hb /polar_loop; cbn [data shape].
Qed.
End Polar.
