(** The direct branch of Ellipsoid._get_scalar_polar_internal. *)
From mathcomp Require Import all_ssreflect all_algebra.
Require Import Coq.Strings.String.
From mathcomp.algebra_tactics Require Import ring.
From Verif.Model Require Import Py NP Linalg La EllGeom Ellipsoid.
From Verif.Spec Require Import MatSpec LinalgSpec EllSpec EllipsoidSpec.
From Verif.Proof Require Import NPLib MatLib LaBasic OrthProof EllLib EllGeomProof RankLib EllipsoidProof EllScalProof RegProof MinksumProof PolarProof.
Set Implicit Arguments.
Unset Strict Implicit.
Unset Printing Implicit Defensive.
Import Order.Theory GRing.Theory Num.Theory.
Local Open Scope ring_scope.

Section Direct.
Variable R : rcfType.
Notation X := (xnum R).
Notation A := (arr X).

(** c_vec is 1-d, so c_vec @ c_vec.T is a number *)
Definition dir_m n (c : 'cV[R]_n) (Q : 'M[R]_n) : 'M[R]_n := Q - const_mx (sqn c).
Definition dir_c n (c : 'cV[R]_n) (Q : 'M[R]_n) : 'cV[R]_n := - invmx (dir_m c Q) *m c.
Definition dir_q n (c : 'cV[R]_n) (Q : 'M[R]_n) : 'M[R]_n :=
  (1 + qf (invmx (dir_m c Q)) c) *: invmx (dir_m c Q).

Lemma dir_m_symm n (c : 'cV[R]_n) Q : symm Q -> symm (dir_m c Q).
Proof. by move=> HQ; rewrite /symm /dir_m linearB /= HQ trmx_const. Qed.

Lemma pol_c_dot n (c : 'cV[R]_n) Q : pol_k c Q < 1 -> 1 - dotv c (pol_c c Q) = (1 - pol_k c Q)^-1.
Proof.
move=> k1; have k0 : 1 - pol_k c Q != 0 by rewrite gt_eqF // subr_gt0.
rewrite /pol_c dotvZr -/(qf (invmx Q) c) -/(pol_k c Q); move: (pol_k c Q) k0 => k k0; field; exact: k0.
Qed.

Lemma dir_w n (c : 'cV[R]_n) Q : qf (invmx (dir_m c Q)) c = - dotv c (dir_c c Q).
Proof. by rewrite /dir_c mulNmx dotvNr opprK. Qed.

(** the two formulas agree exactly if the number is the outer product *)
Lemma dir_agree n (c : 'cV[R]_n) Q : symm Q -> posdef Q -> pol_k c Q < 1 ->
  dir_m c Q = Q - c *m c^T -> [/\ dir_m c Q \in unitmx, dir_c c Q = pol_c c Q & dir_q c Q = pol_q c Q].
Proof.
move=> HQ Hp k1 E; have k0 : 1 - pol_k c Q != 0 by rewrite gt_eqF // subr_gt0.
have Ei := pol_inv HQ Hp k1; have uP := posdef_unit (pol_posdef HQ Hp k1).
have EM : dir_m c Q = (1 - pol_k c Q)^-1 *: invmx (pol_q c Q) by rewrite Ei scalerA mulVf // scale1r.
have uM : dir_m c Q \in unitmx by rewrite EM unitmxZ ?unitmx_inv // unitfE invr_eq0.
have EI : invmx (dir_m c Q) = (1 - pol_k c Q) *: pol_q c Q by rewrite EM invmxZ ?invmxK ?invrK // unitmxZ ?unitmx_inv // unitfE invr_eq0.
have Ec : dir_c c Q = pol_c c Q.
  rewrite /dir_c mulNmx EI -scalemxAl /pol_q mulmxDl -mulmxA dotv_outer mul_mx_scalar -scalemxAl.
  have -> : dotv (pol_c c Q) c = 1 - (1 - pol_k c Q)^-1 by rewrite -(pol_c_dot k1) subKr dotvC.
  rewrite /pol_c; move: (invmx Q *m c) (pol_k c Q) k0 => u k k0.
  have E1 (w : R) : - ((1 - k) * ((1 - k)^-1 * w + (1 - (1 - k)^-1) * (- (1 - k)^-1 * w))) = - (1 - k)^-1 * w by field.
  by apply/matrixP => i j; rewrite !mxE; exact: E1.
split=> //; rewrite /dir_q dir_w Ec (pol_c_dot k1) EI scalerA mulVf // scale1r //.
Qed.

Lemma dir_exact n (c : 'cV[R]_n) Q : symm Q -> posdef Q -> pol_k c Q < 1 -> dir_m c Q \in unitmx ->
  dir_c c Q = pol_c c Q -> dir_q c Q = pol_q c Q -> dir_m c Q = Q - c *m c^T.
Proof.
move=> HQ Hp k1 uM Ec; have k0 : 1 - pol_k c Q != 0 by rewrite gt_eqF // subr_gt0.
rewrite /dir_q dir_w Ec (pol_c_dot k1) => Eq; have Ei := pol_inv HQ Hp k1.
by move: Ei; rewrite -Eq invmxZ ?invmxK ?invrK // => [/(scalerI k0)//|]; rewrite unitmxZ ?unitmx_inv // unitfE invr_eq0.
Qed.

Lemma dir_m_outer n (c : 'cV[R]_n) Q : (dir_m c Q = Q - c *m c^T) <-> (n <= 1)%N \/ c = 0.
Proof.
have key : (dir_m c Q = Q - c *m c^T) <-> const_mx (sqn c) = c *m c^T.
  by rewrite /dir_m; split=> [/(addrI Q)/oppr_inj //|->].
rewrite key; split=> [E|[n1|->]].
- have [n1|n1] := leqP n 1; [by left|right].
  have H i : c i 0 ^+ 2 = sqn c by move/matrixP: E => /(_ i i); rewrite !mxE big_ord1 !mxE => ->; rewrite expr2.
  have S : sqn c = \sum_i c i 0 ^+ 2 by rewrite /sqn /dotv; apply: eq_bigr => i _; rewrite expr2.
  have : sqn c = n%:R * sqn c by rewrite {1}S (eq_bigr _ (fun i _ => H i)) sumr_const card_ord mulr_natl.
  move/eqP; rewrite -subr_eq0 -{1}[sqn c]mul1r -mulrBl mulf_eq0 subr_eq0 eq_sym pnatr_eq1 => /orP[/eqP n1'|/eqP s0].
    by rewrite n1' in n1.
  by apply/colP => i; rewrite mxE; apply/eqP; rewrite -sqrf_eq0 H s0.
- apply/matrixP => i j; rewrite !mxE big_ord1 !mxE.
  case: n c Q {key} i j n1 => [|[|n]] c Q i j // _; first by case: i.
  by rewrite !ord1 /sqn /dotv big_ord1.
- by rewrite mul0mx; apply/matrixP => i j; rewrite !mxE /sqn dotv0l.
Qed.

(** ------------------------------------------------------------------ the code *)
Variable la : linalg R.

Lemma np_sub_mat_scal m n (M : 'M[R]_(m, n)) (s : R) : np_sub (mat M) (scal s) = Ok (mat (M - const_mx s)).
Proof.
rewrite /np_sub -[scal s]/(np_scalar (Fin s)) np_bin_scal_r ?wf_mat // np_map_mkn; congr Ok; apply: matE => i j.
by rewrite /= (mxgetE M i j) !mxE.
Qed.

Lemma data11 (x : R) : data (mat (x%:M : 'M[R]_1)) = [:: Fin x].
Proof. by rewrite /mat /mkn /= (mxgetE (x%:M : 'M[R]_1) 0 0) mxE eqxx mulr1n. Qed.

Lemma direct_data cfg e n (c : 'cV[R]_n) Q t : inv_ok la -> lstsq_ok la -> eigh_ok la -> (0 < n)%N ->
  repr e c Q t -> posdef Q ->
  polar_scalar la cfg e false =
  if pol_k c Q < 1 then
    if dir_m c Q \in unitmx then
      mk_ell la cfg (CBoth (RealArr (vec (dir_c c Q))) (RealArr (mat (dir_q c Q)))) (no_kw R)
    else LinAlgError
  else throw "degenerateEllipsoid".
Proof.
move=> Hi Hl He n0 [[E1 E2 _ _] [HQ _ _]] Hp; have uQ := posdef_unit Hp.
rewrite /polar_scalar; cbv zeta; rewrite E1 E2.
rewrite (@quad_invs _ la n Q c 0 (vec c) _ "invadv" Hi Hl n0 (HoldsVec c)) //; [|by right|by right].
rewrite rbind_okE subr0 -/(pol_k c Q) data11.
have -> : xlt (Fin (pol_k c Q)) x1 = (pol_k c Q < 1) by [].
case: ifP => // k1.
rewrite np_T_vec np_matmul_vv rbind_okE -dotvE -/(sqn c) np_sub_mat_scal rbind_okE -/(dir_m c Q) Hi //.
case: ifP => // uM; rewrite rbind_okE np_T_mat np_add_mat rbind_okE np_divs_mat ?pnatr_eq0 //.
have HI : symm (invmx (dir_m c Q)) by apply: symm_inv; exact: dir_m_symm.
have -> : 2%:R^-1 *: (invmx (dir_m c Q) + (invmx (dir_m c Q))^T) = invmx (dir_m c Q).
  by rewrite HI -mulr2n -scaler_nat scalerA mulVf ?scale1r // pnatr_eq0.
have [d [V [-> [_ ED] _]]] := He n (invmx (dir_m c Q)) n0; rewrite rbind_okE np_diag_vec rbind_okE np_matmul_mm rbind_okE.
rewrite np_T_mat np_matmul_mm rbind_okE -/(diagv d) -ED lowsym_symm // np_T_mat np_add_mat rbind_okE np_scale_mat.
have -> : (1 / 2%:R) *: (invmx (dir_m c Q) + (invmx (dir_m c Q))^T) = invmx (dir_m c Q).
  by rewrite HI -mulr2n -scaler_nat scalerA div1r mulVf ?scale1r // pnatr_eq0.
rewrite np_neg_mat np_matmul_mv rbind_okE -/(dir_c c Q).
rewrite (@quad_plain _ la n (invmx (dir_m c Q)) c 0 (vec c) _ "plain" n0 (HoldsVec c)) //; last by right.
by rewrite rbind_okE subr0 (map11 (b := 1 + qf (invmx (dir_m c Q)) c)) // np_mul_11mat.
Qed.

Lemma k_inside n (c : 'cV[R]_n) Q : symm Q -> posdef Q -> pol_k c Q < 1 -> origin_inside (in_ell c Q).
Proof.
move=> HQ Hp k1; have [r r0 H] := pol_inside (pol_c c Q) (pol_symm c HQ) (posdef_psd (pol_posdef HQ Hp k1)).
exists r => // x hx; apply/(bipolar_set x HQ Hp k1) => y Hy; apply: H => //; exact/pol_set.
Qed.

Lemma direct_outside cfg e n (c : 'cV[R]_n) Q t : inv_ok la -> lstsq_ok la -> eigh_ok la -> (0 < n)%N ->
  repr e c Q t -> posdef Q -> ~ origin_inside (in_ell c Q) ->
  polar_scalar la cfg e false = throw "degenerateEllipsoid".
Proof.
move=> Hi Hl He n0 Hr Hp Ho; rewrite (direct_data _ Hi Hl He n0 Hr Hp).
by case: ifP => // k1; case: Ho; apply: k_inside => //; case: Hr => _ [].
Qed.

Lemma direct_agree cfg p t0 e n (c : 'cV[R]_n) Q t : inv_ok la -> lstsq_ok la -> eigh_ok la -> eigvalsh_ok la -> (0 < n)%N ->
  repr e c Q t -> posdef Q -> origin_inside (in_ell c Q) -> props_of cfg (no_kw R) p t0 ->
  polar_scalar la cfg e false = polar_scalar la cfg e true <-> n = 1%N \/ c = 0.
Proof.
move=> Hi Hl He Hv n0 Hr Hp Ho Hpr; have [_ [HQ _ _]] := Hr; have k1 := inside_k HQ Hp Ho.
have L : (n = 1%N \/ c = 0) <-> (n <= 1)%N \/ c = 0.
  by split=> [[n1|->]|[n1|->]]; [left; apply: eq_leq|right|left; apply/eqP; rewrite eqn_leq n1|right].
rewrite L -(dir_m_outer c Q) (direct_data _ Hi Hl He n0 Hr Hp) k1 (polar_scalar_run Hi Hl Hv n0 Hr Hp k1 Hpr).
have [C1 C2] := ctor_run Hpr (dir_q c Q) Hv n0 (HoldsVec (dir_c c Q)).
split=> [|E].
  case: ifP => // uM.
  move=> E; apply/eqP/negPn/negP => ne.
  have H : ~ near_psd t0 (dir_q c Q).
    move=> H; move: E; rewrite C1 // => /Ok_inj K.
    have Ec := vec_inj (f_equal (@e_center R) K); have Eq := mat_inj (f_equal (@e_shape R) K).
    by case/eqP: ne; apply: dir_exact.
  by move: E; rewrite C2.
have [uM Ec Eq] := dir_agree HQ Hp k1 E; rewrite uM C1 ?Ec ?Eq //.
have t1 : 0 < t0 by case: Hpr.
by apply: near_psd_exact => //; [exact: pol_symm|exact/posdef_psd/pol_posdef].
Qed.

Lemma direct_set cfg p t0 e n (c c' : 'cV[R]_n) Q Q' t e' t' : inv_ok la -> lstsq_ok la -> eigh_ok la -> eigvalsh_ok la -> (0 < n)%N ->
  repr e c Q t -> posdef Q -> origin_inside (in_ell c Q) -> props_of cfg (no_kw R) p t0 ->
  polar_scalar la cfg e false = Ok e' -> repr e' c' Q' t' ->
  (forall y, in_ell c' Q' y <-> in_polar (in_ell c Q) y) -> n = 1%N \/ c = 0.
Proof.
move=> Hi Hl He Hv n0 Hr Hp Ho Hpr E Hr' H; have [_ [HQ _ _]] := Hr; have k1 := inside_k HQ Hp Ho.
apply/(direct_agree Hi Hl He Hv n0 Hr Hp Ho Hpr); move: E.
rewrite (direct_data _ Hi Hl He n0 Hr Hp) k1 (polar_scalar_run Hi Hl Hv n0 Hr Hp k1 Hpr).
have [[E1 E2 _ _] [HQ' Hp' _]] := Hr'.
have [C1 C2] := ctor_run Hpr (dir_q c Q) Hv n0 (HoldsVec (dir_c c Q)).
case: ifP => // uM E; rewrite E; congr Ok; move: E.
have [Ec Eq] : c' = pol_c c Q /\ Q' = pol_q c Q.
  apply: ell_inj => //; [exact: pol_symm|exact/posdef_psd/pol_posdef|] => y.
  by rewrite H; split=> K; apply/pol_set.
case: e' E1 E2 {Hr'} => c1 q1 p1 /= -> ->; rewrite Ec Eq => E.
suff -> : p1 = p by [].
move: E; rewrite /mk_ell (parse_props_ok Hpr) rbind_okE.
by case: (set_center _ _) => // ?; rewrite rbind_okE; case: (set_shape _ _ _) => // ?; rewrite rbind_okE; case: ifP => // _ [].
Qed.
End Direct.
