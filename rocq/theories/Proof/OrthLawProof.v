(** Laws between the functions of the orth_transl family. *)
From mathcomp Require Import all_ssreflect all_algebra ring.
Require Import Coq.Strings.String.
From Verif.Model Require Import Py NP Linalg Compare La.
From Verif.Spec Require Import MatSpec LinalgSpec OrthSpec.
From Verif.Proof Require Import NPLib MatLib OrthLib LaBasic OrthProof.
Set Implicit Arguments.
Unset Strict Implicit.
Unset Printing Implicit Defensive.
Import Order.Theory GRing.Theory Num.Theory.
Local Open Scope ring_scope.

Section OL.
Variable R : rcfType.

(** the plane rotation by its two unit vectors only *)
Definition prot n (c : R) (u d : 'cV[R]_n) : 'M[R]_n :=
  1%:M + (((c - 1) / (1 - c ^+ 2)) *: (u *m u^T + d *m d^T - c *: (u *m d^T + d *m u^T)) +
          (d *m u^T - u *m d^T)).

Lemma rotm_prot n c s (d w u : 'cV[R]_n) : c ^+ 2 + s ^+ 2 = 1 -> s != 0 ->
  u = c *: d + s *: w -> rotm c s d w = prot c u d.
Proof.
move=> cs s0 ->; have c2 : 1 - c ^+ 2 = s ^+ 2 by rewrite -cs addrAC subrr add0r.
rewrite /rotm /prot c2; congr (_ + _); apply/matrixP => i j; rewrite !(mxE, big_ord1).
have E (a b p q : R) : (c - 1) * (a * b) + s * (a * q) - s * (p * b) + (c - 1) * (p * q) =
  (c - 1) / s ^+ 2 * ((c * a + s * p) * (c * b + s * q) + a * b - c * ((c * a + s * p) * b + a * (c * b + s * q)))
  + (a * (c * b + s * q) - (c * a + s * p) * b).
  have -> : (c * a + s * p) * (c * b + s * q) + a * b - c * ((c * a + s * p) * b + a * (c * b + s * q)) =
    (1 - c ^+ 2) * (a * b) + s ^+ 2 * (p * q) by ring.
  by rewrite c2; field.
exact: E.
Qed.

Lemma prot_tr n c (u d : 'cV[R]_n) : (prot c u d)^T = prot c d u.
Proof.
rewrite /prot; apply/matrixP => i j; rewrite !(mxE, big_ord1) eq_sym.
have E (k a b p q : R) : k * (p * q + a * b - c * (p * b + a * q)) + (a * q - p * b) =
  k * (b * a + q * p - c * (b * p + q * a)) + (q * a - b * p) by ring.
by rewrite E.
Qed.

Lemma prot_scale n c e (u d : 'cV[R]_n) : e ^+ 2 = 1 -> prot c (e *: u) (e *: d) = prot c u d.
Proof.
move=> e2; rewrite /prot; apply/matrixP => i j; rewrite !(mxE, big_ord1).
have E (p q : R) : e * p * (e * q) = p * q by rewrite mulrACA -expr2 e2 mul1r.
by rewrite !E.
Qed.

Lemma ocC n (u d : 'cV[R]_n) : oc u d = oc d u. Proof. by rewrite /oc dotvC. Qed.
Lemma osC n (u d : 'cV[R]_n) : os u d = os d u. Proof. by rewrite /os ocC. Qed.

Lemma run_prot n (u d : 'cV[R]_n) : u != 0 -> d != 0 -> 10%:R ^- 7 < os u d ->
  rotm (oc u d) (os u d) (unitv d) (ow u d) = prot (oc u d) (unitv u) (unitv d).
Proof.
move=> u0 d0 h; apply: rotm_prot; first exact: oc_os.
  by rewrite gt_eqF // (lt_trans (tol7_gt0 _) h).
exact: src_decomp.
Qed.

(** parallel vectors: u = c d *)
Lemma par_unit n (u d : 'cV[R]_n) : u != 0 -> d != 0 -> dotv u d ^+ 2 = sqn u * sqn d ->
  [/\ oc u d ^+ 2 = 1, os u d = 0, ow u d = 0 & unitv u = oc u d *: unitv d].
Proof.
move=> u0 d0 H; have c1 := oc_par u0 d0 H.
have sz : os u d = 0 by rewrite /os c1 subrr sqrtr0.
have wz : ow u d = 0 by rewrite /ow sz ltNge (ltW (tol7_gt0 _)).
split=> //; apply/eqP; rewrite -subr_eq0 -sqn_eq0 sqnB sqnZ !sqn_unitv // dotvZr -/(oc u d) mulr1 -expr2 c1.
by apply/eqP; ring.
Qed.
Lemma rotm_w0_outer n c s (d : 'cV[R]_n) : rotm c s d 0 = 1%:M + (c - 1) *: (d *m d^T).
Proof. by rewrite /rotm trmx0 !mul0mx !mulmx0 !scaler0 subr0 !addr0. Qed.
Lemma outer_sg n c (d : 'cV[R]_n) : c ^+ 2 = 1 -> (c *: d) *m (c *: d)^T = d *m d^T.
Proof. by move=> c2; rewrite linearZ /= -scalemxAl -scalemxAr scalerA -expr2 c2 scale1r. Qed.

Lemma run_tr n (u d : 'cV[R]_n) : u != 0 -> d != 0 -> clear_angle u d ->
  rotm (oc d u) (os d u) (unitv u) (ow d u) = (rotm (oc u d) (os u d) (unitv d) (ow u d))^T.
Proof.
move=> u0 d0; case=> H.
  have [c2 _ wz E] := par_unit u0 d0 H.
  have H' : dotv d u ^+ 2 = sqn d * sqn u by rewrite dotvC H mulrC.
  have [_ _ wz' _] := par_unit d0 u0 H'.
  rewrite wz wz' !rotm_w0_outer ocC E outer_sg //; apply/matrixP => i j; rewrite !(mxE, big_ord1) eq_sym.
  by congr (_ + _ * _); rewrite mulrC.
have h := os_big u0 d0 H.
have h' : 10%:R ^- 7 < os d u by rewrite osC.
by rewrite (run_prot u0 d0 h) (run_prot d0 u0 h') prot_tr ocC.
Qed.

Theorem transl_reverse b n (src dst : 'cV[R]_n) : src != 0 -> dst != 0 -> clear_angle src dst ->
  exists O : 'M[R]_n, [/\ orth_transl (RealArr (colarr b src)) (RealArr (colarr b dst)) = Ok (mat O),
    orth_transl (RealArr (colarr b dst)) (RealArr (colarr b src)) = Ok (mat O^T) & O^T *m O = 1%:M].
Proof.
move=> s0 d0 H; rewrite !orth_transl_run //; eexists; split; first by reflexivity.
  by rewrite run_tr.
by have [] := rot_clear s0 d0 H.
Qed.

Lemma unitv_scale n a (u : 'cV[R]_n) : 0 < a -> unitv (a *: u) = unitv u.
Proof.
move=> a0; rewrite /unitv /len sqnZ sqrtrM ?sqr_ge0 // sqrtr_sqr gtr0_norm // scalerA invfM mulrAC mulVf ?mul1r //.
by rewrite gt_eqF.
Qed.
Lemma oc_scale n a b (u d : 'cV[R]_n) : 0 < a -> 0 < b -> oc (a *: u) (b *: d) = oc u d.
Proof. by move=> a0 b0; rewrite /oc !unitv_scale. Qed.
Lemma os_scale n a b (u d : 'cV[R]_n) : 0 < a -> 0 < b -> os (a *: u) (b *: d) = os u d.
Proof. by move=> a0 b0; rewrite /os oc_scale. Qed.
Lemma ow_scale n a b (u d : 'cV[R]_n) : 0 < a -> 0 < b -> ow (a *: u) (b *: d) = ow u d.
Proof. by move=> a0 b0; rewrite /ow os_scale // oc_scale // !unitv_scale. Qed.

Lemma scale_n0 n a (u : 'cV[R]_n) : 0 < a -> u != 0 -> a *: u != 0.
Proof. by move=> a0 u0; rewrite scaler_eq0 negb_or gt_eqF. Qed.

Theorem transl_scale b n x y (src dst : 'cV[R]_n) : src != 0 -> dst != 0 -> 0 < x -> 0 < y ->
  orth_transl (RealArr (colarr b (x *: src))) (RealArr (colarr b (y *: dst))) =
    orth_transl (RealArr (colarr b src)) (RealArr (colarr b dst)) /\
  orth_transl_haus (colarr b (x *: src)) (colarr b (y *: dst)) =
    orth_transl_haus (colarr b src) (colarr b dst).
Proof.
move=> s0 d0 x0 y0; have s0' := scale_n0 x0 s0; have d0' := scale_n0 y0 d0; split.
  by rewrite (orth_transl_run b s0' d0') (orth_transl_run b s0 d0) (oc_scale _ _ x0 y0) (os_scale _ _ x0 y0) (ow_scale _ _ x0 y0) (unitv_scale _ y0).
by rewrite (haus_run b s0' d0') (haus_run b s0 d0) (unitv_scale _ y0) (unitv_scale _ x0).
Qed.

Lemma hausN n (w : 'cV[R]_n) : haus (- w) = haus w.
Proof. by rewrite /haus sqnN linearN /= mulNmx mulmxN opprK. Qed.

Theorem haus_symmetric b n (src dst : 'cV[R]_n) : src != 0 -> dst != 0 ->
  exists O : 'M[R]_n, [/\ orth_transl_haus (colarr b src) (colarr b dst) = Ok (mat O),
    orth_transl_haus (colarr b dst) (colarr b src) = Ok (mat O), O^T = O & O *m O = 1%:M].
Proof.
move=> s0 d0; rewrite (haus_run b s0 d0) (haus_run b d0 s0); eexists; split; first by reflexivity.
- by rewrite -(opprB (unitv src) (unitv dst)) sqnN hausN.
- by case: (sqn (unitv src - unitv dst) < 10%:R ^- 14); [rewrite trmx1 | exact: haus_sym].
case: (ltP (sqn (unitv src - unitv dst)) (10%:R ^- 14)) => h; first by rewrite mulmx1.
have w0 : unitv src - unitv dst != 0.
  rewrite -sqn_gt0; apply: lt_le_trans h; rewrite invr_gt0 exprn_gt0 // ltr0n //.
by have := haus_orthog w0; rewrite /orthog /orthocols haus_sym.
Qed.

(** rotation of the axes *)
Lemma unitv_orthog n (P : 'M[R]_n) (u : 'cV[R]_n) : orthog P -> unitv (P *m u) = P *m unitv u.
Proof. by move=> HP; rewrite /unitv orthog_len // -scalemxAr. Qed.
Lemma rotm_conj n c s (P : 'M[R]_n) (d w : 'cV[R]_n) : orthog P ->
  rotm c s (P *m d) (P *m w) = P *m rotm c s d w *m P^T.
Proof.
move=> HP; have PP : P *m P^T = 1%:M by exact: mulmx1C.
rewrite /rotm mulmxDr mulmx1 mulmxDl PP; congr (_ + _).
have E (x y : 'cV[R]_n) : P *m x *m (P *m y)^T = P *m (x *m y^T) *m P^T by rewrite trmx_mul !mulmxA.
by rewrite !E !(mulmxDr, mulmxDl, mulmxN, mulNmx) -!(scalemxAr, scalemxAl).
Qed.
Lemma n0_orthog n (P : 'M[R]_n) (u : 'cV[R]_n) : orthog P -> u != 0 -> P *m u != 0.
Proof. by move=> HP; rewrite -!sqn_gt0 orthog_sqn. Qed.

Theorem transl_axes b n (P : 'M[R]_n) (src dst : 'cV[R]_n) : orthog P -> src != 0 -> dst != 0 ->
  exists O H : 'M[R]_n,
  [/\ orth_transl (RealArr (colarr b src)) (RealArr (colarr b dst)) = Ok (mat O),
      orth_transl (RealArr (colarr b (P *m src))) (RealArr (colarr b (P *m dst))) = Ok (mat (P *m O *m P^T)),
      orth_transl_haus (colarr b src) (colarr b dst) = Ok (mat H) &
      orth_transl_haus (colarr b (P *m src)) (colarr b (P *m dst)) = Ok (mat (P *m H *m P^T))].
Proof.
move=> HP s0 d0; have s0' := n0_orthog HP s0; have d0' := n0_orthog HP d0.
have PP : P *m P^T = 1%:M by exact: mulmx1C.
have Ec : oc (P *m src) (P *m dst) = oc src dst by rewrite /oc !unitv_orthog // orthog_dot.
have Es : os (P *m src) (P *m dst) = os src dst by rewrite /os Ec.
have Ew : ow (P *m src) (P *m dst) = P *m ow src dst.
  by rewrite /ow Es Ec !unitv_orthog //; case: ifP => _; rewrite ?mulmx0 // -[RHS]scalemxAr mulmxBr -[in RHS](scalemxAr (oc src dst)).
rewrite (orth_transl_run b s0' d0') (orth_transl_run b s0 d0) (haus_run b s0' d0') (haus_run b s0 d0).
eexists; eexists; split; first by reflexivity.
- by rewrite Ec Es Ew (unitv_orthog _ HP) (rotm_conj _ _ _ _ HP).
- by reflexivity.
rewrite !unitv_orthog // -mulmxBr orthog_sqn //; move: (unitv src - unitv dst) => w; case: ifP => _; first by rewrite mulmx1 PP.
rewrite /haus orthog_sqn // mulmxBr mulmx1 mulmxBl PP -scalemxAr -scalemxAl trmx_mul.
by rewrite !mulmxA.
Qed.

(** the QR variant is the same rotation *)
Lemma qr_prot (la : linalg R) b1 b2 k (src dst : 'cV[R]_k.+2) : qr_ok la ->
  src != 0 -> dst != 0 -> dotv src dst ^+ 2 != sqn src * sqn dst ->
  orth_transl_qr la (RealArr (colarr b1 src)) (RealArr (colarr b2 dst)) =
  Ok (mat (prot (oc src dst) (unitv src) (unitv dst))).
Proof.
move=> Hla s0 d0 H.
have [q0 [q1 [c [s [-> [h0 h1 h01] cs [e [e2 Ed Es]]]]]]] := orth_transl_qr_run b1 b2 Hla s0 d0.
have Ec : oc src dst = c.
  rewrite /oc Ed Es !dotvZl !dotvZr dotvDl !dotvZl (dotvC q1) h01 -/(sqn q0) h0 mulr0 addr0 mulr1.
  by rewrite mulrA -expr2 e2 mul1r.
rewrite Ec Ed Es prot_scale // -(rotm_prot (s := s) (w := q1)) //.
apply: contra_neq H => sz; rewrite sz expr0n addr0 in cs.
by rewrite -oc_mul Ec !exprMn cs mul1r !len_sq.
Qed.

Theorem qr_agrees (la : linalg R) b b1 b2 k (src dst : 'cV[R]_k.+2) : qr_ok la ->
  src != 0 -> dst != 0 ->
  10%:R ^- 14 * (sqn src * sqn dst) < sqn src * sqn dst - dotv src dst ^+ 2 ->
  orth_transl_qr la (RealArr (colarr b1 src)) (RealArr (colarr b2 dst)) =
  orth_transl (RealArr (colarr b src)) (RealArr (colarr b dst)).
Proof.
move=> Hla s0 d0 H; have h := os_big s0 d0 H.
rewrite orth_transl_run // run_prot // qr_prot //.
apply/eqP => E; rewrite E subrr in H; move: H; rewrite ltNge mulr_ge0 //.
  by rewrite invr_ge0 exprn_ge0 // ler0n.
by rewrite mulr_ge0 // sqn_ge0.
Qed.

Theorem qr_reverse (la : linalg R) b1 b2 k (src dst : 'cV[R]_k.+2) : qr_ok la ->
  src != 0 -> dst != 0 -> dotv src dst ^+ 2 != sqn src * sqn dst ->
  exists O : 'M[R]_k.+2, 
  [/\ orth_transl_qr la (RealArr (colarr b1 src)) (RealArr (colarr b2 dst)) = Ok (mat O),
      orth_transl_qr la (RealArr (colarr b2 dst)) (RealArr (colarr b1 src)) = Ok (mat O^T),
      O^T *m O = 1%:M &
      forall x y, 0 < x -> 0 < y -> 
      orth_transl_qr la (RealArr (colarr b1 (x *: src))) (RealArr (colarr b2 (y *: dst))) = Ok (mat O)].
Proof.
move=> Hla s0 d0 H.
have H' : dotv dst src ^+ 2 != sqn dst * sqn src by rewrite dotvC [_ * _]mulrC.
have [O [E [HO _] _]] := orth_transl_qr_exact b1 b2 Hla s0 d0.
exists O; split=> //.
  move: E; rewrite !qr_prot // => /Ok_inj/mat_inj <-.
  by rewrite prot_tr ocC.
move=> x y x0 y0; rewrite -E !qr_prot ?oc_scale ?unitv_scale ?scale_n0 //.
rewrite dotvZl dotvZr !sqnZ !exprMn.
rewrite mulrA [X in _ != X]mulrACA; apply: contra_neq H; apply: mulfI.
by rewrite mulf_neq0 // expf_neq0 // gt_eqF.
Qed.

(** the same direction: all three give the identity *)
Theorem transl_same (la : linalg R) b b1 b2 k a (src : 'cV[R]_k.+2) : qr_ok la -> src != 0 -> 0 < a ->
  [/\ orth_transl (RealArr (colarr b src)) (RealArr (colarr b (a *: src))) = Ok (mat (1%:M : 'M[R]_k.+2)),
      orth_transl_haus (colarr b src) (colarr b (a *: src)) = Ok (mat (1%:M : 'M[R]_k.+2)) &
      orth_transl_qr la (RealArr (colarr b1 src)) (RealArr (colarr b2 (a *: src))) = Ok (mat (1%:M : 'M[R]_k.+2))].
Proof.
move=> Hla s0 a0; have d0 := scale_n0 a0 s0.
have c1 : oc src (a *: src) = 1 by rewrite /oc unitv_scale // -/(sqn _) sqn_unitv.
split.
- rewrite orth_transl_run // c1 /rotm subrr !scale0r add0r addr0.
  by rewrite {1}/os {1}/os c1 expr1n subrr sqrtr0 !scale0r subr0 addr0.
- by rewrite haus_run // unitv_scale // subrr sqn0 invr_gt0 exprn_gt0 // ltr0n.
have [q0 [q1 [c [s [-> [h0 h1 h01] cs [e [e2 Ed Es]]]]]]] := orth_transl_qr_run b1 b2 Hla s0 d0.
have Ec : c = 1.
  rewrite -c1 /oc Ed Es !dotvZl !dotvZr dotvDl !dotvZl (dotvC q1) h01 -/(sqn q0) h0 mulr0 addr0 mulr1.
  by rewrite mulrA -expr2 e2 mul1r.
have sz : s = 0.
  by apply/eqP; rewrite -sqrf_eq0; apply/eqP/(addrI (1 : R)); rewrite addr0 -[RHS]cs Ec expr1n.
by rewrite Ec sz /rotm subrr !scale0r subr0 !addr0.
Qed.

(** opposite directions: orth_transl and orth_transl_haus give the reflection, the QR variant another matrix *)
Theorem transl_opposite (la : linalg R) b b1 b2 k a (src : 'cV[R]_k.+2) : qr_ok la -> src != 0 -> 0 < a ->
  let O : 'M[R]_k.+2 := 1%:M - (2%:R / sqn src) *: (src *m src^T) in
  [/\ orth_transl (RealArr (colarr b src)) (RealArr (colarr b (- a *: src))) = Ok (mat O),
      orth_transl_haus (colarr b src) (colarr b (- a *: src)) = Ok (mat O), \det O = -1 &
      orth_transl_qr la (RealArr (colarr b1 src)) (RealArr (colarr b2 (- a *: src))) <> Ok (mat O)].
Proof.
move=> Hla s0 a0 O; pose dst := - a *: src; rewrite -/dst.
have d0 : dst != 0 by rewrite scaler_eq0 negb_or oppr_eq0 gt_eqF.
have Eu : unitv dst = - unitv src.
  by rewrite -[in RHS](unitv_scale src a0) /dst scaleNr /unitv /len sqnN scalerN.
have c1 : oc src dst = -1 by rewrite /oc Eu dotvNr -/(sqn _) sqn_unitv.
have sz : os src dst = 0 by rewrite /os c1 sqrrN expr1n subrr sqrtr0.
have wz : ow src dst = 0 by rewrite /ow sz ltNge (ltW (tol7_gt0 _)).
have sp : 0 < sqn src by rewrite sqn_gt0.
have Ed : unitv src *m (unitv src)^T = (sqn src)^-1 *: (src *m src^T).
  rewrite /unitv linearZ /= -scalemxAl -scalemxAr scalerA -expr2 exprVn len_sq //.
have E1 : 1%:M - 2%:R *: (unitv src *m (unitv src)^T) = O by rewrite Ed scalerA.
have dO : \det O = -1.
  have -> : O = 1%:M + (- (2%:R / sqn src) *: src) *m src^T by rewrite /O -scalemxAl scaleNr.
  rewrite det_sylvester -scalemxAr dotv_outer -/(sqn src).
  have -> : 1%:M + - (2%:R / sqn src) *: (sqn src)%:M = (-1)%:M :> 'M[R]_1.
    apply/matrixP => i j; rewrite !mxE (ord1 i) (ord1 j) eqxx !mulr1n mulNr divfK ?gt_eqF //; ring.
  by rewrite det_scalar1.
split=> //.
- rewrite (orth_transl_run b s0 d0) wz rotm_w0_outer c1 Eu -E1; congr (Ok (mat (_ + _))).
  by rewrite linearN /= mulNmx mulmxN opprK -opprD scaleNr.
- rewrite (haus_run b s0 d0) Eu opprK.
  have -> : unitv src + unitv src = 2%:R *: unitv src by rewrite scaler_nat mulr2n.
  have h4 : sqn (2%:R *: unitv src) = 4%:R by rewrite sqnZ sqn_unitv // mulr1 -natrX.
  rewrite h4 ltNge; have -> : 10%:R ^- 14 <= (4%:R : R).
    apply: (@le_trans _ _ 1); last by rewrite ler1n.
    by rewrite invf_le1 ?exprn_gt0 ?ltr0n // exprn_ege1 // ler1n.
  rewrite [in LHS]/=; congr (Ok (mat _)); rewrite -E1 /haus h4.
  move: (unitv src) => d; congr (_ - _); apply/matrixP => i j; rewrite !(mxE, big_ord1).
  have E (p q : R) : 2%:R / 4%:R * (2%:R * p * (2%:R * q)) = 2%:R * (p * q) by field.
  exact: E.
have [P [-> _ dP]] := orth_transl_qr_exact b1 b2 Hla s0 d0.
move=> /Ok_inj/mat_inj EP; move: dP; rewrite EP dO => /eqP.
by rewrite -subr_eq0 -opprD oppr_eq0 -mulr2n pnatr_eq0.
Qed.

(** inside the band of angles below 1e-7 the reversed call is never the transpose *)
Theorem transl_reverse_band b n (src dst : 'cV[R]_n) : src != 0 -> dst != 0 ->
  0 < sqn src * sqn dst - dotv src dst ^+ 2 <= 10%:R ^- 14 * (sqn src * sqn dst) ->
  exists O O' : 'M[R]_n, [/\ orth_transl (RealArr (colarr b src)) (RealArr (colarr b dst)) = Ok (mat O),
    orth_transl (RealArr (colarr b dst)) (RealArr (colarr b src)) = Ok (mat O') & O' != O^T].
Proof.
move=> s0 d0 /andP[H1 H2].
have p0 : 0 < sqn src * sqn dst by rewrite mulr_gt0 // sqn_gt0.
have Eo : oc src dst ^+ 2 * (sqn src * sqn dst) = dotv src dst ^+ 2.
  by rewrite -(len_sq src) -(len_sq dst) -!exprMn oc_mul.
have h : os src dst <= 10%:R ^- 7.
  rewrite -(@ler_pexpn2r _ 2) ?nnegrE ?os_ge0 ?(ltW (tol7_gt0 _)) //.
  rewrite /os sqr_sqrtr ?subr_ge0 ?oc_le1 //.
  by rewrite -(ler_pmul2r p0) exprVn -exprM mulrBl mul1r Eo.
have c1 : oc src dst ^+ 2 != 1.
  by apply/eqP => E; move: H1; rewrite -Eo E mul1r subrr ltxx.
have wz : ow src dst = 0 by rewrite /ow ltNge h.
have wz' : ow dst src = 0 by rewrite /ow -osC ltNge h.
rewrite (orth_transl_run b s0 d0) (orth_transl_run b d0 s0) wz wz' !rotm_w0_outer (ocC dst src).
eexists; eexists; split; [by reflexivity | by reflexivity |].
apply: contra c1 => /eqP E.
have T : (1%:M + (oc src dst - 1) *: (unitv dst *m (unitv dst)^T))^T =
  1%:M + (oc src dst - 1) *: (unitv dst *m (unitv dst)^T).
  by apply/matrixP => i j; rewrite !(mxE, big_ord1) eq_sym; congr (_ + _ * _); rewrite mulrC.
move: E; rewrite T => /addrI E.
have [Ec|nc] := eqVneq (oc src dst) 1; first by rewrite Ec expr1n.
have k0 : oc src dst - 1 != 0 by rewrite subr_eq0.
have {}E : unitv src *m (unitv src)^T = unitv dst *m (unitv dst)^T.
  by have := congr1 (fun M => (oc src dst - 1)^-1 *: M) E; rewrite /= !scalerA mulVf // !scale1r.
have := congr1 (fun M : 'M[R]_n => dotv (unitv dst) (M *m unitv dst)) E.
have E2 (u d : 'cV[R]_n) : dotv d (u *m u^T *m d) = dotv u d ^+ 2.
  by rewrite outer_mul dotvZr (dotvC d u).
by rewrite /= !E2 -/(oc src dst) -/(sqn (unitv dst)) sqn_unitv // expr1n => ->.
Qed.

End OL.
