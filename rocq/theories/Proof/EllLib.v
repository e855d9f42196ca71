(** Geometry of ellipsoids: the different descriptions of the set E(c, Q). *)
From mathcomp Require Import all_ssreflect all_algebra ring.
From Verif.Model Require Import NP EllGeom.
From Verif.Spec Require Import MatSpec EllSpec.
From Verif.Proof Require Import MatLib Decomp.
Set Implicit Arguments.
Unset Strict Implicit.
Unset Printing Implicit Defensive.
Import Order.Theory GRing.Theory Num.Theory.
Local Open Scope ring_scope.

Section EllLib.
Variable R : rcfType.

Lemma qf_mulT' m n (S : 'M[R]_(m, n)) x : qf (S *m S^T) x = sqn (S^T *m x).
Proof. by rewrite -{1}(trmxK S) qf_mulT. Qed.

Lemma symm_mulT m n (S : 'M[R]_(m, n)) : symm (S *m S^T).
Proof. by rewrite /symm trmx_mul trmxK. Qed.
Lemma psd_mulT m n (S : 'M[R]_(m, n)) : psd (S *m S^T).
Proof. by move=> x; rewrite qf_mulT' sqn_ge0. Qed.

Lemma psd_root n (Q : 'M[R]_n) : symm Q -> psd Q -> exists S, [/\ symm S, psd S & S *m S = Q].
Proof.
move=> HQ Hp; have [d [V HE]] := spectral HQ; have d0 := (eig_psd HE).1 Hp.
exists (V *m diagv (\col_i Num.sqrt (d i 0)) *m V^T); split.
- by rewrite /symm !trmx_mul trmxK tr_diagv mulmxA.
- by move=> x; rewrite qf_conj qf_diagv sumr_ge0 // => i _; rewrite mxE mulr_ge0 ?sqrtr_ge0 ?sqr_ge0.
case: HE => HV ->; rewrite -!mulmxA (mulmxA V^T) HV mul1mx; congr (_ *m _).
rewrite mulmxA mul_diagv2; congr (diagv _ *m _); apply/matrixP => i j; rewrite !mxE (ord1 j).
by rewrite -expr2 sqr_sqrtr.
Qed.

Lemma psd_rootT n (Q : 'M[R]_n) : symm Q -> psd Q -> exists S : 'M[R]_n, S *m S^T = Q.
Proof. by move=> HQ Hp; have [S [HS _ E]] := psd_root HQ Hp; exists S; rewrite HS. Qed.

(** Cauchy-Schwarz for a semidefinite form *)
Lemma psd_cauchy n (Q : 'M[R]_n) x y : symm Q -> psd Q -> dotv x (Q *m y) ^+ 2 <= qf Q x * qf Q y.
Proof.
move=> HQ Hp; have [S E] := psd_rootT HQ Hp; rewrite -E !qf_mulT' -mulmxA dotv_mulr.
exact: cauchy_schwarz.
Qed.

(** a vector on which a semidefinite form vanishes is in the kernel *)
Lemma psd_ker n (Q : 'M[R]_n) x : symm Q -> psd Q -> qf Q x = 0 -> Q *m x = 0.
Proof.
move=> HQ Hp H; have [S E] := psd_rootT HQ Hp; move: H; rewrite -E qf_mulT' => /eqP.
by rewrite sqn_eq0 -mulmxA => /eqP ->; rewrite mulmx0.
Qed.

(** the support function bounds the ellipsoid *)
Lemma ell_support_ub n c (Q : 'M[R]_n) x l : in_ell c Q x -> dotv l x <= dotv l c + Num.sqrt (qf Q l).
Proof.
case=> S [z [<- Hz ->]]; rewrite dotvDr ler_add2l dotv_mulr qf_mulT'.
apply: le_trans (cauchy_len _ _) _; rewrite -/(len _) ler_pimulr ?len_ge0 //.
by rewrite -(@ler_pexpn2r _ 2) ?nnegrE ?len_ge0 ?ler01 // len_sq expr1n.
Qed.

(** E = {c + Q y : <y, Q y> <= 1} for every factor S of Q *)
Lemma ell_of_range n c (Q S : 'M[R]_n) y : S *m S^T = Q -> qf Q y <= 1 ->
  exists2 z, sqn z <= 1 & c + Q *m y = c + S *m z.
Proof. by move=> E H; exists (S^T *m y); [rewrite -qf_mulT' E | rewrite mulmxA E]. Qed.

(** dual description *)
Lemma ell_dual_range n c (Q : 'M[R]_n) x : symm Q -> psd Q ->
  (forall l, dotv l x <= dotv l c + Num.sqrt (qf Q l)) -> exists2 y, x = c + Q *m y & qf Q y <= 1.
Proof.
move=> HQ Hp H; pose w := x - c.
have Hw l : dotv l w <= Num.sqrt (qf Q l) by rewrite dotvBr ler_subl_addl.
have [P [QPQ _ QPs _]] := pinv_exists Q.
pose l := w - Q *m P *m w.
have Ql : Q *m l = 0.
  have E : (1%:M - Q *m P) *m Q = 0 by rewrite mulmxBl mul1mx QPQ subrr.
  have -> : l = (1%:M - Q *m P) *m w by rewrite mulmxBl mul1mx.
  have Es : (1%:M - Q *m P)^T = 1%:M - Q *m P by rewrite (raddfB (@trmx_additive _ _ _)) /= trmx1 QPs.
  by rewrite mulmxA -{1}HQ -Es -trmx_mul E trmx0 mul0mx.
have l0 : l = 0.
  have := Hw l; rewrite /qf Ql dotv0r sqrtr0 -[w](subrK (Q *m P *m w)) -/l dotvDr -mulmxA dotv_mulr HQ Ql dotv0l addr0.
  by move=> H0; apply/eqP; rewrite -sqn_eq0 eq_le H0 sqn_ge0.
have Ew : w = Q *m (P *m w) by apply/eqP; rewrite -subr_eq0 mulmxA -/l l0.
exists (P *m w); first by rewrite -Ew addrC subrK.
have := Hw (P *m w); rewrite {2}Ew -/(qf _ _); set q := qf Q _; have q0 : 0 <= q by exact: Hp.

have s0 : 0 <= Num.sqrt q by exact: sqrtr_ge0.
rewrite -{1 3}(sqr_sqrtr q0); move: (Num.sqrt q) s0 => s s0 Hs.
have [->|s1] := eqVneq s 0; first by rewrite expr0n ler01.
by rewrite expr_le1 // -(@ler_pmul2l _ s) ?mulr1 -?expr2 // lt_def s1.
Qed.

Lemma in_ell_symm n c (Q : 'M[R]_n) x : in_ell c Q x -> symm Q /\ psd Q.
Proof. by case=> S [z [<- _ _]]; split; [exact: symm_mulT | exact: psd_mulT]. Qed.

Lemma in_ellP_range n c (Q : 'M[R]_n) x : symm Q -> psd Q ->
  in_ell c Q x <-> exists2 y, x = c + Q *m y & qf Q y <= 1.
Proof.
move=> HQ Hp; split=> [H|[y -> H]].
  by apply: ell_dual_range => // l; exact: ell_support_ub.
have [S E] := psd_rootT HQ Hp; exists S; have [z Hz ->] := ell_of_range c E H.
by exists z.
Qed.

(** x is in E iff no direction separates it *)
Lemma in_ellP_dual n c (Q : 'M[R]_n) x : symm Q -> psd Q ->
  in_ell c Q x <-> forall l, dotv l x <= dotv l c + Num.sqrt (qf Q l).
Proof.
move=> HQ Hp; split=> [H l|H]; first exact: ell_support_ub.
by apply/in_ellP_range => //; exact: ell_dual_range.
Qed.

(** the set does not depend on the factor S *)
Lemma in_ellP_factor n c (Q S : 'M[R]_n) x : S *m S^T = Q ->
  in_ell c Q x <-> exists2 z, sqn z <= 1 & x = c + S *m z.
Proof.
move=> E; split=> [H|[z Hz ->]]; last by exists S, z.
have [HQ Hp] := in_ell_symm H; have [y -> Hy] := (in_ellP_range c x HQ Hp).1 H.
exact: ell_of_range.
Qed.

Lemma posdef_psd n (Q : 'M[R]_n) : posdef Q -> psd Q.
Proof.
move=> H x; have [->|x0] := eqVneq x 0; first by rewrite /qf dotv0l.
exact/ltW/H.
Qed.

Lemma posdef_unit n (Q : 'M[R]_n) : posdef Q -> Q \in unitmx.
Proof.
move=> H; rewrite -unitmx_tr -row_free_unit -kermx_eq0; apply/rowV0P => v /sub_kermxP Hv.
apply/eqP/negPn/negP => v0; have v1 : v^T != 0 by rewrite trmx_eq0.
have E : Q *m v^T = 0 by apply: trmx_inj; rewrite trmx_mul trmxK Hv trmx0.
by have := H _ v1; rewrite /qf E dotv0r ltxx.
Qed.

Lemma symm_inv n (Q : 'M[R]_n) : symm Q -> symm (invmx Q).
Proof. by move=> H; rewrite /symm trmx_inv H. Qed.

Lemma qf_inv n (Q : 'M[R]_n) y : symm Q -> Q \in unitmx -> qf (invmx Q) (Q *m y) = qf Q y.
Proof. by move=> HQ uQ; rewrite /qf mulKmx // dotvC. Qed.

Lemma posdef_inv n (Q : 'M[R]_n) : symm Q -> posdef Q -> posdef (invmx Q).
Proof.
move=> HQ H x x0; have uQ := posdef_unit H; rewrite -(mulKVmx uQ x) qf_inv //; apply: H.
by apply/eqP => E; case/eqP: x0; rewrite -(mulKVmx uQ x) E mulmx0.
Qed.

(** for a positive definite Q: (x - c)^T Q^-1 (x - c) <= 1 *)
Lemma in_ellP_inv n c (Q : 'M[R]_n) x : symm Q -> posdef Q ->
  in_ell c Q x <-> qf (invmx Q) (x - c) <= 1.
Proof.
move=> HQ Hp; have uQ := posdef_unit Hp; apply: (iff_trans (in_ellP_range c x HQ (posdef_psd Hp))).
split=> [[y -> H]|H]; first by rewrite addrC addKr qf_inv.
by exists (invmx Q *m (x - c)); rewrite ?mulKVmx // ?[c + _]addrC ?subrK // -qf_inv // mulKVmx.
Qed.

(** the support function is attained, at c + Q l / sqrt(<l, Q l>) *)
Lemma ell_bp_in n c (Q : 'M[R]_n) l : symm Q -> psd Q ->
  in_ell c Q (c + (Num.sqrt (qf Q l))^-1 *: (Q *m l)).
Proof.
move=> HQ Hp; apply/in_ellP_range => //; exists ((Num.sqrt (qf Q l))^-1 *: l).
  by rewrite -scalemxAr.
rewrite /qf -scalemxAr dotvZl dotvZr -/(qf _ _) mulrA -expr2 exprVn sqr_sqrtr ?Hp //.
by have [->|q0] := eqVneq (qf Q l) 0; rewrite ?mulr0 ?ler01 ?mulVf.
Qed.

Lemma ell_bp_dot n c (Q : 'M[R]_n) l : psd Q ->
  dotv l (c + (Num.sqrt (qf Q l))^-1 *: (Q *m l)) = dotv l c + Num.sqrt (qf Q l).
Proof.
move=> Hp; rewrite dotvDr dotvZr -/(qf _ _); congr (_ + _).
rewrite -[X in _ * X](sqr_sqrtr (Hp l)); have [->|s0] := eqVneq (Num.sqrt (qf Q l)) 0.
  by rewrite expr0n mulr0.
by rewrite expr2 mulKf.
Qed.

Lemma ell_support n c (Q : 'M[R]_n) l : symm Q -> psd Q ->
  max_over (in_ell c Q) l (dotv l c + Num.sqrt (qf Q l)).
Proof.
move=> HQ Hp; split=> [x|]; first exact: ell_support_ub.
by exists (c + (Num.sqrt (qf Q l))^-1 *: (Q *m l)); [exact: ell_bp_in | exact: ell_bp_dot].
Qed.

Lemma max_over_uniq n (E : 'cV[R]_n -> Prop) l s t : max_over E l s -> max_over E l t -> s = t.
Proof.
case=> Hs [x Ex xs] [Ht [y Ey yt]]; apply/eqP; rewrite eq_le -{1}xs Ht //= -yt Hs //.
Qed.

Lemma ler_sqrt' (a b : R) : 0 <= a -> 0 <= b -> (Num.sqrt a <= Num.sqrt b) = (a <= b).
Proof.
by move=> a0 b0; rewrite -(@ler_pexpn2r _ 2) ?nnegrE ?sqrtr_ge0 // !sqr_sqrtr.
Qed.

(** inclusion of ellipsoids *)
Lemma ell_subset n c d (P Q : 'M[R]_n) : symm P -> psd P -> symm Q -> psd Q ->
  (forall x, in_ell c P x -> in_ell d Q x) <->
  forall l, dotv l c + Num.sqrt (qf P l) <= dotv l d + Num.sqrt (qf Q l).
Proof.
move=> HP Pp HQ Qp; split=> [H l|H x Hx].
  have [_ [x Ex <-]] := ell_support c l HP Pp; exact: ell_support_ub (H _ Ex).
apply/in_ellP_dual => // l; exact: le_trans (ell_support_ub l Hx) (H l).
Qed.

Lemma ell_subset_center n c (P Q : 'M[R]_n) : symm P -> psd P -> symm Q -> psd Q ->
  (forall x, in_ell c P x -> in_ell c Q x) <-> psd (Q - P).
Proof.
move=> HP Pp HQ Qp; apply: (iff_trans (ell_subset c c HP Pp HQ Qp)); split=> H x.
  by rewrite qfD qfN subr_ge0 -ler_sqrt' ?Qp ?Pp // -(ler_add2l (dotv x c)).
by rewrite ler_add2l ler_sqrt' ?Qp ?Pp // -subr_ge0 -qfN -qfD.
Qed.

(** an ellipsoid determines its centre and its matrix *)
Lemma symm_qf_inj n (P Q : 'M[R]_n) : symm P -> symm Q -> (forall x, qf P x = qf Q x) -> P = Q.
Proof.
move=> HP HQ H; apply/matrixP => i j.
have E (M : 'M[R]_n) u v : dotv (delta_mx u 0) (M *m delta_mx v 0) = M u v.
  by rewrite dotvE trmx_delta mulmxA -rowE -colE !mxE.
have /eqP := H (delta_mx i 0 + delta_mx j 0).
rewrite /qf !mulmxDr !dotvDl !dotvDr !E -subr_eq0.
have Hd k : P k k = Q k k by have := H (delta_mx k 0); rewrite /qf !E.
have -> : P j i = P i j by rewrite -{1}HP mxE.
have -> : Q j i = Q i j by rewrite -{1}HQ mxE.
rewrite !Hd => H0; apply/eqP; rewrite -subr_eq0; move: H0.
have -> : Q i i + P i j + (P i j + Q j j) - (Q i i + Q i j + (Q i j + Q j j)) = (P i j - Q i j) *+ 2 by gring.
by rewrite mulrn_eq0.
Qed.

Lemma ell_inj n c d (P Q : 'M[R]_n) : symm P -> psd P -> symm Q -> psd Q ->
  (forall x, in_ell c P x <-> in_ell d Q x) -> c = d /\ P = Q.
Proof.
move=> HP Pp HQ Qp H.
have S l : dotv l c + Num.sqrt (qf P l) = dotv l d + Num.sqrt (qf Q l).
  apply/eqP; rewrite eq_le.
  rewrite ((ell_subset c d HP Pp HQ Qp).1 (fun x => (H x).1) l).
  by rewrite ((ell_subset d c HQ Qp HP Pp).1 (fun x => (H x).2) l).
have N l (M : 'M[R]_n) : qf M (- l) = qf M l by rewrite /qf mulmxN dotvNl dotvNr opprK.
have Ec l : dotv l c = dotv l d.
  have := S (- l); rewrite !dotvNl !N => S2; have := S l.
  move: S2; set a := dotv l c; set b := dotv l d; set p := Num.sqrt _; set q := Num.sqrt _ => E1 E2.
  have : (a + p) - (- a + p) = (b + q) - (- b + q) by rewrite E1 E2.
  have -> : (a + p) - (- a + p) = a *+ 2 by move: (a) (p) => *; ring.
  have -> : (b + q) - (- b + q) = b *+ 2 by move: (b) (q) => *; ring.
  by move/eqP; rewrite eqr_muln2r => /eqP.
split.
  apply/eqP; rewrite -subr_eq0 -sqn_eq0 /sqn dotvBr.
  by rewrite Ec subrr.
apply: symm_qf_inj => // l; apply/eqP; rewrite -(@eqr_sqrt _ (qf P l) (qf Q l)) ?Pp ?Qp //.
by have := S l; rewrite Ec => /addrI ->.
Qed.

End EllLib.
