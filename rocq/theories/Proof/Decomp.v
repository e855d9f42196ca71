(** The matrix decompositions exist over every real closed field: spectral theorem, singular value
    decomposition, QR, Moore-Penrose inverse.  Pure matrix algebra, no model definitions. *)
From mathcomp Require Import all_ssreflect all_algebra all_fingroup ring.
From mathcomp Require Import complex.
From Verif.Spec Require Import MatSpec OrthSpec.
From Verif.Proof Require Import MatLib OrthLib.
Set Implicit Arguments.
Unset Strict Implicit.
Unset Printing Implicit Defensive.
Import Order.Theory GRing.Theory Num.Theory.
Local Open Scope ring_scope.

Section D.
Variable R : rcfType.
Local Open Scope complex_scope.

(** a symmetric matrix has a real eigenvector *)
Lemma real_eigvec n (A : 'M[R]_n.+1) : symm A -> exists a (x : 'cV[R]_n.+1), x != 0 /\ A *m x = a *: x.
Proof.
move=> HA; pose C := [rmorphism of real_complex R]; pose AC := map_mx C A.
have /(@closed_rootP (complex_closedField R)) [l] : size (char_poly AC) != 1%N by rewrite size_char_poly.
rewrite -eigenvalue_root_char => /eigenvalueP[v Ev v0].
pose x : 'cV[R]_n.+1 := \col_i complex.Re (v 0 i); pose y : 'cV[R]_n.+1 := \col_i complex.Im (v 0 i).
pose a := complex.Re l; pose b := complex.Im l.
have Ex : A *m x = a *: x - b *: y.
  apply/matrixP => j k; rewrite (ord1 k).
  have := congr1 (fun M : 'rV_n.+1 => complex.Re (M 0 j)) Ev; rewrite !mxE (raddf_sum (ComplexField.Re_additive R)) /=.
  have -> : complex.Re (l * v 0 j) = a * complex.Re (v 0 j) - b * complex.Im (v 0 j).
    by rewrite /a /b; case: l {Ev a b} => la lb; case: (v 0 j).
  move=> <-; apply: eq_bigr => i _; rewrite -[in LHS]HA !mxE.
  by case: (v 0 i) => p q /=; rewrite mulr0 subr0 mulrC.
have Ey : A *m y = b *: x + a *: y.
  apply/matrixP => j k; rewrite (ord1 k).
  have := congr1 (fun M : 'rV_n.+1 => complex.Im (M 0 j)) Ev; rewrite !mxE (raddf_sum (ComplexField.Im_additive R)) /=.
  have -> : complex.Im (l * v 0 j) = b * complex.Re (v 0 j) + a * complex.Im (v 0 j).
    by rewrite /a /b; case: l {Ev a b Ex} => la lb; case: (v 0 j) => p q /=; rewrite addrC.
  move=> <-; apply: eq_bigr => i _; rewrite -[in LHS]HA !mxE.
  by case: (v 0 i) => p q /=; rewrite mulr0 add0r mulrC.
have xy0 : (x != 0) || (y != 0).
  rewrite -negb_and; apply: contra v0 => /andP[/eqP Hx /eqP Hy]; apply/eqP/matrixP => k j.
  rewrite (ord1 k) mxE.
  have := congr1 (fun M : 'cV_n.+1 => M j 0) Hx; have := congr1 (fun M : 'cV_n.+1 => M j 0) Hy.
  by rewrite !mxE; case: (v 0 j) => p q /= -> ->.
have b0 : b = 0.
  have := dotv_mull A x y; rewrite HA Ex Ey dotvBl dotvDr !(dotvZl, dotvZr) -/(sqn x) -/(sqn y) => H.
  have : b * (sqn x + sqn y) = 0.
    rewrite mulrDr; apply/eqP; rewrite addr_eq0; apply/eqP.
    by apply: (addIr (a * dotv x y)); rewrite -H addrC.
  move/eqP; rewrite mulf_eq0 => /orP[/eqP //|].
  rewrite paddr_eq0 ?sqn_ge0 // !sqn_eq0; move: xy0; by case: (x == 0); case: (y == 0).
move: xy0 => /orP[x0|y0]; first by exists a, x; rewrite Ex b0 scale0r subr0.
by exists a, y; rewrite Ey b0 scale0r add0r.
Qed.
Local Close Scope complex_scope.

(** every unit vector is the first column of an orthogonal matrix *)
Lemma unit_completion n (u : 'cV[R]_n.+1) : sqn u = 1 -> exists2 O, orthog O & O *m e1 R n = u.
Proof.
move=> u1; case: (eqVneq (e1 R n) u) => [<-|ne].
  by exists 1%:M; [exact: orthog1 | rewrite mul1mx].
exists (haus (e1 R n - u)); first by apply: haus_orthog; rewrite subr_eq0.
by apply: haus_swap => //; rewrite u1 /sqn dot_delta mxE.
Qed.

Lemma block_orthog m (W : 'M[R]_m) : orthog W -> orthog (block_mx 1%:M 0 0 W : 'M_(1 + m)).
Proof.
move=> H; rewrite /orthog tr_block_mx !trmx0 trmx1 mulmx_block !mulmx0 !mul0mx mulmx1 !addr0 !add0r H.
by rewrite -scalar_mx_block.
Qed.

Lemma e1_col n : e1 R n = col_mx 1%:M 0 :> 'cV_(1 + n).
Proof.
apply/matrixP => i j; rewrite (ord1 j) !mxE; case: splitP => k /= Ek.
  by rewrite (ord1 k) mxE -val_eqE /= Ek (ord1 k).
by rewrite mxE -val_eqE /= Ek.
Qed.

Lemma e1_scale n a : a *: e1 R n = col_mx a%:M 0 :> 'cV_(1 + n).
Proof.
rewrite e1_col; apply/matrixP => i j; rewrite (ord1 j) !mxE; case: splitP => k /= Ek.
  by rewrite (ord1 k) !mxE eqxx mulr1.
by rewrite !mxE mulr0.
Qed.
Lemma block_first m n (B : 'M[R]_(1 + m, 1 + n)) a : B *m e1 R n = a *: e1 R m ->
  ulsubmx B = a%:M /\ dlsubmx B = 0.
Proof.
rewrite e1_scale e1_col -{1}(submxK B) mul_block_col !mulmx1 !mulmx0 !addr0.
by move/eq_col_mx.
Qed.

(** spectral theorem *)
Theorem spectral n (A : 'M[R]_n) : symm A -> exists d V, eigdec A d V.
Proof.
elim: n A => [|n IH] A HA.
  by exists 0, 1%:M; split; [exact: orthog1 | apply/matrixP => -[]].
have [a [x [x0 Ex]]] := real_eigvec HA.
have [O HO Oe] := unit_completion (sqn_unitv x0).
have Eu : A *m unitv x = a *: unitv x by rewrite /unitv -scalemxAr Ex scalerA mulrC -scalerA.
pose B : 'M_(1 + n) := O^T *m A *m O.
have HB : B^T = B by rewrite /B !trmx_mul trmxK HA mulmxA.
have Be : B *m e1 R n = a *: e1 R n.
  by rewrite /B -!mulmxA Oe Eu -scalemxAr -Oe mulmxA HO mul1mx.
have [Bl Bd] := block_first Be.
have EB : B = block_mx a%:M 0 0 (drsubmx B).
  rewrite -{1}(submxK B) Bl Bd; congr block_mx.
  by rewrite -[LHS]trmxK trmx_ursub HB Bd trmx0.
have [|d [W [HW EW]]] := IH (drsubmx B); first by rewrite /symm trmx_drsub HB.
exists (col_mx a%:M d), (O *m (block_mx 1%:M 0 0 W : 'M_(1 + n))).
split; first by apply: orthogM => //; exact: block_orthog.
have Ed : diagv (col_mx a%:M d) = block_mx a%:M 0 0 (diagv d) :> 'M_(1 + n).
  by rewrite /diagv tr_col_mx diag_mx_row tr_scalar_mx; congr block_mx; apply/matrixP => i j;
     rewrite !mxE (ord1 i) (ord1 j).
have -> : A = O *m B *m O^T.
  rewrite /B !mulmxA; move/orthogC: (HO) => HO'; by rewrite HO' mul1mx -mulmxA HO' mulmx1.
have -> : B = (block_mx 1%:M 0 0 W : 'M_(1 + n)) *m (block_mx a%:M 0 0 (diagv d) : 'M_(1 + n)) *m
              (block_mx 1%:M 0 0 W : 'M_(1 + n))^T.
  rewrite tr_block_mx !trmx0 trmx1 !mulmx_block !(mulmx0, mul0mx, mul1mx, mulmx1, addr0, add0r).
  by rewrite {1}EB EW.
by rewrite Ed trmx_mul !mulmxA.
Qed.

(** reordering *)
Lemma sort_cols n (d : 'cV[R]_n) (r : rel R) : total r -> transitive r ->
  exists p : {perm 'I_n}, forall i j : 'I_n, (i <= j)%N -> i != j -> r (d (p i) 0) (d (p j) 0).
Proof.
move=> Ht Hr; pose t := [tuple d i 0 | i < n].
have /tuple_permP[p Hp] : perm_eq (sort_tuple r t) t by rewrite perm_sort.
exists p => i j ij nij.
have lt_ij : (i < j)%N by rewrite ltn_neqAle nij.
have Hs : sorted r [tuple tnth t (p i) | i < n] by rewrite -Hp; exact: sort_sorted.
have := sorted_ltn_nth Hr (d i 0) Hs; move/(_ i j).
rewrite !inE size_tuple => /(_ (ltn_ord i) (ltn_ord j) lt_ij).
by rewrite -!tnth_nth !tnth_mktuple.
Qed.

Lemma eigdec_perm n (A : 'M[R]_n) d V (p : {perm 'I_n}) : eigdec A d V ->
  eigdec A (\col_i d (p i) 0) (col_perm p V).
Proof.
case=> HV EA; split.
  apply/orthocolsP => i j; move/orthocolsP: HV => /(_ (p i) (p j)); rewrite (inj_eq perm_inj) => <-.
  by rewrite /dotv; apply: eq_bigr => k _; rewrite !mxE.
rewrite EA; apply/matrixP => i j; rewrite /diagv !mul_mx_diag !mxE [RHS](reindex_inj (@perm_inj _ p^-1)%g) /=.
by apply: eq_bigr => k _; rewrite !mxE permKV.
Qed.

Theorem spectral_asc n (A : 'M[R]_n) : symm A -> exists d V, eigdec A d V /\ ascending d.
Proof.
move=> HA; have [d [V H]] := spectral HA.
have [p Hp] := sort_cols d (@le_total _ R) (@le_trans _ R).
exists (\col_i d (p i) 0), (col_perm p V); split; first exact: eigdec_perm.
move=> i j ij; rewrite !mxE; case: (eqVneq i j) => [->|nij] //; exact: Hp.
Qed.

(** largest value of a quadratic form on unit vectors *)
Lemma top_eig n (A : 'M[R]_n.+1) : symm A -> exists c (x : 'cV[R]_n.+1),
  [/\ sqn x = 1, A *m x = c *: x & forall y, qf A y <= c * sqn y].
Proof.
move=> HA; have [d [V [HE Hd]]] := spectral_asc HA.
exists (d ord_max 0), (col ord_max V); split.
- exact: eig_sqn_col HE.
- exact: eig_vec HE.
move=> y; apply: eig_upper HE _ _ => i; apply: Hd; exact: leq_ord.
Qed.

(** rectangular diagonal matrices indexed by functions on nat *)
Definition dg m n (f : nat -> R) : 'M[R]_(m, n) := \matrix_(i, j) (f i *+ (i == j :> nat)).

Lemma dg_rdiag m n f : dg m n f = rdiag (\col_i f i).
Proof.
apply/matrixP => i j; rewrite !mxE; case: eqP => /= [ij|ij].
  have km : (i < minn m n)%N by rewrite leq_min ltn_ord ij ltn_ord.
  rewrite (big_pred1 (Ordinal km)) ?mxE //= => k.
  by rewrite /= -ij andbb.
by rewrite big1 // => k /andP[/eqP k1 /eqP k2]; case: ij; rewrite -k1 -k2.
Qed.

Lemma dg_mul m n p f g : dg m n f *m dg n p g = dg m p (fun i => if (i < n)%N then f i * g i else 0).
Proof.
apply/matrixP => i j; rewrite !mxE; case: ltnP => [h|h].
  rewrite (bigD1 (Ordinal h)) //= !mxE /= eqxx mulr1n big1 ?addr0.
    by rewrite mulrnAr.
  move=> k kn; rewrite !mxE; case: eqP => [ik|]; last by rewrite mul0r.
  by case/negP: kn; rewrite -val_eqE /= ik.
rewrite mul0rn big1 // => k _; rewrite !mxE; case: eqP => [ik|]; last by rewrite mul0r.
by move: (ltn_ord k); rewrite -ik ltnNge h.
Qed.

Lemma dg_tr m n f : (dg m n f)^T = dg n m f.
Proof. by apply/matrixP => i j; rewrite !mxE eq_sym; case: eqP => [->|]. Qed.

Lemma dg_ext m n f g : (forall i, (i < m)%N -> (i < n)%N -> f i = g i) -> dg m n f = dg m n g.
Proof.
move=> H; apply/matrixP => i j; rewrite !mxE; case: eqP => // ij; congr (_ *+ _); apply: H => //.
by rewrite ij.
Qed.

Lemma dg0 m n : dg m n (fun=> 0) = 0.
Proof. by apply/matrixP => i j; rewrite !mxE mul0rn. Qed.

Lemma dg_block m n f : dg (1 + m) (1 + n) f = block_mx (f 0%N)%:M 0 0 (dg m n (fun i => f i.+1)).
Proof.
apply/matrixP => i j; rewrite !mxE; case: splitP => k Ek; rewrite !mxE; case: splitP => l El; rewrite !mxE Ek El.
- by rewrite !(ord1 k, ord1 l) eqxx.
- by rewrite (ord1 k) mulr0n.
- by rewrite (ord1 l) mulr0n.
- by rewrite !add1n eqSS.
Qed.

Lemma sqn_col0 n (x : 'cV[R]_n) : sqn (col_mx 0 x : 'cV_(1 + n)) = sqn x.
Proof.
rewrite /sqn /dotv big_split_ord /= big_ord1 col_mxEu mxE mul0r add0r.
by apply: eq_bigr => i _; rewrite col_mxEd.
Qed.

Theorem svd_exists m n (A : 'M[R]_(m, n)) : exists U f V,
  [/\ orthog U, orthog V, A = U *m dg m n f *m V, (forall i, 0 <= f i) &
      ({homo f : i j / (i <= j)%N >-> (j <= i)%R} /\
       forall c, 0 <= c -> (forall x, sqn (A *m x) <= c ^+ 2 * sqn x) -> f 0%N <= c)].
Proof.
elim: m n A => [|m IH] n A.
  exists 1%:M, (fun=> 0), 1%:M; split; [exact: orthog1|exact: orthog1|by apply/matrixP => -[]|by []|by split].
case: n A => [|n] A.
  exists 1%:M, (fun=> 0), 1%:M; split; [exact: orthog1|exact: orthog1|by apply/matrixP => i []|by []|by split].
have HS : symm (A^T *m A) by rewrite /symm trmx_mul trmxK.
have [c2 [v [v1 Ev Hv]]] := top_eig HS.
have c20 : 0 <= c2.
  have := sqn_ge0 (A *m v); rewrite -qf_mulT /qf Ev dotvZr -/(sqn v) v1 mulr1 //.
pose c := Num.sqrt c2; have Ec : c ^+ 2 = c2 by rewrite sqr_sqrtr.
have c0 : 0 <= c by rewrite sqrtr_ge0.
have Av : sqn (A *m v) = c ^+ 2.
  by rewrite -qf_mulT /qf Ev dotvZr -/(sqn v) v1 mulr1 Ec.
case: (eqVneq c 0) => [cz|cn].
  exists 1%:M, (fun=> 0), 1%:M; split; [exact: orthog1|exact: orthog1| |by []|by split].
  rewrite dg0 mulmx0 mul0mx; apply: mx_act => x; rewrite mul0mx; apply/eqP; rewrite -sqn_eq0 eq_le sqn_ge0.
  by have := Hv x; rewrite qf_mulT -Ec cz expr0n mul0r => ->.
pose u := c^-1 *: (A *m v).
have u1 : sqn u = 1 by rewrite sqnZ Av exprVn mulVf // expf_neq0.
have [O HO Oe] := unit_completion v1; have [P HP Pe] := unit_completion u1.
pose B : 'M_(1 + m, 1 + n) := P^T *m A *m O.
have Be : B *m e1 R n = c *: e1 R m.
  rewrite /B -!mulmxA Oe; have -> : A *m v = c *: u by rewrite /u scalerA divff // scale1r.
  by rewrite -scalemxAr -Pe mulmxA HP mul1mx.
have Be' : B^T *m e1 R m = c *: e1 R n.
  rewrite /B !trmx_mul trmxK -!mulmxA Pe /u -!scalemxAr.
  have -> : A^T *m (A *m v) = c ^+ 2 *: v by rewrite mulmxA Ev Ec.
  by rewrite -scalemxAr scalerA expr2 mulrA mulVf // mul1r -Oe mulmxA HO mul1mx.
have [Bl Bd] := block_first Be.
have Br : ursubmx B = 0.
  apply: trmx_inj; rewrite trmx_ursub trmx0.
  by have [_ ->] := block_first Be'.
have EB : B = block_mx c%:M 0 0 (drsubmx B) by rewrite -{1}(submxK B) Bl Bd Br.
have EA : A = P *m B *m O^T.
  rewrite /B !mulmxA; move/orthogC: (HO) => HO'; move/orthogC: (HP) => HP'.
  by rewrite HP' mul1mx -mulmxA HO' mulmx1.
clearbody B.
have Hc x : sqn (drsubmx B *m x) <= c ^+ 2 * sqn x.
  pose z : 'cV_(1 + n) := col_mx 0 x.
  have := Hv (O *m z); rewrite qf_mulT EA -!mulmxA (mulmxA O^T) HO mul1mx (orthog_sqn _ HP) (orthog_sqn _ HO) -Ec.
  have -> : B *m z = col_mx 0 (drsubmx B *m x).
    by rewrite {1}EB mul_block_col !mulmx0 mul0mx !add0r.
  by rewrite (sqn_col0 x) (sqn_col0 (drsubmx B *m x)).
have [U' [f [V' [HU' HV' EB' f0 [fd fb]]]]] := IH n (drsubmx B).
exists (P *m (block_mx 1%:M 0 0 U' : 'M_(1 + m))), (fun i => if i is j.+1 then f j else c),
       ((block_mx 1%:M 0 0 V' : 'M_(1 + n)) *m O^T); split.
- by apply: orthogM => //; exact: block_orthog.
- by apply: orthogM; [exact: block_orthog | exact: orthogT].
- have -> : dg m.+1 n.+1 (fun i => if i is j.+1 then f j else c) = block_mx c%:M 0 0 (dg m n f) :> 'M_(1 + m, 1 + n).
    exact: dg_block.
  have E : B = (block_mx 1%:M 0 0 U' : 'M_(1 + m)) *m (block_mx c%:M 0 0 (dg m n f) : 'M_(1 + m, 1 + n)) *m
              (block_mx 1%:M 0 0 V' : 'M_(1 + n)).
    by rewrite !mulmx_block !(mulmx0, mul0mx, mul1mx, mulmx1, addr0, add0r) {1}EB {1}EB'.
  by rewrite {1}EA {1}E !mulmxA.
- by case.
split.
  case=> [|i] [|j] //= ij; last exact: fd.
  by apply: le_trans (fb _ c0 Hc); exact: fd.
move=> b b0 /(_ v); rewrite v1 mulr1 Av => H.
by rewrite -(@ler_pexpn2r _ 2) // nnegrE.
Qed.

Theorem svdec_exists m n (A : 'M[R]_(m, n)) : exists U s V, svdec A U s V.
Proof.
have [U [f [V [HU HV EA f0 [fd _]]]]] := svd_exists A.
exists U, (\col_i f i), V; split=> //; first by rewrite -dg_rdiag.
- by move=> i j ij; rewrite !mxE; exact: fd.
by move=> i; rewrite mxE.
Qed.

Theorem pinv_exists m n (A : 'M[R]_(m, n)) : exists P : 'M[R]_(n, m),
  [/\ A *m P *m A = A, P *m A *m P = P, (A *m P)^T = A *m P & (P *m A)^T = P *m A].
Proof.
have [U [f [V [HU HV EA f0 _]]]] := svd_exists A.
pose g i := (f i)^-1; exists (V^T *m dg n m g *m U^T).
have E1 : A *m (V^T *m dg n m g *m U^T) = U *m dg m m (fun i => if (i < n)%N then f i * g i else 0) *m U^T.
  rewrite EA !mulmxA; congr (_ *m _); rewrite -!mulmxA; congr (_ *m _).
  by move/orthogC: HV => HV'; rewrite (mulmxA V) HV' mul1mx dg_mul.
have E2 : (V^T *m dg n m g *m U^T) *m A = V^T *m dg n n (fun i => if (i < m)%N then g i * f i else 0) *m V.
  rewrite EA !mulmxA; congr (_ *m _); rewrite -!mulmxA; congr (_ *m _).
  by rewrite (mulmxA U^T) HU mul1mx dg_mul.
have fgf x : f x * g x * f x = f x.
  by rewrite /g; case: (eqVneq (f x) 0) => [->|h]; [rewrite mulr0 | rewrite divff // mul1r].
have gfg x : g x * f x * g x = g x.
  by rewrite /g; case: (eqVneq (f x) 0) => [->|h]; [rewrite invr0 mulr0 | rewrite mulVf // mul1r].
split.
- rewrite E1 EA -!mulmxA (mulmxA U^T) HU mul1mx (mulmxA (dg _ _ _)) dg_mul; congr (_ *m (_ *m _)).
  by apply: dg_ext => i im ni; rewrite im ni fgf.
- rewrite E2 -!mulmxA; move/orthogC: HV => HV'; rewrite (mulmxA V) HV' mul1mx (mulmxA (dg _ _ _)) dg_mul.
  by congr (_ *m (_ *m _)); apply: dg_ext => i im ni; rewrite im ni gfg.
- by rewrite E1 !trmx_mul trmxK dg_tr mulmxA.
by rewrite E2 !trmx_mul trmxK dg_tr mulmxA.
Qed.

(** QR *)
Theorem qr_exists m n (A : 'M[R]_(m, n)) : exists (Q : 'M[R]_m) (T : 'M[R]_(m, n)),
  [/\ orthog Q, uppertri T & A = Q *m T].
Proof.
elim: m n A => [|m IH] n A.
  by exists 1%:M, A; split; [exact: orthog1 | case | rewrite mul1mx].
case: n A => [|n] A.
  by exists 1%:M, A; split; [exact: orthog1 | move=> i [] | rewrite mul1mx].
have [O HO [a Oa]] : exists2 O, orthog O & exists a, col 0 A = a *: (O *m e1 R m).
  case: (eqVneq (col 0 A) 0) => [->|c0].
    by exists 1%:M; [exact: orthog1 | exists 0; rewrite scale0r].
  have [O HO Oe] := unit_completion (sqn_unitv c0); exists O => //; exists (len (col 0 A)).
  by rewrite Oe unitvK.
pose B : 'M_(1 + m, 1 + n) := O^T *m A.
have Be : B *m e1 R n = a *: e1 R m.
  by rewrite /B -mulmxA col_delta Oa -scalemxAr mulmxA HO mul1mx.
have [Bl Bd] := block_first Be.
have [Q [T [HQ HT EQ]]] := IH n (drsubmx B).
exists (O *m (block_mx 1%:M 0 0 Q : 'M_(1 + m))), (block_mx a%:M (ursubmx B) 0 T : 'M_(1 + m, 1 + n)); split.
- by apply: orthogM => //; exact: block_orthog.
- move=> i j ij; rewrite !mxE.
  case: (splitP (i : 'I_(1 + m))) ij => k -> ; rewrite !mxE; case: (splitP (j : 'I_(1 + n))) => l ->; rewrite ?mxE //.
  + by rewrite (ord1 k).
  + by rewrite (ord1 k) ltn0.
  by rewrite !add1n ltnS => /HT.
have -> : A = O *m B by rewrite /B mulmxA; move/orthogC: HO => ->; rewrite mul1mx.
have E : B = (block_mx 1%:M 0 0 Q : 'M_(1 + m)) *m (block_mx a%:M (ursubmx B) 0 T : 'M_(1 + m, 1 + n)).
  by rewrite mulmx_block !(mulmx0, mul0mx, mul1mx, mulmx1, addr0, add0r) -EQ -{1}(submxK B) Bl Bd.
by rewrite {1}E mulmxA.
Qed.

Theorem qr_reduced_exists m n (A : 'M[R]_(m, n)) :
  exists (Q : 'M[R]_(m, minn m n)) (T : 'M[R]_(minn m n, n)),
  [/\ orthocols Q, uppertri T & A = Q *m T].
Proof.
have [Q [T [HQ HT EA]]] := qr_exists A.
pose w := widen_ord (geq_minl m n).
exists (\matrix_(i, j) Q i (w j)), (\matrix_(i, j) T (w i) j); split.
- apply/orthocolsP => i j; move/orthocolsP: HQ => /(_ (w i) (w j)); rewrite -val_eqE /= val_eqE => <-.
  by rewrite /dotv; apply: eq_bigr => k _; rewrite !mxE.
- by move=> i j ij; rewrite mxE; apply: HT.
rewrite EA; apply/matrixP => i j; rewrite !mxE.
rewrite (bigID (fun k : 'I_m => (k < n)%N)) /= [X in _ + X]big1 ?addr0; last first.
  by move=> k; rewrite -leqNgt => nk; rewrite HT ?mulr0 // (leq_trans (ltn_ord j)).
have -> : \sum_j0 (\matrix_(i0, j1) Q i0 (w j1)) i j0 * (\matrix_(i0, j1) T (w i0) j1) j0 j =
  \sum_(k < minn m n) Q i (w k) * T (w k) j by apply: eq_bigr => k _; rewrite !mxE.
case: (posnP m) => [m0|m0]; first by subst m; case: i.
pose F (k : nat) := Q i (insubd (Ordinal m0) k) * T (insubd (Ordinal m0) k) j.
transitivity (\sum_(k < m | (k < n)%N) F k).
  by apply: eq_bigr => k _; rewrite /F !valKd.
rewrite (eq_bigl (fun k : 'I_m => (k < minn m n)%N)); last by move=> k; rewrite leq_min ltn_ord.
rewrite -(big_ord_widen m F (geq_minl m n)); apply: eq_bigr => k _.
have -> : w k = insubd (Ordinal m0) (val (w k)) by rewrite valKd.
by [].
Qed.

End D.
