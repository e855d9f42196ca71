(** Volume, trace and extreme eigenvalues under inclusion. *)
From mathcomp Require Import all_ssreflect all_algebra.
From mathcomp.algebra_tactics Require Import ring.
Require Import Coq.Strings.String.
From Verif.Model Require Import Py NP NP3 Linalg La EllGeom Ellipsoid EllHeap.
From Verif.Spec Require Import MatSpec LinalgSpec OrthSpec EllSpec EllipsoidSpec EllHeapSpec.
From Verif.Proof Require Import NPLib MatLib LaBasic LinalgSat EllLib EllGeomProof EllScalProof EllScalEx OpsEx OrderProof Decomp.
Set Implicit Arguments.
Unset Strict Implicit.
Unset Printing Implicit Defensive.
Import Order.Theory GRing.Theory Num.Theory.
Local Open Scope ring_scope.

Section Mono.
Variable R : rcfType.
Variable la : linalg R.
Notation ell := (ell R).

Lemma subset_psd n (c1 c2 : 'cV[R]_n) (P Q : 'M[R]_n) : symm P -> psd P -> symm Q -> psd Q ->
  (forall x, in_ell c1 P x -> in_ell c2 Q x) -> psd (Q - P).
Proof.
move=> HP Pp HQ Qp /(ell_subset c1 c2 HP Pp HQ Qp) H l; rewrite qfD qfN subr_ge0 -ler_sqrt' ?Qp ?Pp //.
have := ler_add (H l) (H (- l)); have qN (A : 'M[R]_n) : qf A (- l) = qf A l by rewrite /qf mulmxN dotvNl dotvNr opprK.
rewrite !qN !dotvNl addrACA [X in _ <= X]addrACA !subrr !add0r -!mulr2n.
by rewrite ler_muln2r.
Qed.

Lemma prod_ge1 (I : finType) (p : pred I) (f : I -> R) : (forall i, 1 <= f i) -> 1 <= \prod_(i | p i) f i.
Proof. by move=> H; elim/big_rec: _ => // i x _ x1; rewrite -(mulr1 1) ler_pmul ?ler01. Qed.

Lemma det_ge1 n (M : 'M[R]_n) : symm M -> psd (M - 1%:M) -> 1 <= \det M /\ (\det M = 1 -> M = 1%:M).
Proof.
move=> HM Hp; have [d [V HE]] := spectral HM.
have d1 i : 1 <= d i 0.
  rewrite -(eig_attained i HE) -subr_ge0; have := Hp (col i V).
  by rewrite qfD qfN qf_scal mul1r (eig_sqn_col _ HE).
rewrite (eig_det HE); split; first exact: prod_ge1.
move=> E; have dE : diagv d = 1%:M.
  apply/matrixP => i j; rewrite !mxE; case: eqP => // _; congr (_ *+ _); apply/eqP; rewrite eq_le d1 andbT.
  rewrite -E (bigD1 i) //= ler_pemulr ?(le_trans ler01 (d1 i)) //; exact: prod_ge1.
by case: HE => HV ->; rewrite dE mulmx1 (mulmx1C HV).
Qed.

Lemma det_mono n (P Q : 'M[R]_n) : symm P -> psd P -> symm Q -> psd Q -> psd (Q - P) ->
  \det P <= \det Q /\ (0 < \det P -> \det P = \det Q -> P = Q).
Proof.
move=> HP Pp HQ Qp H; have [p0|p0] := boolP (0 < \det P); last first.
  by split=> //; rewrite (le_trans _ (psd_det HQ Qp)) // leNgt.
have [S [HS _ ES]] := psd_root HP Pp.
have uS : S \in unitmx.
  by rewrite unitmxE unitfE; apply: contraTneq p0 => d0; rewrite -ES det_mulmx d0 mul0r ltxx.
have ST : (invmx S)^T = invmx S by rewrite trmx_inv HS.
pose M := invmx S *m Q *m invmx S.
have EM : S *m M *m S = Q by rewrite /M !mulmxA mulmxV // mul1mx -mulmxA mulVmx // mulmx1.
have HM : symm M by rewrite /symm /M !trmx_mul ST HQ mulmxA.
have H1 : psd (M - 1%:M).
  have -> : M - 1%:M = invmx S *m (Q - P) *m (invmx S)^T.
    by rewrite ST mulmxBr mulmxBl -ES !mulmxA mulVmx // mul1mx mulmxV.
  by move=> x; rewrite qf_conj.
have [d1 dE] := det_ge1 HM H1.
have EQ : \det Q = \det P * \det M by rewrite -EM -ES !det_mulmx mulrAC.
split; first by rewrite EQ ler_pemulr // ltW.
move=> _ E; rewrite -EM dE ?mulmx1 //; have p1 : \det P != 0 by rewrite gt_eqF.
apply: (mulfI p1); by rewrite -EQ mulr1.
Qed.

Lemma trace_mono n (P Q : 'M[R]_n) d V d' V' : eigdec P d V -> eigdec Q d' V' -> symm P -> symm Q -> psd (Q - P) ->
  \sum_i d i 0 <= \sum_i d' i 0.
Proof.
have T (A : 'M[R]_n) a W : eigdec A a W -> \sum_i a i 0 = \tr A.
  by case=> HW ->; rewrite mxtrace_mulC mulmxA HW mul1mx; apply: eq_bigr => i _; rewrite !mxE eqxx.
move=> /T-> /T-> HP HQ H; rewrite -subr_ge0 -linearB /=.
have HB : symm (Q - P) by rewrite /symm linearB /= HP HQ.
have [b [W HW]] := spectral HB; rewrite -(T _ _ _ HW).
by apply: sumr_ge0 => i _; exact: ((eig_psd HW).1 H).
Qed.

(** what volume returns for one ellipsoid *)
Lemma pair_good e1 e2 n (c1 c2 : 'cV[R]_n) (P Q : 'M[R]_n) t1 t2 : (0 < n)%N -> repr e1 c1 P t1 -> repr e2 c2 Q t2 ->
  List.Forall (@good R) [:: e1; e2].
Proof. by move=> n0 H1 H2; do !constructor; [exists n, c1, P, t1|exists n, c2, Q, t2]. Qed.
Lemma results2 T (F : forall n, 'cV[R]_n -> 'M[R]_n -> R -> T -> Prop) e1 e2 n (c1 c2 : 'cV[R]_n) (P Q : 'M[R]_n) t1 t2 rs :
  results F [:: e1; e2] rs -> repr e1 c1 P t1 -> repr e2 c2 Q t2 ->
  exists v1 v2, [/\ rs = [:: v1; v2], F n c1 P t1 v1 & F n c2 Q t2 v2].
Proof.
move=> H H1 H2; inversion H as [|a v1 b r K1 K2]; subst; inversion K2 as [|a v2 b r' K3 K4]; subst; inversion K4; subst.
by exists v1, v2; split=> //; [exact: K1|exact: K3].
Qed.

Section Vol.
Variables (vf : volfun R) (pi : R).
Hypotheses (He : eigvalsh_ok la) (Hd : det_ok la) (Hv : volfun_ok vf pi).

Definition strict n (Q : 'M[R]_n) (t : R) := forall x, x != 0 -> t * sqn x < qf Q x.
Lemma strict_dec n (Q : 'M[R]_n) t : symm Q -> strict Q t \/ ~ strict Q t.
Proof.
move=> HQ; have [d [V HE]] := spectral HQ.
have [/forallP H|H] := boolP [forall i, t < d i 0]; [left|right].
  have E : eigdec (Q - t%:M) (d - const_mx t) V.
    case: HE => HV ->; split=> //; have -> : diagv (d - const_mx t) = diagv d - t%:M.
      by apply/matrixP => i j; rewrite !mxE; case: eqP => _; rewrite ?subr0 ?mulr1n.
    by rewrite mulmxBr mulmxBl mul_mx_scalar -scalemxAl (mulmx1C HV) scalemx1.
  have : posdef (Q - t%:M) by apply/(eig_posdef E) => i; rewrite !mxE subr_gt0.
  by move=> K x x0; have := K x x0; rewrite qfD qfN qf_scal subr_gt0.
move=> K; case/negP: H; apply/forallP => i; rewrite -(eig_attained i HE) -[t]mulr1 -(eig_sqn_col i HE); apply: K.
by rewrite -sqn_gt0 (eig_sqn_col _ HE) ltr01.
Qed.

Definition vol_is n (Q : 'M[R]_n) t r :=
  (strict Q t -> r = ball_vol pi n * Num.sqrt (\det Q)) /\ (~ strict Q t -> r = 0).
Lemma volume2 s e1 e2 n (c1 c2 : 'cV[R]_n) (P Q : 'M[R]_n) t1 t2 : (0 < n)%N -> repr e1 c1 P t1 -> repr e2 c2 Q t2 ->
  exists v1 v2 r1 r2, [/\ volume la vf (Arr s [:: e1; e2]) = Ok [:: v1; v2], vol_value v1 = Fin r1, vol_value v2 = Fin r2,
    vol_is P t1 r1 & vol_is Q t2 r2].
Proof.
move=> n0 H1 H2; have [vs -> Hr] := volume_run s (pair_good n0 H1 H2) He Hd Hv.
have [v1 [v2 [-> [A1 B1] [A2 B2]]]] := results2 Hr H1 H2.
have K (Q' : 'M[R]_n) t v : symm Q' -> (strict Q' t -> v = VolNum (Fin (ball_vol pi n * Num.sqrt (\det Q')))) ->
   (~ strict Q' t -> v = VolArr0 R) -> exists2 r, vol_value v = Fin r & vol_is Q' t r.
  move=> HQ A B; have [S|S] := strict_dec t HQ.
    by rewrite (A S); eexists=> //; split=> // /(_ S).
  by rewrite (B S); exists 0 => //; split=> // /S.
have [r1 E1 V1] := K _ _ _ (let: conj _ (And3 h _ _) := H1 in h) A1 B1.
have [r2 E2 V2] := K _ _ _ (let: conj _ (And3 h _ _) := H2 in h) A2 B2.
by exists v1, v2, r1, r2.
Qed.

Lemma ball_ge0 n : 0 < ball_vol pi n.
Proof.
have p0 : 0 < pi by case: Hv => [[]].
have H : 0 < ball_vol pi n /\ 0 < ball_vol pi n.+1.
  by elim: n => [|n [H0 H1]]; split=> //=; rewrite ?ltr01 ?ltr0n // mulr_gt0 // divr_gt0 ?mulr_gt0 ?ltr0n.
by case: H.
Qed.

Theorem volume_mono s e1 e2 n (c1 c2 : 'cV[R]_n) (P Q : 'M[R]_n) t1 t2 : (0 < n)%N -> repr e1 c1 P t1 -> repr e2 c2 Q t2 ->
  t2 <= t1 -> (forall x, in_ell c1 P x -> in_ell c2 Q x) ->
  exists v1 v2 r1 r2, [/\ volume la vf (Arr s [:: e1; e2]) = Ok [:: v1; v2], vol_value v1 = Fin r1, vol_value v2 = Fin r2,
    r1 <= r2 & 0 < r1 -> r1 = r2 -> c1 = c2 /\ P = Q].
Proof.
move=> n0 H1 H2 tt Hs; have [v1 [v2 [r1 [r2 [E V1 V2 D1 D2]]]]] := volume2 s n0 H1 H2.
exists v1, v2, r1, r2; have [[_ _ _ _] [HP Pp _]] := H1; have [[_ _ _ _] [HQ Qp _]] := H2.
have Hpq := subset_psd HP Pp HQ Qp Hs; have [M1 M2] := det_mono HP Pp HQ Qp Hpq; have b0 := ball_ge0 n.
have [S1|S1] := strict_dec t1 HP; last first.
  split=> //; rewrite (D1.2 S1); last by rewrite ltxx.
  have [S2|S2] := strict_dec t2 HQ; last by rewrite (D2.2 S2).
  by rewrite (D2.1 S2) mulr_ge0 ?sqrtr_ge0 ?ltW.
have S2 : strict Q t2.
  move=> x x0; apply: le_lt_trans (_ : t1 * sqn x < _); first by rewrite ler_wpmul2r ?sqn_ge0.
  by apply: lt_le_trans (S1 x x0) _; rewrite -subr_ge0 -qfN -qfD.
split=> //; rewrite (D1.1 S1) (D2.1 S2).
  by rewrite ler_pmul2l // ler_sqrt' ?psd_det.
rewrite pmulr_rgt0 // sqrtr_gt0 => d0 /(mulfI (lt0r_neq0 b0)) K.
have EP : P = Q.
  apply: M2 => //; have := congr1 (fun z => z ^+ 2) K; by rewrite !sqr_sqrtr ?psd_det.
split=> //; move: Hs => /(ell_subset c1 c2 HP Pp HQ Qp) Hs; rewrite EP in Hs.
apply/eqP; rewrite -subr_eq0 -sqn_eq0 eq_le sqn_ge0 andbT /sqn.
by have := Hs (c1 - c2); rewrite ler_add2r -subr_le0 -dotvBr.
Qed.

Theorem volume_bigger s e1 e2 n (c1 c2 : 'cV[R]_n) (P Q : 'M[R]_n) t1 t2 : linalg_ok la -> (0 < n)%N ->
  repr e1 c1 P t1 -> repr e2 c2 Q t2 -> strict P t1 -> wellcond P -> is_bigger la e1 e2 = Ok true ->
  exists v1 v2 r1 r2, [/\ volume la vf (Arr s [:: e1; e2]) = Ok [:: v1; v2], vol_value v1 = Fin r1, vol_value v2 = Fin r2 &
    r2 ^+ 2 <= (1 + t1) ^+ n * r1 ^+ 2].
Proof.
move=> Hla n0 H1 H2 S1 Hw Hb; have [v1 [v2 [r1 [r2 [E V1 V2 D1 D2]]]]] := volume2 s n0 H1 H2.
exists v1, v2, r1, r2; split=> //; have [[_ _ _ t0] [HP Pp _]] := H1; have [[_ _ _ _] [HQ Qp _]] := H2.
move/(bigger_true Hla n0 H1 H2 S1 Hw): Hb => Hb.
have u0 : 0 <= 1 + t1 by rewrite addr_ge0 ?ler01 ?ltW.
have [S2|S2] := strict_dec t2 HQ; last first.
  by rewrite (D2.2 S2) expr0n /= mulr_ge0 ?sqr_ge0 // exprn_ge0.
have Hk : symm ((1 + t1) *: P) by rewrite /symm linearZ /= HP.
have Pk : psd ((1 + t1) *: P) by move=> x; rewrite qfZ mulr_ge0.
have Hq : psd ((1 + t1) *: P - Q).
  move=> x; have [->|x0] := eqVneq x 0; first by rewrite /qf mulmx0 dotv0r.
  by rewrite qfD qfN qfZ subr_ge0 ltW // Hb.
have [M _] := det_mono HQ Qp Hk Pk Hq; rewrite detZ in M.
rewrite (D1.1 S1) (D2.1 S2) !exprMn !sqr_sqrtr ?psd_det // mulrCA; apply: ler_wpmul2l => //; by rewrite exprn_ge0 // ltW // ball_ge0.
Qed.

Theorem volume_inv n (Q : 'M[R]_n) : inv_ok la -> (0 < n)%N -> symm Q -> posdef Q ->
  exists i r1 r2, [/\ inv_mat la (mat Q) = Ok i, ell_volume la vf (mat Q) = Ok (Fin r1), ell_volume la vf i = Ok (Fin r2) &
    r1 * r2 = ball_vol pi n ^+ 2].
Proof.
move=> Hi n0 HQ Hp; have d0 := posdef_det HQ Hp.
have u : Q \in unitmx by rewrite unitmxE unitfE gt_eqF.
exists (mat (invmx Q)), (ball_vol pi n * Num.sqrt (\det Q)), (ball_vol pi n * Num.sqrt (\det (invmx Q))).
split; [by rewrite inv_mat_run // u|by apply: ell_volume_run; rewrite ?ltW|by apply: ell_volume_run; rewrite // det_inv invr_ge0 ltW|].
rewrite mulrACA -expr2 -sqrtrM ?ltW // det_inv divff ?gt_eqF // sqrtr1 mulr1 //.
Qed.
End Vol.

Theorem eig_mono s e1 e2 n (c1 c2 : 'cV[R]_n) (P Q : 'M[R]_n) t1 t2 : eigvalsh_ok la -> (0 < n)%N ->
  repr e1 c1 P t1 -> repr e2 c2 Q t2 -> (forall x, in_ell c1 P x -> in_ell c2 Q x) ->
  (exists r1 r2, min_eig la (Arr s [:: e1; e2]) = Ok (Arr [:: 2%N] [:: Fin r1; Fin r2]) /\ r1 <= r2) /\
  (exists r1 r2, max_eig la (Arr s [:: e1; e2]) = Ok (Arr [:: 2%N] [:: Fin r1; Fin r2]) /\ r1 <= r2) /\
  (exists r1 r2, trace (Arr s [:: e1; e2]) = Ok (Arr [:: 2%N] [:: Fin r1; Fin r2]) /\ r1 <= r2).
Proof.
move=> He n0 H1 H2 Hs; have G := pair_good n0 H1 H2.
have [[_ _ _ _] [HP Pp _]] := H1; have [[_ _ _ _] [HQ Qp _]] := H2.
have Hpq := subset_psd HP Pp HQ Qp Hs.
have L x : qf P x <= qf Q x by rewrite -subr_ge0 -qfN -qfD.
split; [|split].
- have [ms -> /results2/(_ H1 H2)[v1 [v2 [-> [r1 -> [A1 B1]] [r2 -> [A2 B2]]]]]] := min_eig_run s G He.
  exists r1, r2; split=> //; case: B2 => x x1 <-; apply: le_trans (L x); by have := A1 x; rewrite x1 mulr1.
- have [ms -> /results2/(_ H1 H2)[v1 [v2 [-> [r1 -> [A1 B1]] [r2 -> [A2 B2]]]]]] := max_eig_run s G He.
  exists r1, r2; split=> //; case: B1 => x x1 <-; apply: le_trans (L x) _; by have := A2 x; rewrite x1 mulr1.
have [ms -> /results2/(_ H1 H2)[v1 [v2 [-> [r1 -> A1] [r2 -> A2]]]]] := trace_run s G.
have [d [V HE]] := spectral HP; have [d' [V' HE']] := spectral HQ.
by exists r1, r2; split=> //; rewrite (A1 _ _ HE) (A2 _ _ HE'); exact: (trace_mono HE HE').
Qed.

(** the two ellipsoids are the same segment, their tolerances differ *)
Theorem volume_mono_false (vf : volfun R) pi e1 e2 (t u : R) : eigvalsh_ok la -> det_ok la -> volfun_ok vf pi -> u < t ->
  repr e1 (0 : 'cV_1) (t%:M : 'M[R]_1) u -> repr e2 (0 : 'cV_1) (t%:M : 'M[R]_1) t ->
  exists v1 v2 r1, [/\ volume la vf (Arr [:: 2%N] [:: e1; e2]) = Ok [:: v1; v2], vol_value v1 = Fin r1, vol_value v2 = Fin 0 & 0 < r1].
Proof.
move=> He Hd Hv ut H1 H2; have [v1 [v2 [r1 [r2 [E V1 V2 D1 D2]]]]] := volume2 He Hd Hv [:: 2%N] (ltn0Sn 0) H1 H2.
have t0 : 0 < t by case: H2 => [[]].
exists v1, v2, r1; split=> //.
  rewrite V2 (D2.2 _) // => K; have /K : const_mx 1 != 0 :> 'cV[R]_1.
    by apply/eqP => /matrixP/(_ 0 0)/eqP; rewrite !mxE oner_eq0.
  by rewrite qf_scal ltxx.
rewrite (D1.1 _) ?det_scalar1 ?mulr_gt0 ?sqrtr_gt0 ?(ball_ge0 Hv) // => x x0.
by rewrite qf_scal ltr_pmul2r // sqn_gt0.
Qed.

Lemma mono_ex (c : 'cV[R]_2) (r : R) : 1 <= r -> forall x : 'cV[R]_2, in_ell c (1%:M) x -> in_ell c (r%:M) x.
Proof.
move=> r1; have r0 : 0 <= r := le_trans ler01 r1.
have H (a : R) : 0 <= a -> symm (a%:M : 'M[R]_2) /\ psd (a%:M : 'M[R]_2).
  by move=> a0; split; [rewrite /symm tr_scalar_mx|move=> x; rewrite qf_scal mulr_ge0 ?sqn_ge0].
have [S1 P1] := H 1 ler01; have [S2 P2] := H r r0.
apply/(ell_subset_center c S1 P1 S2 P2) => x.
by rewrite qfD qfN !qf_scal -mulrBl mulr_ge0 ?sqn_ge0 ?subr_ge0.
Qed.
End Mono.
