(** Laws of sqrtm_pos. *)
From mathcomp Require Import all_ssreflect all_algebra ring.
Require Import Coq.Strings.String.
From Verif.Model Require Import Py NP Linalg Compare La.
From Verif.Spec Require Import MatSpec LinalgSpec.
From Verif.Proof Require Import NPLib MatLib LaBasic Decomp LinalgSat EllLib.
Set Implicit Arguments.
Unset Strict Implicit.
Unset Printing Implicit Defensive.
Import Order.Theory GRing.Theory Num.Theory.
Local Open Scope ring_scope.

Section SL.
Variable R : rcfType.

Lemma root_uniq n (S T : 'M[R]_n) : (0 < n)%N ->
  symm S -> psd S -> symm T -> psd T -> S *m S = T *m T -> S = T.
Proof.
by apply: (psd_root_unique (la := the_linalg R)); have [H _] := the_linalg_ok R.
Qed.
Lemma sq_symm n (S : 'M[R]_n) : symm S -> symm (S *m S).
Proof. by move=> H; rewrite /symm trmx_mul H. Qed.
Lemma sq_psd n (S : 'M[R]_n) : symm S -> psd (S *m S).
Proof. by move=> H x; rewrite -{1}H qf_mulT sqn_ge0. Qed.
Lemma lowsym_id n (M : 'M[R]_n) : symm M -> lowsym M = M.
Proof.
move=> H; apply/matrixP => i j; rewrite mxE; case: ifP => // _.
by rewrite -{1}H mxE.
Qed.

Lemma sqrt_of (la : linalg R) n (S : 'M[R]_n) : eigh_ok la -> (0 < n)%N -> symm S -> psd S ->
  sqrtm_pos la (mat (S *m S)) x0 = Ok (mat S).
Proof.
move=> Hla n0 HS PS; have [T [-> HT PT E]] := sqrtm_pos_exact Hla n0 (sq_symm HS) (sq_psd HS).
by rewrite (root_uniq n0 HT PT HS PS E).
Qed.

Lemma sqrt_charact (la : linalg R) n (M S : 'M[R]_n) : eigh_ok la -> (0 < n)%N ->
  sqrtm_pos la (mat M) x0 = Ok (mat S) <-> [/\ symm S, psd S & S *m S = M].
Proof.
move=> Hla n0; split; last by move=> [HS PS <-]; exact: sqrt_of.
move=> E.
have HM : symm M.
  apply/matrixP => i j; rewrite mxE; apply/eqP/contraT => ne.
  have h : 0 < `|M i j - M j i| by rewrite normr_gt0 subr_eq0 eq_sym.
  by move: E; rewrite (sqrtm_pos_nonsymm la (lexx 0) h).
have PM : psd M.
  move=> x; rewrite leNgt; apply/negP => h.
  have h' : qf (lowsym M) x < - 0 * sqn x by rewrite lowsym_id // oppr0 mul0r.
  have hs i j : `|M i j - M j i| <= 0 by rewrite -{1}HM mxE subrr normr0.
  by move: E; rewrite (sqrtm_pos_notpsd Hla n0 (lexx 0) hs h').
have [T [ET HT PT ST]] := sqrtm_pos_exact Hla n0 HM PM.
by move: E; rewrite ET => /Ok_inj/mat_inj <-.
Qed.

Theorem sqrt_scale (la : linalg R) n (M S : 'M[R]_n) a : eigh_ok la -> (0 < n)%N -> 0 <= a ->
  sqrtm_pos la (mat M) x0 = Ok (mat S) -> sqrtm_pos la (mat (a ^+ 2 *: M)) x0 = Ok (mat (a *: S)).
Proof.
move=> Hla n0 a0 /(sqrt_charact _ _ Hla n0)[HS PS E]; apply/(sqrt_charact _ _ Hla n0); split.
- by rewrite /symm linearZ /= HS.
- by move=> x; rewrite qfZ mulr_ge0.
by rewrite -scalemxAl -scalemxAr scalerA -expr2 E.
Qed.

Theorem sqrt_axes (la : linalg R) n (M S P : 'M[R]_n) : eigh_ok la -> (0 < n)%N -> orthog P ->
  sqrtm_pos la (mat M) x0 = Ok (mat S) ->
  sqrtm_pos la (mat (P *m M *m P^T)) x0 = Ok (mat (P *m S *m P^T)).
Proof.
move=> Hla n0 HP /(sqrt_charact _ _ Hla n0)[HS PS E]; apply/(sqrt_charact _ _ Hla n0); split.
- by rewrite /symm !trmx_mul trmxK HS mulmxA.
- by move=> x; rewrite qf_conj.
by rewrite -E !mulmxA -(mulmxA (P *m S)) HP mulmx1.
Qed.

(** what commutes with the square commutes with the root *)
Lemma root_commute n (S X : 'M[R]_n) : symm S -> psd S ->
  X *m (S *m S) = (S *m S) *m X -> X *m S = S *m X.
Proof.
move=> HS PS; have [e [V HE]] := spectral HS; have /(eig_psd HE) e0 := PS.
case: HE => HV ->; have VV : V *m V^T = 1%:M by exact: mulmx1C.
have [Y EX] : exists Y, X = V *m Y *m V^T.
  by exists (V^T *m X *m V); rewrite !mulmxA VV mul1mx -mulmxA VV mulmx1.
have cj (A B : 'M[R]_n) : V *m A *m V^T *m (V *m B *m V^T) = V *m (A *m B) *m V^T.
  by rewrite !mulmxA -(mulmxA (V *m A)) HV mulmx1.
rewrite EX !cj => H.
have {}H : Y *m (diagv e *m diagv e) = diagv e *m diagv e *m Y.
  have := congr1 (fun Z => V^T *m Z *m V) H.
  by rewrite /= !mulmxA HV !mul1mx -!(mulmxA _ V^T V) HV !mulmx1.
congr (_ *m _ *m _); apply/matrixP => i j; have := congr1 (fun Z : 'M[R]_n => Z i j) H.
rewrite mulmxA -[in RHS]mulmxA /diagv !mul_mx_diag !mul_diag_mx !mxE.
move: (Y i j) => y Hy; have p := e0 i; have q := e0 j; move: (e i 0) (e j 0) p q Hy => a b a0 b0 Hy.
have {}Hy : y * (b - a) * (b + a) = 0.
  have -> : y * (b - a) * (b + a) = y * b * b - a * (a * y) by ring.
  by rewrite Hy subrr.
apply/eqP; rewrite -subr_eq0 [a * y]mulrC -mulrBr; move/eqP: Hy; rewrite mulf_eq0 => /orP[//|].
by rewrite paddr_eq0 // => /andP[/eqP -> /eqP ->]; rewrite subrr mulr0.
Qed.

Theorem sqrt_commute (la : linalg R) n (M S X : 'M[R]_n) : eigh_ok la -> (0 < n)%N ->
  sqrtm_pos la (mat M) x0 = Ok (mat S) -> X *m M = M *m X -> X *m S = S *m X.
Proof. by move=> Hla n0 /(sqrt_charact _ _ Hla n0)[HS PS <-]; exact: root_commute. Qed.

(** commuting matrices: the root of the product *)
Theorem sqrt_product (la : linalg R) n (M N S T : 'M[R]_n) : eigh_ok la -> (0 < n)%N ->
  sqrtm_pos la (mat M) x0 = Ok (mat S) -> sqrtm_pos la (mat N) x0 = Ok (mat T) -> M *m N = N *m M ->
  sqrtm_pos la (mat (M *m N)) x0 = Ok (mat (S *m T)).
Proof.
move=> Hla n0 /(sqrt_charact _ _ Hla n0)[HS PS EM] /(sqrt_charact _ _ Hla n0)[HT PT EN] C.
have C1 : N *m S = S *m N by apply: root_commute => //; rewrite EM.
have C2 : S *m T = T *m S by apply: root_commute => //; rewrite EN.
apply/(sqrt_charact _ _ Hla n0); split.
- by rewrite /symm trmx_mul HS HT.
- have [Q [HQ PQ EQ]] := psd_root HT PT.
  have C3 : S *m Q = Q *m S by apply: root_commute => //; rewrite EQ.
  by move=> x; rewrite -EQ mulmxA C3 -{2}HQ qf_conj.
by rewrite mulmxA -(mulmxA S T S) -C2 mulmxA EM -!mulmxA EN.
Qed.

(** a bigger matrix has a bigger root *)
Lemma root_mono n (S T : 'M[R]_n) : symm S -> psd S -> symm T -> psd T ->
  (forall x, qf (S *m S) x <= qf (T *m T) x) -> forall x, qf S x <= qf T x.
Proof.
move=> HS PS HT PT H.
have HD : symm (T - S) by rewrite /symm linearB /= HS HT.
have [d [V HE]] := spectral HD.
suff P : psd (T - S) by move=> x; have := P x; rewrite qfD qfN subr_ge0.
apply/(eig_psd HE) => i; rewrite leNgt; apply/negP => l0.
set v := col i V; have Ev : (T - S) *m v = d i 0 *: v by exact: (eig_vec i HE).
have v1 : sqn v = 1 by exact: (eig_sqn_col i HE).
have ES : S *m v = T *m v - d i 0 *: v by rewrite -Ev mulmxBl opprB addrCA subrr addr0.
have := H v; rewrite -{1}HS -{1}HT !qf_mulT ES sqnB sqnZ v1 mulr1 dotvZr (dotvC _ v) -/(qf T v).
rewrite -subr_ge0.
have -> : sqn (T *m v) - (sqn (T *m v) - 2%:R * (d i 0 * qf T v) + d i 0 ^+ 2) =
   d i 0 * (2%:R * qf T v) - d i 0 ^+ 2 by ring.
rewrite subr_ge0 leNgt => /negP; apply; apply: (@le_lt_trans _ _ 0).
  by rewrite mulr_le0_ge0 ?(ltW l0) // mulr_ge0 // ler0n.
by rewrite lt_def sqrf_eq0 sqr_ge0 lt_eqF.
Qed.

Theorem sqrt_mono (la : linalg R) n (M N S T : 'M[R]_n) : eigh_ok la -> (0 < n)%N ->
  sqrtm_pos la (mat M) x0 = Ok (mat S) -> sqrtm_pos la (mat N) x0 = Ok (mat T) ->
  (forall x, qf M x <= qf N x) -> forall x, qf S x <= qf T x.
Proof.
move=> Hla n0 /(sqrt_charact _ _ Hla n0)[HS PS <-] /(sqrt_charact _ _ Hla n0)[HT PT <-].
exact: root_mono.
Qed.

Theorem sqrt_det (la : linalg R) n (M S : 'M[R]_n) : eigh_ok la -> (0 < n)%N ->
  sqrtm_pos la (mat M) x0 = Ok (mat S) -> \det S = Num.sqrt (\det M) /\ (posdef S <-> posdef M).
Proof.
move=> Hla n0 /(sqrt_charact _ _ Hla n0)[HS PS EM].
have [e [V HE]] := spectral HS; have /(eig_psd HE) e0 := PS.
split.
  rewrite -EM det_mulmx -expr2 sqrtr_sqr ger0_norm // (eig_det HE).
  by apply: prodr_ge0 => i _.
split=> P x x0.
  rewrite -EM -{1}HS qf_mulT sqn_gt0; apply: contra_neq x0 => Sx.
  by apply/eqP/contraT => x0; have := P x x0; rewrite /qf Sx dotv0r ltxx.
rewrite lt_def PS andbT; apply/eqP => /(psd_ker HS PS) Sx; have := P x x0.
by rewrite -EM /qf -mulmxA Sx mulmx0 dotv0r ltxx.
Qed.

(** sqrtm_pos(M), sqrtm_pos(sqrtm_pos(M)) ... exist for all accepted M *)
Theorem sqrt_again (la la' : linalg R) n (M S : 'M[R]_n) : eigh_ok la -> eigh_ok la' -> (0 < n)%N ->
  sqrtm_pos la (mat M) x0 = Ok (mat S) ->
  sqrtm_pos la' (mat M) x0 = Ok (mat S) /\ sqrtm_pos la' (mat (S *m S)) x0 = Ok (mat S) /\
  exists T : 'M[R]_n, sqrtm_pos la' (mat S) x0 = Ok (mat T) /\ T *m T *m (T *m T) = M.
Proof.
move=> Hla Hla' n0 /(sqrt_charact _ _ Hla n0)[HS PS EM].
have E := sqrt_of Hla' n0 HS PS; split; first by rewrite -EM.
split=> //; have [T [ET _ _ E2]] := sqrtm_pos_exact Hla' n0 HS PS.
by exists T; rewrite E2.
Qed.

End SL.
