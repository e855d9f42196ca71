(** is_parallel as a relation. *)
From mathcomp Require Import all_ssreflect all_algebra.
Require Import Coq.Strings.String.
From mathcomp.algebra_tactics Require Import ring.
From Verif.Model Require Import Py NP NP3 Linalg La Ellipsoid Hyperplane.
From Verif.Spec Require Import MatSpec EllSpec HypSpec.
From Verif.Proof Require Import NPLib NP3Lib MatLib LaBasic OrthProof GenProof EllGeomProof EllipsoidProof EllScalEx RegProof HypProof HypOps.
From mathcomp.zify Require Import zify.
Set Implicit Arguments.
Unset Strict Implicit.
Unset Printing Implicit Defensive.
Import Order.Theory GRing.Theory Num.Theory.
Local Open Scope ring_scope.

Section ParallelLaws.
Variable R : rcfType.

Theorem par_refl n k sh hs (u : 'I_k -> 'cV[R]_n) s t : (0 < n)%N -> prodn sh = k -> hfamily hs u s t -> (forall i, u i != 0) ->
  is_parallel (Arr sh hs) (Arr sh hs) = Ok (Arr sh (nseq k true)).
Proof.
move=> n0 Es Hf u0; have [bs -> [Eb Hb]] := is_parallel_run n0 Es Hf Hf u0 u0.
congr (Ok (Arr _ _)); apply: (@eq_from_nth _ false); rewrite Eb ?size_nseq // => i Hi.
by rewrite nth_nseq Hi; have [_ ->] := Hb (Ordinal Hi) => //; exists 1; rewrite ?oner_eq0 ?scale1r.
Qed.

Let same (u v : seq bool) k : size u = k -> size v = k -> (forall i : 'I_k, nth false u i = true <-> nth false v i = true) -> u = v.
Proof.
move=> Eu Ev H; apply: (@eq_from_nth _ false); rewrite Eu ?Ev // => i Hi.
by apply/idP/idP => h; [apply/(H (Ordinal Hi))|apply/(H (Ordinal Hi))].
Qed.

Theorem par_symm n k sh hs gs (u v : 'I_k -> 'cV[R]_n) s1 s2 t : (0 < n)%N -> prodn sh = k ->
  hfamily hs u s1 t -> hfamily gs v s2 t -> (forall i, u i != 0) -> (forall i, v i != 0) ->
  is_parallel (Arr sh hs) (Arr sh gs) = is_parallel (Arr sh gs) (Arr sh hs).
Proof.
move=> n0 Es Hf Hg u0 v0; have [bs -> [Eb Hb]] := is_parallel_run n0 Es Hf Hg u0 v0.
have [cs -> [Ec Hc]] := is_parallel_run n0 Es Hg Hf v0 u0; congr (Ok (Arr _ _)); apply: (same Eb Ec) => i.
have [B _] := Hb i; have [C _] := Hc i; apply: (iff_trans B); apply: iff_trans (iff_sym C).
move: (unitv (u i)) (unitv (v i)) => x y; rewrite (addrC y x).
have E (a b : 'cV[R]_n) : (exists j, `|(a - b) j 0| < t i) -> exists j, `|(b - a) j 0| < t i.
  by case=> j; rewrite -(opprB b a) mxE normrN; exists j.
by split; case=> h; [left; exact: E|right|left; exact: E|right].
Qed.

(** the answer depends on the lines spanned by the normals only *)
Theorem par_lines n k sh hs gs hs' gs' (u v : 'I_k -> 'cV[R]_n) s1 s2 s1' s2' t t2 t2' (a b : 'I_k -> R) : (0 < n)%N -> prodn sh = k ->
  hfamily hs u s1 t -> hfamily gs v s2 t2 -> (forall i, u i != 0) -> (forall i, v i != 0) ->
  (forall i, a i != 0) -> (forall i, b i != 0) ->
  hfamily hs' (fun i => a i *: u i) s1' t -> hfamily gs' (fun i => b i *: v i) s2' t2' ->
  is_parallel (Arr sh hs') (Arr sh gs') = is_parallel (Arr sh hs) (Arr sh gs).
Proof.
move=> n0 Es Hf Hg u0 v0 a0 b0 Hf' Hg'.
have u0' i : a i *: u i != 0 by rewrite scaler_eq0 negb_or a0 u0.
have v0' i : b i *: v i != 0 by rewrite scaler_eq0 negb_or b0 v0.
have [bs -> [Eb Hb]] := is_parallel_run n0 Es Hf' Hg' u0' v0'.
have [cs -> [Ec Hc]] := is_parallel_run n0 Es Hf Hg u0 v0; congr (Ok (Arr _ _)); apply: (same Eb Ec) => i.
have [B _] := Hb i; have [C _] := Hc i; apply: (iff_trans B); apply: iff_trans (iff_sym C).
have U : collinear (u i) (a i *: u i) by exists (a i).
have V : collinear (v i) (b i *: v i) by exists (b i).
have Ex (w w' : 'cV[R]_n) : w' = - w -> (exists j, `|w' j 0| < t i) <-> (exists j, `|w j 0| < t i).
  by move=> ->; split; case=> j h; exists j; move: h; rewrite mxE normrN.
move: (unitv (a i *: u i)) (unitv (b i *: v i)) (collinear_unit U) (collinear_unit V).
move: (unitv (u i)) (unitv (v i)) => x y x' y' [->|->] [->|->].
- by [].
- by rewrite opprK; split; case=> h; [right|left|right|left].
- have E1 : - x - y = - (x + y) by rewrite opprD.
  have E2 : - x + y = - (x - y) by rewrite opprB addrC.
  have [A1 A2] := Ex _ _ E1; have [B1 B2] := Ex _ _ E2.
  by split; case=> h; [right; exact: A1|left; exact: B1|right; exact: B2|left; exact: A2].
have E1 : - x - - y = - (x - y) by rewrite opprB opprK addrC.
have E2 : - x + - y = - (x + y) by rewrite opprD.
have [A1 A2] := Ex _ _ E1; have [B1 B2] := Ex _ _ E2.
by split; case=> h; [left; exact: A1|right; exact: B1|left; exact: A2|right; exact: B2].
Qed.

Theorem par_uminus cfg t0 r0 n k sh hs gs (u v : 'I_k -> 'cV[R]_n) s1 s2 t2 : tols_of cfg t0 r0 -> (0 < n)%N -> prodn sh = k ->
  hfamily hs u s1 (fun=> t0) -> hfamily gs v s2 t2 -> (forall i, u i != 0) -> (forall i, v i != 0) ->
  exists hs' gs', [/\ hp_uminus cfg (Arr sh hs) = Ok (Arr sh hs'), hp_uminus cfg (Arr sh gs) = Ok (Arr sh gs'),
    is_parallel (Arr sh hs') (Arr sh gs) = is_parallel (Arr sh hs) (Arr sh gs),
    is_parallel (Arr sh hs) (Arr sh gs') = is_parallel (Arr sh hs) (Arr sh gs) &
    is_parallel (Arr sh hs') (Arr sh gs') = is_parallel (Arr sh hs) (Arr sh gs)].
Proof.
move=> Hc n0 Es Hf Hg u0 v0.
have [hs' E1 [F1 _]] := uminus_spec sh Hc n0 Hf; have [gs' E2 [F2 _]] := uminus_spec sh Hc n0 Hg.
have S m (w : 'I_m -> 'cV[R]_n) (a : R) fs x y : hfamily fs w x y -> (a == 1) -> hfamily fs (fun i => a *: w i) x y.
  by move=> [h1 h2] /eqP ->; split=> // i h0; rewrite scale1r; exact: h2.
have M m (w : 'I_m -> 'cV[R]_n) fs x y : hfamily fs (fun i => - w i) x y -> hfamily fs (fun i => -1 *: w i) x y.
  by move=> [h1 h2]; split=> // i h0; rewrite scaleN1r; exact: h2.
have o1 (i : 'I_k) : (1 : R) != 0 by rewrite oner_eq0.
have o2 (i : 'I_k) : (-1 : R) != 0 by rewrite oppr_eq0 oner_eq0.
exists hs', gs'; split=> //.
- exact: (par_lines n0 Es Hf Hg u0 v0 o2 o1 (M _ _ _ _ _ F1) (S _ _ _ _ _ _ Hg (eqxx _))).
- exact: (par_lines n0 Es Hf Hg u0 v0 o1 o2 (S _ _ _ _ _ _ Hf (eqxx _)) (M _ _ _ _ _ F2)).
- exact: (par_lines n0 Es Hf Hg u0 v0 o2 o2 (M _ _ _ _ _ F1) (M _ _ _ _ _ F2)).
Qed.

Lemma unit_self n (u : 'cV[R]_n) : sqn u = 1 -> unitv u = u.
Proof. by move=> E; rewrite /unitv /len E sqrtr1 invr1 scale1r. Qed.

Let par1 n (u v : 'cV[R]_n) f g s1 s2 t1 t2 : (0 < n)%N -> sqn u = 1 -> sqn v = 1 -> hrepr f u s1 t1 -> hrepr g v s2 t2 ->
  is_parallel (Arr [::] [:: f]) (Arr [::] [:: g]) = Ok (Arr [::] [:: [exists i, `|(u - v) i 0| < t1] || [exists i, `|(u + v) i 0| < t1]]).
Proof.
move=> n0 u1 v1 Hf Hg; have [_ _ Et _ _] := Hf.
have u0 : u != 0 by rewrite -sqn_gt0 u1 ltr01.
have v0 : v != 0 by rewrite -sqn_gt0 v1 ltr01.
by rewrite /is_parallel [zip _ _]/= /mapM Et (sing_parallel_run _ n0 u0 v0 Hf Hg) !unit_self.
Qed.

Definition col_of n (l : seq R) : 'cV[R]_n := \col_i nth 0 l i.
Definition hp_of n (l : seq R) (t : R) : hp R := Hp (vec (col_of n l)) (Fin 0) (Fin t) (Fin 1).
Lemma hp_of_repr n l t : 0 < t -> hrepr (hp_of n l t) (col_of n l) 0 t.
Proof. by move=> t0; split=> //; exists 1; rewrite ?ltr01. Qed.

Let q5 (a : nat) : R := a%:R / 5%:R.
Let f5 : (5%:R : R) != 0. Proof. by rewrite pnatr_eq0. Qed.
Let s34 : q5 3 * q5 3 + q5 4 * q5 4 = 1. Proof. by rewrite /q5; field. Qed.
Let qlt a b : (q5 a < q5 b) = (a < b)%N.
Proof. by rewrite /q5 ltr_pmul2r ?ltr_nat // invr_gt0 ltr0n. Qed.
Let q5E a : 0 <= q5 a. Proof. by rewrite /q5 divr_ge0 ?ler0n. Qed.
Let q1 : 1 = q5 5. Proof. by rewrite /q5 divff. Qed.
Let qB a b : (b <= a)%N -> q5 a - q5 b = q5 (a - b). Proof. by move=> h; rewrite /q5 -mulrBl natrB. Qed.
Let qD a b : q5 a + q5 b = q5 (a + b). Proof. by rewrite /q5 -mulrDl natrD. Qed.
Let qn a : `|q5 a| = q5 a. Proof. by rewrite ger0_norm. Qed.

Theorem par_not_symm : let h := hp_of 2 [:: 1; 0] (q5 3) in let g := hp_of 2 [:: q5 3; q5 4] (q5 1) in
  is_parallel (Arr [::] [:: h]) (Arr [::] [:: g]) = Ok (Arr [::] [:: true]) /\
  is_parallel (Arr [::] [:: g]) (Arr [::] [:: h]) = Ok (Arr [::] [:: false]).
Proof.
have t3 : 0 < q5 3 by rewrite /q5 divr_gt0 ?ltr0n.
have t1 : 0 < q5 1 by rewrite /q5 divr_gt0 ?ltr0n.
have u1 : sqn (col_of 2 [:: 1; 0]) = 1.
  by rewrite /sqn /dotv !big_ord_recl big_ord0 !mxE /= mulr1 mulr0 !addr0.
have v1 : sqn (col_of 2 [:: q5 3; q5 4]) = 1.
  by rewrite /sqn /dotv !big_ord_recl big_ord0 !mxE /= addr0.
move=> h g; rewrite /h /g.
rewrite (par1 _ u1 v1 (hp_of_repr _ _ t3) (hp_of_repr _ _ t1)) //.
rewrite (par1 _ v1 u1 (hp_of_repr _ _ t1) (hp_of_repr _ _ t3)) //; split; congr (Ok (Arr _ [:: _])).
  by apply/orP; left; apply/existsP; exists ord0; rewrite !mxE /= q1 qB // qn qlt.
apply/negbTE; rewrite negb_or; apply/andP; split; apply/existsP; case=> -[[|[|]] //= Hi]; rewrite !mxE /=.
- by rewrite distrC q1 qB // qn qlt.
- by rewrite subr0 qn qlt.
- by rewrite q1 qD qn qlt.
- by rewrite addr0 qn qlt.
Qed.

Theorem par_not_trans : let f := hp_of 3 [:: 1; 0; 0] (q5 1) in let g := hp_of 3 [:: 0; 1; 0] (q5 1) in let h := hp_of 3 [:: 0; q5 3; q5 4] (q5 1) in
  [/\ is_parallel (Arr [::] [:: f]) (Arr [::] [:: g]) = Ok (Arr [::] [:: true]),
      is_parallel (Arr [::] [:: g]) (Arr [::] [:: h]) = Ok (Arr [::] [:: true]) &
      is_parallel (Arr [::] [:: f]) (Arr [::] [:: h]) = Ok (Arr [::] [:: false])].
Proof.
have t1 : 0 < q5 1 by rewrite /q5 divr_gt0 ?ltr0n.
have u1 : sqn (col_of 3 [:: 1; 0; 0]) = 1.
  by rewrite /sqn /dotv !big_ord_recl big_ord0 !mxE /= mulr1 !mulr0 !addr0.
have w1 : sqn (col_of 3 [:: 0; 1; 0]) = 1.
  by rewrite /sqn /dotv !big_ord_recl big_ord0 !mxE /= mulr1 !mulr0 !addr0 add0r.
have v1 : sqn (col_of 3 [:: 0; q5 3; q5 4]) = 1.
  by rewrite /sqn /dotv !big_ord_recl big_ord0 !mxE /= mulr0 addr0 add0r.
have P l := hp_of_repr 3 l t1; move=> f g h; rewrite /f /g /h.
rewrite (par1 _ u1 w1 (P _) (P _)) // (par1 _ w1 v1 (P _) (P _)) // (par1 _ u1 v1 (P _) (P _)) //.
split; congr (Ok (Arr _ [:: _])).
- by apply/orP; left; apply/existsP; exists ord_max; rewrite !mxE /= subr0 normr0.
- by apply/orP; left; apply/existsP; exists ord0; rewrite !mxE /= subr0 normr0.
apply/negbTE; rewrite negb_or; apply/andP; split; apply/existsP; case=> -[[|[|[|]]] //= Hi]; rewrite !mxE /=.
- by rewrite subr0 q1 qn qlt.
- by rewrite sub0r normrN qn qlt.
- by rewrite sub0r normrN qn qlt.
- by rewrite addr0 q1 qn qlt.
- by rewrite add0r qn qlt.
- by rewrite add0r qn qlt.
Qed.
End ParallelLaws.
