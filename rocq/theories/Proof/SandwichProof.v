(** The inner and the outer approximation of a Minkowski sum together. *)
From mathcomp Require Import all_ssreflect all_fingroup all_algebra.
From mathcomp.algebra_tactics Require Import ring.
Require Import Coq.Strings.String.
From Verif.Model Require Import Py NP NP3 Linalg La EllGeom Ellipsoid EllHeap.
From Verif.Spec Require Import MatSpec LinalgSpec OrthSpec EllSpec EllipsoidSpec EllHeapSpec.
From Verif.Proof Require Import NPLib MatLib LaBasic LinalgSat EllLib EllGeomProof EllScalProof EllScalEx OpsEx RegProof MinksumProof MinkIaProof OrderProof MonoProof.
Set Implicit Arguments.
Unset Strict Implicit.
Unset Printing Implicit Defensive.
Import Order.Theory GRing.Theory Num.Theory.
Local Open Scope ring_scope.

Section Sandwich.
Variable R : rcfType.
Variable la : linalg R.
Notation ell := (ell R).

Lemma ea_value cfg p t0 n k es (c : 'I_k -> 'cV[R]_n) Q t (B : 'I_k -> 'M[R]_n) m (D : 'M[R]_(n, m)) : eigvalsh_ok la ->
  (0 < n)%N -> (1 < k)%N -> family es c Q t -> props_of cfg (no_kw R) p t0 -> (forall j, regularised (t j) (Q j) (B j)) ->
  (forall (j : 'I_k) e0, reg_shape la (nth e0 es j) (e_abs (nth e0 es j)) = Ok (mat (B j))) -> (forall j, col j D != 0) ->
  minksum_ea la cfg es (mat D) =
  Ok (Arr [:: m] [seq Ell (vec (\sum_i c i)) (mat (ea_shape B (col j D))) p | j <- enum 'I_m]).
Proof.
move=> Hev n0 k1 Hf Hpr HB Er HD.
have HBs j : symm (B j) by have [] := HB j.
have HBp j : posdef (B j) by have [] := HB j.
have [Es _] := Hf; rewrite /minksum_ea (minksum_run _ _ _ n0 k1 Hf (D := mat D)) //.
rewrite (mapM_iota (g := fun j : 'I_m => Ell (vec (\sum_j c j)) (mat (ea_shape B (col j D))) p)) => [|j]; first by rewrite rbind_okE.
rewrite /ea_direction [if _ then _ else _](_ : _ = np_col (mat D) j) // np_col_mat rbind_okE.
exact: (ea_sum_run c Hev n0 (ltnW k1) Hpr HBs HBp (HD j) (HoldsVec _) Es Er).
Qed.

Lemma ea_shape_perm n k (B : 'I_k -> 'M[R]_n) l (s : {perm 'I_k}) : ea_shape (fun j => B (s j)) l = ea_shape B l.
Proof.
by rewrite /ea_shape; congr (_ *: _); [rewrite [RHS](reindex_inj (@perm_inj _ s))|rewrite [RHS](reindex_inj (@perm_inj _ s))].
Qed.

Theorem ea_perm cfg p t0 n k es es' (c : 'I_k -> 'cV[R]_n) Q t (s : {perm 'I_k}) m (D : 'M[R]_(n, m)) : eigvalsh_ok la -> eig_ok la ->
  (0 < n)%N -> (1 < k)%N -> family es c Q t -> props_of cfg (no_kw R) p t0 -> (forall j, col j D != 0) ->
  size es' = k -> (forall (j : 'I_k) e0, nth e0 es' j = nth e0 es (s j)) ->
  minksum_ea la cfg es' (mat D) = minksum_ea la cfg es (mat D).
Proof.
move=> Hev Heig n0 k1 Hf Hpr HD Es' E; have [B HB Er] := reg_family Hev Heig n0 Hf.
have Hf' : family es' (fun j => c (s j)) (fun j => Q (s j)) (fun j => t (s j)).
  by split=> // j e0; rewrite E; have [_] := Hf; apply.
rewrite (ea_value Hev n0 k1 Hf Hpr HB Er HD) (ea_value (B := fun j => B (s j)) Hev n0 k1 Hf' Hpr _ _ HD) //; last first.
  by move=> j e0; rewrite E; exact: Er.
congr (Ok (Arr _ _)); apply: eq_map => j; rewrite ea_shape_perm; congr (Ell (vec _) _ _).
by rewrite [RHS](reindex_inj (@perm_inj _ s)).
Qed.

Lemma ea_shape_scale n k (B : 'I_k -> 'M[R]_n) l (a : R) : a != 0 -> ea_shape B (a *: l) = ea_shape B l.
Proof.
move=> a0; rewrite /ea_shape.
have E j : Num.sqrt (qf (B j) (a *: l)) = `|a| * Num.sqrt (qf (B j) l).
  have -> : qf (B j) (a *: l) = a ^+ 2 * qf (B j) l.
    by rewrite /qf -scalemxAr dotvZl dotvZr mulrA -expr2.
  by rewrite sqrtrM ?sqr_ge0 // sqrtr_sqr.
rewrite (eq_bigr _ (fun j _ => E j)) -mulr_sumr.
have -> : \sum_j (Num.sqrt (qf (B j) (a *: l)))^-1 *: B j = `|a|^-1 *: \sum_j (Num.sqrt (qf (B j) l))^-1 *: B j.
  by rewrite scaler_sumr; apply: eq_bigr => j _; rewrite E invfM scalerA.
by rewrite scalerA mulrAC divff ?mul1r // normr_eq0.
Qed.

(** column j of the directions multiplied by a j *)
Theorem ea_scale cfg p t0 n k es (c : 'I_k -> 'cV[R]_n) Q t m (D : 'M[R]_(n, m)) (a : 'I_m -> R) : eigvalsh_ok la -> eig_ok la ->
  (0 < n)%N -> (1 < k)%N -> family es c Q t -> props_of cfg (no_kw R) p t0 -> (forall j, col j D != 0) -> (forall j, a j != 0) ->
  minksum_ea la cfg es (mat (\matrix_(i, j) (a j * D i j))) = minksum_ea la cfg es (mat D).
Proof.
move=> Hev Heig n0 k1 Hf Hpr HD a0; have [B HB Er] := reg_family Hev Heig n0 Hf.
have C j : col j (\matrix_(i, j) (a j * D i j)) = a j *: col j D by apply/matrixP => i u; rewrite !mxE.
rewrite (ea_value Hev n0 k1 Hf Hpr HB Er HD) (ea_value Hev n0 k1 Hf Hpr HB Er) => [|j]; last first.
  by rewrite C scaler_eq0 negb_or a0 HD.
by congr (Ok (Arr _ _)); apply: eq_map => j; rewrite C ea_shape_scale.
Qed.

Theorem sandwich (vf : volfun R) pi cfg p t0 n k es (c : 'I_k.+2 -> 'cV[R]_n) Q t (l l' : 'cV[R]_n) : linalg_ok la -> volfun_ok vf pi ->
  eigvalsh_ok la -> eig_ok la -> eigh_ok la -> det_ok la ->
  (0 < n)%N -> family es c Q t -> props_of cfg (no_kw R) p t0 -> l != 0 -> l' != 0 ->
  (forall j x, x != 0 -> t j * sqn x < qf (Q j) x) -> (forall j, clear_roots (Q j) (Q ord0) l) ->
  exists r r' (c1 : 'cV[R]_n) (Q1 : 'M[R]_n) (c2 : 'cV[R]_n) (Q2 : 'M[R]_n), [/\ minksum_ia la cfg es (vec l) = Ok (Arr [:: 1%N] [:: r]),
    minksum_ea la cfg es (vec l') = Ok (Arr [:: 1%N] [:: r']), repr r c1 Q1 t0 /\ repr r' c2 Q2 t0,
    [/\ forall x, in_ell c1 Q1 x -> in_ell c2 Q2 x,
        l = l' -> exists s, max_over (in_ell c1 Q1) l s /\ max_over (in_ell c2 Q2) l s &
        (forall x, x != 0 -> t0 * sqn x < qf Q2 x) -> wellcond Q2 -> is_bigger la r' r = Ok true] &
    exists v1 v2 a1 a2, [/\ volume la vf (Arr [:: 2%N] [:: r; r']) = Ok [:: v1; v2], vol_value v1 = Fin a1, vol_value v2 = Fin a2 & a1 <= a2]].
Proof.
move=> Hla Hv H1 H2 H3 H4 n0 Hf Hp l0 l0' Hnd Hc; have [B HB [_ H]] := minksum_ia_run H1 H2 H3 n0 Hf Hp.
have BQ j : B j = Q j by have [_ _ _ h] := HB j; exact: h (Hnd j).
have [_ K] := Hf; have [e0] : inhabited ell by constructor; case: (es) => [|e _]; [exact: Ell (vec (0 : 'cV[R]_0)) (mat (0 : 'M[R]_0)) (Props (Fin 0) (Fin 0) 0 0)|exact: e].
have q0 : 0 < qf (Q ord0) l.
  apply: le_lt_trans (Hnd ord0 l l0); have [[_ _ _ h] _] := K ord0 e0; by rewrite mulr_ge0 ?ltW // sqn_gt0.
have [r [c1 [Q1 [E Hr _ Ho]]]] := H l q0.
have {}Ho := Ho (fun j => eq_ind_r (fun M => clear_roots M (Q ord0) l) (Hc j) (BQ j)).
have [B' HB' [_ H']] := minksum_ea_run H1 H2 n0 (isT : (1 < k.+2)%N) Hf Hp.
have BQ' j : B' j = Q j by have [_ _ _ h] := HB' j; exact: h (Hnd j).
have [r' [c2 [Q2 [E' Hr' Ho' Hin]]]] := H' l' l0'.
have Hs x : in_ell c1 Q1 x -> in_ell c2 Q2 x.
  by move=> /(Ho.1 x)[y Hy ->]; apply: Hin; exists y => // j; rewrite -BQ.
exists r, r', c1, Q1, c2, Q2; split=> //; last first.
  by have [v1 [v2 [a1 [a2 [? ? ? ? _]]]]] := volume_mono H1 H4 Hv [:: 2%N] n0 Hr Hr' (lexx _) Hs; exists v1, v2, a1, a2.
split=> //.
  move=> El; have [_ [s1 [M1 N1]]] := Ho; have [_ [s2 [M2 N2]]] := Ho'; exists s1; split=> //.
  suff -> : s1 = s2 by rewrite El.
  apply: max_over_uniq N1 _; rewrite El; case: N2 => A [x [y Hy Ex] Es]; split=> [z [w Hw ->]|].
    by apply: A; exists w => // j; rewrite BQ' -BQ.
  by exists x => //; exists y => // j; rewrite BQ -BQ'.
move=> S2 W2; apply/(bigger_true Hla n0 Hr' Hr S2 W2) => x x0.
have [[_ _ _ tp] [HQ1 Qp1 _]] := Hr; have [[_ _ _ _] [HQ2 Qp2 _]] := Hr'.
have := subset_psd HQ1 Qp1 HQ2 Qp2 Hs x; rewrite qfD qfN subr_ge0 => h; apply: le_lt_trans h _.
by rewrite ltr_pmull ?ltr_addl //; apply: le_lt_trans (S2 x x0); rewrite mulr_ge0 ?ltW // sqn_gt0.
Qed.
End Sandwich.
