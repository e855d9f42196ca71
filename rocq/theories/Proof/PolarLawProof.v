(** Laws of polar. *)
From mathcomp Require Import all_ssreflect all_algebra.
Require Import Coq.Strings.String.
From mathcomp.algebra_tactics Require Import ring.
From Verif.Model Require Import Py NP NP3 Linalg Compare La Core EllGeom Ellipsoid.
From Verif.Spec Require Import MatSpec LinalgSpec EllSpec EllipsoidSpec.
From Verif.Proof Require Import NPLib NP3Lib MatLib OrthLib LaBasic Decomp OrthProof GenProof EllLib EllGeomProof RankLib EllipsoidProof EllScalProof CoreProof RegProof MinksumProof PolarProof MonoProof.
Set Implicit Arguments.
Unset Strict Implicit.
Unset Printing Implicit Defensive.
Import Order.Theory GRing.Theory Num.Theory.
Local Open Scope ring_scope.

Section PolarLaws.
Variable R : rcfType.
Variable la : linalg R.
Notation ell := (ell R).

Theorem polar_antitone (vf : volfun R) pi cfg p t0 e1 e2 n (c1 c2 : 'cV[R]_n) (Q1 Q2 : 'M[R]_n) t1 t2 :
  inv_ok la -> lstsq_ok la -> eigvalsh_ok la -> det_ok la -> volfun_ok vf pi -> (0 < n)%N ->
  repr e1 c1 Q1 t1 -> repr e2 c2 Q2 t2 ->
  (forall x, x != 0 -> t1 * sqn x < qf Q1 x) -> (forall x, x != 0 -> t2 * sqn x < qf Q2 x) ->
  origin_inside (in_ell c1 Q1) -> origin_inside (in_ell c2 Q2) -> props_of cfg (no_kw R) p t0 ->
  exists f1 f2 (d1 d2 : 'cV[R]_n) (P1 P2 : 'M[R]_n),
  [/\ polar la cfg (Arr [:: 1%N] [:: e1]) = Ok (Arr [:: 1%N] [:: f1]), polar la cfg (Arr [:: 1%N] [:: e2]) = Ok (Arr [:: 1%N] [:: f2]),
      repr f1 d1 P1 t0 /\ repr f2 d2 P2 t0,
      (forall x, in_ell c1 Q1 x -> in_ell c2 Q2 x) <-> (forall y, in_ell d2 P2 y -> in_ell d1 P1 y) &
      (forall x, in_ell c1 Q1 x -> in_ell c2 Q2 x) ->
      exists v1 v2 a1 a2, [/\ volume la vf (Arr [:: 2%N] [:: f2; f1]) = Ok [:: v2; v1], vol_value v1 = Fin a1, vol_value v2 = Fin a2 & a2 <= a1]].
Proof.
move=> Hi Hl He Hd Hv n0 H1 H2 S1 S2 O1 O2 Hp.
have [f1 [d1 [P1 [E1 R1 _ D1]]]] := polar_spec Hi Hl He n0 H1 S1 O1 Hp.
have [f2 [d2 [P2 [E2 R2 _ D2]]]] := polar_spec Hi Hl He n0 H2 S2 O2 Hp.
have A : (forall x, in_ell c1 Q1 x -> in_ell c2 Q2 x) -> (forall y, in_ell d2 P2 y -> in_ell d1 P1 y).
  by move=> Hs y /D2 Hy; apply/D1 => x /Hs; exact: Hy.
exists f1, f2, d1, d2, P1, P2; split=> //.
  split=> // Hs x Hx; have Q2p := repr_posdef H2 S2; have [_ [HQ2 _ _]] := H2.
  apply/(bipolar_set x HQ2 Q2p (inside_k HQ2 Q2p O2)) => y /D2 /Hs /D1 Hy; rewrite dotvC; exact: Hy.
move=> /A Hs; have [v2 [v1 [a2 [a1 [? ? ? ? _]]]]] := volume_mono He Hd Hv [:: 2%N] n0 R2 R1 (lexx _) Hs.
by exists v1, v2, a1, a2.
Qed.

Theorem polar_neg cfg p t0 e n (c : 'cV[R]_n) (Q : 'M[R]_n) t :
  inv_ok la -> lstsq_ok la -> eigvalsh_ok la -> (0 < n)%N -> repr e c Q t -> (forall x, x != 0 -> t * sqn x < qf Q x) ->
  (forall x, x != 0 -> t0 * sqn x < qf Q x) -> origin_inside (in_ell c Q) -> props_of cfg (no_kw R) p t0 ->
  (let* a := uminus la cfg (Arr [:: 1%N] [:: e]) in polar la cfg a) =
  (let* a := polar la cfg (Arr [:: 1%N] [:: e]) in uminus la cfg a) /\
  exists a, (let* a := uminus la cfg (Arr [:: 1%N] [:: e]) in polar la cfg a) = Ok a.
Proof.
move=> Hi Hl He n0 Hr Hs Hs0 Ho Hp; have [[E1 E2 _ _] [HQ Hq _]] := Hr; have Qp := repr_posdef Hr Hs.
have k1 := inside_k HQ Qp Ho.
have N (d : 'cV[R]_n) (P : 'M[R]_n) q : symm P -> psd P ->
    uminus la cfg (Arr [:: 1%N] [:: Ell (vec d) (mat P) q]) = Ok (Arr [:: 1%N] [:: Ell (vec (- d)) (mat P) p]).
  move=> HP Pp; rewrite /uminus /amapM; cbn [data shape size eq_op e_center e_shape mapM].
  by rewrite np_neg_vec (mk_valid (- d) He Hp HP Pp).
rewrite (repr_eta Hr) N // rbind_okE -(repr_eta Hr).
have Hr' : repr (Ell (vec (- c)) (mat Q) p) (- c) Q t0 by exact: mk_repr Hp _ _.
have Ho' : origin_inside (in_ell (- c) Q).
  have [r r0 H] := Ho; exists r => // x hx.
  have := H (- x); rewrite /sqn dotvNl dotvNr opprK => /(_ hx) Hx.
  apply/in_ellP_dual => // l; have := (in_ellP_dual c (- x) HQ Hq).1 Hx (- l).
  by rewrite dotvNl !dotvNr opprK dotvNl /qf mulmxN dotvNl dotvNr opprK.
rewrite (polar_run Hi Hl He n0 Hr' Hs0 Ho' Hp) (polar_run Hi Hl He n0 Hr Hs Ho Hp) rbind_okE.
rewrite N; [|exact: pol_symm|exact/posdef_psd/pol_posdef].
have Ek : pol_k (- c) Q = pol_k c Q by rewrite /pol_k /qf mulmxN dotvNl dotvNr opprK.
have Ec : pol_c (- c) Q = - pol_c c Q by rewrite /pol_c Ek mulmxN scalerN.
have Eq : pol_q (- c) Q = pol_q c Q by rewrite /pol_q Ek Ec linearN /= mulNmx mulmxN opprK.
by rewrite Ec Eq; split=> //; eexists.
Qed.

Lemma ray_inv n (Q : 'M[R]_n) m m' : symm Q -> posdef Q -> ray_min Q m -> ray_max (invmx Q) m' -> m * m' = 1.
Proof.
move=> HQ Qp [A [x x1 Ex]] [B [z z1 Ez]]; have uQ := posdef_unit Qp.
have m0 : 0 < m by rewrite -Ex Qp // -sqn_gt0 x1 ltr01.
apply/eqP; rewrite eq_le; apply/andP; split; last first.
  have := qf_invc x x HQ Qp; rewrite -/(sqn x) x1 expr1n Ex /pol_k => /le_trans; apply.
  by rewrite mulrC ler_pmul2l //; have := B x; rewrite x1 mulr1.
have [w Ew] : exists w, w = invmx Q *m z by exists (invmx Q *m z).
have zw : dotv z w = m' by rewrite Ew.
have qw : qf Q w = m' by rewrite /qf Ew mulKVmx // dotvC -Ew zw.
have mp : 0 < m' by rewrite -Ez; apply: posdef_inv => //; rewrite -sqn_gt0 z1 ltr01.
have h : m' ^+ 2 <= sqn w by have := cauchy_schwarz z w; rewrite zw z1 mul1r.
have := A w; rewrite qw => h2; rewrite -(ler_pmul2r mp) mul1r -mulrA -expr2.
by apply: le_trans h2; rewrite ler_pmul2l.
Qed.

Theorem polar_centred (vf : volfun R) pi cfg p t0 e n (Q : 'M[R]_n) t :
  inv_ok la -> lstsq_ok la -> eigvalsh_ok la -> det_ok la -> volfun_ok vf pi -> (0 < n)%N ->
  repr e (0 : 'cV[R]_n) Q t -> (forall x, x != 0 -> t * sqn x < qf Q x) -> origin_inside (in_ell 0 Q) -> props_of cfg (no_kw R) p t0 ->
  exists f, [/\ polar la cfg (Arr [:: 1%N] [:: e]) = Ok (Arr [:: 1%N] [:: f]), repr f (0 : 'cV[R]_n) (invmx Q) t0,
    exists m m', [/\ Ellipsoid.min_eig la (Arr [:: 1%N] [:: e]) = Ok (Arr [:: 1%N] [:: Fin m]), Ellipsoid.max_eig la (Arr [:: 1%N] [:: f]) = Ok (Arr [:: 1%N] [:: Fin m']) & m * m' = 1],
    exists m m', [/\ Ellipsoid.max_eig la (Arr [:: 1%N] [:: e]) = Ok (Arr [:: 1%N] [:: Fin m]), Ellipsoid.min_eig la (Arr [:: 1%N] [:: f]) = Ok (Arr [:: 1%N] [:: Fin m']) & m * m' = 1] &
    exists a b, [/\ ell_volume la vf (e_shape e) = Ok (Fin a), ell_volume la vf (e_shape f) = Ok (Fin b) & a * b = ball_vol pi n ^+ 2]].
Proof.
move=> Hi Hl He Hd Hv n0 Hr Hs Ho Hp; have [[E1 E2 _ _] [HQ Hq _]] := Hr; have Qp := repr_posdef Hr Hs.
have Ek : pol_k 0 Q = 0 by rewrite /pol_k /qf mulmx0 dotv0r.
have Ec : pol_c 0 Q = 0 by rewrite /pol_c mulmx0 scaler0.
have Eq : pol_q 0 Q = invmx Q by rewrite /pol_q Ek Ec mul0mx addr0 subr0 invr1 scale1r.
have HI : symm (invmx Q) := symm_inv HQ; have IP : posdef (invmx Q) := posdef_inv HQ Qp.
have Hf : repr (Ell (vec (0 : 'cV[R]_n)) (mat (invmx Q)) p) (0 : 'cV[R]_n) (invmx Q) t0 by apply: mk_repr Hp _ _ => //; exact: posdef_psd.
exists (Ell (vec (0 : 'cV[R]_n)) (mat (invmx Q)) p).
have one g (d : 'cV[R]_n) P u : repr g d P u -> List.Forall (@good R) [:: g] by move=> Hg; constructor=> //; exists n, d, P, u.
have r1 T (F : forall n, 'cV[R]_n -> 'M[R]_n -> R -> T -> Prop) g (d : 'cV[R]_n) P u rs :
    results F [:: g] rs -> repr g d P u -> exists2 v, rs = [:: v] & F n d P u v.
  by move=> H Hg; inversion H as [|a v b r K1 K2]; subst; inversion K2; subst; exists v => //; exact: K1.
have mn g (d : 'cV[R]_n) P u : repr g d P u -> exists2 m, Ellipsoid.min_eig la (Arr [:: 1%N] [:: g]) = Ok (Arr [:: 1%N] [:: Fin m]) & ray_min P m.
  move=> Hg; have [ms -> Hm] := min_eig_run [:: 1%N] (one _ _ _ _ Hg) He.
  by have [v -> [m -> Hmin]] := r1 _ _ _ _ _ _ _ Hm Hg; exists m.
have mx g (d : 'cV[R]_n) P u : repr g d P u -> exists2 m, Ellipsoid.max_eig la (Arr [:: 1%N] [:: g]) = Ok (Arr [:: 1%N] [:: Fin m]) & ray_max P m.
  move=> Hg; have [ms -> Hm] := max_eig_run [:: 1%N] (one _ _ _ _ Hg) He.
  by have [v -> [m -> Hmin]] := r1 _ _ _ _ _ _ _ Hm Hg; exists m.
split=> //.
- by rewrite (polar_run Hi Hl He n0 Hr Hs Ho Hp) Ec Eq.
- have [m -> A] := mn _ _ _ _ Hr; have [m' -> B] := mx _ _ _ _ Hf; exists m, m'; split=> //; exact: ray_inv A B.
- have [m -> A] := mx _ _ _ _ Hr; have [m' -> B] := mn _ _ _ _ Hf; exists m, m'; split=> //.
  by rewrite mulrC; apply: ray_inv B _ => //; rewrite invmxK.
have [i [a [b [Ei Ea Eb Eab]]]] := volume_inv Hd Hv Hi n0 HQ Qp; exists a, b; rewrite E2; split=> //=.
by move: Ei; rewrite inv_mat_run // (posdef_unit Qp) => -[->].
Qed.

Lemma disc_inside (r : R) : 1 <= r -> origin_inside (in_ell (0 : 'cV[R]_2) (r%:M)).
Proof.
move=> r1; exists 1; rewrite ?ltr01 // => x x1; apply: (mono_ex r1).
by exists 1%:M, x; rewrite ?trmx1 ?mulmx1 ?mul1mx ?add0r.
Qed.
End PolarLaws.
