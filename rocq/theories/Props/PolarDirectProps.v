(** C74: the direct branch of _get_scalar_polar_internal. *)
From mathcomp Require Import all_ssreflect all_algebra.
Require Import Coq.Strings.String.
From mathcomp.algebra_tactics Require Import ring.
From Verif.Model Require Import Py NP Linalg La EllGeom Ellipsoid.
From Verif.Spec Require Import MatSpec LinalgSpec EllSpec EllipsoidSpec.
From Verif.Proof Require Import NPLib MatLib LinalgSat EllLib EllipsoidProof EllScalProof EllScalEx OpsEx PolarProof PolarEx PolarDirect.
Set Implicit Arguments.
Unset Strict Implicit.
Unset Printing Implicit Defensive.
Import Order.Theory GRing.Theory Num.Theory.
Local Open Scope ring_scope.

(** the two branches agree exactly in dimension one and for centred ellipsoids *)
Theorem C74_agree :
  forall (R : rcfType) (la : linalg R) cfg p t0 e n (c : 'cV[R]_n) (Q : 'M[R]_n) t,
  inv_ok la -> lstsq_ok la -> eigh_ok la -> eigvalsh_ok la -> (0 < n)%N ->
  repr e c Q t -> posdef Q -> origin_inside (in_ell c Q) -> props_of cfg (no_kw R) p t0 ->
  polar_scalar la cfg e false = polar_scalar la cfg e true <-> n = 1%N \/ c = 0.
Proof. exact: direct_agree. Qed.
Print Assumptions C74_agree.

(** whatever ellipsoid the direct branch returns otherwise is not the polar *)
Theorem C74_set :
  forall (R : rcfType) (la : linalg R) cfg p t0 e n (c c' : 'cV[R]_n) (Q Q' : 'M[R]_n) t e' t',
  inv_ok la -> lstsq_ok la -> eigh_ok la -> eigvalsh_ok la -> (0 < n)%N ->
  repr e c Q t -> posdef Q -> origin_inside (in_ell c Q) -> props_of cfg (no_kw R) p t0 ->
  polar_scalar la cfg e false = Ok e' -> repr e' c' Q' t' ->
  (forall y, in_ell c' Q' y <-> in_polar (in_ell c Q) y) -> n = 1%N \/ c = 0.
Proof. exact: direct_set. Qed.
Print Assumptions C74_set.

(** unlike the robust branch, it refuses ellipsoids without the origin inside *)
Theorem C74_outside :
  forall (R : rcfType) (la : linalg R) cfg e n (c : 'cV[R]_n) (Q : 'M[R]_n) t,
  inv_ok la -> lstsq_ok la -> eigh_ok la -> (0 < n)%N ->
  repr e c Q t -> posdef Q -> ~ origin_inside (in_ell c Q) ->
  polar_scalar la cfg e false = throw "degenerateEllipsoid".
Proof. exact: direct_outside. Qed.
Print Assumptions C74_outside.

(** so the property fails for the disc of radius 2 at (1/2, 1/2) ... *)
Theorem C74_refuted :
  forall (R : rcfType) (la : linalg R), inv_ok la -> lstsq_ok la -> eigh_ok la -> eigvalsh_ok la ->
  let e := ball_at (const_mx 2%:R^-1 : 'cV[R]_2) 4%:R in
  polar_able 2 e /\ polar_scalar la (std_props R) e false <> polar_scalar la (std_props R) e true.
Proof.
move=> R la Hi Hl He Hv e; split; first exact: half_ball_able.
have [c [Q [t [Hr Hd Ho]]]] := half_ball_able R; have Hp := repr_posdef Hr Hd.
move/(direct_agree Hi Hl He Hv _ Hr Hp Ho (std_props_ok R)) => /(_ isT) [] // c0.
have [[/vec_inj E _ _ _] _] := Hr; move: E; rewrite c0 => /colP/(_ 0); rewrite !mxE => /eqP.
by rewrite invr_eq0 pnatr_eq0.
Qed.
Print Assumptions C74_refuted.

(** ... and for the unit disc there the branch fails altogether *)
Theorem C74_singular_refuted :
  forall (R : rcfType) (la : linalg R), inv_ok la -> lstsq_ok la -> eigh_ok la ->
  let e := ball_at (const_mx 2%:R^-1 : 'cV[R]_2) 1 in
  polar_able 2 e /\ polar_scalar la (std_props R) e false = LinAlgError.
Proof.
move=> R la Hi Hl He; pose c : 'cV[R]_2 := const_mx 2%:R^-1; rewrite -/c; move=> e.
have S : sqn c = 2%:R^-1 by rewrite /sqn /dotv !big_ord_recl big_ord0 !mxE addr0; field.
have Hr : repr e c 1%:M (10%:R ^- 7) by apply: ball_repr; exact: ler01.
have Hd x : x != 0 -> 10%:R ^- 7 * sqn x < qf (1%:M : 'M[R]_2) x.
  by move=> x0; rewrite qf_scal ltr_pmul2r ?sqn_gt0 //; exact: ten7_1.
have Hp := repr_posdef Hr Hd.
have K : pol_k c 1%:M = 2%:R^-1 by rewrite /pol_k invmx1 qf_scal mul1r S.
have k1 : pol_k c 1%:M < 1 by rewrite K invf_lt1 ?ltr0n // ltr1n.
split; first by exists c, 1%:M, (10%:R ^- 7); split=> //; apply: k_inside => //; exact: scal_symm.
rewrite (direct_data _ Hi Hl He _ Hr Hp) // k1 ifF //; apply/negP; rewrite unitmxE unitfE => /negP; apply; apply/eqP.
by rewrite (expand_det_row _ 0) !big_ord_recl big_ord0 /cofactor !det_mx11 /dir_m !mxE S /=; field.
Qed.
Print Assumptions C74_singular_refuted.

(** the hypotheses hold: the unit disc at the origin, and (for C74_outside) the unit disc at (2, 2) *)
Example C74_ex (R : rcfType) :
  [/\ inv_ok (the_linalg R) /\ lstsq_ok (the_linalg R), eigh_ok (the_linalg R) /\ eigvalsh_ok (the_linalg R),
      props_of (std_props R) (no_kw R) (std_props R) (10%:R ^- 7),
      origin_inside (in_ell (0 : 'cV[R]_2) 1%:M) /\ posdef (1%:M : 'M[R]_2) &
      ~ origin_inside (in_ell (const_mx 2%:R : 'cV[R]_2) 1%:M)].
Proof.
have := the_linalg_ok R; rewrite /linalg_ok => Hla.
have Hp : posdef (1%:M : 'M[R]_2) by apply: scal_pd; exact: ltr01.
split; [by split; tauto|by split; tauto|exact: std_props_ok| |].
  split=> //; apply: k_inside => //; first exact: scal_symm.
  by rewrite /pol_k /qf dotv0l ltr01.
move/(inside_k (scal_symm _ _) Hp); rewrite /pol_k invmx1 qf_scal mul1r /sqn /dotv !big_ord_recl big_ord0 !mxE.
by rewrite addr0 -natrM -natrD ltrn1.
Qed.
