(** C73: ell_fusion_lambda. *)
From mathcomp Require Import all_ssreflect all_algebra.
From mathcomp.algebra_tactics Require Import ring.
From Verif.Model Require Import Py NP Linalg Fusion.
From Verif.Spec Require Import MatSpec LinalgSpec FusionSpec.
From Verif.Proof Require Import NPLib LinalgSat MatLib FusionProof.
Set Implicit Arguments.
Unset Strict Implicit.
Unset Printing Implicit Defensive.
Import Order.Theory GRing.Theory Num.Theory.
Local Open Scope ring_scope.

(** the set the specification speaks of: by completing the square, an ellipsoid with the centre [fus_center] that
    contains the intersection of the two *)
Theorem C73_meaning :
  forall (R : rcfType) n (q1 q2 : 'cV[R]_n) (Q1 Q2 : 'M[R]_n) (a : R) x,
  symm Q1 -> symm Q2 -> fus_mat Q1 Q2 a \in unitmx ->
  (fused q1 Q1 q2 Q2 a x <= 1 <-> qf (fus_mat Q1 Q2 a) (x - fus_center q1 Q1 q2 Q2 a) <= fus_level q1 Q1 q2 Q2 a) /\
  (0 <= a <= 1 -> qf Q1 (x - q1) <= 1 -> qf Q2 (x - q2) <= 1 ->
   qf (fus_mat Q1 Q2 a) (x - fus_center q1 Q1 q2 Q2 a) <= fus_level q1 Q1 q2 Q2 a).
Proof.
move=> R n q1 q2 Q1 Q2 a x S1 S2 U.
have H : (fused q1 Q1 q2 Q2 a x <= 1) = (qf (fus_mat Q1 Q2 a) (x - fus_center q1 Q1 q2 Q2 a) <= fus_level q1 Q1 q2 Q2 a).
  by rewrite (fused_square q1 q2 S1 S2 U) addrCA ger_addl subr_le0.
split=> [|/andP[a0 a1] H1 H2]; first by rewrite H.
rewrite -H /fused -[X in _ <= X](subrK a) addrC.
by apply: ler_add; [rewrite -{2}[1 - a]mulr1 | rewrite -{2}[a]mulr1]; rewrite ler_wpmul2l ?subr_ge0.
Qed.
Print Assumptions C73_meaning.

(** the value: det W (k (det W)' - n k' det W), where k is the level and ' the derivative in a; the vectors are columns or 1-d *)
Theorem C73_value :
  forall (R : rcfType) (la : linalg R) n (q1 q2 : 'cV[R]_n) (Q1 Q2 : 'M[R]_n) (a : R),
  inv_ok la -> det_ok la -> (0 < n)%N -> symm Q1 -> symm Q2 -> fus_mat Q1 Q2 a \in unitmx ->
  exists f k' d', [/\ ell_fusion_lambda la (Fin a) (mat q1) (mat Q1) (mat q2) (mat Q2) n = Ok (mat (f%:M : 'M[R]_1)),
    ell_fusion_lambda la (Fin a) (vec q1) (mat Q1) (vec q2) (mat Q2) n = Ok (scal f),
    derivative (fus_level q1 Q1 q2 Q2) a k', derivative (fun t => \det (fus_mat Q1 Q2 t)) a d' &
    f = \det (fus_mat Q1 Q2 a) * (fus_level q1 Q1 q2 Q2 a * d' - n%:R * k' * \det (fus_mat Q1 Q2 a))].
Proof.
move=> R la n q1 q2 Q1 Q2 a Hi Hd n0 S1 S2 U.
exists (fus_f q1 Q1 q2 Q2 a), (dlev q1 Q1 q2 Q2 a), (\det (fus_mat Q1 Q2 a) * \tr (invmx (fus_mat Q1 Q2 a) *m (Q1 - Q2))).
split; [exact: fusion_run|exact: fusion_run_vec|by apply: sd_derivative; apply: sd_lev|by apply: sd_derivative; apply: sd_det|].
rewrite /fus_f -scalemxAl mxtraceZ; move: (\det _) (\tr _) (fus_level _ _ _ _ _) (dlev _ _ _ _ _) (n%:R : R) => D t L l N; ring.
Qed.
Print Assumptions C73_value.

(** so the derivative of the squared volume of the fusion is - k^(n-1) f / (det W)^3 ... *)
Theorem C73_volume :
  forall (R : rcfType) (la : linalg R) n (q1 q2 : 'cV[R]_n) (Q1 Q2 : 'M[R]_n) (a : R),
  inv_ok la -> det_ok la -> (0 < n)%N -> symm Q1 -> symm Q2 -> fus_mat Q1 Q2 a \in unitmx ->
  exists2 f, ell_fusion_lambda la (Fin a) (mat q1) (mat Q1) (mat q2) (mat Q2) n = Ok (mat (f%:M : 'M[R]_1)) &
    derivative (fus_vol2 q1 Q1 q2 Q2) a (- fus_level q1 Q1 q2 Q2 a ^+ n.-1 * f / \det (fus_mat Q1 Q2 a) ^+ 3).
Proof.
move=> R la n q1 q2 Q1 Q2 a Hi Hd n0 S1 S2 U.
by exists (fus_f q1 Q1 q2 Q2 a); [exact: fusion_run | exact: vol2_derivative].
Qed.
Print Assumptions C73_volume.

(** ... and the zeros of the function are the stationary points of the volume, unless the fusion is a point or empty *)
Theorem C73_stationary :
  forall (R : rcfType) (la : linalg R) n (q1 q2 : 'cV[R]_n) (Q1 Q2 : 'M[R]_n) (a : R),
  inv_ok la -> det_ok la -> (0 < n)%N -> symm Q1 -> symm Q2 -> fus_mat Q1 Q2 a \in unitmx -> fus_level q1 Q1 q2 Q2 a != 0 ->
  ell_fusion_lambda la (Fin a) (mat q1) (mat Q1) (mat q2) (mat Q2) n = Ok (mat (0 : 'M[R]_1)) <->
  derivative (fus_vol2 q1 Q1 q2 Q2) a 0.
Proof.
move=> R la n q1 q2 Q1 Q2 a Hi Hd n0 S1 S2 U L0; rewrite (fusion_run q1 q2 S1 S2 n0 Hi Hd U).
have D0 : \det (fus_mat Q1 Q2 a) != 0 by move: U; rewrite unitmxE unitfE.
have H := vol2_derivative q1 q2 S1 S2 n0 U; split=> [/Ok_inj/mat_inj/matrixP/(_ 0 0)|H0].
  by rewrite !mxE eqxx mulr1n => E0; move: H; rewrite E0 mulr0 mul0r.
have /eqP := derivative_uniq H H0; rewrite mulNr mulNr oppr_eq0 !mulf_eq0 invr_eq0 !expf_eq0 (negbTE D0) (negbTE L0) !andbF orbF.
by move/eqP->; rewrite raddf0.
Qed.
Print Assumptions C73_stationary.

(** exchanging the ellipsoids changes the sign *)
Theorem C73_exchange :
  forall (R : rcfType) (la : linalg R) n (q1 q2 : 'cV[R]_n) (Q1 Q2 : 'M[R]_n) (a : R),
  inv_ok la -> det_ok la -> (0 < n)%N -> symm Q1 -> symm Q2 -> fus_mat Q1 Q2 a \in unitmx ->
  exists2 f, ell_fusion_lambda la (Fin a) (mat q1) (mat Q1) (mat q2) (mat Q2) n = Ok (mat (f%:M : 'M[R]_1)) &
    ell_fusion_lambda la (Fin (1 - a)) (mat q2) (mat Q2) (mat q1) (mat Q1) n = Ok (mat ((- f)%:M : 'M[R]_1)).
Proof.
move=> R la n q1 q2 Q1 Q2 a Hi Hd n0 S1 S2 U; exists (fus_f q1 Q1 q2 Q2 a); first exact: fusion_run.
by rewrite (fusion_run q2 q1 S2 S1 n0 Hi Hd) ?swap_mat // swap_f.
Qed.
Print Assumptions C73_exchange.

Theorem C73_singular :
  forall (R : rcfType) (la : linalg R) n (q1 q2 : 'cV[R]_n) (Q1 Q2 : 'M[R]_n) (a : R),
  inv_ok la -> (0 < n)%N -> fus_mat Q1 Q2 a \notin unitmx ->
  ell_fusion_lambda la (Fin a) (mat q1) (mat Q1) (mat q2) (mat Q2) n = LinAlgError.
Proof. by move=> R la n q1 q2 Q1 Q2 a Hi n0 U; apply: fusion_singular. Qed.
Print Assumptions C73_singular.

(** the hypotheses hold: the discs of radii 1 and 1/2 at the origin *)
Example C73_ex (R : rcfType) : let a := (1 / 2%:R : R) in let q := 0 : 'cV[R]_2 in
  [/\ inv_ok (the_linalg R) /\ det_ok (the_linalg R), symm (1%:M : 'M[R]_2) /\ symm (4%:R%:M : 'M[R]_2),
      fus_mat (1%:M : 'M[R]_2) 4%:R%:M a \in unitmx, fus_level q 1%:M q 4%:R%:M a = 1 &
      fus_mat (1%:M : 'M[R]_2) (- 1%:M) a \notin unitmx].
Proof.
move=> a q; have [_ [_ [_ [_ [_ [_ [_ [Hi [_ [_ Hd]]]]]]]]]] := the_linalg_ok R.
split=> //; first by split; rewrite /symm tr_scalar_mx.
- rewrite /fus_mat !scale_scalar_mx -raddfD unitmxE det_scalar unitfE expf_eq0 /=.
  have -> : a * 1 + (1 - a) * 4%:R = 5%:R / 2%:R by rewrite /a; field.
  by rewrite mulf_neq0 ?invr_eq0 ?pnatr_eq0.
- have -> : fus_level q 1%:M q 4%:R%:M a = 1 - fused q 1%:M q 4%:R%:M a 0.
    by rewrite /fus_level /fus_center /q !mulmx0 !scaler0 addr0 mulmx0.
  by rewrite /fused subr0 /q /qf !mulmx0 !dotv0r !mulr0 addr0 subr0.
- rewrite /fus_mat scalerN -scalerBl unitmxE.
  have -> : a - (1 - a) = 0 by rewrite /a; field.
  by rewrite scale0r det0 unitr0.
Qed.
