(** C85: laws between orth_transl, orth_transl_haus and orth_transl_qr (gras/la/la.py). *)
From mathcomp Require Import all_ssreflect all_algebra.
Require Import Coq.Strings.String.
From Verif.Model Require Import Py NP Linalg Compare La.
From Verif.Spec Require Import MatSpec LinalgSpec OrthSpec.
From Verif.Proof Require Import NPLib MatLib OrthLib LaBasic LinalgSat OrthProof OrthLawProof.
Import Order.Theory GRing.Theory Num.Theory.
Local Open Scope ring_scope.

(** the way back is the transposed matrix *)
Theorem C85_reverse :
  forall (R : rcfType) b n (src dst : 'cV[R]_n), src != 0 -> dst != 0 -> clear_angle src dst ->
  exists O : 'M[R]_n, [/\ orth_transl (RealArr (colarr b src)) (RealArr (colarr b dst)) = Ok (mat O),
    orth_transl (RealArr (colarr b dst)) (RealArr (colarr b src)) = Ok (mat O^T) & O^T *m O = 1%:M].
Proof. exact: transl_reverse. Qed.
Print Assumptions C85_reverse.

(** not so for vectors that are not parallel and whose angle has a sine of at most 1e-7 *)
Theorem C85_reverse_refuted :
  forall (R : rcfType) b n (src dst : 'cV[R]_n), src != 0 -> dst != 0 ->
  0 < sqn src * sqn dst - dotv src dst ^+ 2 <= 10%:R ^- 14 * (sqn src * sqn dst) ->
  exists O O' : 'M[R]_n, [/\ orth_transl (RealArr (colarr b src)) (RealArr (colarr b dst)) = Ok (mat O),
    orth_transl (RealArr (colarr b dst)) (RealArr (colarr b src)) = Ok (mat O') & O' != O^T].
Proof. exact: transl_reverse_band. Qed.
Print Assumptions C85_reverse_refuted.

(** the lengths of the two vectors do not matter *)
Theorem C85_scale :
  forall (R : rcfType) b n x y (src dst : 'cV[R]_n), src != 0 -> dst != 0 -> 0 < x -> 0 < y ->
  orth_transl (RealArr (colarr b (x *: src))) (RealArr (colarr b (y *: dst))) =
    orth_transl (RealArr (colarr b src)) (RealArr (colarr b dst)) /\
  orth_transl_haus (colarr b (x *: src)) (colarr b (y *: dst)) =
    orth_transl_haus (colarr b src) (colarr b dst).
Proof. exact: transl_scale. Qed.
Print Assumptions C85_scale.

(** the Householder matrix is the same both ways and is its own inverse *)
Theorem C85_haus_symmetric :
  forall (R : rcfType) b n (src dst : 'cV[R]_n), src != 0 -> dst != 0 ->
  exists O : 'M[R]_n, [/\ orth_transl_haus (colarr b src) (colarr b dst) = Ok (mat O),
    orth_transl_haus (colarr b dst) (colarr b src) = Ok (mat O), O^T = O & O *m O = 1%:M].
Proof. exact: haus_symmetric. Qed.
Print Assumptions C85_haus_symmetric.

(** a change of axes P turns the results into P O P^T *)
Theorem C85_axes :
  forall (R : rcfType) b n (P : 'M[R]_n) (src dst : 'cV[R]_n), orthog P -> src != 0 -> dst != 0 ->
  exists O H : 'M[R]_n,
  [/\ orth_transl (RealArr (colarr b src)) (RealArr (colarr b dst)) = Ok (mat O),
      orth_transl (RealArr (colarr b (P *m src))) (RealArr (colarr b (P *m dst))) = Ok (mat (P *m O *m P^T)),
      orth_transl_haus (colarr b src) (colarr b dst) = Ok (mat H) &
      orth_transl_haus (colarr b (P *m src)) (colarr b (P *m dst)) = Ok (mat (P *m H *m P^T))].
Proof. exact: transl_axes. Qed.
Print Assumptions C85_axes.

(** orth_transl_qr gives the matrix of orth_transl, whatever factorisation the QR routine picks *)
Theorem C85_qr_agrees :
  forall (R : rcfType) (la : linalg R) b b1 b2 k (src dst : 'cV[R]_k.+2), qr_ok la ->
  src != 0 -> dst != 0 ->
  10%:R ^- 14 * (sqn src * sqn dst) < sqn src * sqn dst - dotv src dst ^+ 2 ->
  orth_transl_qr la (RealArr (colarr b1 src)) (RealArr (colarr b2 dst)) =
  orth_transl (RealArr (colarr b src)) (RealArr (colarr b dst)).
Proof. exact: qr_agrees. Qed.
Print Assumptions C85_qr_agrees.

(** reverse and scaling for orth_transl_qr, with no band of angles *)
Theorem C85_qr_reverse :
  forall (R : rcfType) (la : linalg R) b1 b2 k (src dst : 'cV[R]_k.+2), qr_ok la ->
  src != 0 -> dst != 0 -> dotv src dst ^+ 2 != sqn src * sqn dst ->
  exists O : 'M[R]_k.+2,
  [/\ orth_transl_qr la (RealArr (colarr b1 src)) (RealArr (colarr b2 dst)) = Ok (mat O),
      orth_transl_qr la (RealArr (colarr b2 dst)) (RealArr (colarr b1 src)) = Ok (mat O^T),
      O^T *m O = 1%:M &
      forall x y, 0 < x -> 0 < y ->
      orth_transl_qr la (RealArr (colarr b1 (x *: src))) (RealArr (colarr b2 (y *: dst))) = Ok (mat O)].
Proof. exact: qr_reverse. Qed.
Print Assumptions C85_qr_reverse.

(** equal directions: the identity from all three *)
Theorem C85_same_direction :
  forall (R : rcfType) (la : linalg R) b b1 b2 k a (src : 'cV[R]_k.+2), qr_ok la -> src != 0 -> 0 < a ->
  [/\ orth_transl (RealArr (colarr b src)) (RealArr (colarr b (a *: src))) = Ok (mat (1%:M : 'M[R]_k.+2)),
      orth_transl_haus (colarr b src) (colarr b (a *: src)) = Ok (mat (1%:M : 'M[R]_k.+2)) &
      orth_transl_qr la (RealArr (colarr b1 src)) (RealArr (colarr b2 (a *: src))) = Ok (mat (1%:M : 'M[R]_k.+2))].
Proof. exact: transl_same. Qed.
Print Assumptions C85_same_direction.

(** opposite directions: the mirror image from two of them, another matrix from orth_transl_qr *)
Theorem C85_opposite_refuted :
  forall (R : rcfType) (la : linalg R) b b1 b2 k a (src : 'cV[R]_k.+2), qr_ok la -> src != 0 -> 0 < a ->
  let O : 'M[R]_k.+2 := 1%:M - (2%:R / sqn src) *: (src *m src^T) in
  [/\ orth_transl (RealArr (colarr b src)) (RealArr (colarr b (- a *: src))) = Ok (mat O),
      orth_transl_haus (colarr b src) (colarr b (- a *: src)) = Ok (mat O), \det O = -1 &
      orth_transl_qr la (RealArr (colarr b1 src)) (RealArr (colarr b2 (- a *: src))) <> Ok (mat O)].
Proof. exact: transl_opposite. Qed.
Print Assumptions C85_opposite_refuted.

(** two perpendicular vectors meet the hypotheses of the laws; two with a slope of 1e-7 lie in the band *)
Example C85_nonvacuous : forall R : rcfType,
  let u : 'cV[R]_2 := delta_mx 0 0 in let v : 'cV[R]_2 := delta_mx 1 0 in
  qr_ok (the_linalg R) /\
  [/\ u != 0, v != 0, clear_angle u v, dotv u v ^+ 2 != sqn u * sqn v &
      10%:R ^- 14 * (sqn u * sqn v) < sqn u * sqn v - dotv u v ^+ 2].
Proof.
move=> R u v; split; first by have [_ [_ [_ [_ [_ [_ [H _]]]]]]] := the_linalg_ok R.
have u1 : sqn u = 1 by rewrite /sqn dot_delta mxE eqxx.
have v1 : sqn v = 1 by rewrite /sqn dot_delta mxE eqxx.
have uv : dotv u v = 0 by rewrite dot_delta mxE.
have H : 10%:R ^- 14 * (sqn u * sqn v) < sqn u * sqn v - dotv u v ^+ 2.
  by rewrite u1 v1 uv expr0n subr0 !mulr1 invf_lt1 ?exprn_gt0 ?ltr0n // exprn_egt1 // ltr1n.
split=> //; try by rewrite -sqn_gt0 ?u1 ?v1 ltr01.
  by right.
by rewrite u1 v1 uv expr0n mulr1 eq_sym oner_eq0.
Qed.
Example C85_band_nonvacuous : forall R : rcfType,
  let u : 'cV[R]_2 := delta_mx 0 0 in let v : 'cV[R]_2 := u + 10%:R ^- 7 *: delta_mx 1 0 in
  [/\ u != 0, v != 0 & 0 < sqn u * sqn v - dotv u v ^+ 2 <= 10%:R ^- 14 * (sqn u * sqn v)].
Proof.
move=> R u v.
have u1 : sqn u = 1 by rewrite /sqn dot_delta mxE eqxx.
have e1 : sqn (delta_mx 1 0 : 'cV[R]_2) = 1 by rewrite /sqn dot_delta mxE eqxx.
have ue : dotv u (delta_mx 1 0 : 'cV[R]_2) = 0 by rewrite dot_delta mxE.
have uv : dotv u v = 1 by rewrite dotvDr dotvZr ue mulr0 addr0 -/(sqn u).
have t0 : 0 < (10%:R ^- 14 : R) by rewrite invr_gt0 exprn_gt0 // ltr0n.
have v1 : sqn v = 1 + 10%:R ^- 14.
  by rewrite sqnD sqnZ dotvZr u1 e1 ue !mulr0 addr0 mulr1 exprVn -exprM.
split; [by rewrite -sqn_gt0 u1 ltr01 | by rewrite -sqn_gt0 v1 addr_gt0 ?ltr01 |].
rewrite u1 v1 uv expr1n mul1r addrAC subrr add0r t0 /= ler_pmulr // ler_addl ltW //.
Qed.
