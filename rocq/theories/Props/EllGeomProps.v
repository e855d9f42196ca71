(** C29-C32: gras/geom/ell/ell.py. *)
From mathcomp Require Import all_ssreflect all_algebra.
Require Import Coq.Strings.String.
From Verif.Model Require Import Py NP Linalg EllGeom.
From Verif.Spec Require Import MatSpec LinalgSpec EllSpec.
From Verif.Proof Require Import NPLib MatLib LaBasic LinalgSat EllLib EllGeomProof.
Import Order.Theory GRing.Theory Num.Theory.
Local Open Scope ring_scope.

(** ------------------------------------------------------------------ C29 *)
(** rho_mat returns, direction by direction, the maximum of <l, x> over the ellipsoid and a point of
    the ellipsoid where it is attained; any number of directions, any positive semidefinite shape. *)
Theorem C29_rho_mat :
  forall (R : rcfType) m n (Q : 'M[R]_m) (c : 'cV[R]_m) (D : 'M[R]_(m, n)) t ca,
  (0 < m)%N -> symm Q -> psd Q -> 0 <= t -> center_is c ca ->
  exists (s : 'rV[R]_n) (P : 'M[R]_(m, n)), rho_mat (mat Q) (mat D) (Fin t) ca = Ok (mat s, mat P) /\
    forall j, [/\ max_over (in_ell c Q) (col j D) (s 0 j), in_ell c Q (col j P) &
                  dotv (col j D) (col j P) = s 0 j].
Proof. exact: rho_mat_spec. Qed.
Print Assumptions C29_rho_mat.

Theorem C29_rho_mat_closed_form :
  forall (R : rcfType) m n (Q : 'M[R]_m) (c : 'cV[R]_m) (D : 'M[R]_(m, n)) t ca,
  (0 < m)%N -> symm Q -> psd Q -> 0 <= t -> center_is c ca ->
  rho_mat (mat Q) (mat D) (Fin t) ca =
  Ok (mat (\row_j (dotv (col j D) c + Num.sqrt (qf Q (col j D)))),
      mat (\matrix_(i, j) (c i 0 + (Num.sqrt (qf Q (col j D)))^-1 * (Q *m col j D) i 0))).
Proof. exact: rho_mat_closed. Qed.
Print Assumptions C29_rho_mat_closed_form.

(** the support function determines a non-empty ellipsoid *)
Theorem C29_ellipsoid_determined :
  forall (R : rcfType) n c d (P Q : 'M[R]_n), symm P -> psd P -> symm Q -> psd Q ->
  (forall x, in_ell c P x <-> in_ell d Q x) -> c = d /\ P = Q.
Proof. exact: ell_inj. Qed.
Print Assumptions C29_ellipsoid_determined.

Theorem C29_rejects_negative :
  forall (R : rcfType) m n (Q : 'M[R]_m) (D : 'M[R]_(m, n)) t ca j,
  n != 1%N -> 0 <= t -> qf Q (col j D) < - t ->
  rho_mat (mat Q) (mat D) (Fin t) ca = throw "wrongInput:negativeInput".
Proof. exact: rho_mat_neg_many. Qed.
Print Assumptions C29_rejects_negative.

Theorem C29_rejects_negative_one :
  forall (R : rcfType) m (Q : 'M[R]_m) (d : 'cV[R]_m) a ca, qf Q d < 0 ->
  rho_mat (mat Q) (mat d) a ca = throw "wrongInput:negativeInput".
Proof. exact: rho_mat_neg_one. Qed.
Print Assumptions C29_rejects_negative_one.

(** false of the code: that abs_tol applies however many directions are given *)
Theorem C29_tolerance_one_direction_refuted :
  forall (R : rcfType) (t : R), 0 < t -> let Q : 'M[R]_1 := (- (t / 2%:R))%:M in
  rho_mat (mat Q) (mat (1%:M : 'M[R]_1)) (Fin t) None = throw "wrongInput:negativeInput" /\
  rho_mat (mat Q) (mat (const_mx 1 : 'M[R]_(1, 2))) (Fin t) None =
    Ok (mat (0 : 'M[R]_(1, 2)), Arr [:: 1%N; 2%N] [:: NInf; NInf]).
Proof. exact: rho_mat_paths. Qed.
Print Assumptions C29_tolerance_one_direction_refuted.

(** a degenerate shape and a direction along which it is flat *)
Example C29_nonvacuous : forall R : rcfType,
  let Q : 'M[R]_2 := delta_mx 0 0 in
  [/\ symm Q, psd Q, qf Q (delta_mx 1 0) = 0 & qf Q (delta_mx 0 0) = 1].
Proof.
move=> R Q.
have E x : qf Q x = x 0 0 ^+ 2.
  rewrite /qf /dotv big_ord_recl big_ord1 !mxE !big_ord_recl !big_ord0 !mxE /=.
  by rewrite !mul0r !mul1r !addr0 mulr0 addr0 expr2.
split; first by rewrite /symm trmx_delta.
- by move=> x; rewrite E sqr_ge0.
- by rewrite E mxE /= expr0n.
by rewrite E mxE /= expr1n.
Qed.

(** ------------------------------------------------------------------ C30 *)
Theorem C30_quad_plain :
  forall (R : rcfType) (la : linalg R) n (Q : 'M[R]_n) (x c : 'cV[R]_n) (xa ca : arr (xnum R)) mode,
  (0 < n)%N -> holds x xa -> holds c ca \/ (ca = scal 0 /\ c = 0) -> str_lower mode = "plain"%string ->
  quad_mat la (mat Q) xa ca mode = Ok (mat ((qf Q (x - c))%:M : 'M[R]_1)).
Proof. exact: quad_plain. Qed.
Print Assumptions C30_quad_plain.

Theorem C30_quad_inverse :
  forall (R : rcfType) (la : linalg R) n (Q : 'M[R]_n) (x c : 'cV[R]_n) (xa ca : arr (xnum R)) mode,
  inv_ok la -> lstsq_ok la ->
  (0 < n)%N -> holds x xa -> holds c ca \/ (ca = scal 0 /\ c = 0) ->
  str_lower mode = "inv"%string \/ str_lower mode = "invadv"%string -> Q \in unitmx ->
  quad_mat la (mat Q) xa ca mode = Ok (mat ((qf (invmx Q) (x - c))%:M : 'M[R]_1)).
Proof. exact: quad_invs. Qed.
Print Assumptions C30_quad_inverse.

(** with a positive definite shape both inverse modes decide membership in the ellipsoid *)
Theorem C30_quad_membership :
  forall (R : rcfType) (la : linalg R) n (Q : 'M[R]_n) (x c : 'cV[R]_n) (xa ca : arr (xnum R)) mode,
  inv_ok la -> lstsq_ok la ->
  (0 < n)%N -> holds x xa -> holds c ca \/ (ca = scal 0 /\ c = 0) ->
  str_lower mode = "inv"%string \/ str_lower mode = "invadv"%string -> symm Q -> posdef Q ->
  exists v : R, quad_mat la (mat Q) xa ca mode = Ok (mat (v%:M : 'M[R]_1)) /\
                (in_ell c Q x <-> v <= 1).
Proof. exact: quad_membership. Qed.
Print Assumptions C30_quad_membership.

(** a singular matrix: 'invadv' raises; 'inv' gives <y, Q y> for x - c = Q y *)
Theorem C30_quad_singular :
  forall (R : rcfType) (la : linalg R) n (Q : 'M[R]_n) (x c : 'cV[R]_n) (xa ca : arr (xnum R)) mode,
  inv_ok la -> (0 < n)%N -> holds x xa -> holds c ca \/ (ca = scal 0 /\ c = 0) ->
  str_lower mode = "invadv"%string -> Q \notin unitmx ->
  quad_mat la (mat Q) xa ca mode = LinAlgError.
Proof. exact: quad_invadv_sing. Qed.
Print Assumptions C30_quad_singular.

Theorem C30_quad_inv_range :
  forall (R : rcfType) (la : linalg R) n (Q : 'M[R]_n) (x c y : 'cV[R]_n) (xa ca : arr (xnum R)) mode,
  lstsq_ok la -> (0 < n)%N -> holds x xa -> holds c ca \/ (ca = scal 0 /\ c = 0) ->
  str_lower mode = "inv"%string -> symm Q -> x - c = Q *m y ->
  quad_mat la (mat Q) xa ca mode = Ok (mat ((qf Q y)%:M : 'M[R]_1)).
Proof. exact: quad_inv_range. Qed.
Print Assumptions C30_quad_inv_range.

(** false of the code: that 'inv' decides membership for a singular shape; a point off the range of Q
    gets the value of its projection *)
Theorem C30_singular_membership_refuted :
  forall (R : rcfType) (la : linalg R), lstsq_min la ->
  exists (Q : 'M[R]_2) (x : 'cV[R]_2), [/\ symm Q, psd Q, ~ in_ell 0 Q x &
    quad_mat la (mat Q) (mat x) (mat (0 : 'cV[R]_2)) "inv" = Ok (mat (0%:M : 'M[R]_1))].
Proof. exact: quad_sing_member. Qed.
Print Assumptions C30_singular_membership_refuted.

Theorem C30_quad_bad_mode :
  forall (R : rcfType) (la : linalg R) (q x c : arr (xnum R)) mode,
  str_lower mode <> "plain"%string -> str_lower mode <> "inv"%string -> str_lower mode <> "invadv"%string ->
  quad_mat la q x c mode = throw "wrongInput:mode".
Proof. exact: quad_badmode. Qed.
Print Assumptions C30_quad_bad_mode.

Theorem C30_quad_shapes :
  forall (R : rcfType) (la : linalg R) n k (Q : 'M[R]_n) (x : 'cV[R]_k) (xa ca : arr (xnum R)) mode,
  (str_lower mode = "plain" \/ str_lower mode = "inv" \/ str_lower mode = "invadv")%string ->
  (0 < k)%N -> holds x xa -> (ca = scal 0 \/ exists2 c : 'cV[R]_k, (0 < k)%N & holds c ca) -> k <> n ->
  quad_mat la (mat Q) xa ca mode = throw "wrongInput:q_mat:x_vec".
Proof. exact: quad_shapes. Qed.
Print Assumptions C30_quad_shapes.

Example C30_nonvacuous : forall R : rcfType, exists la : linalg R, [/\ inv_ok la, lstsq_ok la & lstsq_min la].
Proof.
move=> R; exists (the_linalg R).
by have [_ [_ [_ [_ [_ [_ [_ [H1 [_ [H2 _]]]]]]]]]] := the_linalg_ok R; split=> //; exact: the_linalg_min.
Qed.
Example C30_modes : (str_lower "InvAdv" = "invadv")%string /\ (str_lower "PLAIN" = "plain")%string.
Proof. by []. Qed.

(** ------------------------------------------------------------------ C31 *)
Theorem C31_inv_mat :
  forall (R : rcfType) (la : linalg R) n (Q : 'M[R]_n), inv_ok la -> (0 < n)%N ->
  inv_mat la (mat Q) = if Q \in unitmx then Ok (mat (invmx Q)) else LinAlgError.
Proof. exact: inv_mat_run. Qed.
Print Assumptions C31_inv_mat.

Theorem C31_inv_mat_rejects :
  forall (R : rcfType) (la : linalg R) (q : arr (xnum R)), (ndim q != 2%N) || (dim q 0 != dim q 1) ->
  inv_mat la q = throw "wrongInput:q_mat".
Proof. exact: inv_mat_rejects. Qed.
Print Assumptions C31_inv_mat_rejects.

(** one Newton-type correction: starting from any invertible approximation b of the inverse, the
    formula returns the inverse itself *)
Theorem C31_refinement_exact :
  forall (R : rcfType) n (Q B : 'M[R]_n), Q \in unitmx -> B \in unitmx ->
  invmx (B *m Q) *m B = invmx Q.
Proof. exact: inv_refine. Qed.
Print Assumptions C31_refinement_exact.

Example C31_nonvacuous : forall R : rcfType, ((2%:R)%:M : 'M[R]_2) \in unitmx.
Proof. by move=> R; rewrite unitmxE det_scalar unitfE expf_neq0 // pnatr_eq0. Qed.

(** ------------------------------------------------------------------ C32 *)
Theorem C32_ell_volume :
  forall (R : rcfType) (la : linalg R) (vf : volfun R) pi n (Q : 'M[R]_n),
  volfun_ok vf pi -> det_ok la -> 0 <= \det Q ->
  ell_volume la vf (mat Q) = Ok (Fin (ball_vol pi n * Num.sqrt (\det Q))).
Proof. exact: ell_volume_run. Qed.
Print Assumptions C32_ell_volume.

(** the volume of the image under a linear map T is |det T| times the volume *)
Theorem C32_ell_volume_image :
  forall (R : rcfType) (la : linalg R) (vf : volfun R) pi n (Q T : 'M[R]_n),
  volfun_ok vf pi -> det_ok la -> symm Q -> psd Q ->
  exists v, ell_volume la vf (mat Q) = Ok (Fin v) /\
            ell_volume la vf (mat (T *m Q *m T^T)) = Ok (Fin (`|\det T| * v)).
Proof. exact: ell_volume_image. Qed.
Print Assumptions C32_ell_volume_image.

Example C32_nonvacuous : forall (R : rcfType) (pi : R), 0 < pi -> exists vf, volfun_ok vf pi.
Proof. by move=> R pi p0; exists (vf_ex pi); exact: vf_ex_ok. Qed.
Example C32_disc : forall (R : rcfType) (pi : R), ball_vol pi 2 = pi /\ ball_vol pi 3 = 4%:R / 3%:R * pi.
Proof. exact: ball_vol23. Qed.
