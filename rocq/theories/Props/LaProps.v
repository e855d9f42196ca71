(** C18-C28: gras/la/la.py. *)
From mathcomp Require Import all_ssreflect all_algebra.
Require Import Coq.Strings.String.
From Verif.Model Require Import Py NP Linalg Compare La.
From Verif.Spec Require Import MatSpec LinalgSpec OrthSpec.
From Verif.Proof Require Import NPLib MatLib OrthLib LaBasic OrthProof Decomp LinalgSat.
Import Order.Theory GRing.Theory Num.Theory.
Local Open Scope ring_scope.

(** The contracts assumed of numpy.linalg can be met, over every real closed field. *)
Theorem linalg_contracts_satisfiable : forall R : rcfType, exists la : linalg R, linalg_ok la.
Proof. by move=> R; exists (the_linalg R); exact: the_linalg_ok. Qed.
Print Assumptions linalg_contracts_satisfiable.

(** ------------------------------------------------------------------ C18 *)
Theorem C18_is_mat_symm :
  forall (R : rcfType) n (M : 'M[R]_n) (t : R), 0 <= t ->
  exists2 b, is_mat_symm (mat M) (Fin t) = Ok b & (b <-> forall i j, `|M i j - M j i| <= t).
Proof. exact: is_mat_symm_mat. Qed.
Print Assumptions C18_is_mat_symm.

Theorem C18_is_mat_symm_exact :
  forall (R : rcfType) n (M : 'M[R]_n),
  exists2 b, is_mat_symm (mat M) x0 = Ok b & (b <-> symm M).
Proof. exact: is_mat_symm0. Qed.
Print Assumptions C18_is_mat_symm_exact.

Theorem C18_is_mat_symm_rejects :
  forall (R : rcfType),
  (forall (q : arr (xnum R)) t, (ndim q != 2%N) || (dim q 0 != dim q 1) ->
     is_mat_symm q t = throw "wrongInput:nonSquareMat") /\
  (forall n (M : 'M[R]_n) t, t < 0 -> is_mat_symm (mat M) (Fin t) = throw "wrongInput:wrongAbsTol").
Proof. by move=> R; split; [exact: is_mat_symm_nonsq | exact: is_mat_symm_neg]. Qed.
Print Assumptions C18_is_mat_symm_rejects.

Theorem C18_is_mat_pos_def :
  forall (R : rcfType) (la : linalg R) n (M : 'M[R]_n) (t : R) flag,
  eigvalsh_ok la -> (0 < n)%N -> 0 <= t -> (forall i j, `|M i j - M j i| <= t) ->
  exists2 b, is_mat_pos_def la (mat M) (Fin t) flag = Ok b &
    if flag then b <-> forall x, - t * sqn x <= qf (lowsym M) x
    else b <-> forall x, x != 0 -> t * sqn x < qf (lowsym M) x.
Proof. exact: is_mat_pos_def_spec. Qed.
Print Assumptions C18_is_mat_pos_def.

Theorem C18_is_mat_pos_def_exact :
  forall (R : rcfType) (la : linalg R) n (M : 'M[R]_n) flag,
  eigvalsh_ok la -> (0 < n)%N -> symm M ->
  exists2 b, is_mat_pos_def la (mat M) x0 flag = Ok b & (b <-> if flag then psd M else posdef M).
Proof. exact: is_mat_pos_def_symm. Qed.
Print Assumptions C18_is_mat_pos_def_exact.

Theorem C18_is_mat_pos_def_rejects :
  forall (R : rcfType) (la : linalg R) flag,
  (forall n (M : 'M[R]_n) (t : R) i j, 0 <= t -> t < `|M i j - M j i| ->
     is_mat_pos_def la (mat M) (Fin t) flag = throw "wrongInput:nonSymmMat") /\
  (forall q (t : R), t < 0 -> is_mat_pos_def la q (Fin t) flag = throw "wrongInput:abs_tolNegative").
Proof.
move=> R la flag; split=> [n M t i j|q t]; [exact: is_mat_pos_def_nonsymm | exact: is_mat_pos_def_neg].
Qed.
Print Assumptions C18_is_mat_pos_def_rejects.

Theorem C18_is_mat_not_deg :
  forall (R : rcfType) (la : linalg R) n (M : 'M[R]_n) (t : R),
  svdvals_ok la -> (0 < n)%N -> 0 < t ->
  exists2 b, is_mat_not_deg la (mat M) (Fin t) = Ok b &
    (b <-> forall x, t ^+ 2 * sqn x <= sqn (M *m x)).
Proof. exact: is_mat_not_deg_spec. Qed.
Print Assumptions C18_is_mat_not_deg.

(** FALSE for the default tolerance 0: a singular matrix is reported non-degenerate. *)
Theorem C18_is_mat_not_deg_default_tol_refuted :
  forall (R : rcfType) (la : linalg R), exists2 M : 'M[R]_2, \det M = 0 &
    is_mat_not_deg la (mat M) x0 = Ok true.
Proof. by move=> R la; exists 0; [rewrite det0 | exact: is_mat_not_deg_zero]. Qed.
Print Assumptions C18_is_mat_not_deg_default_tol_refuted.

Example C18_nonvacuous : forall R : rcfType,
  [/\ eigvalsh_ok (the_linalg R), svdvals_ok (the_linalg R), symm (1%:M : 'M[R]_2) &
      posdef (1%:M : 'M[R]_2)].
Proof.
move=> R; have [_ [H [_ [_ [H2 _]]]]] := the_linalg_ok R; split=> //; first by rewrite /symm trmx1.
by move=> x x0; rewrite qf_scal mul1r sqn_gt0.
Qed.

(** ------------------------------------------------------------------ C19 *)
Theorem C19_orth_transl :
  forall (R : rcfType) b n (src dst : 'cV[R]_n), src != 0 -> dst != 0 -> clear_angle src dst ->
  exists O, orth_transl (RealArr (colarr b src)) (RealArr (colarr b dst)) = Ok (mat O) /\
    transl O src dst.
Proof. exact: orth_transl_exact. Qed.
Print Assumptions C19_orth_transl.

Theorem C19_identity_outside_plane :
  forall (R : rcfType) b n (src dst : 'cV[R]_n) (O : 'M[R]_n), src != 0 -> dst != 0 ->
  orth_transl (RealArr (colarr b src)) (RealArr (colarr b dst)) = Ok (mat O) ->
  forall x, dotv src x = 0 -> dotv dst x = 0 -> O *m x = x.
Proof. exact: orth_transl_plane. Qed.
Print Assumptions C19_identity_outside_plane.

Theorem C19_rotation :
  forall (R : rcfType) b n (src dst : 'cV[R]_n) (O : 'M[R]_n), src != 0 -> dst != 0 ->
  10%:R ^- 14 * (sqn src * sqn dst) < sqn src * sqn dst - dotv src dst ^+ 2 ->
  orth_transl (RealArr (colarr b src)) (RealArr (colarr b dst)) = Ok (mat O) -> \det O = 1.
Proof. exact: orth_transl_det. Qed.
Print Assumptions C19_rotation.

(** with no condition on the angle: how far the result can be from orthogonal and from the target *)
Theorem C19_error_bound :
  forall (R : rcfType) b n (src dst : 'cV[R]_n), src != 0 -> dst != 0 ->
  exists O, [/\ orth_transl (RealArr (colarr b src)) (RealArr (colarr b dst)) = Ok (mat O),
    sqn (O *m unitv src - unitv dst) <= 2%:R * 10%:R ^- 14 &
    forall x, `|sqn (O *m x) - sqn x| <= 10%:R ^- 14 * sqn x].
Proof. exact: orth_transl_error. Qed.
Print Assumptions C19_error_bound.

Theorem C19_zero_vectors_raise :
  forall (R : rcfType) b n,
  (forall src : 'cV[R]_n, orth_transl (RealArr (colarr b src)) (RealArr (colarr b (0 : 'cV_n))) =
     throw "wrongInput:dst_zero") /\
  (forall dst : 'cV[R]_n, dst != 0 ->
     orth_transl (RealArr (colarr b (0 : 'cV_n))) (RealArr (colarr b dst)) =
     throw "wrongInput:src_zero").
Proof. by move=> R b n; split; [exact: orth_transl_dst0 | exact: orth_transl_src0]. Qed.
Print Assumptions C19_zero_vectors_raise.

Lemma clear_perp (R : rcfType) n (u v : 'cV[R]_n) : u != 0 -> v != 0 -> dotv u v = 0 -> clear_angle u v.
Proof.
move=> u0 v0 uv; right; rewrite uv expr0n subr0 gtr_pmull; last by rewrite mulr_gt0 ?sqn_gt0.
by rewrite invf_lt1 ?exprn_gt0 ?ltr0n // exprn_egt1 // ltr1n.
Qed.

Example C19_nonvacuous : forall R : rcfType,
  let u : 'cV[R]_2 := delta_mx 0 0 in let v : 'cV[R]_2 := delta_mx 1 0 in
  [/\ u != 0, v != 0, clear_angle u v & u != v].
Proof.
move=> R u v; have u0 : u != 0 by rewrite -sqn_gt0 /sqn dot_delta mxE eqxx ltr01.
have v0 : v != 0 by rewrite -sqn_gt0 /sqn dot_delta mxE eqxx ltr01.
have uv : dotv u v = 0 by rewrite dot_delta mxE.
split=> //; first exact: clear_perp.
apply/eqP => E; move: u0; rewrite -sqn_gt0 /sqn {2}E uv ltxx //.
Qed.

(** ------------------------------------------------------------------ C20 *)
Theorem C20_orth_transl_haus :
  forall (R : rcfType) b n (src dst : 'cV[R]_n), src != 0 -> dst != 0 ->
  unitv src = unitv dst \/ 10%:R ^- 14 <= sqn (unitv src - unitv dst) ->
  exists O, orth_transl_haus (colarr b src) (colarr b dst) = Ok (mat O) /\ transl O src dst.
Proof. exact: haus_exact. Qed.
Print Assumptions C20_orth_transl_haus.

Theorem C20_always_orthogonal_and_close :
  forall (R : rcfType) b n (src dst : 'cV[R]_n), src != 0 -> dst != 0 ->
  exists O, [/\ orth_transl_haus (colarr b src) (colarr b dst) = Ok (mat O), orthog O, symm O &
    sqn (O *m unitv src - unitv dst) < 10%:R ^- 14].
Proof. exact: haus_error. Qed.
Print Assumptions C20_always_orthogonal_and_close.

Example C20_nonvacuous : forall R : rcfType,
  let u : 'cV[R]_2 := delta_mx 0 0 in u != 0 /\ - u != 0 /\ 10%:R ^- 14 <= sqn (unitv u - unitv (- u)).
Proof.
move=> R u; have u0 : u != 0 by rewrite -sqn_gt0 /sqn dot_delta mxE eqxx ltr01.
split=> //; split; first by rewrite oppr_eq0.
have -> : unitv (- u) = - unitv u.
  by rewrite /unitv -[in len _](scaleN1r u) lenZ normrN1 mul1r scalerN.
rewrite opprK -mulr2n -scaler_nat sqnZ sqn_unitv // mulr1.
apply: (@le_trans _ _ 1); last by rewrite exprn_ege1 // ler1n.
by rewrite invf_le1 ?exprn_gt0 ?ltr0n // exprn_ege1 // ler1n.
Qed.

(** ------------------------------------------------------------------ C21 *)
Theorem C21_orth_transl_qr :
  forall (R : rcfType) (la : linalg R) b1 b2 k (src dst : 'cV[R]_k.+2), qr_ok la ->
  src != 0 -> dst != 0 ->
  exists O, [/\ orth_transl_qr la (RealArr (colarr b1 src)) (RealArr (colarr b2 dst)) = Ok (mat O),
    transl O src dst & \det O = 1].
Proof. exact: orth_transl_qr_exact. Qed.
Print Assumptions C21_orth_transl_qr.

Theorem C21_orth_transl_qr_dim1 :
  forall (R : rcfType) (la : linalg R) b1 b2 (src dst : 'cV[R]_1), src != 0 -> dst != 0 ->
  exists O, orth_transl_qr la (RealArr (colarr b1 src)) (RealArr (colarr b2 dst)) = Ok (mat O) /\
    transl O src dst.
Proof. exact: orth_transl_qr_1. Qed.
Print Assumptions C21_orth_transl_qr_dim1.

Example C21_nonvacuous : forall R : rcfType, qr_ok (the_linalg R) /\
  exists2 u : 'cV[R]_2, u != 0 & - u != 0.
Proof.
move=> R; have [_ [_ [_ [_ [_ [_ [H _]]]]]]] := the_linalg_ok R; split=> //.
have u0 : (delta_mx 0 0 : 'cV[R]_2) != 0 by rewrite -sqn_gt0 /sqn dot_delta mxE eqxx ltr01.
by exists (delta_mx 0 0); rewrite ?oppr_eq0.
Qed.

(** ------------------------------------------------------------------ C22 *)
Theorem C22_orth_transl_max_dir :
  forall (R : rcfType) (la : linalg R) b1 b2 k (src dst smax dmax : 'cV[R]_(k.+2)),
  qr_complete_ok la -> src != 0 -> dst != 0 ->
  clear_angle (e1 R k.+1) src -> clear_angle (e1 R k.+1) dst ->
  exists O, [/\ orth_transl_max_dir la (vec src) (vec dst) (colarr b1 smax) (colarr b2 dmax) =
                Ok (mat O), transl O src dst &
    forall P, transl P src dst -> dotv (P *m smax) dmax <= dotv (O *m smax) dmax].
Proof. exact: max_dir_spec. Qed.
Print Assumptions C22_orth_transl_max_dir.

Theorem C22_orth_transl_max_dir_dim1 :
  forall (R : rcfType) (la : linalg R) b (src dst : 'cV[R]_1) smax dmax, src != 0 -> dst != 0 ->
  exists O : 'M[R]_1, orth_transl_max_dir la (colarr b src) (colarr b dst) smax dmax =
    Ok (colarr b O) /\ transl O src dst.
Proof. exact: max_dir_1. Qed.
Print Assumptions C22_orth_transl_max_dir_dim1.

Example C22_nonvacuous : forall R : rcfType, qr_complete_ok (the_linalg R) /\
  let v : 'cV[R]_2 := delta_mx 1 0 in
  [/\ e1 R 1 != 0, v != 0, clear_angle (e1 R 1) (e1 R 1) & clear_angle (e1 R 1) v].
Proof.
move=> R; have [_ [_ [_ [_ [_ [H _]]]]]] := the_linalg_ok R; split=> // v.
have v0 : v != 0 by rewrite -sqn_gt0 /sqn dot_delta mxE eqxx ltr01.
split=> //; [exact: e1_n0 | by left; rewrite -/(sqn _) expr2 |].
by apply: clear_perp => //; rewrite ?e1_n0 // dot_delta mxE.
Qed.

(** ------------------------------------------------------------------ C23 *)
Theorem C23_orth_transl_max_tr :
  forall (R : rcfType) (la : linalg R) k (src dst : 'cV[R]_(k.+2)) (M : 'M[R]_(k.+2)),
  svd_ok la -> src != 0 -> dst != 0 ->
  clear_angle (e1 R k.+1) src -> clear_angle (e1 R k.+1) dst ->
  exists O, [/\ orth_transl_max_tr la (vec src) (vec dst) (mat M) = Ok (mat O), transl O src dst &
    forall P, transl P src dst -> \tr (P *m M) <= \tr (O *m M)].
Proof. exact: max_tr_spec. Qed.
Print Assumptions C23_orth_transl_max_tr.

(** FALSE in dimension 1: the result is 1 even when src and dst have opposite signs. *)
Theorem C23_dim1_refuted :
  forall (R : rcfType) (la : linalg R) M, exists src dst : 'cV[R]_1, [/\ src != 0, dst != 0 &
    forall O : 'M[R]_1, orth_transl_max_tr la (vec src) (vec dst) M = Ok (mat O) -> ~ transl O src dst].
Proof.
move=> R la M; have e0 : (1%:M : 'cV[R]_1) != 0 by rewrite -[1%:M]/(1 : 'M_1) oner_eq0.
exists 1%:M, (- 1%:M); split; rewrite ?oppr_eq0 // => O.
rewrite max_tr_1 => /Ok_inj/mat_inj <- [_]; rewrite mul1mx -scaleN1r lenZ normrN1 mul1r.
have l0 : len (1%:M : 'cV[R]_1) != 0 by rewrite len_eq0.
rewrite divff // scale1r scaleN1r => /eqP; rewrite -subr_eq0 opprK -mulr2n -scaler_nat scaler_eq0.
by rewrite pnatr_eq0 (negbTE e0).
Qed.
Print Assumptions C23_dim1_refuted.

Example C23_nonvacuous : forall R : rcfType, svd_ok (the_linalg R).
Proof. by move=> R; have [_ [_ [_ [H _]]]] := the_linalg_ok R. Qed.

(** ------------------------------------------------------------------ C24 *)
Theorem C24_sqrtm_pos :
  forall (R : rcfType) (la : linalg R) n (M : 'M[R]_n), eigh_ok la -> (0 < n)%N -> symm M -> psd M ->
  exists S : 'M_n, [/\ sqrtm_pos la (mat M) x0 = Ok (mat S), symm S, psd S & S *m S = M].
Proof. exact: sqrtm_pos_exact. Qed.
Print Assumptions C24_sqrtm_pos.

(** the root is unique, so the result does not depend on the eigendecomposition chosen *)
Theorem C24_root_unique :
  forall (R : rcfType) n (S T : 'M[R]_n), (0 < n)%N ->
  symm S -> psd S -> symm T -> psd T -> S *m S = T *m T -> S = T.
Proof.
move=> R n S T; apply: (psd_root_unique (la := the_linalg R)).
by have [H _] := the_linalg_ok R.
Qed.
Print Assumptions C24_root_unique.

Theorem C24_sqrtm_pos_tolerance :
  forall (R : rcfType) (la : linalg R) n (M : 'M[R]_n) (t : R),
  eigh_ok la -> (0 < n)%N -> 0 <= t -> (forall i j, `|M i j - M j i| <= t) ->
  (forall x, - t * sqn x <= qf (lowsym M) x) ->
  exists S : 'M_n, [/\ sqrtm_pos la (mat M) (Fin t) = Ok (mat S), symm S, psd S &
     forall x, 0 <= qf (S *m S - lowsym M) x <= t * sqn x].
Proof. exact: sqrtm_pos_spec. Qed.
Print Assumptions C24_sqrtm_pos_tolerance.

Theorem C24_sqrtm_pos_rejects :
  forall (R : rcfType) (la : linalg R) n (M : 'M[R]_n) (t : R), eigh_ok la -> (0 < n)%N -> 0 <= t ->
  ((exists i j, t < `|M i j - M j i|) -> sqrtm_pos la (mat M) (Fin t) = throw "wrongInput:nonSymmMat") /\
  ((forall i j, `|M i j - M j i| <= t) -> (exists x, qf (lowsym M) x < - t * sqn x) ->
     sqrtm_pos la (mat M) (Fin t) = throw "wrongInput:notPosSemDef").
Proof.
move=> R la n M t H n0 t0; split=> [[i [j h]]|h [x hx]].
  exact: (sqrtm_pos_nonsymm la t0 h).
exact: (sqrtm_pos_notpsd H n0 t0 h hx).
Qed.
Print Assumptions C24_sqrtm_pos_rejects.

Example C24_nonvacuous : forall R : rcfType,
  [/\ eigh_ok (the_linalg R), symm (1%:M : 'M[R]_2) & psd (1%:M : 'M[R]_2)].
Proof.
move=> R; have [H _] := the_linalg_ok R; split=> //; first by rewrite /symm trmx1.
by move=> x; rewrite qf_scal mul1r sqn_ge0.
Qed.

(** ------------------------------------------------------------------ C25 *)
Theorem C25_reg_pos_def_partial :
  forall (R : rcfType) (la : linalg R) n (M : 'M[R]_n) (t : R), eig_ok la -> (0 < n)%N -> 0 < t ->
  symm M ->
  exists B : 'M_n, [/\ reg_pos_def_mat la (mat M) (PReal (Fin t)) = Ok (mat B), symm B,
    (forall x, qf M x <= qf B x) & ((forall x, t * sqn x <= qf M x) -> B = M)].
Proof. exact: reg_pos_def_any. Qed.
Print Assumptions C25_reg_pos_def_partial.

(** The lower bound holds when the eigenvectors numpy returns are orthonormal ... *)
Theorem C25_reg_pos_def_orthonormal :
  forall (R : rcfType) (la : linalg R) n (M : 'M[R]_n) (t : R) (d : 'cV[R]_n) (V : 'M[R]_n), 0 < t ->
  symm M -> la_eig la (mat M) = Ok (vec d, mat V) -> eigdec M d V ->
  exists B : 'M_n, [/\ reg_pos_def_mat la (mat M) (PReal (Fin t)) = Ok (mat B), symm B,
    (forall x, t * sqn x <= qf B x) & ((forall x, t * sqn x <= qf M x) -> B = M)].
Proof. exact: reg_pos_def_orth. Qed.
Print Assumptions C25_reg_pos_def_orthonormal.

(** ... in particular when the eigenvalues are pairwise distinct ... *)
Theorem C25_reg_pos_def_distinct :
  forall (R : rcfType) (la : linalg R) n (M V : 'M[R]_n) (t : R) (d : 'cV[R]_n), eig_ok la -> (0 < n)%N ->
  0 < t -> symm M -> la_eig la (mat M) = Ok (vec d, mat V) ->
  (forall i j, i != j -> d i 0 != d j 0) ->
  exists B : 'M_n, reg_pos_def_mat la (mat M) (PReal (Fin t)) = Ok (mat B) /\
    forall x, t * sqn x <= qf B x.
Proof. exact: reg_pos_def_distinct. Qed.
Print Assumptions C25_reg_pos_def_distinct.

(** ... and fails for eigenvectors that the contract of np.linalg.eig permits (eig does not promise
    orthogonal eigenvectors for a repeated eigenvalue; eigh does). *)
Theorem C25_lower_bound_refuted :
  forall R : rcfType, exists la : linalg R, linalg_ok la /\
  exists (n : nat) (M B : 'M[R]_n) (t : R) x,
    [/\ 0 < t, symm M, reg_pos_def_mat la (mat M) (PReal (Fin t)) = Ok (mat B) & qf B x < t * sqn x].
Proof. exact: reg_pos_def_low. Qed.
Print Assumptions C25_lower_bound_refuted.

Theorem C25_reg_pos_def_rejects :
  forall (R : rcfType) (la : linalg R),
  (forall n (M : 'M[R]_n) (t : R), 0 < t -> ~ symm M ->
     reg_pos_def_mat la (mat M) (PReal (Fin t)) = throw "wrongInput:inp_mat") /\
  (forall q (t : R), t <= 0 -> reg_pos_def_mat la q (PReal (Fin t)) = throw "wrongInput:reg_tol").
Proof.
move=> R la; split=> [n M t|q t t0]; first exact: reg_pos_def_nonsymm.
by apply: reg_pos_def_badtol; rewrite /xgt /= -leNgt.
Qed.
Print Assumptions C25_reg_pos_def_rejects.

Example C25_nonvacuous : forall R : rcfType, eig_ok (the_linalg R) /\ symm (0 : 'M[R]_2).
Proof. by move=> R; have [_ [_ [H _]]] := the_linalg_ok R; split=> //; rewrite /symm trmx0. Qed.

(** ------------------------------------------------------------------ C26 *)
Theorem C26_reg_mat :
  forall (R : rcfType) (la : linalg R) n (M : 'M[R]_n) (t : R), svd_ok la -> (0 < n)%N -> 0 < t ->
  exists B : 'M_n, [/\ reg_mat la (mat M) (PReal (Fin t)) = Ok (mat B),
    (forall x, t ^+ 2 * sqn x <= sqn (B *m x)),
    (forall x, sqn ((B - M) *m x) <= t ^+ 2 * sqn x) &
    ((forall x, t ^+ 2 * sqn x <= sqn (M *m x)) -> B = M)].
Proof. exact: reg_mat_spec. Qed.
Print Assumptions C26_reg_mat.

Theorem C26_reg_mat_bad_tol :
  forall (R : rcfType) (la : linalg R) (q : arr (xnum R)) (t : R), t <= 0 ->
  reg_mat la q (PReal (Fin t)) = throw "wrongInput:reg_tol".
Proof. by move=> R la q t t0; apply: reg_mat_badtol; rewrite /xgt /= -leNgt. Qed.
Print Assumptions C26_reg_mat_bad_tol.

(** ------------------------------------------------------------------ C27 *)
Theorem C27_real_unchanged :
  forall (R : rcfType) (inp : ninp R) (t : R), 0 < t ->
  match inp with RealArr _ | RealScal _ => True | _ => False end ->
  try_treat_as_real inp (PReal (Fin t)) = Ok inp.
Proof. exact: try_real. Qed.
Print Assumptions C27_real_unchanged.

Theorem C27_complex_matrix :
  forall (R : rcfType) (t : R) m n (re im : 'M[R]_(m, n)), (0 < m)%N -> 0 < t -> im != 0 ->
  exists r, try_treat_as_real (CplxArr (mat re) (mat im)) (PReal (Fin t)) = r /\
    ((r = Ok (RealArr (mat re)) /\ forall i, \sum_j `|im i j| < t) \/
     (r = throw "wrongInput:inp_mat" /\ exists i, t <= \sum_j `|im i j|)).
Proof. exact: try_cplx_mat. Qed.
Print Assumptions C27_complex_matrix.

Theorem C27_complex_vector :
  forall (R : rcfType) (t : R) n (re im : 'cV[R]_n), (0 < n)%N -> 0 < t -> im != 0 ->
  exists r, try_treat_as_real (CplxArr (vec re) (vec im)) (PReal (Fin t)) = r /\
    ((r = Ok (RealArr (vec re)) /\ forall i, `|im i 0| < t) \/
     (r = throw "wrongInput:inp_mat" /\ exists i, t <= `|im i 0|)).
Proof. exact: try_cplx_vec. Qed.
Print Assumptions C27_complex_vector.

Theorem C27_complex_scalar :
  forall (R : rcfType) (t : R) re im, 0 < t ->
  try_treat_as_real (CplxScal re (Fin im)) (PReal (Fin t)) =
  if im == 0 then Ok (CplxScal re (Fin im))
  else if `|im| < t then Ok (RealScal re) else throw "wrongInput:inp_mat".
Proof. exact: try_cplx_scal. Qed.
Print Assumptions C27_complex_scalar.

Theorem C27_bad_tol_raises :
  forall (R : rcfType) inp (t : R), t <= 0 ->
  try_treat_as_real inp (PReal (Fin t)) = throw "wrongInput:tol_val".
Proof. by move=> R inp t t0; apply: try_badtol; rewrite /xgt /= -leNgt. Qed.
Print Assumptions C27_bad_tol_raises.

(** FALSE when the imaginary part is exactly zero: the result is still complex. *)
Theorem C27_zero_imaginary_part_refuted :
  forall (R : rcfType) (t : R) (re : 'cV[R]_2), 0 < t ->
  try_treat_as_real (CplxArr (vec re) (vec (0 : 'cV[R]_2))) (PReal (Fin t)) =
  Ok (CplxArr (vec re) (vec (0 : 'cV[R]_2))).
Proof. by move=> R t re t0; apply: try_cplx_zero; rewrite // all_zero_vec. Qed.
Print Assumptions C27_zero_imaginary_part_refuted.

Example C27_nonvacuous : forall R : rcfType, (1%:M : 'M[R]_2) != 0 /\ (const_mx 1 : 'cV[R]_2) != 0.
Proof.
move=> R; split; apply/eqP => /matrixP/(_ 0 0); rewrite !mxE => /eqP; by rewrite oner_eq0.
Qed.

(** ------------------------------------------------------------------ C28 *)
Theorem C28_mat_orth :
  forall (R : rcfType) (la : linalg R) m n (M : 'M[R]_(m, n)), qr_complete_ok la ->
  (0 < m)%N -> (0 < n)%N ->
  exists (O : 'M_m) (T : 'M_(m, n)),
    [/\ mat_orth la (mat M) = Ok (mat O), orthog O, M = O *m T, uppertri T &
        forall (i : 'I_m) (j : 'I_n), i = j :> nat -> 0 <= T i j].
Proof. exact: mat_orth_spec. Qed.
Print Assumptions C28_mat_orth.

Theorem C28_math_orth_col :
  forall (R : rcfType) (la : linalg R) n k (M : 'M[R]_(n + k, n)), qr_complete_ok la -> (0 < n)%N ->
  exists (O : 'M_(n + k, n)) (T : 'M_n),
    [/\ math_orth_col la (mat M) = Ok (mat O), orthocols O, M = O *m T, uppertri T &
        forall i, 0 <= T i i].
Proof. exact: math_orth_col_spec. Qed.
Print Assumptions C28_math_orth_col.

Theorem C28_ml_orth_transl :
  forall (R : rcfType) n k p (S : 'M[R]_(n, k)) (D : 'I_p -> 'M[R]_(n, k)) (src dst : arr (xnum R)),
  np_reshape [:: n; k] src = Ok (mat S) -> np_reshape [:: n; k; p] dst = Ok (slices D) ->
  shape dst = [:: n; k; p] \/ (shape dst = [:: n; k] /\ p = 1%N) \/
    (shape dst = [:: n] /\ k = 1%N /\ p = 1%N) ->
  (forall v, col v S != 0) -> (forall v l, col v (D l) != 0) ->
  exists2 o, ml_orth_transl src dst = Ok o & shape o = [:: n; n; p; k] /\
    forall v l, exists2 O, orth_transl (RealArr (mat (col v S))) (RealArr (mat (col v (D l)))) = Ok (mat O) &
      forall i j : 'I_n, getn NaN o [:: val i; val j; val l; val v] = Fin (O i j).
Proof. exact: ml_run. Qed.
Print Assumptions C28_ml_orth_transl.

Example C28_nonvacuous : forall R : rcfType, let S : 'M[R]_2 := 1%:M in
  [/\ np_reshape [:: 2%N; 2%N] (mat S) = Ok (mat S),
      np_reshape [:: 2%N; 2%N; 1%N] (slices (fun _ : 'I_1 => S)) = Ok (slices (fun _ : 'I_1 => S)) &
      forall v, col v S != 0].
Proof.
move=> R S; split=> // v; rewrite -sqn_gt0 /sqn.
have /orthocolsP -> : orthocols S by rewrite /orthocols trmx1 mul1mx.
by rewrite eqxx ltr01.
Qed.
