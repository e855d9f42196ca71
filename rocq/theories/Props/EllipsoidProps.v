(** C48, C57, C32 (volume), C58 and C59 (ellipsoids): elltool/core/ellipsoid, elltool/core/aellipsoid. *)
From mathcomp Require Import all_ssreflect all_algebra.
Require Import Coq.Strings.String.
From Verif.Model Require Import Py NP Linalg La EllGeom Ellipsoid.
From Verif.Spec Require Import MatSpec LinalgSpec EllSpec EllipsoidSpec.
From Verif.Proof Require Import NPLib MatLib LaBasic LinalgSat EllLib EllGeomProof EllipsoidProof EllScalProof EllScalEx.
Import Order.Theory GRing.Theory Num.Theory.
Local Open Scope ring_scope.

(** ------------------------------------------------------------------ C48 *)
(** Ellipsoid(c, Q): accepted exactly when Q is symmetric and semidefinite up to abs_tol; the object
    holds the given data, whatever layout the centre has *)
Theorem C48_constructor :
  forall (R : rcfType) (la : linalg R) cfg k p t, props_of cfg k p t ->
  forall n (c : 'cV[R]_n) ca (Q : 'M[R]_n), eigvalsh_ok la -> (0 < n)%N -> holds c ca ->
  (near_psd t Q -> mk_ell la cfg (CBoth (RealArr ca) (RealArr (mat Q))) k = Ok (Ell (vec c) (mat Q) p)) /\
  (~ near_psd t Q ->
   mk_ell la cfg (CBoth (RealArr ca) (RealArr (mat Q))) k = throw "wrongInput:shape_mat").
Proof. exact: ctor_run. Qed.
Print Assumptions C48_constructor.

(** ... for arbitrary arrays: what is accepted is a finite square matrix with a finite vector of its
    size *)
Theorem C48_sound :
  forall (R : rcfType) (la : linalg R) cfg k p t (ca qa : arr (xnum R)) e,
  props_of cfg k p t -> eigvalsh_ok la -> wf_arr ca -> wf_arr qa ->
  mk_ell la cfg (CBoth (RealArr ca) (RealArr qa)) k = Ok e ->
  exists n (c : 'cV[R]_n) (Q : 'M[R]_n),
    [/\ qa = mat Q, data ca = data (vec c), max_shape ca = Ok n, e = Ell (vec c) (mat Q) p &
        ((0 < n)%N -> near_psd t Q)].
Proof. exact: ctor_sound. Qed.
Print Assumptions C48_sound.

Theorem C48_valid_accepted :
  forall (R : rcfType) (la : linalg R) cfg k p t n (c : 'cV[R]_n) (Q : 'M[R]_n),
  eigvalsh_ok la -> props_of cfg k p t -> symm Q -> psd Q ->
  mk_ell la cfg (CBoth (RealArr (vec c)) (RealArr (mat Q))) k = Ok (Ell (vec c) (mat Q) p).
Proof. exact: mk_valid. Qed.
Print Assumptions C48_valid_accepted.

Theorem C48_one_argument :
  forall (R : rcfType) (la : linalg R) cfg k p t, props_of cfg k p t ->
  forall n (Q : 'M[R]_n), eigvalsh_ok la -> (0 < n)%N ->
  (near_psd t Q -> mk_ell la cfg (CShape (RealArr (mat Q))) k = Ok (Ell (vec (0 : 'cV_n)) (mat Q) p)) /\
  (~ near_psd t Q -> mk_ell la cfg (CShape (RealArr (mat Q))) k = throw "wrongInput:shape_mat").
Proof. exact: ctor1_run. Qed.
Print Assumptions C48_one_argument.

Theorem C48_no_argument :
  forall (R : rcfType) (la : linalg R) cfg k p t, props_of cfg k p t ->
  mk_ell la cfg (CNone R) k = Ok (Ell (vec (0 : 'cV[R]_0)) (mat (0 : 'M[R]_0)) p).
Proof. exact: ctor0_run. Qed.
Print Assumptions C48_no_argument.

Theorem C48_rejects_size_mismatch :
  forall (R : rcfType) (la : linalg R) cfg k p t m n (c : 'cV[R]_m) ca (Q : 'M[R]_n),
  props_of cfg k p t -> eigvalsh_ok la -> (0 < m)%N -> (0 < n)%N -> holds c ca -> near_psd t Q -> m != n ->
  mk_ell la cfg (CBoth (RealArr ca) (RealArr (mat Q))) k = throw "wrongInput".
Proof. exact: ctor_mismatch. Qed.
Print Assumptions C48_rejects_size_mismatch.

Theorem C48_rejects_nonsquare :
  forall (R : rcfType) (la : linalg R) cfg k p t (qa : arr (xnum R)), props_of cfg k p t ->
  (ndim qa != 2%N) || (dim qa 0 != dim qa 1) ->
  mk_ell la cfg (CShape (RealArr qa)) k = throw "wrongInput:shape_mat" /\
  forall n (c : 'cV[R]_n) ca, (0 < n)%N -> holds c ca ->
    mk_ell la cfg (CBoth (RealArr ca) (RealArr qa)) k = throw "wrongInput:shape_mat".
Proof. exact: ctor_nonsquare. Qed.
Print Assumptions C48_rejects_nonsquare.

Theorem C48_rejects_center :
  forall (R : rcfType) (la : linalg R) cfg k p t (ca : arr (xnum R)) q m,
  props_of cfg k p t -> max_shape ca = Ok m ->
  np_size ca <> m \/ ~~ all (@xis_fin R) (data ca) ->
  mk_ell la cfg (CBoth (RealArr ca) q) k = throw "wrongInput:center_vec".
Proof. exact: ctor_badcenter. Qed.
Print Assumptions C48_rejects_center.

Theorem C48_rejects_nonfinite_shape :
  forall (R : rcfType) (la : linalg R) cfg k p t (qa : arr (xnum R)) n (c : 'cV[R]_n) ca,
  props_of cfg k p t -> (0 < n)%N -> holds c ca -> (0 < np_size qa)%N -> ~~ all (@xis_fin R) (data qa) ->
  mk_ell la cfg (CBoth (RealArr ca) (RealArr qa)) k = throw "wrongInput:shape_mat".
Proof. exact: ctor_nonfinite. Qed.
Print Assumptions C48_rejects_nonfinite_shape.

Theorem C48_rejects_tolerance :
  forall (R : rcfType) (la : linalg R) cfg k args,
  ~~ xgt (odflt (p_abs cfg) (k_abs k)) x0 \/ ~~ xgt (odflt (p_rel cfg) (k_rel k)) x0 ->
  mk_ell la cfg args k = throw "wrongInput".
Proof. exact: ctor_badtol. Qed.
Print Assumptions C48_rejects_tolerance.

(** a complex matrix: an imaginary part with row sums below abs_tol is dropped, a larger one rejected *)
Theorem C48_complex :
  forall (R : rcfType) (la : linalg R) cfg k p t n (re im : 'M[R]_n), props_of cfg k p t -> (0 < n)%N ->
  ((forall i, \sum_j `|im i j| < t) ->
   mk_ell la cfg (CShape (CplxArr (mat re) (mat im))) k = mk_ell la cfg (CShape (RealArr (mat re))) k) /\
  (forall i, t <= \sum_j `|im i j| ->
   mk_ell la cfg (CShape (CplxArr (mat re) (mat im))) k = throw "wrongInput:inp_mat").
Proof. exact: ctor_cplx. Qed.
Print Assumptions C48_complex.

(** ell_unitball(n) is the unit ball *)
Theorem C48_unitball :
  forall (R : rcfType) (la : linalg R) cfg p t n, eigvalsh_ok la -> props_of cfg (no_kw R) p t -> (0 < n)%N ->
  exists2 e, ell_unitball la cfg n = Ok e &
    exists2 c : 'cV[R]_n, exists2 Q, repr e c Q t & forall x, in_ell c Q x <-> sqn x <= 1 & c = 0.
Proof. exact: unitball_set. Qed.
Print Assumptions C48_unitball.

(** the tolerance admits matrices that are not semidefinite: [[-t]] is a shape, and no point
    belongs to the set it describes *)
Theorem C48_indefinite_accepted :
  forall (R : rcfType) (la : linalg R) cfg k p t, eigvalsh_ok la -> props_of cfg k p t ->
  let Q : 'M[R]_1 := (- t)%:M in
  mk_ell la cfg (CShape (RealArr (mat Q))) k = Ok (Ell (vec (0 : 'cV_1)) (mat Q) p) /\
  forall x, ~ in_ell 0 Q x.
Proof. exact: ctor_indefinite. Qed.
Print Assumptions C48_indefinite_accepted.

Example C48_nonvacuous : forall R : rcfType,
  let cfg := Props (Fin (10%:R ^- 7)) (Fin (10%:R ^- 5)) 200 200 : props R in
  [/\ props_of cfg (no_kw R) cfg (10%:R ^- 7),
      near_psd (10%:R ^- 7) (\matrix_(i < 2, j < 2) (if i == j then 2%:R else 1) : 'M[R]_2) &
      ~ near_psd (10%:R ^- 7) (\matrix_(i < 2, j < 2) (if i == j then 1 else 2%:R) : 'M[R]_2)].
Proof. exact: ctor_examples. Qed.

(** ------------------------------------------------------------------ C57 *)
Theorem C57_dimension :
  forall (R : rcfType) s (es : seq (ell R)), List.Forall (@good R) es ->
  exists2 ds, dimension (Arr s es) = Arr s ds & results (fun n _ _ _ d => d = n) es ds.
Proof. exact: dimension_run. Qed.
Print Assumptions C57_dimension.

(** the reported rank never exceeds the rank, and is n for well-conditioned shapes *)
Theorem C57_rank :
  forall (R : rcfType) (la : linalg R) s (es : seq (ell R)), List.Forall (@good R) es -> svdvals_ok la ->
  (0 < size es)%N ->
  exists ds rs, [/\ dimension_rank la (Arr s es) = Ok (Arr s ds, Arr s rs),
    results (fun n _ _ _ d => d = n) es ds &
    results (fun n _ Q _ r => (r <= \rank Q)%N /\ (wellcond Q -> r = n)) es rs].
Proof. exact: dimension_rank_run. Qed.
Print Assumptions C57_rank.

Theorem C57_is_degenerate :
  forall (R : rcfType) (la : linalg R) s (es : seq (ell R)), List.Forall (@good R) es -> eigvalsh_ok la ->
  exists2 bs, is_degenerate la (Arr s es) = Ok (Arr s bs) &
    results (fun n _ Q t b => b = false <-> forall x, x != 0 -> t * sqn x < qf Q x) es bs.
Proof. exact: is_degenerate_run. Qed.
Print Assumptions C57_is_degenerate.

(** rank-deficient ellipsoids are always found degenerate *)
Theorem C57_rank_deficient_is_degenerate :
  forall (R : rcfType) (la : linalg R) s (es : seq (ell R)), List.Forall (@good R) es -> eigvalsh_ok la ->
  exists2 bs, is_degenerate la (Arr s es) = Ok (Arr s bs) &
    results (fun n _ Q _ b => (\rank Q < n)%N -> b = true) es bs.
Proof. exact: is_degenerate_rank. Qed.
Print Assumptions C57_rank_deficient_is_degenerate.

(** false of the code: the converse; a one-dimensional shape of full rank *)
Theorem C57_degenerate_is_rank_deficient_refuted :
  forall (R : rcfType) (la : linalg R) e (t : R), eigvalsh_ok la -> repr e (0 : 'cV_1) (t%:M : 'M[R]_1) t ->
  is_degenerate la (Arr [:: 1%N] [:: e]) = Ok (Arr [:: 1%N] [:: true]) /\ \rank (t%:M : 'M[R]_1) = 1%N.
Proof. exact: degenerate_full_rank. Qed.
Print Assumptions C57_degenerate_is_rank_deficient_refuted.

Theorem C57_min_eig :
  forall (R : rcfType) (la : linalg R) s (es : seq (ell R)), List.Forall (@good R) es -> eigvalsh_ok la ->
  exists2 ms, min_eig la (Arr s es) = Ok (Arr [:: size es] ms) &
    results (fun n _ Q _ m => exists2 r, m = Fin r & ray_min Q r) es ms.
Proof. exact: min_eig_run. Qed.
Print Assumptions C57_min_eig.

Theorem C57_max_eig :
  forall (R : rcfType) (la : linalg R) s (es : seq (ell R)), List.Forall (@good R) es -> eigvalsh_ok la ->
  exists2 ms, max_eig la (Arr s es) = Ok (Arr [:: size es] ms) &
    results (fun n _ Q _ m => exists2 r, m = Fin r & ray_max Q r) es ms.
Proof. exact: max_eig_run. Qed.
Print Assumptions C57_max_eig.

Theorem C57_trace :
  forall (R : rcfType) s (es : seq (ell R)), List.Forall (@good R) es ->
  exists2 ms, trace (Arr s es) = Ok (Arr [:: size es] ms) &
    results (fun n _ Q _ m => exists2 r, m = Fin r & forall d V, eigdec Q d V -> r = \sum_i d i 0) es ms.
Proof. exact: trace_run. Qed.
Print Assumptions C57_trace.

Theorem C57_empty_raises :
  forall (R : rcfType) (la : linalg R) (vf : volfun R) (a : arr (ell R)),
  has (fun e => np_size (e_center e) == 0%N) (data a) ->
  [/\ is_degenerate la a = throw "wrongInput:emptyEllipsoid", volume la vf a = throw "wrongInput:emptyEllipsoid",
      min_eig la a = throw "wrongInput:emptyEllipsoid" , max_eig la a = throw "wrongInput:emptyEllipsoid" &
      trace a = throw "wrongInput:emptyEllipsoid"].
Proof. exact: empty_rejected. Qed.
Print Assumptions C57_empty_raises.

(** dimension of an empty array: fine without the rank, an error with it *)
Theorem C57_empty_array :
  forall (R : rcfType) (la : linalg R), let a : arr (ell R) := Arr [:: 0%N] [::] in
  dimension a = Arr [:: 0%N] [::] /\ dimension_rank la a = ValueError.
Proof. by []. Qed.
Print Assumptions C57_empty_array.

Example C57_nonvacuous : forall R : rcfType,
  let p := Props (Fin (10%:R ^- 7)) (Fin (10%:R ^- 5)) 200 200 : props R in
  [/\ List.Forall (@good R) [:: Ell (vec (0 : 'cV[R]_2)) (mat (1%:M : 'M[R]_2)) p; Ell (vec (0 : 'cV[R]_1)) (mat (0 : 'M[R]_1)) p],
      wellcond (1%:M : 'M[R]_2), symm (1%:M : 'M[R]_2), psd (1%:M : 'M[R]_2) &
      forall x : 'cV[R]_2, x != 0 -> 10%:R ^- 7 * sqn x < qf 1%:M x].
Proof. exact: scal_examples. Qed.

(** ------------------------------------------------------------------ C32 *)
Theorem C32_volume :
  forall (R : rcfType) (la : linalg R) (vf : volfun R) pi s (es : seq (ell R)), List.Forall (@good R) es ->
  eigvalsh_ok la -> det_ok la -> volfun_ok vf pi ->
  exists2 vs, volume la vf (Arr s es) = Ok vs &
    results (fun n _ Q t v =>
      ((forall x, x != 0 -> t * sqn x < qf Q x) -> v = VolNum (Fin (ball_vol pi n * Num.sqrt (\det Q)))) /\
      (~ (forall x, x != 0 -> t * sqn x < qf Q x) -> v = VolArr0 R)) es vs.
Proof. exact: volume_run. Qed.
Print Assumptions C32_volume.

(** ... so it agrees with ell_volume, except for non-degenerate shapes with a semiaxis of squared
    length below abs_tol, whose volume is given as 0 *)
Theorem C32_volume_agrees :
  forall (R : rcfType) (la : linalg R) (vf : volfun R) pi s (es : seq (ell R)), List.Forall (@good R) es ->
  eigvalsh_ok la -> det_ok la -> volfun_ok vf pi ->
  exists2 vs, volume la vf (Arr s es) = Ok vs &
    results (fun n _ Q t v => (forall x, x != 0 -> t * sqn x < qf Q x) \/ ~ posdef Q ->
      ell_volume la vf (mat Q) = Ok (vol_value v)) es vs.
Proof. exact: volume_agrees. Qed.
Print Assumptions C32_volume_agrees.

Theorem C32_volume_agrees_always_refuted :
  forall (R : rcfType) (la : linalg R) (vf : volfun R) pi e (t : R), eigvalsh_ok la -> det_ok la -> volfun_ok vf pi ->
  repr e (0 : 'cV_1) (t%:M : 'M[R]_1) t ->
  volume la vf (Arr [:: 1%N] [:: e]) = Ok [:: VolArr0 R] /\
  exists2 v, ell_volume la vf (mat (t%:M : 'M[R]_1)) = Ok (Fin v) & 0 < v.
Proof. exact: volume_disagrees. Qed.
Print Assumptions C32_volume_agrees_always_refuted.

(** ------------------------------------------------------------------ C58 *)
Theorem C58_uminus :
  forall (R : rcfType) (la : linalg R) cfg p t s (es : seq (ell R)), eigvalsh_ok la ->
  props_of cfg (no_kw R) p t -> List.Forall (@valid R) es ->
  exists2 rs, uminus la cfg (Arr s es) = Ok (Arr s rs) &
    [/\ results (fun n c Q _ r => repr r (- c) Q t) es rs, List.Forall (@valid R) rs &
        List.Forall (fun r => e_props r = p) rs].
Proof. exact: uminus_run. Qed.
Print Assumptions C58_uminus.

(** as sets *)
Theorem C58_reflection :
  forall (R : rcfType) n (c : 'cV[R]_n) Q x, in_ell (- c) Q (- x) <-> in_ell c Q x.
Proof. exact: in_ell_opp. Qed.
Print Assumptions C58_reflection.

(** twice: the same centres and shapes; the tolerances become the configured ones *)
Theorem C58_uminus_twice :
  forall (R : rcfType) (la : linalg R) cfg p t s (es : seq (ell R)), eigvalsh_ok la ->
  props_of cfg (no_kw R) p t -> List.Forall (@valid R) es ->
  (let* r := uminus la cfg (Arr s es) in uminus la cfg r) =
  Ok (Arr s [seq Ell (e_center e) (e_shape e) p | e <- es]).
Proof. exact: uminus_twice. Qed.
Print Assumptions C58_uminus_twice.

(** false of the code: that uminus keeps the tolerances *)
Theorem C58_uminus_keeps_tolerance_refuted :
  forall (R : rcfType) (la : linalg R) cfg p t e, eigvalsh_ok la -> props_of cfg (no_kw R) p t -> valid e ->
  p_abs (e_props e) <> Fin t ->
  exists2 r, uminus la cfg (Arr [::] [:: e]) = Ok (Arr [::] [:: r]) & p_abs (e_props r) <> p_abs (e_props e).
Proof. exact: uminus_tolerance. Qed.
Print Assumptions C58_uminus_keeps_tolerance_refuted.

(** ------------------------------------------------------------------ C59 *)
Theorem C59_ellipsoid_roundtrip :
  forall (R : rcfType) (la : linalg R) cfg s (es : seq (ell R)), eigvalsh_ok la -> List.Forall (@valid R) es ->
  from_dict la cfg (to_dict (Arr s es) true) = Ok (Arr s es).
Proof. exact: dict_roundtrip. Qed.
Print Assumptions C59_ellipsoid_roundtrip.

(** without the properties the configured ones are taken *)
Theorem C59_ellipsoid_roundtrip_no_props :
  forall (R : rcfType) (la : linalg R) cfg p t s (es : seq (ell R)), eigvalsh_ok la ->
  props_of cfg (no_kw R) p t -> List.Forall (@valid R) es ->
  from_dict la cfg (to_dict (Arr s es) false) =
  Ok (Arr s [seq Ell (e_center e) (e_shape e) p | e <- es]).
Proof. exact: dict_noprops. Qed.
Print Assumptions C59_ellipsoid_roundtrip_no_props.

(** an empty ellipsoid and one with its own tolerances *)
Example C59_nonvacuous : forall R : rcfType,
  let p := Props (Fin (10%:R ^- 3)) (Fin (10%:R ^- 5)) 20 30 : props R in
  List.Forall (@valid R) [:: Ell (vec (const_mx 1 : 'cV[R]_2)) (mat (1%:M : 'M[R]_2)) p; Ell (vec (0 : 'cV[R]_0)) (mat (0 : 'M[R]_0)) p].
Proof. exact: dict_examples. Qed.
