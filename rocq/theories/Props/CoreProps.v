(** C63 and C54: elltool/core/core.py and Ellipsoid.is_bigger. *)
From mathcomp Require Import all_ssreflect all_algebra.
Require Import Coq.Strings.String.
From Verif.Model Require Import Py NP Linalg La Core EllGeom Ellipsoid.
From Verif.Spec Require Import MatSpec LinalgSpec EllSpec EllipsoidSpec.
From Verif.Proof Require Import NPLib MatLib LaBasic LinalgSat EllLib EllGeomProof EllipsoidProof EllScalProof EllScalEx CoreProof CoreEx.
Import Order.Theory GRing.Theory Num.Theory.
Local Open Scope ring_scope.

(** ------------------------------------------------------------------ C63 *)
(** ell_sim_diag(P, B): T P T^T = I always; T B T^T is diagonal unless l and -l are both generalised
    eigenvalues of B for some l <> 0 *)
Theorem C63_sim_diag :
  forall (R : rcfType) (la : linalg R) n (P B : 'M[R]_n) t,
  eigvalsh_ok la -> eigh_ok la -> svd_ok la -> lstsq_ok la ->
  (0 < n)%N -> 0 <= t -> symm P -> (forall x, x != 0 -> t * sqn x < qf P x) -> symm B ->
  exists T : 'M[R]_n, [/\ ell_sim_diag la (mat P) (mat B) (Fin t) = Ok (mat T), T *m P *m T^T = 1%:M &
    (forall (l : R) (w1 w2 : 'cV[R]_n), l != 0 -> w1 != 0 -> w2 != 0 ->
       B *m w1 = l *: (P *m w1) -> B *m w2 = - l *: (P *m w2) -> False) ->
    forall i j, i != j -> (T *m B *m T^T) i j = 0].
Proof. exact: sim_diag_run. Qed.
Print Assumptions C63_sim_diag.

Theorem C63_sim_diag_psd :
  forall (R : rcfType) (la : linalg R) n (P B : 'M[R]_n) t,
  eigvalsh_ok la -> eigh_ok la -> svd_ok la -> lstsq_ok la ->
  (0 < n)%N -> 0 <= t -> symm P -> (forall x, x != 0 -> t * sqn x < qf P x) -> symm B -> psd B ->
  exists (T : 'M[R]_n) (d : 'cV[R]_n), [/\ ell_sim_diag la (mat P) (mat B) (Fin t) = Ok (mat T),
    T *m P *m T^T = 1%:M, T *m B *m T^T = diagv d & forall i, 0 <= d i 0].
Proof. exact: sim_diag_psd. Qed.
Print Assumptions C63_sim_diag_psd.

Example C63_sim_diag_example (R : rcfType) :
  [/\ 0 <= 10%:R ^- 7 :> R, symm (1%:M : 'M[R]_2),
      (forall x : 'cV[R]_2, x != 0 -> 10%:R ^- 7 * sqn x < qf 1%:M x), symm (thin R) & psd (thin R)].
Proof.
split; [exact/ltW/ten7|exact: scal_symm| |exact: tr_diagv|].
  by move=> x x0; rewrite qf_scal ltr_pmul2r ?sqn_gt0 // ten7_1.
by move=> x; apply: le_trans (thin_ge x); exact: sqn_ge0.
Qed.

Theorem C63_sim_diag_rejects_a :
  forall (R : rcfType) (la : linalg R) n (P : 'M[R]_n) b t, eigvalsh_ok la -> (0 < n)%N -> 0 <= t -> symm P ->
  ~ (forall x, x != 0 -> t * sqn x < qf P x) ->
  ell_sim_diag la (mat P) b (Fin t) = throw "wrongInput:a_mat".
Proof. exact: sim_diag_notpd. Qed.
Print Assumptions C63_sim_diag_rejects_a.

Theorem C63_sim_diag_rejects_b :
  forall (R : rcfType) (la : linalg R) n (P B : 'M[R]_n) t, eigvalsh_ok la -> (0 < n)%N -> 0 <= t -> symm P ->
  (forall x, x != 0 -> t * sqn x < qf P x) -> ~ symm B ->
  ell_sim_diag la (mat P) (mat B) (Fin t) = throw "wrongInput:b_mat".
Proof. exact: sim_diag_notsym. Qed.
Print Assumptions C63_sim_diag_rejects_b.

Theorem C63_sim_diag_rejects_sizes :
  forall (R : rcfType) (la : linalg R) m n (P : 'M[R]_n) (B : 'M[R]_m) t,
  eigvalsh_ok la -> (0 < n)%N -> 0 <= t -> symm P ->
  (forall x, x != 0 -> t * sqn x < qf P x) -> symm B -> m != n ->
  ell_sim_diag la (mat P) (mat B) (Fin t) = throw "wrongInput".
Proof. exact: sim_diag_dims. Qed.
Print Assumptions C63_sim_diag_rejects_sizes.

(** For an indefinite B the documented result fails: with A = I and B = [[0, 1], [1, 0]] a correct SVD
    routine may return the left factor I, and T = I leaves B as it is *)
Theorem C63_sim_diag_indefinite_refuted :
  forall R : rcfType, exists la : linalg R, linalg_ok la /\
  exists (A B T : 'M[R]_2) i j,
    [/\ posdef A, symm A, symm B, ell_sim_diag la (mat A) (mat B) (Fin (10%:R ^- 7)) = Ok (mat T) &
        i != j /\ (T *m B *m T^T) i j != 0].
Proof. exact: sim_diag_indefinite. Qed.
Print Assumptions C63_sim_diag_indefinite_refuted.

(** ell_valign(v, x): orthogonal, takes the direction of x to the direction of v *)
Theorem C63_valign :
  forall (R : rcfType) (la : linalg R) n (v x : 'cV[R]_n) va xa,
  svd_ok la -> (1 < n)%N -> holds v va -> holds x xa ->
  exists T : 'M[R]_n, [/\ ell_valign la va xa = Ok (mat T), orthog T & len v *: (T *m x) = len x *: v].
Proof. exact: valign_run. Qed.
Print Assumptions C63_valign.

Example C63_valign_example (R : rcfType) : exists (v x : 'cV[R]_2),
  holds v (mat v) /\ holds x (vec x) /\ v != x.
Proof.
exists (const_mx 1), (delta_mx 0 0); split; [exact: HoldsCol|split; first exact: HoldsVec].
by apply/eqP => /matrixP/(_ 1 0); rewrite !mxE /= => /eqP; rewrite oner_eq0.
Qed.

(** ... except for vectors with one coordinate, which raise IndexError *)
Theorem C63_valign_scalar_refuted :
  forall (R : rcfType) (la : linalg R) (v x : 'cV[R]_1) va xa,
  holds v va -> holds x xa -> ell_valign la va xa = IndexError.
Proof. exact: valign_one. Qed.
Print Assumptions C63_valign_scalar_refuted.

(** ------------------------------------------------------------------ C54 *)
(** what is_bigger decides, for a non-degenerate first shape whose condition number does not exceed the
    rank threshold of numpy *)
Theorem C54_is_bigger :
  forall (R : rcfType) (la : linalg R) e1 e2 n (c1 c2 : 'cV[R]_n) (Q1 Q2 : 'M[R]_n) t1 t2,
  linalg_ok la -> (0 < n)%N -> repr e1 c1 Q1 t1 -> repr e2 c2 Q2 t2 ->
  (forall x, x != 0 -> t1 * sqn x < qf Q1 x) -> wellcond Q1 ->
  exists2 b, is_bigger la e1 e2 = Ok b & (b <-> forall x, x != 0 -> qf Q2 x < (1 + t1) * qf Q1 x).
Proof. exact: is_bigger_run. Qed.
Print Assumptions C54_is_bigger.

(** containment gives True, and True gives containment in E1 enlarged by sqrt(1 + abs_tol) *)
Theorem C54_containment :
  forall (R : rcfType) (la : linalg R) e1 e2 n (c1 c2 : 'cV[R]_n) (Q1 Q2 : 'M[R]_n) t1 t2,
  linalg_ok la -> (0 < n)%N -> repr e1 c1 Q1 t1 -> repr e2 c2 Q2 t2 ->
  (forall x, x != 0 -> t1 * sqn x < qf Q1 x) -> wellcond Q1 ->
  exists2 b, is_bigger la e1 e2 = Ok b &
    ((forall x, in_ell 0 Q2 x -> in_ell 0 Q1 x) -> b = true) /\
    (b = true -> forall x, in_ell 0 Q2 x -> in_ell 0 ((1 + t1) *: Q1) x).
Proof. exact: is_bigger_contains. Qed.
Print Assumptions C54_containment.

Example C54_example (R : rcfType) :
  let p := Props (Fin (10%:R ^- 7)) (Fin (10%:R ^- 5)) 200 200 : props R in
  [/\ repr (Ell (vec (const_mx 3%:R : 'cV[R]_2)) (mat (1%:M : 'M[R]_2)) p) (const_mx 3%:R : 'cV[R]_2) 1%:M (10%:R ^- 7),
      repr (Ell (vec (0 : 'cV[R]_2)) (mat (2%:R%:M : 'M[R]_2)) p) 0 (2%:R%:M : 'M[R]_2) (10%:R ^- 7),
      wellcond (1%:M : 'M[R]_2) & forall x : 'cV[R]_2, x != 0 -> 10%:R ^- 7 * sqn x < qf 1%:M x].
Proof.
move=> p; have Hp : exists2 r : R, p_rel p = Fin r & 0 < r by exists (10%:R ^- 5) => //; exact: ten5.
split; [| |exact: eye_wellcond|].
- by split; split=> //; [exact: ten7|exact: scal_symm|exact/scal_psd/ler01].
- by split; split=> //; [exact: ten7|exact: scal_symm|exact/scal_psd/ler0n].
by move=> x x0; rewrite qf_scal ltr_pmul2r ?sqn_gt0 // ten7_1.
Qed.

Theorem C54_dimension_mismatch :
  forall (R : rcfType) (la : linalg R) e1 e2 n m (c1 : 'cV[R]_n) (c2 : 'cV[R]_m) Q1 Q2 t1 t2,
  svdvals_ok la -> (0 < n)%N -> (0 < m)%N -> repr e1 c1 Q1 t1 -> repr e2 c2 Q2 t2 -> n != m ->
  is_bigger la e1 e2 = throw "wrongInput".
Proof. exact: is_bigger_dims. Qed.
Print Assumptions C54_dimension_mismatch.

(** Without the bound on the condition number the property is false of the code: an ellipsoid with the
    squared semiaxes 2^53 and 1 contains the unit ball, is_bigger says False *)
Theorem C54_containment_refuted :
  forall (R : rcfType) (la : linalg R), svdvals_ok la ->
  let thin : 'M[R]_2 := diagv (\col_i (if i == 0 then 2%:R ^+ 53 else 1)) in
  let p := Props (Fin (10%:R ^- 7)) (Fin (10%:R ^- 5)) 200 200 : props R in
  let e1 := Ell (vec (0 : 'cV[R]_2)) (mat thin) p in
  let e2 := Ell (vec (0 : 'cV[R]_2)) (mat (1%:M : 'M[R]_2)) p in
  [/\ repr e1 0 thin (10%:R ^- 7), repr e2 0 (1%:M : 'M[R]_2) (10%:R ^- 7),
      (forall x, x != 0 -> 10%:R ^- 7 * sqn x < qf thin x) /\
      (forall x, in_ell 0 (1%:M : 'M[R]_2) x -> in_ell 0 thin x) &
      is_bigger la e1 e2 = Ok false].
Proof. exact: is_bigger_thin. Qed.
Print Assumptions C54_containment_refuted.
