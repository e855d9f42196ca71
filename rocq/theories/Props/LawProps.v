(** C80: laws relating Ellipsoid.rho to the other operations.
    [rho_is e l s p]: Ellipsoid.rho([e], l) returns the number s and the point p;
    [rhos_are es l v]: Ellipsoid.rho(es, l) returns the numbers v. *)
From mathcomp Require Import all_ssreflect all_algebra.
Require Import Coq.Strings.String.
From Verif.Model Require Import Py NP Linalg La Ellipsoid EllHeap.
From Verif.Spec Require Import MatSpec LinalgSpec EllSpec EllipsoidSpec EllHeapSpec RhoSpec LawSpec.
From Verif.Proof Require Import LinalgSat OpsEx LawProof LawEx.
Import Order.Theory GRing.Theory Num.Theory.
Local Open Scope ring_scope.

(** positively homogeneous and subadditive in the direction *)
Theorem C80_sublinear :
  forall (R : rcfType) n e (c l l' : 'cV[R]_n) Q t a, (0 < n)%N -> repr e c Q t -> 0 <= a ->
  exists s s' r p p', [/\ rho_is e l s p, rho_is e l' s' p', (exists q, rho_is e (a *: l) (a * s) q),
    (exists q, rho_is e (l + l') r q) & r <= s + s'].
Proof. exact: law_linear. Qed.
Print Assumptions C80_sublinear.

(** rho(-e, l) = rho(e, -l) *)
Theorem C80_uminus :
  forall (R : rcfType) (la : linalg R) cfg p t0 n e (c l : 'cV[R]_n) Q t,
  eigvalsh_ok la -> props_of cfg (no_kw R) p t0 -> (0 < n)%N -> repr e c Q t ->
  exists r s q q', [/\ uminus la cfg (Arr [::] [:: e]) = Ok (Arr [::] [:: r]), rho_is r l s q & rho_is e (- l) s q'].
Proof. exact: law_uminus. Qed.
Print Assumptions C80_uminus.

(** is_internal finds the point returned by rho inside *)
Theorem C80_inside :
  forall (R : rcfType) (la : linalg R) n e (c l p : 'cV[R]_n) Q t s,
  eigvalsh_ok la -> eig_ok la -> inv_ok la -> (0 < n)%N -> repr e c Q t -> rho_is e l s p ->
  is_internal la (Arr [:: 1%N; 1%N] [:: e]) (mat p) (Some "u"%string) = Ok (Arr [:: 1%N; 1%N] [:: true]).
Proof. exact: law_inside. Qed.
Print Assumptions C80_inside.

(** x is in the ellipsoid iff rho(polar(e), x) <= 1 *)
Theorem C80_polar :
  forall (R : rcfType) (la : linalg R) cfg p t0 e n (c : 'cV[R]_n) Q t,
  inv_ok la -> lstsq_ok la -> eigvalsh_ok la ->
  (0 < n)%N -> repr e c Q t -> (forall x, x != 0 -> t * sqn x < qf Q x) ->
  origin_inside (in_ell c Q) -> props_of cfg (no_kw R) p t0 ->
  exists2 e', polar la cfg (Arr [:: 1%N] [:: e]) = Ok (Arr [:: 1%N] [:: e']) &
  forall x : 'cV[R]_n, exists s q, rho_is e' x s q /\ (s <= 1 <-> in_ell c Q x).
Proof. exact: law_polar. Qed.
Print Assumptions C80_polar.

(** the sum of the support values is at most that of minksum_ea, and equal in the direction it was made for *)
Theorem C80_minksum_ea :
  forall (R : rcfType) (la : linalg R) cfg p t0 n k es (c : 'I_k -> 'cV[R]_n) Q t (l : 'cV[R]_n),
  eigvalsh_ok la -> eig_ok la -> (0 < n)%N -> (1 < k)%N -> family es c Q t -> props_of cfg (no_kw R) p t0 -> l != 0 ->
  exists2 r, minksum_ea la cfg es (vec l) = Ok (Arr [:: 1%N] [:: r]) &
  forall d : 'cV[R]_n, exists (v : 'I_k -> R) s q, [/\ rhos_are es d v, rho_is r d s q, \sum_j v j <= s &
    (forall j x, x != 0 -> t j * sqn x < qf (Q j) x) -> d = l -> \sum_j v j = s].
Proof. exact: law_sum. Qed.
Print Assumptions C80_minksum_ea.

(** ... and at least that of minksum_ia *)
Theorem C80_minksum_ia :
  forall (R : rcfType) (la : linalg R) cfg p t0 n k es (c : 'I_k.+2 -> 'cV[R]_n) Q t (l : 'cV[R]_n),
  eigvalsh_ok la -> eig_ok la -> eigh_ok la ->
  (0 < n)%N -> family es c Q t -> props_of cfg (no_kw R) p t0 -> l != 0 ->
  (forall j x, x != 0 -> t j * sqn x < qf (Q j) x) -> (forall j, clear_roots (Q j) (Q ord0) l) ->
  exists2 r, minksum_ia la cfg es (vec l) = Ok (Arr [:: 1%N] [:: r]) &
  forall d : 'cV[R]_n, exists (v : 'I_k.+2 -> R) s q, [/\ rhos_are es d v, rho_is r d s q, s <= \sum_j v j &
    d = l -> s = \sum_j v j].
Proof. exact: law_sum_ia. Qed.
Print Assumptions C80_minksum_ia.

(** rho(get_projection(e, B), l) = rho(e, B l) for orthonormal B *)
Theorem C80_projection :
  forall (R : rcfType) (la : linalg R) cfg n k (B : 'M[R]_(n, k)) h a es,
  eigvalsh_ok la -> objs h (data a) es -> all_dim n es -> (0 < size es)%N -> (0 < k <= n)%N -> orthocols B ->
  exists h' b es', [/\ get_projection la cfg a (mat B) h = (h', Ok b), objs h' (data b) es', preserved h h' &
    List.Forall2 (fun e e' => forall l : 'cV[R]_k, exists s q q', rho_is e' l s q /\ rho_is e (B *m l) s q') es es'].
Proof. exact: law_projection. Qed.
Print Assumptions C80_projection.

(** is_bigger compares the half-widths: True if they are not larger in any direction, and True means not
    larger up to the factor sqrt(1 + abs_tol) *)
Theorem C80_is_bigger :
  forall (R : rcfType) (la : linalg R) e1 e2 n (c1 c2 : 'cV[R]_n) (Q1 Q2 : 'M[R]_n) t1 t2,
  linalg_ok la -> (0 < n)%N -> repr e1 c1 Q1 t1 -> repr e2 c2 Q2 t2 ->
  (forall x, x != 0 -> t1 * sqn x < qf Q1 x) -> wellcond Q1 ->
  exists2 b, is_bigger la e1 e2 = Ok b &
  ((forall (l : 'cV[R]_n) s1 p1 s2 p2, rho_is e1 l s1 p1 -> rho_is e2 l s2 p2 -> s2 - dotv l c2 <= s1 - dotv l c1) -> b) /\
  (b -> forall (l : 'cV[R]_n) s1 p1 s2 p2, rho_is e1 l s1 p1 -> rho_is e2 l s2 p2 ->
    s2 - dotv l c2 <= Num.sqrt (1 + t1) * (s1 - dotv l c1)).
Proof. exact: law_bigger. Qed.
Print Assumptions C80_is_bigger.

(** min_eig and max_eig bound the squared half-widths, and trace is the sum of those along the axes *)
Theorem C80_eigenvalues :
  forall (R : rcfType) (la : linalg R) n e (c : 'cV[R]_n) Q t, eigvalsh_ok la -> (0 < n)%N -> repr e c Q t ->
  exists a b d, [/\ min_eig la (Arr [:: 1%N] [:: e]) = Ok (Arr [:: 1%N] [:: Fin a]),
    max_eig la (Arr [:: 1%N] [:: e]) = Ok (Arr [:: 1%N] [:: Fin b]),
    trace (Arr [:: 1%N] [:: e]) = Ok (Arr [:: 1%N] [:: Fin d]),
    forall (l : 'cV[R]_n) s q, rho_is e l s q -> a * sqn l <= (s - dotv l c) ^+ 2 <= b * sqn l &
    forall s : 'I_n -> R, (forall i, exists q, rho_is e (delta_mx i 0 : 'cV[R]_n) (s i) q) -> d = \sum_i (s i - c i 0) ^+ 2].
Proof. exact: law_eigs. Qed.
Print Assumptions C80_eigenvalues.

(** the disc of radius 2 at (1/2, 1/2), in the direction (1, 0); it meets the hypotheses of all theorems here *)
Example C80_nonvacuous : forall R : rcfType,
  let c := const_mx 2%:R^-1 : 'cV[R]_2 in
  [/\ repr (ball_at c 4%:R) c (4%:R%:M : 'M[R]_2) (10%:R ^- 7),
      exists p, rho_is (ball_at c 4%:R) (delta_mx 0 0 : 'cV[R]_2) (2%:R^-1 + 2%:R) p,
      forall x : 'cV[R]_2, x != 0 -> 10%:R ^- 7 * sqn x < qf (4%:R%:M) x, wellcond (4%:R%:M : 'M[R]_2) &
      linalg_ok (the_linalg R)].
Proof. exact: disc_example. Qed.
