(** C76: Ellipsoid.rho. *)
From mathcomp Require Import all_ssreflect all_algebra.
Require Import Coq.Strings.String.
From Verif.Model Require Import Py NP Linalg EllGeom Ellipsoid.
From Verif.Spec Require Import MatSpec LinalgSpec EllSpec EllipsoidSpec RhoSpec.
From Verif.Proof Require Import NPLib MatLib EllLib EllGeomProof OpsEx RhoProof.
Set Implicit Arguments.
Unset Strict Implicit.
Unset Printing Implicit Defensive.
Import Order.Theory GRing.Theory Num.Theory.
Local Open Scope ring_scope.

(** one ellipsoid, given as an object or as an array of one element, and an array of directions of any shape:
    for each direction the support value and a point of the ellipsoid where it is attained.  For a matrix of
    directions the values form a row; otherwise they have the shape of the directions without the first axis. *)
Theorem C76_one :
  forall (R : rcfType) n (e : ell R) (c : 'cV[R]_n) (Q : 'M[R]_n) t s ds m (D : 'M[R]_(n, m)),
  (0 < n)%N -> repr e c Q t -> (0 < size ds)%N -> prodn ds = m ->
  exists (v : 'I_m -> R) (P : 'M[R]_(n, m)),
    rho (Arr s [:: e]) (reshaped (n :: ds) D) =
      Ok (numbers (if (1 < size ds)%N then ds else [:: 1%N; m]) v, reshaped (n :: ds) P) /\
    forall j, supports c Q (col j D) (v j) (col j P).
Proof. exact: one_spec. Qed.
Print Assumptions C76_one.

(** several ellipsoids in an array of any shape and one direction *)
Theorem C76_one_direction :
  forall (R : rcfType) n k (es : seq (ell R)) (c : 'I_k -> 'cV[R]_n) (Q : 'I_k -> 'M[R]_n) (t : 'I_k -> R) s (d : 'cV[R]_n),
  (0 < n)%N -> (1 < k)%N -> family es c Q t -> prodn s = k ->
  exists (v : 'I_k -> R) (P : 'M[R]_(n, k)),
    rho (Arr s es) (mat d) =
      Ok (numbers s v, reshaped (if (2 < size s)%N then n :: s else [:: n; k]) P) /\
    forall j, supports (c j) (Q j) d (v j) (col j P).
Proof. exact: dir_spec. Qed.
Print Assumptions C76_one_direction.

(** several ellipsoids paired with as many directions *)
Theorem C76_pairs :
  forall (R : rcfType) n k (es : seq (ell R)) (c : 'I_k -> 'cV[R]_n) (Q : 'I_k -> 'M[R]_n) (t : 'I_k -> R) s ds
    (D : 'M[R]_(n, k)),
  (0 < n)%N -> (1 < k)%N -> family es c Q t -> prodn s = k -> prodn ds = k -> paired s ds ->
  exists (v : 'I_k -> R) (P : 'M[R]_(n, k)),
    rho (Arr s es) (reshaped (n :: ds) D) =
      Ok (numbers (if (1 < size ds)%N then ds else [:: k; 1%N; 1%N]) v, reshaped (n :: ds) P) /\
    forall j, supports (c j) (Q j) (col j D) (v j) (col j P).
Proof. exact: pairs_spec. Qed.
Print Assumptions C76_pairs.

(** false of the code: that a one-dimensional array of ellipsoids can be paired with as many directions *)
Theorem C76_vector_refuted :
  forall (R : rcfType) k (es : seq (ell R)) n ds (vs : seq (xnum R)),
  size es = k -> (1 < k)%N -> (0 < size ds)%N -> prodn ds = k ->
  rho (Arr [:: k] es) (Arr (n :: ds) vs) = IndexError.
Proof. exact: vector_run. Qed.
Print Assumptions C76_vector_refuted.

(** false of the code: that a one-dimensional array can be a direction *)
Theorem C76_flat_refuted :
  forall (R : rcfType) (a : arr (ell R)) n (vs : seq (xnum R)), rho a (Arr [:: n] vs) = IndexError.
Proof. exact: flat_run. Qed.
Print Assumptions C76_flat_refuted.

(** different numbers of ellipsoids and directions, or different dimensions, are rejected *)
Theorem C76_sizes :
  forall (R : rcfType) s (es : seq (ell R)) n ds (vs : seq (xnum R)),
  size es <> 1%N -> (0 < size ds)%N -> ds <> [:: 1%N] -> prodn s <> prodn ds ->
  rho (Arr s es) (Arr (n :: ds) vs) = throw "wrongInput:wrongSizes".
Proof. exact: sizes_run. Qed.
Print Assumptions C76_sizes.

Theorem C76_dimensions :
  (forall (R : rcfType) n n' (e : ell R) (c : 'cV[R]_n) (Q : 'M[R]_n) t s ds (vs : seq (xnum R)),
   repr e c Q t -> n <> n' -> (0 < size ds)%N ->
   rho (Arr s [:: e]) (Arr (n' :: ds) vs) = throw "wrongInput") /\
  (forall (R : rcfType) n n' k (es : seq (ell R)) (c : 'I_k -> 'cV[R]_n) (Q : 'I_k -> 'M[R]_n) (t : 'I_k -> R) s
     (d : 'cV[R]_n'),
   (0 < k)%N -> family es c Q t -> n <> n' -> rho (Arr s es) (mat d) = throw "wrongInput").
Proof. by split=> R; [exact: dims_run|exact: dir_dims_run]. Qed.
Print Assumptions C76_dimensions.

(** the disc of radius 2 about (3, 3) reaches 5 along the first axis, at (5, 3); two ellipsoids in a row and
    two directions in a matrix are paired *)
Example C76_ex : forall R : rcfType,
  rho (Arr [::] [:: ball_at (const_mx 3%:R : 'cV[R]_2) 4%:R]) (mat (delta_mx 0 0 : 'cV[R]_2)) =
    Ok (numbers [:: 1%N; 1%N] (fun _ : 'I_1 => 5%:R), mat (\col_(i < 2) (if i == 0 then 5%:R else 3%:R : R))) /\
  paired [:: 1%N; 2%N] [:: 2%N] /\ paired [:: 2%N; 3%N] [:: 2%N; 3%N].
Proof.
move=> R; split; last by do !split=> //; [left|right]; split=> //; left.
have He := @ball_repr R 2 (const_mx 3%:R) 4%:R (ler0n _ 4).
have -> : mat (delta_mx 0 0 : 'cV[R]_2) = reshaped [:: 2%N; 1%N] (delta_mx 0 0 : 'cV[R]_2) by [].
rewrite (one_run [::] (ds := [:: 1%N]) _ _ He) //.
have Ed : col 0 (delta_mx 0 0 : 'cV[R]_2) = delta_mx 0 0 by apply/colP => i; rewrite mxE.
have Es : Num.sqrt (qf (4%:R%:M : 'M[R]_2) (delta_mx 0 0 : 'cV[R]_2)) = 2%:R.
  have -> : qf (4%:R%:M : 'M[R]_2) (delta_mx 0 0 : 'cV[R]_2) = 2%:R ^+ 2.
    rewrite /qf dotvE mul_scalar_mx -scalemxAr mxE mxE big_ord_recl big_ord1 !mxE /= !mulr1n mulr0 addr0 !mulr1.
    by rewrite -natrX.
  by rewrite sqrtr_sqr ger0_norm ?ler0n.
rewrite data_row; congr (Ok (_, _)).
  rewrite /numbers; congr (Arr _ _); apply: eq_map => j; rewrite mxE (ord1 j) Ed Es.
  rewrite dotvE mxE big_ord_recl big_ord1 !mxE /= mul1r mul0r addr0.
  by congr Fin; rewrite -natrD.
congr mat; apply/matrixP => i j; rewrite mxE [bpm _ _ _ _]mxE (ord1 j) Ed Es mul_scalar_mx [RHS]mxE.
have h : (2%:R : R)^-1 * 4%:R = 2%:R.
  by rewrite -[4%N]/(2 * 2)%N natrM mulrA mulVf ?mul1r // pnatr_eq0.
by case: i => -[|[|]] // hi; rewrite !mxE /= ?mulr1 ?mulr0 ?addr0 // h -natrD.
Qed.
Print Assumptions C76_ex.
