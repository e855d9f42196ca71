(** C93: laws of Ellipsoid.is_internal (elltool/core/ellipsoid/Ellipsoid.py). *)
From mathcomp Require Import all_ssreflect all_algebra.
Require Import Coq.Strings.String.
From Verif.Model Require Import Py NP Linalg La Ellipsoid.
From Verif.Spec Require Import MatSpec LinalgSpec OrthSpec EllSpec EllipsoidSpec.
From Verif.Proof Require Import NPLib MatLib LaBasic LinalgSat EllLib EllScalEx RegProof OpsEx PolarEx InternalLawProof.
Import Order.Theory GRing.Theory Num.Theory.
Local Open Scope ring_scope.

(** what lies in all of the ellipsoids lies in one of them; the modes agree for one ellipsoid *)
Theorem C93_all_any :
  forall (R : rcfType) (la : linalg R) n k s es (c : 'I_k -> 'cV[R]_n) (Q : 'I_k -> 'M[R]_n) (t : 'I_k -> R) m (P : 'M[R]_(n, m)),
  eigvalsh_ok la -> eig_ok la -> inv_ok la -> (0 < n)%N -> (0 < k)%N -> family es c Q t -> s != [::] -> prodn s = 1%N ->
  exists bu bi, [/\ is_internal la (Arr (k :: s) es) (mat P) (Some "u"%string) = Ok (Arr [:: m; 1%N] bu),
    is_internal la (Arr (k :: s) es) (mat P) (Some "i"%string) = Ok (Arr [:: m; 1%N] bi),
    size bu = m, size bi = m & forall i : 'I_m, (nth false bi i -> nth false bu i) /\ (k = 1%N -> nth false bi i = nth false bu i)].
Proof. exact: int_all_any. Qed.
Print Assumptions C93_all_any.

(** mode 'i': a point between two points of the intersection is in the intersection *)
Theorem C93_convex :
  forall (R : rcfType) (la : linalg R) n k s es (c : 'I_k -> 'cV[R]_n) (Q : 'I_k -> 'M[R]_n) (t : 'I_k -> R) m (X Y : 'M[R]_(n, m)) a,
  eigvalsh_ok la -> eig_ok la -> inv_ok la -> (0 < n)%N -> (0 < k)%N -> family es c Q t -> s != [::] -> prodn s = 1%N -> 0 <= a <= 1 ->
  exists bx yb bz, [/\ is_internal la (Arr (k :: s) es) (mat X) (Some "i"%string) = Ok (Arr [:: m; 1%N] bx),
    is_internal la (Arr (k :: s) es) (mat Y) (Some "i"%string) = Ok (Arr [:: m; 1%N] yb),
    is_internal la (Arr (k :: s) es) (mat (a *: X + (1 - a) *: Y)) (Some "i"%string) = Ok (Arr [:: m; 1%N] bz) &
    [/\ size bx = m, size yb = m, size bz = m & forall i : 'I_m, nth false bx i -> nth false yb i -> nth false bz i]].
Proof. exact: int_convex. Qed.
Print Assumptions C93_convex.

(** the centre of an ellipsoid is inside *)
Theorem C93_centre :
  forall (R : rcfType) (la : linalg R) n s e (c : 'cV[R]_n) Q t, eigvalsh_ok la -> eig_ok la -> inv_ok la -> (0 < n)%N -> repr e c Q t ->
  s != [::] -> prodn s = 1%N ->
  is_internal la (Arr (1%N :: s) [:: e]) (mat c) (Some "u"%string) = Ok (Arr [:: 1%N; 1%N] [:: true]).
Proof. exact: int_centre. Qed.
Print Assumptions C93_centre.

(** reflecting the points in the centre changes no answer *)
Theorem C93_mirror :
  forall (R : rcfType) (la : linalg R) n s e (c : 'cV[R]_n) Q t m (X Y : 'M[R]_(n, m)), eigvalsh_ok la -> eig_ok la -> inv_ok la -> (0 < n)%N ->
  repr e c Q t -> s != [::] -> prodn s = 1%N -> (forall j, col j X + col j Y = 2%:R *: c) ->
  is_internal la (Arr (1%N :: s) [:: e]) (mat Y) (Some "u"%string) = is_internal la (Arr (1%N :: s) [:: e]) (mat X) (Some "u"%string).
Proof. exact: int_mirror. Qed.
Print Assumptions C93_mirror.

(** two balls, a ball around (3, 3) and the points (1, 1), (5, 5) meet the hypotheses *)
Example C93_nonvacuous : forall R : rcfType,
  [/\ linalg_ok (the_linalg R), family (two_balls R) (two_c R) (two_q R) (fun _ => 10%:R ^- 7),
      repr (ball_at (const_mx 3%:R : 'cV[R]_2) 4%:R) (const_mx 3%:R : 'cV[R]_2) (4%:R%:M : 'M[R]_2) (10%:R ^- 7) &
      forall j : 'I_1, col j (const_mx 1 : 'cV[R]_2) + col j (const_mx 5%:R : 'cV[R]_2) = 2%:R *: (const_mx 3%:R : 'cV[R]_2)].
Proof.
move=> R; split; [exact: the_linalg_ok|exact: two_family|by apply: ball_repr; exact: ler0n|].
by move=> j; apply/matrixP => p q; rewrite !mxE -natrM -(natrD _ 1 5).
Qed.
