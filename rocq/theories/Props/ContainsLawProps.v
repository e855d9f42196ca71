(** C92: laws of Hyperplane.contains (elltool/core/hyperplane/Hyperplane.py). *)
From mathcomp Require Import all_ssreflect all_algebra.
Require Import Coq.Strings.String.
From Verif.Model Require Import Py NP NP3 Linalg La Ellipsoid Hyperplane.
From Verif.Spec Require Import MatSpec EllSpec HypSpec.
From Verif.Proof Require Import NPLib MatLib HypOps HypEx ContainsLawProof.
Import Order.Theory GRing.Theory Num.Theory.
Local Open Scope ring_scope.

(** a point between two contained points is contained *)
Theorem C92_convex :
  forall (R : rcfType) n k sh hs (v : 'I_k -> 'cV[R]_n) s t (x y : 'cV[R]_n) a, (0 < n)%N -> (0 < k)%N ->
  hfamily hs v s t -> (forall i, solid (v i) (s i) (t i)) -> 0 <= a <= 1 ->
  exists bx yb bz, [/\ contains (Arr sh hs) (vec x) = Ok (Arr sh bx), contains (Arr sh hs) (vec y) = Ok (Arr sh yb),
    contains (Arr sh hs) (vec (a *: x + (1 - a) *: y)) = Ok (Arr sh bz) &
    [/\ size bx = k, size yb = k, size bz = k & forall i : 'I_k, nth false bx i -> nth false yb i -> nth false bz i]].
Proof. exact: con_convex. Qed.
Print Assumptions C92_convex.

(** moving the point along the hyperplanes changes no answer *)
Theorem C92_shift :
  forall (R : rcfType) n k sh hs (v : 'I_k -> 'cV[R]_n) s t (x d : 'cV[R]_n), (0 < n)%N -> (0 < k)%N ->
  hfamily hs v s t -> (forall i, solid (v i) (s i) (t i)) -> (forall i, dotv (v i) d = 0) ->
  contains (Arr sh hs) (vec (x + d)) = contains (Arr sh hs) (vec x).
Proof. exact: con_shift. Qed.
Print Assumptions C92_shift.

(** the foot of the perpendicular from the origin is contained *)
Theorem C92_foot :
  forall (R : rcfType) n (v : 'cV[R]_n) h s t, (0 < n)%N -> hrepr h v s t -> solid v s t -> v != 0 ->
  contains (Arr [::] [:: h]) (vec ((s / sqn v) *: v)) = Ok (Arr [::] [:: true]).
Proof. exact: con_foot. Qed.
Print Assumptions C92_foot.

(** same normals and shifts further apart than the tolerances: no common point *)
Theorem C92_disjoint :
  forall (R : rcfType) n k sh hs gs (v : 'I_k -> 'cV[R]_n) s1 s2 t1 t2 (x : 'cV[R]_n), (0 < n)%N -> (0 < k)%N ->
  hfamily hs v s1 t1 -> hfamily gs v s2 t2 -> (forall i, solid (v i) (s1 i) (t1 i)) -> (forall i, solid (v i) (s2 i) (t2 i)) ->
  (forall i, t1 i + t2 i <= `|s1 i - s2 i|) ->
  exists b1 b2, [/\ contains (Arr sh hs) (vec x) = Ok (Arr sh b1), contains (Arr sh gs) (vec x) = Ok (Arr sh b2) &
    [/\ size b1 = k, size b2 = k & forall i : 'I_k, ~~ (nth false b1 i && nth false b2 i)]].
Proof. exact: con_disjoint. Qed.
Print Assumptions C92_disjoint.

(** normal and shift times a, if the tolerance is multiplied by |a| as well *)
Theorem C92_scale_partial :
  forall (R : rcfType) n k sh hs gs (v : 'I_k -> 'cV[R]_n) s t (a : 'I_k -> R) (x : 'cV[R]_n), (0 < n)%N -> (0 < k)%N ->
  hfamily hs v s t -> (forall i, solid (v i) (s i) (t i)) -> (forall i, a i != 0) ->
  hfamily gs (fun i => a i *: v i) (fun i => a i * s i) (fun i => `|a i| * t i) ->
  contains (Arr sh gs) (vec x) = contains (Arr sh hs) (vec x).
Proof. exact: con_scale. Qed.
Print Assumptions C92_scale_partial.

(** FALSE of the code: that equal hyperplanes with equal tolerances contain the same points *)
Theorem C92_scale_refuted :
  forall (R : rcfType) n (v : 'cV[R]_n) h g s t, (0 < n)%N -> v != 0 -> hrepr h v s t -> solid v s t -> hrepr g (2%:R *: v) (2%:R * s) t ->
  (forall y, on_hp (2%:R *: v) (2%:R * s) y <-> on_hp v s y) /\
  exists x : 'cV[R]_n, contains (Arr [::] [:: h]) (vec x) = Ok (Arr [::] [:: true]) /\ contains (Arr [::] [:: g]) (vec x) = Ok (Arr [::] [:: false]).
Proof. exact: con_not_scale. Qed.
Print Assumptions C92_scale_refuted.

(** two hyperplanes, a direction along both and a multiple of the first that meet the hypotheses *)
Example C92_nonvacuous : forall R : rcfType,
  let v := const_mx 1 : 'cV[R]_2 in let d := (\col_i (if i == 0 then 1 else -1)) : 'cV[R]_2 in
  let h := Hp (vec v) (Fin 2%:R) (Fin 1) (Fin 1) in let g := Hp (vec v) (Fin 0) (Fin 1) (Fin 1) in
  [/\ hfamily [:: h; g] (fun _ : 'I_2 => v) (fun i => if i == 0 then 2%:R else 0) (fun=> 1), forall s, solid v s 1,
      v != 0, dotv v d = 0 /\ (1 : R) + 1 <= `|2%:R - 0| &
      hrepr (Hp (vec (2%:R *: v)) (Fin (2%:R * 2%:R)) (Fin 1) (Fin 1)) (2%:R *: v) (2%:R * 2%:R) 1].
Proof.
move=> R v d h g; split.
- by split=> // -[[|[|]] //= Hi] h0; (split; [by []|by []|by []|exact: ltr01|by exists 1; rewrite ?ltr01]).
- by [].
- by apply/eqP => /matrixP/(_ 0 0)/eqP; rewrite !mxE oner_eq0.
- by split; [rewrite /dotv !big_ord_recl big_ord0 !mxE /= !mul1r addr0 subrr|rewrite subr0 normr_nat -[1 + 1]/(2%:R)].
by split; [by []|by []|by []|exact: ltr01|by exists 1; rewrite ?ltr01].
Qed.
