(** Specification of sphere_part. *)
From mathcomp Require Import all_ssreflect all_algebra.
From Verif.Model Require Import Py NP Tri Sphere.
Set Implicit Arguments.
Unset Strict Implicit.
Unset Printing Implicit Defensive.
Import Order.Theory GRing.Theory Num.Theory.
Local Open Scope ring_scope.

Section Spec.
Variable R : rcfType.
Notation pt := 'rV[R]_3.

(** np.log2, as far as integers can tell; math.ceil *)
Definition log2_ok (log2 : R -> R) : Prop := forall (x : R) (k : nat), 0 < x -> (log2 x <= k%:R) = (x <= 2%:R ^+ k).
Definition ceil_ok (ceil : R -> int) : Prop := forall x : R, ((ceil x)%:~R - 1 < x <= (ceil x)%:~R).
(** np.arccos: decreasing on [-1, 1], less than a full turn *)
Definition arccos_ok (tr : trig R) (arccos : R -> R) : Prop :=
  (forall x y : R, -1 <= x <= 1 -> -1 <= y <= 1 -> (arccos x <= arccos y) = (y <= x)) /\ (forall x : R, -1 <= x <= 1 -> arccos x < 2%:R * t_pi tr).

(** [idx] lists different rows of p, in the order of decreasing coordinate j; the rows not listed come later *)
Definition nearest_first (p : seq pt) (j : 'I_3) (idx : seq nat) : Prop :=
  [/\ uniq idx, all (fun i => i < size p)%N idx,
      forall k l, (k < l < size idx)%N -> nth 0 p (nth 0%N idx l) 0 j <= nth 0 p (nth 0%N idx k) 0 j &
      forall k i, (k < size idx)%N -> (i < size p)%N -> i \notin idx -> nth 0 p i 0 j <= nth 0 p (nth 0%N idx k) 0 j].

(** every pair of opposite rows of vs is represented by exactly one of them, and nothing else *)
Definition half_of (vs p : seq pt) : Prop :=
  [/\ uniq p, forall x, x \in p -> x \in vs & forall x, x \in vs -> (x \in p) = (- x \notin p)].
End Spec.
