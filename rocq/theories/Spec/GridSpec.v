(** The factor of _get_grid_by_factor: one number for all dimensions, or one for the plane and one for space. *)
From mathcomp Require Import all_ssreflect all_algebra.
From Verif.Model Require Import NP.
Set Implicit Arguments.
Unset Strict Implicit.
Unset Printing Implicit Defensive.
Import GRing.Theory.
Local Open Scope ring_scope.

Section GridSpec.
Variable R : rcfType.
Inductive factor_of : arr (xnum R) -> nat -> R -> Prop :=
  | OneFactor d x : factor_of (scal x) d x
  | PlaneFactor x s : factor_of (Arr [:: (size s).+1] (Fin x :: s)) 2 x
  | SpaceFactor y x s : factor_of (Arr [:: (size s).+2] (y :: Fin x :: s)) 3 x.
End GridSpec.
