(** Specification of the properties of ellipsoids and hyperplanes and of their names. *)
From mathcomp Require Import all_ssreflect all_algebra.
Require Import Coq.Strings.String.
From Verif.Model Require Import Py NP Ellipsoid Hyperplane.
Set Implicit Arguments.
Unset Strict Implicit.
Unset Printing Implicit Defensive.
Import Order.Theory GRing.Theory Num.Theory.
Local Open Scope ring_scope.

Inductive ell_kind := KAbs | KRel | KPlot2 | KPlot3.
Inductive hp_kind := HAbs | HRel | HShift.

(** the names of a property: as in MATLAB, in Python, private *)
Definition ell_names (k : ell_kind) : seq string :=
  match k with
  | KAbs => [:: "absTol"; "abs_tol"; "_abs_tol"]
  | KRel => [:: "relTol"; "rel_tol"; "_rel_tol"]
  | KPlot2 => [:: "nPlot2dPoints"; "n_plot_2d_points"; "_n_plot_2d_points"]
  | KPlot3 => [:: "nPlot3dPoints"; "n_plot_3d_points"; "_n_plot_3d_points"]
  end%string.
Definition center_names : seq string := [:: "centerVec"; "center_vec"; "_center_vec"]%string.
Definition shape_names : seq string := [:: "shapeMat"; "shape_mat"; "_shape_mat"]%string.
Definition hp_names (k : hp_kind) : seq string :=
  match k with
  | HAbs => [:: "absTol"; "abs_tol"; "_abs_tol"]
  | HRel => [:: "relTol"; "rel_tol"; "_rel_tol"]
  | HShift => [:: "shift"; "_shift"]
  end%string.
Definition normal_names : seq string := [:: "normalVec"; "normal_vec"; "_normal_vec"; "normal"; "_normal"]%string.

Section GetPropSpec.
Variable R : rcfType.

Definition ell_value (k : ell_kind) (e : ell R) : xnum R :=
  match k with
  | KAbs => p_abs (e_props e) | KRel => p_rel (e_props e)
  | KPlot2 => Fin (p_n2 (e_props e))%:R | KPlot3 => Fin (p_n3 (e_props e))%:R
  end.
Definition hp_value (k : hp_kind) (h : hp R) : xnum R :=
  match k with HAbs => h_abs h | HRel => h_rel h | HShift => h_shift h end.

(** x is the least of the numbers s *)
Definition least (s : seq (xnum R)) (x : xnum R) : Prop :=
  exists2 r : R, x = Fin r & List.In (Fin r) s /\ forall y : R, List.In (Fin y) s -> r <= y.
End GetPropSpec.

(** a name that none of the properties has *)
Definition ell_unknown (name : string) : Prop :=
  (forall k, ~ List.In name (ell_names k)) /\ ~ List.In name center_names /\ ~ List.In name shape_names.
Definition hp_unknown (name : string) : Prop :=
  (forall k, ~ List.In name (hp_names k)) /\ ~ List.In name normal_names.
