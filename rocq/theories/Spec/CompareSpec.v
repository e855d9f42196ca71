(** Specification of tolerance comparison, independent of Model/Compare.v: the documented
    elementwise relation of [abs_rel_compare]. *)
From mathcomp Require Import all_ssreflect all_algebra.
From Verif.Model Require Import Py NP.
Local Open Scope ring_scope.

Section Spec.
Variable R : rcfType.

(** a finite quantity is within a tolerance (finite or +inf) *)
Definition within (d : R) (tol : xnum R) : Prop :=
  match tol with Fin t => d <= t | PInf => True | _ => False end.

(** One pair of entries agrees: both non-finite in the same way, or absolutely within [atol], or
    (if a relative tolerance is given) within it relative to the mean magnitude. *)
Definition close (atol : xnum R) (rtol : option (xnum R)) (x y : xnum R) : Prop :=
  match x, y with
  | NaN, NaN | PInf, PInf | NInf, NInf => True
  | Fin a, Fin b =>
      within `|a - b| atol \/
      (exists2 t, rtol = Some t & within (`|a - b| / ((`|a| + `|b|) / 2%:R)) t)
  | _, _ => False
  end.

(** a legal tolerance value: a nonnegative number or +inf *)
Definition legal_tol (t : xnum R) : Prop :=
  match t with Fin t => 0 <= t | PInf => True | _ => False end.

Definition tol_le (s t : xnum R) : Prop :=
  match s, t with
  | Fin a, Fin b => a <= b
  | Fin _, PInf | PInf, PInf => True
  | _, _ => False
  end.

(** entries non-finite in the same way *)
Definition same_kind (x y : xnum R) : bool :=
  match x, y with
  | Fin _, Fin _ | NaN, NaN | PInf, PInf | NInf, NInf => true
  | _, _ => false
  end.

End Spec.
Arguments same_kind {R}.
Arguments within {R}.
Arguments close {R}.
Arguments legal_tol {R}.
Arguments tol_le {R}.
