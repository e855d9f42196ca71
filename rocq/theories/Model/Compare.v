(** Model of gen/common/common.py:117-203 [abs_rel_compare]. *)
From mathcomp Require Import all_ssreflect all_algebra.
Require Import Coq.Strings.String.
From Verif.Model Require Import Py NP.
Set Implicit Arguments.
Unset Strict Implicit.
Unset Printing Implicit Defensive.
Local Open Scope ring_scope.

(** A tolerance argument: python None, an object that is not a real scalar, or a number. *)
Inductive tolarg (R : Type) := TNone | TBad | TVal of xnum R.
Arguments TNone {R}.
Arguments TBad {R}.

(** report_str (common.py:138-150,189-198); the '%.17g' formatting of the numbers is left abstract,
    the report keeps the numbers. [None] is the empty array np.array([]). *)
Inductive report (R : Type) :=
| RepNone | RepNan | RepFinite | RepInf
| RepRel (rel_diff : option (xnum R)) (rel_tol : xnum R) (abs_m : option (xnum R)) (abs_tol : xnum R)
| RepAbs (abs_diff : option (xnum R)) (abs_tol : xnum R).
Arguments RepNone {R}.
Arguments RepNan {R}.
Arguments RepFinite {R}.
Arguments RepInf {R}.

(** the returned 6-tuple (common.py:203) *)
Record cmp_out (R : Type) := CmpOut {
  co_equal : bool;
  co_abs_diff : option (xnum R);
  co_rel_trig : bool;
  co_rel_diff : option (xnum R);
  co_abs_m : option (xnum R);
  co_report : report R }.

Section Compare.
Variable R : rcfType.
Notation X := (xnum R).
Notation A := (arr X).

(** np.array_equal of two boolean arrays of the same shape *)
Definition same_mask (p : X -> bool) (l r : A) : bool :=
  map p (data l) == map p (data r).

Definition is_pinf (x : X) := if x is PInf then true else false.
Definition is_ninf (x : X) := if x is NInf then true else false.

(** arr[mask] = 0. (common.py:156-157) *)
Definition zero_at (mask : seq bool) (a : A) : A :=
  Arr (shape a) [seq (if p.1 then x0 else p.2) | p <- zip mask (data a)].

(** np.amax *)
Definition amax (s : seq X) : X := if s is x :: s' then foldl (@xmax R) x s' else NaN.

(** [cond ? v : 0] elementwise (common.py:178-188 build these arrays from np.zeros) *)
Definition where0 (c : seq bool) (v : seq X) : seq X :=
  [seq (if p.1 then p.2 else x0) | p <- zip c v].

Definition opt_le (x : option X) (y : X) : bool := if x is Some v then xle v y else false.

(** common.py:153-198: the part for arrays whose non-finite values coincide.
    [f] is f_norm_op; it is applied to arrays of the same shape and must keep the shape
    (otherwise numpy's boolean-mask assignments raise IndexError). *)
Definition compare_finite (l r : A) (abs_tol : X) (rel_tol : option X) (f : A -> res A)
  : res (cmp_out R) :=
  let isn_finite := [seq ~~ xis_fin x | x <- data l] in
  let l' := if has id isn_finite then zero_at isn_finite l else l in
  let r' := if has id isn_finite then zero_at isn_finite r else r in
  let* d0 := np_sub l' r' in
  let* diff := f d0 in
  let diff_s := data diff in
  let nonempty := np_size diff != 0%N in
  let abs_diff := if nonempty then Some (amax diff_s) else None in
  let eq0 := if nonempty then xle (amax diff_s) abs_tol else true in
  let* p :=
    match rel_tol with
    | Some rt =>
      if nonempty then
        let trig0 := [seq xgt x abs_tol | x <- diff_s] in
        if has id trig0 then
          let* nl := f l' in
          let* nr := f r' in
          let* sm := np_add nl nr in
          if shape sm == shape diff then
            let trig := [seq p.1 && xgt p.2 abs_tol | p <- zip trig0 (data sm)] in
            if has id trig then
              let temp := where0 trig
                [seq xdiv (xmul (Fin 2%:R) p.1) p.2 | p <- zip diff_s (data sm)] in
              let rel_diff := amax temp in
              let abs_m := amax (where0 [seq xeq t rel_diff | t <- temp] diff_s) in
              let abs_r := amax (where0 (map negb trig) diff_s) in
              Ok (xle abs_r abs_tol && xle rel_diff rt, true, Some rel_diff, Some abs_m)
            else Ok (eq0, false, None, None)
          else IndexError
        else Ok (eq0, false, None, None)
      else Ok (eq0, false, None, None)
    | None => Ok (eq0, false, None, None)
    end in
  let: (eq1, trig, rel_diff, abs_m) := p in
  let rep :=
    if eq1 then RepNone
    else if trig then RepRel rel_diff (odflt NaN rel_tol) abs_m abs_tol
    else RepAbs abs_diff abs_tol in
  Ok (CmpOut eq1 abs_diff trig rel_diff abs_m rep).

(** common.py:117-203.  [f_norm_op = None] is a non-callable argument.  Arrays are numeric by
    construction (the is_numeric test of line 123 is always true here). *)
Definition abs_rel_compare (l r : A) (abs_tol rel_tol : tolarg R) (f_norm_op : option (A -> res A))
  : res (cmp_out R) :=
  if shape l != shape r then throw "wrongInput:wrongArgs" else
  match abs_tol with
  | TNone | TBad => throw "wrongInput:wrongAbsTol"
  | TVal at_ =>
    if ~~ xge at_ x0 then throw "wrongInput:wrongAbsTol" else
    let* rt :=
      match rel_tol with
      | TNone => Ok None
      | TBad => throw "wrongInput:wrongRelTol"
      | TVal v => if ~~ xge v x0 then throw "wrongInput:wrongRelTol" else Ok (Some v)
      end in
    match f_norm_op with
    | None => throw "wrongInput:wrongNormOp"
    | Some f =>
      let fail rep := Ok (CmpOut false (Some NaN) false (Some NaN) (Some NaN) rep) in
      if ~~ same_mask (@xis_nan R) l r then fail RepNan
      else if ~~ same_mask (@xis_fin R) l r then fail RepFinite
      else if ~~ (same_mask is_pinf l r && same_mask is_ninf l r) then fail RepInf
      else compare_finite l r at_ rt f
    end
  end.

(** the norm used everywhere in the library: lambda x: np.abs(x) *)
Definition abs_op : option (A -> res A) := Some (fun a => Ok (np_abs a)).

End Compare.
