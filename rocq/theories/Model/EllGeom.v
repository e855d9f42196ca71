(** Model of gras/geom/ell/ell.py. *)
From mathcomp Require Import all_ssreflect all_algebra.
Require Import Coq.Strings.String Coq.Strings.Ascii.
From Verif.Model Require Import Py NP Linalg Gen.
Set Implicit Arguments.
Unset Strict Implicit.
Unset Printing Implicit Defensive.
Import GRing.Theory.
Local Open Scope ring_scope.

(** str.lower() on ASCII text *)
Definition lower_ascii (c : ascii) : ascii :=
  let n := nat_of_ascii c in
  if (65 <= n)%N && (n <= 90)%N then ascii_of_nat (n + 32) else c.
Fixpoint str_lower (s : string) : string :=
  match s with
  | EmptyString => EmptyString
  | String c s' => String (lower_ascii c) (str_lower s')
  end.

(** The transcendental functions behind the volume formulas, at the half-integers the code uses:
    [pi_pow k] is np.pi ** (k * 0.5), [gamma_half k] is scipy.special.gamma(0.5 * k). *)
Record volfun (R : rcfType) := VolFun { pi_pow : nat -> R; gamma_half : nat -> R }.

Section EllGeom.
Variable R : rcfType.
Notation X := (xnum R).
Notation A := (arr X).
Notation get := (getn (@NaN R)).
Variable la : linalg R.

(** ell.py:9-13 *)
Definition ell_volume (vf : volfun R) (q : A) : res X :=
  let* n := dim_res q 0 in
  let* d := la_det la q in
  Ok (xdiv (xmul (Fin (pi_pow vf n)) (xsqrt d)) (Fin (gamma_half vf (n + 2)))).

(** ell.py:16-26 *)
Definition inv_mat (q : A) : res A :=
  if ndim q != 2%N then throw "wrongInput:q_mat" else
  if dim q 0 != dim q 1 then throw "wrongInput:q_mat" else
  let* b := la_inv la q in
  let* bq := np_matmul b q in
  let* i := la_inv la bq in
  np_matmul i b.

(** ell.py:52-63: x_vec as a row *)
Definition quad_x (x : A) : res A :=
  if (2 < ndim x)%N then throw "wrongInput:x_vec" else
  let x := if ndim x == 1%N then np_expand 0 x else x in
  if ndim x != 2%N then ValueError else
  if (1 < dim x 0)%N && (1 < dim x 1)%N then throw "wrongInput:x_vec" else
  Ok (if (1 < dim x 0)%N then np_T x else x).

(** ell.py:65-71 *)
Definition quad_c (c : A) (xn : nat) : res A :=
  if (np_size c == 1%N) && xeq (nth NaN (data c) 0) x0 then Ok (np_zeros R [:: 1%N; xn]) else
  if (2 < ndim c)%N then throw "wrongInput:c_vec" else
  if (ndim c <= 1)%N then np_reshape [:: 1%N; np_size c] c else Ok c.

(** ell.py:29-95; q, x and c are numeric (lines 34-39 only reject non-numeric dtypes); a python number
    given for c is a 0-d array *)
Definition quad_mat (q x c : A) (mode : string) : res A :=
  let mode := str_lower mode in
  if ~~ (String.eqb mode "plain" || String.eqb mode "inv" || String.eqb mode "invadv") then
    throw "wrongInput:mode" else
  if ndim q != 2%N then throw "wrongInput:q_mat" else
  if dim q 0 != dim q 1 then throw "wrongInput:q_mat" else
  let* x := quad_x x in
  let* c := quad_c c (dim x 1) in
  if dim x 1 != dim q 1 then throw "wrongInput:q_mat:x_vec" else
  if (1 < dim c 0)%N && (1 < dim c 1)%N then throw "wrongInput:c_vec" else
  let c := if (1 < dim c 0)%N then np_T c else c in
  if dim c 1 != dim q 1 then throw "wrongInput:q_mat:c_vec" else
  let* xc := np_sub x c in
  if String.eqb mode "plain" then
    let* t := np_matmul q (np_T xc) in np_matmul xc t
  else if String.eqb mode "invadv" then
    let* i := inv_mat q in
    let* t := np_matmul i (np_T xc) in np_matmul xc t
  else
    let* t := la_lstsq la q (np_T xc) in np_matmul xc t.

(** np.tile(a, (1, k)) of an array with one or two axes (other ranks do not occur: rejected) *)
Definition tile_cols (k : nat) (a : A) : res A :=
  match shape a with
  | [:: n] => Ok (mkn [:: 1%N; (n * k)%N] (fun idx => get a [:: (nth 0%N idx 1 %% n)%N]))
  | [:: m; n] => Ok (mkn [:: m; (n * k)%N] (fun idx => get a [:: nth 0%N idx 0; (nth 0%N idx 1 %% n)%N]))
  | _ => ValueError
  end.

(** bp_mat[:, is_nan_vec] = 0. where is_nan_vec marks the columns with a NaN *)
Definition zero_nan_cols (a : A) : A :=
  mkn (shape a) (fun idx =>
    if has (fun i => xis_nan (get a [:: i; nth 0%N idx 1])) (iota 0 (dim a 0)) then x0
    else get a idx).

(** ell.py:98-123; [abs_tol] is the argument or, for None, Properties.get_abs_tol(); [center] is
    None or an array *)
Definition rho_mat (q dirs : A) (abs_tol : X) (center : option A) : res (A * A) :=
  let* m := dim_res q 0 in
  let c := if center is Some c then c else np_zeros R [:: m; 1%N] in
  let* nd := dim_res dirs 1 in
  if nd == 1%N then
    let* dq := np_matmul (np_T dirs) q in
    let* dqd := np_matmul dq dirs in
    let* sq := sqrt_pos dqd x0 in
    let* cd := np_matmul (np_T c) dirs in
    let* sup := np_add cd sq in
    let* qd := np_matmul q dirs in
    let* bp := np_div qd sq in
    let bp := if has (@xis_nan R) (data bp) then np_zeros R (shape bp) else bp in
    let* bp := np_add bp c in
    Ok (sup, bp)
  else
    let* dq := np_matmul (np_T dirs) q in
    let* dqd := np_mul dq (np_T dirs) in
    let* s := np_sum_axis 1 false dqd in
    let* s := sqrt_pos s abs_tol in
    let temp := np_T s in
    let* cd := np_matmul (np_T c) dirs in
    let* sup := np_add cd temp in
    let* qd := np_matmul q dirs in
    let* bp := np_div qd (np_tile_rows temp m) in
    let bp := zero_nan_cols bp in
    let* tc := tile_cols nd c in
    let* bp := np_add bp tc in
    Ok (sup, bp).

End EllGeom.
