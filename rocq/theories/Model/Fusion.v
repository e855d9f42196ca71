(** Model of ell_fusion_lambda (elltool/core/core.py:28-40), line by line; * and @ associate to the left. *)
From mathcomp Require Import all_ssreflect all_algebra.
From Verif.Model Require Import Py NP Linalg.
Set Implicit Arguments.
Unset Strict Implicit.
Unset Printing Implicit Defensive.
Import GRing.Theory.
Local Open Scope ring_scope.

Section Fusion.
Variable R : rcfType.
Notation X := (xnum R).
Notation A := (arr X).
Variable la : linalg R.

(** u @ m @ v *)
Definition form3 (u m v : A) : res A := let* um := np_matmul u m in np_matmul um v.

Definition ell_fusion_lambda (a : X) (q1 q1_mat q2 q2_mat : A) (n : nat) : res A :=
  let s := xsub (Fin 1) a in
  (* 30 *)
  let* x_mat := np_add (np_scale a q1_mat) (np_scale s q2_mat) in
  (* 31, 32 *)
  let* y0 := la_inv la x_mat in
  let* y1 := np_add y0 (np_T y0) in
  let y_mat := np_scale (Fin (1 / 2%:R)) y1 in
  (* 33 *)
  let* d := np_sub q2 q1 in
  let* e1 := np_matmul (np_scale (xmul a s) (np_T d)) q2_mat in
  let* e2 := np_matmul e1 y_mat in
  let* e3 := np_matmul e2 q1_mat in
  let* e4 := np_matmul e3 d in
  let k := np_map (fun z => xsub (Fin 1) z) e4 in
  (* 34 *)
  let* b1 := np_matmul (np_scale a q1_mat) q1 in
  let* b2 := np_matmul (np_scale s q2_mat) q2 in
  let* b := np_add b1 b2 in
  let* q := np_matmul y_mat b in
  (* 36 *)
  let* dx := la_det la x_mat in
  let* dq := np_sub q1_mat q2_mat in
  let* ydq := np_matmul (np_scale dx y_mat) dq in
  let* tr := np_trace ydq in
  let f1 := np_map (fun z => xmul (xmul z dx) tr) k in
  (* 37, 38 *)
  let* t1 := form3 (np_scale (Fin 2%:R) (np_T q)) q1_mat q1 in
  let* t2 := form3 (np_scale (Fin 2%:R) (np_T q)) q2_mat q2 in
  let* qd := np_sub q2_mat q1_mat in
  let* t3 := form3 (np_T q) qd q in
  let* t4 := form3 (np_T q1) q1_mat q1 in
  let* t5 := form3 (np_T q2) q2_mat q2 in
  let* s1 := np_sub t1 t2 in
  let* s2 := np_add s1 t3 in
  let* s3 := np_sub s2 t4 in
  let* s4 := np_add s3 t5 in
  np_sub f1 (np_scale (xmul (Fin n%:R) (xmul dx dx)) s4).
End Fusion.
