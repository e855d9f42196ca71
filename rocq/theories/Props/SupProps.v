(** Property C33: boundary points from support functions. *)
From mathcomp Require Import all_ssreflect all_algebra.
Require Import Coq.Strings.String.
From Verif.Model Require Import Py NP NP3 Linalg Sup.
From Verif.Spec Require Import MatSpec LinalgSpec SupSpec.
From Verif.Proof Require Import NPLib SupProof LinalgSat.
Set Implicit Arguments.
Unset Strict Implicit.
Unset Printing Implicit Defensive.
Import GRing.Theory Num.Theory.
Local Open Scope ring_scope.

(** C33: point i lies on the lines of the directions i and i+1 (the first one after the last), if the two
    directions are independent *)
Theorem C33_boundary_2 (R : rcfType) (la : linalg R) n (D : 'M[R]_(n.+1, 2)) (s : 'cV[R]_n.+1) : lstsq_ok la ->
  exists Z : 'M[R]_(n.+1, 2), sup_2_boundary_2 la (mat D) (vec s) = Ok (mat Z) /\
  forall i, indep D (two i (cyc i)) -> on_plane D s i (row i Z) /\ on_plane D s (cyc i) (row i Z).
Proof.
move=> Hla; have [Z [E H]] := sup_2_boundary_2_spec Hla D s; exists Z; split=> // i Hi; apply: H.
exact: indep_common.
Qed.
Print Assumptions C33_boundary_2.

(** the same for all lines that meet, parallel or not *)
Theorem C33_common_2 (R : rcfType) (la : linalg R) n (D : 'M[R]_(n.+1, 2)) (s : 'cV[R]_n.+1) : lstsq_ok la ->
  exists Z : 'M[R]_(n.+1, 2), sup_2_boundary_2 la (mat D) (vec s) = Ok (mat Z) /\
  forall i, common D s (two i (cyc i)) -> on_plane D s i (row i Z) /\ on_plane D s (cyc i) (row i Z).
Proof. by move=> Hla; exact: sup_2_boundary_2_spec. Qed.
Print Assumptions C33_common_2.

(** point i lies on the three planes of face i, if its directions are independent *)
Theorem C33_boundary_3 (R : rcfType) (la : linalg R) n m (faces : arr int) (F : 'I_n -> 'I_3 -> 'I_m)
    (D : 'M[R]_(m, 3)) (s : 'cV[R]_m) : lstsq_ok la -> faces_are faces F ->
  exists Z : 'M[R]_(n, 3), sup_2_boundary_3 la (mat D) (vec s) faces = Ok (mat Z) /\
  forall i, indep D (F i) -> forall k, on_plane D s (F i k) (row i Z).
Proof.
move=> Hla HF; have [Z [E H]] := sup_2_boundary_3_spec Hla HF D s; exists Z; split=> // i Hi; apply: H.
exact: indep_common.
Qed.
Print Assumptions C33_boundary_3.

Theorem C33_common_3 (R : rcfType) (la : linalg R) n m (faces : arr int) (F : 'I_n -> 'I_3 -> 'I_m)
    (D : 'M[R]_(m, 3)) (s : 'cV[R]_m) : lstsq_ok la -> faces_are faces F ->
  exists Z : 'M[R]_(n, 3), sup_2_boundary_3 la (mat D) (vec s) faces = Ok (mat Z) /\
  forall i, common D s (F i) -> forall k, on_plane D s (F i k) (row i Z).
Proof. by move=> Hla HF; exact: sup_2_boundary_3_spec. Qed.
Print Assumptions C33_common_3.

(** no directions *)
Theorem C33_empty (R : rcfType) (la : linalg R) d sup : sup_2_boundary_2 la (Arr [:: 0%N; d] [::]) sup = IndexError.
Proof. by []. Qed.
Print Assumptions C33_empty.

(** ** Cases meeting the hypotheses *)
Section Ex.
Variable R : rcfType.
(** the directions of a square *)
Let D : 'M[R]_(4, 2) := \matrix_(i, j) nth 0 (nth [::] [:: [:: 1; 0]; [:: 0; 1]; [:: -1; 0]; [:: 0; -1]] i) j.
Example C33_ex_2 : lstsq_ok (the_linalg R) /\ forall i, indep D (two i (cyc i)).
Proof.
split; first by have := the_linalg_ok R; rewrite /linalg_ok; do !case=> ?.
move=> i; apply: indep2; case: i => -[|[|[|[|]]]] // Hi; rewrite !mxE /cyc /= !inordK //=;
  by rewrite ?mulr0 ?mul0r ?mulr1 ?mulrN1 ?mul1r ?subr0 ?sub0r ?opprK ?oppr_eq0 oner_eq0.
Qed.
Let F : 'I_1 -> 'I_3 -> 'I_3 := fun _ k => k.
Example C33_ex_3 : faces_are (Arr [:: 1%N; 3%N] [:: 0; 1; -1]) F /\ indep (1%:M : 'M[R]_3) (F 0).
Proof.
split.
  split=> // -[[|i] // Hi] -[[|[|[|]]] // Hj]; rewrite /getn /=; by [left|right].
move=> c Hc i; move: (Hc i); rewrite (bigD1 i) //= big1 => [|j /negbTE ne]; first by rewrite mxE eqxx mulr1 addr0.
by rewrite mxE ne mulr0.
Qed.
End Ex.
