(** Specification vocabulary for gras/gen/gen.py. *)
From mathcomp Require Import all_ssreflect all_algebra.
From Verif.Model Require Import NP Gen.
From Verif.Spec Require Import MatSpec.
Set Implicit Arguments.
Unset Strict Implicit.
Unset Printing Implicit Defensive.
Import GRing.Theory Num.Theory.
Local Open Scope ring_scope.

Section GenSpec.
Variable R : rcfType.

(** an array all of whose entries are (finite) reals *)
Definition fin_arr (a : arr R) : arr (xnum R) := np_map (@Fin R) a.

(** the entrywise (Frobenius) inner product *)
Definition frob m n (M N : 'M[R]_(m, n)) : R := \sum_i \sum_j M i j * N i j.

(** a callback value read as a matrix: a matrix, a vector (a column) or a number *)
Inductive value_is : forall m n, fval R -> 'M[R]_(m, n) -> Prop :=
| IsMatrix m n (M : 'M[R]_(m, n)) : value_is (FArr (mat M)) M
| IsVector m (v : 'cV[R]_m) : value_is (FArr (vec v)) v
| IsNumber (x : R) : value_is (FNum (Fin x)) (x%:M : 'M[R]_1).

(** what numpy documents of np.argsort on real keys (default, unstable, kind): the result is a
    permutation of the positions along which the keys do not decrease *)
Definition argsort_ok (f : seq (xnum R) -> seq nat) : Prop :=
  forall s : seq R, perm_eq (f [seq Fin x | x <- s]) (iota 0 (size s)) /\
    sorted <=%R [seq nth 0 s i | i <- f [seq Fin x | x <- s]].

(** in column c, row i lies below row j and the values are separated: somewhere between them two
    neighbouring values of the column are more than tol apart *)
Definition gap m n (tol : R) (M : 'M[R]_(m, n)) (c : 'I_n) (i j : 'I_m) : bool :=
  [exists u, [exists v, [&& M i c <= M u c, M u c + tol < M v c, M v c <= M j c &
    [forall w, ~~ (M u c < M w c < M v c)]]]].

(** row i comes before row j: in the first column that separates them, row i is below; if no column
    separates them, row i is the earlier row of the input *)
Definition tied m n (tol : R) (M : 'M[R]_(m, n)) c i j := ~~ gap tol M c i j && ~~ gap tol M c j i.
Definition precedes m n (tol : R) (M : 'M[R]_(m, n)) (i j : 'I_m) : Prop :=
  (exists2 c, gap tol M c i j & forall c' : 'I_n, (c' < c)%N -> tied tol M c' i j) \/
  ((forall c, tied tol M c i j) /\ (i < j)%N).

(** diag(2, 3, 1) *)
Definition b231 : 'M[R]_3 := diagv (\col_i nth 0 [:: 2%:R; 3%:R; 1] i).

End GenSpec.
