(** C81: laws between the operations on stacks of matrices (gras/gen/gen.py). *)
From mathcomp Require Import all_ssreflect all_fingroup all_algebra.
Require Import Coq.Strings.String.
From Verif.Model Require Import Py NP NP3 Linalg La Gen.
From Verif.Spec Require Import MatSpec LinalgSpec OrthSpec GenSpec StackLawSpec.
From Verif.Proof Require Import NPLib NP3Lib MatLib LaBasic LinalgSat EllLib GenProof StackLawProof.
Import Order.Theory GRing.Theory Num.Theory.
Local Open Scope ring_scope.

(** the product of three factors is the product of two, bracketed either way, with or without use_sparse_matrix *)
Theorem C81_products :
  forall (R : rcfType) m k n q p (D : 'I_p -> 'M[R]_(m, k)) (E : 'I_p -> 'M[R]_(k, n)) (F : 'I_p -> 'M[R]_(n, q)) b b',
  (let* x := r_multiply (slices D) (slices E) None b in r_multiply x (slices F) None b') =
    r_multiply (slices D) (slices E) (Some (slices F)) b /\
  (let* y := r_multiply (slices E) (slices F) None b in r_multiply (slices D) y None b') =
    r_multiply (slices D) (slices E) (Some (slices F)) b.
Proof. exact: mul_assoc. Qed.
Print Assumptions C81_products.

(** transposing a product exchanges the factors *)
Theorem C81_transpose :
  forall (R : rcfType) m k n p (D : 'I_p -> 'M[R]_(m, k)) (E : 'I_p -> 'M[R]_(k, n)) b b',
  (let* x := r_multiply (slices D) (slices E) None b in mv_transpose x) =
  (let* e := mv_transpose (slices E) in let* d := mv_transpose (slices D) in r_multiply e d None b').
Proof. exact: mul_transpose. Qed.
Print Assumptions C81_transpose.

(** lr_multiply with the flag R is lr_multiply with the flag L of the transposed stack, and is a product of three factors *)
Theorem C81_congruence :
  forall (R : rcfType) m n p (B : 'I_p -> 'M[R]_m) (M : 'I_p -> 'M[R]_(m, n)) b,
  lr_multiply (slices B) (slices M) FlagR = (let* t := mv_transpose (slices M) in lr_multiply (slices B) t FlagL) /\
  lr_multiply (slices B) (slices M) FlagR = (let* t := mv_transpose (slices M) in r_multiply t (slices B) (Some (slices M)) b).
Proof. exact: congruence. Qed.
Print Assumptions C81_congruence.

(** inv is a two-sided inverse for r_multiply and an involution *)
Theorem C81_inverse :
  forall (R : rcfType) (la : linalg R) n p (B : 'I_p -> 'M[R]_n) b,
  inv_ok la -> (0 < n)%N -> (forall l, B l \in unitmx) ->
  [/\ (let* i := sq_inv la (slices B) in r_multiply (slices B) i None b) = Ok (slices (fun _ : 'I_p => 1%:M : 'M[R]_n)),
      (let* i := sq_inv la (slices B) in r_multiply i (slices B) None b) = Ok (slices (fun _ : 'I_p => 1%:M : 'M[R]_n)) &
      (let* i := sq_inv la (slices B) in sq_inv la i) = Ok (slices B)].
Proof. exact: inv_mul. Qed.
Print Assumptions C81_inverse.

(** the inverse of a product *)
Theorem C81_inverse_product :
  forall (R : rcfType) (la : linalg R) n p (B C : 'I_p -> 'M[R]_n) b,
  inv_ok la -> (0 < n)%N -> (forall l, B l \in unitmx) -> (forall l, C l \in unitmx) ->
  (let* x := r_multiply (slices B) (slices C) None b in sq_inv la x) =
  (let* c := sq_inv la (slices C) in let* d := sq_inv la (slices B) in r_multiply c d None b).
Proof. exact: inv_product. Qed.
Print Assumptions C81_inverse_product.

(** sqrtm_pos and squaring undo each other, whatever eigenvectors are returned *)
Theorem C81_root :
  forall (R : rcfType) (la : linalg R) n p (B : 'I_p -> 'M[R]_n) b,
  eigh_ok la -> (1 < n)%N ->
  (forall l, symm (B l)) -> (forall l, psd (B l)) ->
  (let* s := sq_sqrtm_pos la (slices B) in r_multiply s s None b) = Ok (slices B) /\
  (let* x := r_multiply (slices B) (slices B) None b in sq_sqrtm_pos la x) = Ok (slices B).
Proof. exact: root_square. Qed.
Print Assumptions C81_root.

(** the root of the inverse is the inverse of the root *)
Theorem C81_root_inverse :
  forall (R : rcfType) (la : linalg R) n p (B : 'I_p -> 'M[R]_n),
  eigh_ok la -> inv_ok la -> (1 < n)%N ->
  (forall l, symm (B l)) -> (forall l, posdef (B l)) ->
  (let* s := sq_sqrtm_pos la (slices B) in sq_inv la s) = (let* i := sq_inv la (slices B) in sq_sqrtm_pos la i).
Proof. exact: root_inverse. Qed.
Print Assumptions C81_root_inverse.

(** a matrix has only one Moore-Penrose inverse: pinv is determined by its four equations *)
Theorem C81_penrose :
  forall (R : rcfType) m n (B : 'M[R]_(m, n)) (P Q : 'M[R]_(n, m)),
  penrose B P -> penrose B Q -> P = Q.
Proof. exact: penrose_uniq. Qed.
Print Assumptions C81_penrose.

(** pinv is an involution and commutes with transposition *)
Theorem C81_pinv :
  forall (R : rcfType) (la : linalg R) m n p (B : 'I_p -> 'M[R]_(m, n)),
  pinv_ok la -> (0 < m)%N -> (0 < n)%N ->
  (let* i := mv_pinv la (slices B) in mv_pinv la i) = Ok (slices B) /\
  (let* t := mv_transpose (slices B) in mv_pinv la t) = (let* i := mv_pinv la (slices B) in mv_transpose i).
Proof. exact: pinv_laws. Qed.
Print Assumptions C81_pinv.

(** on invertible slices pinv is inv *)
Theorem C81_pinv_inv :
  forall (R : rcfType) (la : linalg R) n p (B : 'I_p -> 'M[R]_n),
  pinv_ok la -> inv_ok la -> (0 < n)%N -> (forall l, B l \in unitmx) ->
  mv_pinv la (slices B) = sq_inv la (slices B).
Proof. exact: pinv_inv. Qed.
Print Assumptions C81_pinv_inv.

(** a second make_pos_definite_by_eig, with any non-negative value, changes nothing *)
Theorem C81_make_pos_definite :
  forall (R : rcfType) (la : linalg R) n p (B : 'I_p -> 'M[R]_n) (v w : R),
  eigh_ok la -> (0 < n)%N -> (forall l, symm (B l)) -> 0 <= v -> 0 <= w ->
  exists P : 'I_p -> 'M[R]_n, [/\ sq_make_pos_by_eig la (slices B) (Fin v) = Ok (slices P),
    sq_make_pos_by_eig la (slices P) (Fin w) = Ok (slices P) & forall l, symm (P l) /\ psd (P l)].
Proof. exact: by_eig_twice. Qed.
Print Assumptions C81_make_pos_definite.

(** lr_divide_vec gives the numbers that lr_multiply_by_vec gives for the inverses *)
Theorem C81_divide :
  forall (R : rcfType) (la : linalg R) n p (B : 'I_p -> 'M[R]_n) (M : 'M[R]_(n, p)),
  lstsq_ok la -> inv_ok la -> (0 < n)%N -> p != 1%N ->
  (forall l, B l \in unitmx) ->
  exists v : 'cV[R]_p, lr_divide_vec la (slices B) (mat M) = Ok (vec v) /\
  (let* i := sq_inv la (slices B) in lr_multiply_by_vec i (mat M)) = Ok (mat v^T).
Proof. exact: divide_inverse. Qed.
Print Assumptions C81_divide.

(** contracts that hold together, and a stack with a slice that is not the identity *)
Example C81_nonvacuous : forall R : rcfType,
  [/\ eigh_ok (the_linalg R) /\ inv_ok (the_linalg R), pinv_ok (the_linalg R) /\ lstsq_ok (the_linalg R),
      symm (2%:R%:M : 'M[R]_2), posdef (2%:R%:M : 'M[R]_2) & @penrose R 2 3 (delta_mx 0 1) (delta_mx 1 0)].
Proof.
move=> R; have [h1 [h2 [h3 [h4 [h5 [h6 [h7 [h8 [h9 [h10 h11]]]]]]]]]] := the_linalg_ok R.
split; [by split|by split|by rewrite /symm tr_scalar_mx| |].
  by move=> x x0; rewrite /qf mul_scalar_mx dotvZr mulr_gt0 ?ltr0n // sqn_gt0.
by split; rewrite ?mul_delta_mx ?trmx_delta.
Qed.
