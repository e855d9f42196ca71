(** C11-C17, C65-C68: gras/gen/gen.py. *)
From mathcomp Require Import all_ssreflect all_fingroup all_algebra.
Require Import Coq.Strings.String.
From Verif.Model Require Import Py NP NP3 Linalg La Gen.
From Verif.Spec Require Import MatSpec LinalgSpec OrthSpec GenSpec.
From Verif.Proof Require Import NPLib NP3Lib MatLib LaBasic LinalgSat GenProof SortProof.
Import Order.Theory GRing.Theory Num.Theory.
Local Open Scope ring_scope.

(** ------------------------------------------------------------------ C11 *)
Theorem C11_sort_rows_tol :
  forall (R : rcfType) (argsort : seq (xnum R) -> seq nat), argsort_ok argsort ->
  forall m n (M : 'M[R]_(m, n)) (tol : R), 0 <= tol -> (0 < n)%N ->
  exists s : 'S_m, sort_rows_tol argsort (mat M) (Fin tol) =
      Ok (mat (row_perm s M), [seq val (s i) | i <- enum 'I_m], [seq val (s^-1%g i) | i <- enum 'I_m]) /\
    forall k l : 'I_m, (k < l)%N -> precedes tol M (s k) (s l).
Proof. exact: sort_rows_tol_run. Qed.
Print Assumptions C11_sort_rows_tol.

(** the order is strict, so the permutation is determined by the data, not by argsort's tie breaking *)
Theorem C11_order_strict :
  forall (R : rcfType) m n (tol : R) (M : 'M[R]_(m, n)) i j, 0 <= tol -> precedes tol M i j -> ~ precedes tol M j i.
Proof. exact: precedes_asym. Qed.
Print Assumptions C11_order_strict.

Theorem C11_result_unique :
  forall (R : rcfType) (f g : seq (xnum R) -> seq nat), argsort_ok f -> argsort_ok g ->
  forall m n (M : 'M[R]_(m, n)) (tol : R), 0 <= tol -> (0 < n)%N ->
  sort_rows_tol f (mat M) (Fin tol) = sort_rows_tol g (mat M) (Fin tol).
Proof. exact: sort_rows_tol_unique. Qed.
Print Assumptions C11_result_unique.

(** with tol = 0 this is the lexicographic order *)
Theorem C11_zero_tol_lexicographic :
  forall (R : rcfType) m n (M : 'M[R]_(m, n)) i j, precedes 0 M i j ->
  (exists2 c, M i c < M j c & forall c' : 'I_n, (c' < c)%N -> M i c' = M j c') \/
  ((forall c, M i c = M j c) /\ (i < j)%N).
Proof. exact: precedes0. Qed.
Print Assumptions C11_zero_tol_lexicographic.

Theorem C11_rejects :
  forall (R : rcfType) (f : seq (xnum R) -> seq nat) (a : arr (xnum R)) (tol : R),
  (tol < 0 -> sort_rows_tol f a (Fin tol) = throw "wrongInput:tol") /\
  (0 <= tol -> ndim a != 2%N -> sort_rows_tol f a (Fin tol) = throw "wrongInput:inp_mat").
Proof. exact: sort_rows_tol_rejects. Qed.
Print Assumptions C11_rejects.

Example C11_nonvacuous : forall R : rcfType, exists f : seq (xnum R) -> seq nat, argsort_ok f.
Proof. by move=> R; exists (@stable_argsort R); exact: stable_argsort_ok. Qed.
Example C11_nonvacuous_gap : forall R : rcfType,
  gap (1 : R) (\col_(i < 2) (3%:R * i%:R)) 0 0 1 /\ ~~ gap (4%:R : R) (\col_(i < 2) (3%:R * i%:R)) 0 0 1.
Proof. exact: gap_example. Qed.

(** ------------------------------------------------------------------ C12 *)
Theorem C12_sqrt_pos :
  forall (R : rcfType) (a : arr R) (t : R),
  sqrt_pos (fin_arr a) (Fin t) =
  if t < 0 then throw "wrongInput:abs_tolNegative"
  else if has (fun x => x < - t) (data a) then throw "wrongInput:negativeInput"
  else Ok (fin_arr (np_map (fun x => Num.sqrt (Num.max x 0)) a)).
Proof. exact: sqrt_pos_run. Qed.
Print Assumptions C12_sqrt_pos.

Theorem C12_sqrt_pos_scalar :
  forall (R : rcfType) (x t : R),
  sqrt_pos_scal (Fin x) (Fin t) =
  if t < 0 then throw "wrongInput:abs_tolNegative"
  else if x < - t then throw "wrongInput:negativeInput"
  else Ok (Fin (Num.sqrt (Num.max x 0))).
Proof. exact: sqrt_pos_scal_run. Qed.
Print Assumptions C12_sqrt_pos_scalar.

(** the value is the nonnegative root of the clipped entry *)
Theorem C12_sqrt_pos_value :
  forall (R : rcfType) (x : R), let y := Num.sqrt (Num.max x 0) in
  [/\ 0 <= y, 0 <= x -> y ^+ 2 = x & x < 0 -> y = 0].
Proof.
move=> R x /=; split=> [|H|H]; first exact: sqrtr_ge0.
  by rewrite sqr_sqrtr ?(max_idPl H).
by rewrite (max_idPr (ltW H)) sqrtr0.
Qed.
Print Assumptions C12_sqrt_pos_value.

Example C12_nonvacuous : forall R : rcfType,
  sqrt_pos (fin_arr (Arr [:: 2%N] [:: 4%:R; - 1 : R])) (Fin 1) =
    Ok (fin_arr (Arr [:: 2%N] [:: Num.sqrt (Num.max 4%:R 0); Num.sqrt (Num.max (- 1) 0)])).
Proof.
move=> R; rewrite sqrt_pos_run ltNge ler01 /= ltxx orbF.
by rewrite ltNge (@le_trans _ _ 0) ?ler0n // oppr_le0 ler01.
Qed.

(** ------------------------------------------------------------------ C13 *)
Theorem C13_mat_dot :
  forall (R : rcfType) n, (0 < n)%N -> exists f : 'M[R]_n -> 'M[R]_n -> R,
  [/\ forall M N, mat_dot (mat M) (mat N) = Ok (mat ((f M N)%:M : 'M_1)),
      forall p (D E : 'I_p -> 'M[R]_n), mat_dot (slices D) (slices E) = Ok (slices (fun l => (f (D l) (E l))%:M : 'M_1)),
      forall M N, f M N = \tr (M^T *m N) / n%:R,
      (forall M N, f M N = f N M) /\ (forall a M M' N, f (a *: M + M') N = a * f M N + f M' N) &
      forall M, 0 <= f M M ?= iff (M == 0)].
Proof. exact: mat_dot_laws. Qed.
Print Assumptions C13_mat_dot.

Theorem C13_mat_dot_rejects :
  forall R : rcfType,
  (forall a b : arr (xnum R), shape b != shape a -> mat_dot a b = throw "wrongInput:size") /\
  (forall m n (M N : 'M[R]_(m, n)), m != n -> mat_dot (mat M) (mat N) = throw "wrongInput:not_square").
Proof. by move=> R; split; [exact: mat_dot_rejects | exact: mat_dot_nonsq]. Qed.
Print Assumptions C13_mat_dot_rejects.

Example C13_nonvacuous : forall R : rcfType,
  mat_dot (mat (1%:M : 'M[R]_2)) (mat (1%:M : 'M[R]_2)) = Ok (mat (1%:M : 'M[R]_1)).
Proof.
move=> R; rewrite mat_dot_mat //; congr (Ok (mat (_%:M))).
by rewrite frob_tr trmx1 mul1mx mxtrace1 divff // pnatr_eq0.
Qed.

(** ------------------------------------------------------------------ C14 *)
Theorem C14_r_multiply_by_vec :
  forall (R : rcfType) m n p (D : 'I_p -> 'M[R]_(m, n)) (B : 'M[R]_(n, p)) use_sparse,
  r_multiply_by_vec (slices D) (mat B) use_sparse = Ok (mat (\matrix_(i, l) (D l *m col l B) i 0)).
Proof. exact: r_multiply_by_vec_run. Qed.
Print Assumptions C14_r_multiply_by_vec.

Theorem C14_r_multiply :
  forall (R : rcfType) m k n p (D : 'I_p -> 'M[R]_(m, k)) (E : 'I_p -> 'M[R]_(k, n)) use_sparse,
  r_multiply (slices D) (slices E) None use_sparse = Ok (slices (fun l => D l *m E l)).
Proof. exact: r_multiply_slices. Qed.
Print Assumptions C14_r_multiply.

Theorem C14_r_multiply_three :
  forall (R : rcfType) m k n q p (D : 'I_p -> 'M[R]_(m, k)) (E : 'I_p -> 'M[R]_(k, n)) (F : 'I_p -> 'M[R]_(n, q)) use_sparse,
  r_multiply (slices D) (slices E) (Some (slices F)) use_sparse = Ok (slices (fun l => D l *m E l *m F l)).
Proof. exact: r_multiply3_slices. Qed.
Print Assumptions C14_r_multiply_three.

(** a constant second factor: proved for a number of slices other than one (dense), and unless a
    factor is 1 x 1 (sparse) *)
Theorem C14_r_multiply_const_dense_partial :
  forall (R : rcfType) m k n p (D : 'I_p -> 'M[R]_(m, k)) (M : 'M[R]_(k, n)), p != 1%N ->
  r_multiply (slices D) (mat M) None false = Ok (slices (fun l => D l *m M)).
Proof. exact: r_multiply_mat. Qed.
Print Assumptions C14_r_multiply_const_dense_partial.
Theorem C14_r_multiply_const_sparse_partial :
  forall (R : rcfType) m k n p (D : 'I_p -> 'M[R]_(m, k)) (M : 'M[R]_(k, n)),
  ~~ ((m == 1%N) && (k == 1%N)) -> ~~ ((k == 1%N) && (n == 1%N)) ->
  r_multiply (slices D) (mat M) None true = Ok (slices (fun l => D l *m M)).
Proof. exact: r_multiply_mat_sparse. Qed.
Print Assumptions C14_r_multiply_const_sparse_partial.

(** FALSE: with one slice and a constant factor the dense path raises IndexError *)
Theorem C14_one_slice_refuted :
  forall (R : rcfType) m k n (M : 'M[R]_(m, k)) (N : 'M[R]_(k, n)),
  r_multiply (slices (fun _ : 'I_1 => M)) (mat N) None false = IndexError.
Proof. exact: r_multiply_mat_one. Qed.
Print Assumptions C14_one_slice_refuted.

Example C14_nonvacuous : forall R : rcfType,
  r_multiply (slices (fun l : 'I_2 => (val l).+1%:R%:M : 'M[R]_2)) (mat (const_mx 1 : 'M[R]_2)) None true =
  Ok (slices (fun l : 'I_2 => (val l).+1%:R *: const_mx 1 : 'M[R]_2)).
Proof.
move=> R; rewrite r_multiply_mat_sparse //; congr Ok; apply: eq_slices => l.
by rewrite mul_scalar_mx.
Qed.

(** ------------------------------------------------------------------ C15 *)
Theorem C15_lr_multiply_R :
  forall (R : rcfType) m n p (B : 'I_p -> 'M[R]_m) (M : 'I_p -> 'M[R]_(m, n)),
  lr_multiply (slices B) (slices M) FlagR = Ok (slices (fun l => (M l)^T *m B l *m M l)).
Proof. exact: lr_multiply_33R. Qed.
Print Assumptions C15_lr_multiply_R.

Theorem C15_lr_multiply_L :
  forall (R : rcfType) m n p (B : 'I_p -> 'M[R]_m) (M : 'I_p -> 'M[R]_(n, m)),
  lr_multiply (slices B) (slices M) FlagL = Ok (slices (fun l => M l *m B l *m (M l)^T)).
Proof. exact: lr_multiply_33L. Qed.
Print Assumptions C15_lr_multiply_L.

Theorem C15_lr_multiply_constant :
  forall (R : rcfType) m n p (B : 'I_p -> 'M[R]_m),
  (forall M : 'M[R]_(m, n), lr_multiply (slices B) (mat M) FlagR = Ok (slices (fun l => M^T *m B l *m M))) /\
  (forall M : 'M[R]_(n, m), lr_multiply (slices B) (mat M) FlagL = Ok (slices (fun l => M *m B l *m M^T))).
Proof. by move=> R m n p B; split=> M; [exact: lr_multiply_32R | exact: lr_multiply_32L]. Qed.
Print Assumptions C15_lr_multiply_constant.

Theorem C15_lr_multiply_matrix :
  forall (R : rcfType) m n (B : 'M[R]_m),
  (forall M : 'M[R]_(m, n), lr_multiply (mat B) (mat M) FlagR = Ok (mat (M^T *m B *m M))) /\
  (forall M : 'M[R]_(n, m), lr_multiply (mat B) (mat M) FlagL = Ok (mat (M *m B *m M^T))).
Proof. by move=> R m n B; split=> M; [exact: lr_multiply_22R | exact: lr_multiply_22L]. Qed.
Print Assumptions C15_lr_multiply_matrix.

Theorem C15_lr_multiply_bad_flag :
  forall (R : rcfType) (b a : arr (xnum R)), lr_multiply b a FlagOther = throw "wrong_input".
Proof. exact: lr_multiply_bad. Qed.
Print Assumptions C15_lr_multiply_bad_flag.

(** congruences keep symmetry and positive semi-definiteness *)
Theorem C15_congruence_laws :
  forall (R : rcfType) m n p (B : 'I_p -> 'M[R]_m) (M : 'I_p -> 'M[R]_(m, n)), exists E : 'I_p -> 'M[R]_n,
  [/\ lr_multiply (slices B) (slices M) FlagR = Ok (slices E),
      forall l, symm (B l) -> symm (E l) & forall l, psd (B l) -> psd (E l)].
Proof.
move=> R m n p B M; exists (fun l => (M l)^T *m B l *m M l).
by split=> [|l|l]; [exact: lr_multiply_33R | exact: tr_congr | exact: psd_congr].
Qed.
Print Assumptions C15_congruence_laws.

Theorem C15_lr_multiply_by_vec :
  forall (R : rcfType) n k (M : 'M[R]_(n, k)),
  (forall B : 'M[R]_n, lr_multiply_by_vec (mat B) (mat M) = Ok (mat (\row_j qf B (col j M)))) /\
  (forall B : 'I_k -> 'M[R]_n, lr_multiply_by_vec (slices B) (mat M) = Ok (mat (\row_j qf (B j) (col j M)))).
Proof. by move=> R n k M; split=> B; [exact: lr_by_vec_mat | exact: lr_by_vec_slices]. Qed.
Print Assumptions C15_lr_multiply_by_vec.

Theorem C15_lr_divide_vec :
  forall (R : rcfType) (la : linalg R) n, lstsq_ok la -> (0 < n)%N ->
  (forall k (B : 'M[R]_n) (M : 'M[R]_(n, k)), B \in unitmx ->
     lr_divide_vec la (mat B) (mat M) = Ok (mat (M^T *m invmx B *m M))) /\
  (forall p (B : 'I_p -> 'M[R]_n) (v : 'cV[R]_n), (forall l, B l \in unitmx) ->
     lr_divide_vec la (slices B) (mat v) = Ok (vec (\col_l qf (invmx (B l)) v))) /\
  (forall k (B : 'I_k -> 'M[R]_n) (M : 'M[R]_(n, k)), k != 1%N -> (forall l, B l \in unitmx) ->
     lr_divide_vec la (slices B) (mat M) = Ok (vec (\col_l qf (invmx (B l)) (col l M)))).
Proof.
move=> R la n ok n0; split=> [k B M|]; first exact: lr_divide_mat.
by split=> [p B v|k B M k1]; [exact: lr_divide_one | exact: lr_divide_many].
Qed.
Print Assumptions C15_lr_divide_vec.

Example C15_nonvacuous : forall R : rcfType,
  [/\ lstsq_ok (the_linalg R), (2%:R%:M : 'M[R]_2) \in unitmx, symm (2%:R%:M : 'M[R]_2) & psd (2%:R%:M : 'M[R]_2)].
Proof.
move=> R; have [_ [_ [_ [_ [_ [_ [_ [_ [_ [ok _]]]]]]]]]] := the_linalg_ok R.
split=> // [||x]; first by rewrite unitmxE det_scalar unitfE expf_neq0 // pnatr_eq0.
  by rewrite /symm tr_scalar_mx.
by rewrite /qf mul_scalar_mx dotvZr mulr_ge0 ?ler0n // sqn_ge0.
Qed.

(** a single matrix b with a stack a: only the first slice of a is used *)
Theorem C15_lr_multiply_matrix_stack :
  forall (R : rcfType) m n p (B : 'M[R]_m),
  (forall M : 'I_p.+1 -> 'M[R]_(m, n), lr_multiply (mat B) (slices M) FlagR = Ok (mat ((M 0)^T *m B *m M 0))) /\
  (forall M : 'I_p.+1 -> 'M[R]_(n, m), lr_multiply (mat B) (slices M) FlagL = Ok (mat (M 0 *m B *m (M 0)^T))).
Proof. exact: lr_multiply_23. Qed.
Print Assumptions C15_lr_multiply_matrix_stack.

Theorem C15_one_dimensional_argument :
  forall (R : rcfType) (la : linalg R) n (v : 'cV[R]_n) (b : arr (xnum R)),
  lr_multiply_by_vec b (vec v) = lr_multiply_by_vec b (mat v) /\
  lr_divide_vec la b (vec v) = lr_divide_vec la b (mat v).
Proof. by move=> R la n v b; split; [exact: lr_by_vec_1d | exact: lr_divide_1d]. Qed.
Print Assumptions C15_one_dimensional_argument.

(** ------------------------------------------------------------------ C16 *)
Theorem C16_transpose :
  forall (R : rcfType) m n,
  (forall p (D : 'I_p -> 'M[R]_(m, n)), mv_transpose (slices D) = Ok (slices (fun l => (D l)^T))) /\
  (forall M : 'M[R]_(m, n), mv_transpose (mat M) = Ok (slices (fun _ : 'I_1 => M^T))).
Proof. by move=> R m n; split=> *; [exact: transpose_slices | exact: transpose_mat]. Qed.
Print Assumptions C16_transpose.

Theorem C16_transpose_involutive :
  forall (R : rcfType) m n p (D : 'I_p -> 'M[R]_(m, n)),
  (let* t := mv_transpose (slices D) in mv_transpose t) = Ok (slices D).
Proof. exact: transpose_invol. Qed.
Print Assumptions C16_transpose_involutive.

Theorem C16_make_symmetric :
  forall (R : rcfType) n p (D : 'I_p -> 'M[R]_n),
  mv_make_symmetric (slices D) = Ok (slices (fun l => (1 / 2%:R) *: (D l + (D l)^T))).
Proof. exact: make_symmetric_slices. Qed.
Print Assumptions C16_make_symmetric.

Theorem C16_make_symmetric_laws :
  forall (R : rcfType) n p (D : 'I_p -> 'M[R]_n), exists E : 'I_p -> 'M[R]_n,
  [/\ mv_make_symmetric (slices D) = Ok (slices E), forall l, symm (E l),
      forall l, symm (D l) -> E l = D l & mv_make_symmetric (slices E) = Ok (slices E)].
Proof. exact: make_symmetric_laws. Qed.
Print Assumptions C16_make_symmetric_laws.

Theorem C16_triu :
  forall (R : rcfType) m n,
  (forall p (D : 'I_p -> 'M[R]_(m, n)),
     mv_triu (slices D) = Ok (slices (fun l => \matrix_(i, j) (if (i <= j)%N then D l i j else 0)))) /\
  (forall M : 'M[R]_(m, n),
     mv_triu (mat M) = Ok (slices (fun _ : 'I_1 => \matrix_(i, j) (if (i <= j)%N then M i j else 0)))).
Proof. by move=> R m n; split=> *; [exact: triu_slices | exact: triu_mat]. Qed.
Print Assumptions C16_triu.

Example C16_nonvacuous : forall R : rcfType, ~ symm (delta_mx 0 1 : 'M[R]_2).
Proof. by move=> R /matrixP/(_ 0 1); rewrite !mxE /= => /eqP; rewrite eq_sym oner_eq0. Qed.

(** ------------------------------------------------------------------ C17 *)
(** FALSE: the routines use V^T D V instead of V D V^T.  For diag(2, 3, 1), whatever decomposition
    eigh returns, the product at the first basis vector is 3 instead of 2. *)
Theorem C17_svd_product_refuted :
  forall (R : rcfType) (la : linalg R), eigh_ok la ->
  symm (b231 R) /\ posdef (b231 R) /\
  lr_svd_multiply_by_vec la (slices (fun _ : 'I_1 => b231 R)) (mat (delta_mx 0 0 : 'cV[R]_3)) = Ok (mat (3%:R%:M : 'M_1)) /\
  lr_multiply_by_vec (slices (fun _ : 'I_1 => b231 R)) (mat (delta_mx 0 0 : 'cV[R]_3)) = Ok (mat (2%:R%:M : 'M_1)).
Proof. by move=> R la ok; have [? ?] := b231_posdef R; split=> //; split=> //; exact: svd_by_vec_wrong. Qed.
Print Assumptions C17_svd_product_refuted.

(** What does hold: the value is the plain product at the rotated argument W a with W = V V. *)
Theorem C17_svd_products_partial :
  forall (R : rcfType) (la : linalg R) n p (B : 'I_p -> 'M[R]_n) (M : 'M[R]_(n, p)),
  eigh_ok la -> (0 < n)%N -> (forall l, symm (B l)) ->
  exists W : 'I_p -> 'M[R]_n, [/\ forall l, orthog (W l),
    forall l, exists2 V, W l = V *m V & exists d, eigdec (B l) d V,
    lr_svd_multiply_by_vec la (slices B) (mat M) = Ok (mat (\row_l qf (B l) (W l *m col l M))),
    r_svd_multiply_by_vec la (slices B) (mat M) = Ok (mat (\matrix_(i, l) ((W l)^T *m B l *m W l *m col l M) i 0)) &
    forall k (N : 'I_p -> 'M[R]_(n, k)), lr_svd_multiply la (slices B) (slices N) FlagR =
      Ok (slices (fun l => (W l *m N l)^T *m B l *m (W l *m N l)))].
Proof. exact: svd_by_vec_partial. Qed.
Print Assumptions C17_svd_products_partial.

Theorem C17_lr_svd_divide_partial :
  forall (R : rcfType) (la : linalg R) n p (B : 'I_p -> 'M[R]_n) (M : 'M[R]_(n, p)),
  eigh_ok la -> (0 < n)%N -> (p != 1)%N -> (forall l, symm (B l)) -> (forall l, B l \in unitmx) ->
  exists d V, [/\ forall l, la_eigh la (mat (B l)) = Ok (vec (d l), mat (V l)),
    forall l, eigdec (B l) (d l) (V l), forall l, ascending (d l) &
    lr_svd_divide_vec la (slices B) (mat M) =
      Ok (vec (\col_l qf ((V l)^T *m diagv (\col_i (d l i 0)^-1) *m V l) (col l M)))].
Proof. exact: lr_svd_divide. Qed.
Print Assumptions C17_lr_svd_divide_partial.

Theorem C17_one_slice_divide_refuted :
  forall (R : rcfType) (la : linalg R) n (B : 'I_1 -> 'M[R]_n) (v : 'cV[R]_n),
  eigh_ok la -> (0 < n)%N -> (forall l, symm (B l)) ->
  lr_svd_divide_vec la (slices B) (mat v) = ValueError.
Proof. exact: lr_svd_divide_one. Qed.
Print Assumptions C17_one_slice_divide_refuted.

Theorem C17_left_product_refuted :
  forall (R : rcfType) (la : linalg R) n k p (B : 'I_p -> 'M[R]_n) (M : 'I_p -> 'M[R]_(k, n)),
  eigh_ok la -> (0 < n)%N -> (0 < p)%N -> (forall l, symm (B l)) -> k != n ->
  lr_svd_multiply la (slices B) (slices M) FlagL = ValueError.
Proof. exact: lr_svd_multiply_L_dim. Qed.
Print Assumptions C17_left_product_refuted.

Example C17_nonvacuous : forall R : rcfType, eigh_ok (the_linalg R) /\ symm (b231 R).
Proof. by move=> R; have [? _] := the_linalg_ok R; split=> //; case: (b231_posdef R). Qed.

(** ------------------------------------------------------------------ C65 *)
Theorem C65_inv :
  forall (R : rcfType) (la : linalg R) n p (B : 'I_p -> 'M[R]_n), inv_ok la -> (0 < n)%N ->
  ((forall l, B l \in unitmx) -> sq_inv la (slices B) = Ok (slices (fun l => invmx (B l)))) /\
  ((exists l, B l \notin unitmx) -> sq_inv la (slices B) = LinAlgError).
Proof.
move=> R la n p B ok n0; split; first exact: sq_inv_slices.
by case=> l Hl; exact: (sq_inv_sing ok n0 Hl).
Qed.
Print Assumptions C65_inv.

Theorem C65_pinv :
  forall (R : rcfType) (la : linalg R) m n p (B : 'I_p -> 'M[R]_(m, n)), pinv_ok la -> (0 < m)%N -> (0 < n)%N ->
  exists P : 'I_p -> 'M[R]_(n, m), mv_pinv la (slices B) = Ok (slices P) /\
  forall l, [/\ B l *m P l *m B l = B l, P l *m B l *m P l = P l,
                (B l *m P l)^T = B l *m P l & (P l *m B l)^T = P l *m B l].
Proof. exact: mv_pinv_slices. Qed.
Print Assumptions C65_pinv.

Theorem C65_sqrtm_pos_partial :
  forall (R : rcfType) (la : linalg R) n p (B : 'I_p -> 'M[R]_n), eigh_ok la -> (1 < n)%N ->
  (forall l, symm (B l)) -> (forall l, psd (B l)) ->
  exists S : 'I_p -> 'M[R]_n, sq_sqrtm_pos la (slices B) = Ok (slices S) /\
    forall l, [/\ symm (S l), psd (S l) & S l *m S l = B l].
Proof. exact: sq_sqrtm_slices. Qed.
Print Assumptions C65_sqrtm_pos_partial.

Theorem C65_single_matrix :
  forall (R : rcfType) (la : linalg R) n (M : 'M[R]_n), inv_ok la -> eigh_ok la -> (0 < n)%N ->
  sq_inv la (mat M) = (if M \in unitmx then Ok (mat (invmx M)) else LinAlgError) /\
  (symm M -> psd M -> exists S : 'M[R]_n, [/\ sq_sqrtm_pos la (mat M) = Ok (mat S), symm S, psd S & S *m S = M]).
Proof. by move=> R la n M ok ok2 n0; split; [exact: sq_inv_mat | exact: sq_sqrtm_mat]. Qed.
Print Assumptions C65_single_matrix.

(** FALSE: 1 x 1 slices are squeezed to scalars and rejected; pinv of one matrix raises *)
Theorem C65_sqrtm_pos_scalar_refuted :
  forall (R : rcfType) (la : linalg R) p (B : 'I_p -> 'M[R]_1), (0 < p)%N ->
  sq_sqrtm_pos la (slices B) = throw "wrongInput:nonSquareMat".
Proof. exact: sq_sqrtm_one. Qed.
Print Assumptions C65_sqrtm_pos_scalar_refuted.
Theorem C65_pinv_matrix_refuted :
  forall (R : rcfType) (la : linalg R) m n (M : 'M[R]_(m, n)), mv_pinv la (mat M) = IndexError.
Proof. exact: mv_pinv_mat. Qed.
Print Assumptions C65_pinv_matrix_refuted.

Example C65_nonvacuous : forall R : rcfType,
  [/\ inv_ok (the_linalg R), pinv_ok (the_linalg R), (1%:M : 'M[R]_2) \in unitmx & (0 : 'M[R]_2) \notin unitmx].
Proof.
move=> R; have [_ [_ [_ [_ [_ [_ [_ [ok [ok2 _]]]]]]]]] := the_linalg_ok R.
by split; rewrite ?unitmx1 // unitmxE det0 unitr0.
Qed.

(** ------------------------------------------------------------------ C66 *)
Theorem C66_make_pos_definite_or_nan :
  forall (R : rcfType) (la : linalg R) n p (B : 'I_p -> 'M[R]_n), eigvalsh_ok la -> (0 < n)%N ->
  exists o, [/\ sq_make_pos_or_nan la (slices B) = Ok o, shape o = [:: n; n; p], wf_arr o &
    forall l, (psd (lowsym (B l)) -> forall i j : 'I_n, getn NaN o [:: val i; val j; val l] = Fin (B l i j)) /\
              (~ psd (lowsym (B l)) -> forall i j : 'I_n, getn NaN o [:: val i; val j; val l] = NaN)].
Proof. exact: pos_or_nan_slices. Qed.
Print Assumptions C66_make_pos_definite_or_nan.

(** FALSE for a single matrix: a bad matrix gives the number NaN, not a matrix of NaN *)
Theorem C66_single_matrix_refuted :
  forall (R : rcfType) (la : linalg R) n (M : 'M[R]_n), eigvalsh_ok la -> (0 < n)%N ->
  (psd (lowsym M) -> sq_make_pos_or_nan la (mat M) = Ok (mat M)) /\
  (~ psd (lowsym M) -> sq_make_pos_or_nan la (mat M) = Ok (np_scalar NaN)).
Proof. exact: pos_or_nan_mat. Qed.
Print Assumptions C66_single_matrix_refuted.

Example C66_nonvacuous : forall R : rcfType,
  [/\ eigvalsh_ok (the_linalg R), psd (lowsym (1%:M : 'M[R]_1)) & ~ psd (lowsym (- 1%:M : 'M[R]_1))].
Proof.
move=> R; have [_ [ok _]] := the_linalg_ok R.
have L (M : 'M[R]_1) : lowsym M = M by apply/matrixP => i j; rewrite mxE (ord1 i) (ord1 j) leqnn.
split=> // [x|/(_ (const_mx 1))]; rewrite L /qf ?mulNmx mul1mx; first exact: sqn_ge0.
by rewrite /dotv big_ord1 !mxE mulrN1 oppr_ge0 ler10.
Qed.

(** ------------------------------------------------------------------ C67 *)
Theorem C67_make_pos_definite_by_eig :
  forall (R : rcfType) (la : linalg R) n (M : 'M[R]_n) (v : R), eigh_ok la -> (0 < n)%N -> symm M ->
  exists P : 'M[R]_n, [/\ pos_by_eig1 la (Fin v) (mat M) = Ok (mat P), symm P &
    forall (x : 'cV[R]_n) lam, M *m x = lam *: x -> P *m x = (if lam < 0 then v else lam) *: x].
Proof. exact: make_pos_by_eig_spec. Qed.
Print Assumptions C67_make_pos_definite_by_eig.

Theorem C67_result_positive :
  forall (R : rcfType) (la : linalg R) n (M : 'M[R]_n) (v : R) P, eigh_ok la -> (0 < n)%N -> symm M ->
  0 <= v -> pos_by_eig1 la (Fin v) (mat M) = Ok (mat P) ->
  [/\ psd P, psd M -> P = M & 0 < v -> M \in unitmx -> posdef P].
Proof. exact: make_pos_by_eig_psd. Qed.
Print Assumptions C67_result_positive.

Theorem C67_slices :
  forall (R : rcfType) (la : linalg R) n p (B : 'I_p -> 'M[R]_n) (v : R), eigh_ok la -> (0 < n)%N ->
  (forall l, symm (B l)) -> exists P : 'I_p -> 'M[R]_n,
    sq_make_pos_by_eig la (slices B) (Fin v) = Ok (slices P) /\
    forall l, pos_by_eig1 la (Fin v) (mat (B l)) = Ok (mat (P l)).
Proof. exact: make_pos_by_eig_slices. Qed.
Print Assumptions C67_slices.

Theorem C67_nonsymmetric_rejected :
  forall (R : rcfType) (la : linalg R) n (M : 'M[R]_n) (v : xnum R), ~ symm M ->
  sq_make_pos_by_eig la (mat M) v = throw "wrongInput:non SymmMat".
Proof. exact: pos_by_eig_nonsymm. Qed.
Print Assumptions C67_nonsymmetric_rejected.

(** FALSE: a singular matrix is not made positive definite, whatever the replacement value *)
Theorem C67_singular_refuted :
  forall (R : rcfType) (la : linalg R) (v : R), eigh_ok la ->
  pos_by_eig1 la (Fin v) (mat (0 : 'M[R]_2)) = Ok (mat (0 : 'M[R]_2)).
Proof. exact: make_pos_by_eig_zero. Qed.
Print Assumptions C67_singular_refuted.

Example C67_nonvacuous : forall R : rcfType, eigh_ok (the_linalg R) /\ symm (- 1%:M : 'M[R]_2).
Proof. by move=> R; have [? _] := the_linalg_ok R; split=> //; rewrite /symm linearN /= trmx1. Qed.

(** ------------------------------------------------------------------ C68 *)
Theorem C68_from_func :
  forall (R : rcfType) m n p (f : xnum R -> res (fval R)) (t : seq R) (F : 'I_p -> 'M[R]_(m, n)),
  size t = p -> (0 < p)%N ->
  (forall l : 'I_p, exists2 v, f (Fin (nth 0 t l)) = Ok v & value_is v (F l)) ->
  mv_from_func f [seq Fin x | x <- t] = Ok (slices F).
Proof. exact: from_func_run. Qed.
Print Assumptions C68_from_func.

Theorem C68_eval_func :
  forall (R : rcfType) m n p (f : arr (xnum R) -> res (arr (xnum R))) (D : 'I_p -> 'M[R]_(m, n)),
  (forall E : 'I_p -> 'M[R]_(m, n), (forall l, f (mat (D l)) = Ok (mat (E l))) ->
     mv_eval_func f (slices D) true = Ok (slices E)) /\
  (forall r : 'cV[R]_p, (forall l, f (mat (D l)) = Ok (scal (r l 0))) ->
     mv_eval_func f (slices D) false = Ok (vec r)) /\
  (forall g : 'I_p -> arr (xnum R), (forall l, f (mat (D l)) = Ok (g l)) ->
     mv_eval_list f (slices D) = Ok [seq g l | l <- enum 'I_p]).
Proof.
move=> R m n p f D; split=> [E|]; first exact: eval_keep.
by split=> [r|g]; [exact: eval_scalar | exact: eval_list].
Qed.
Print Assumptions C68_eval_func.

Example C68_nonvacuous : forall R : rcfType,
  mv_from_func (fun x => Ok (FNum x)) [seq Fin x | x <- [:: 1; 2%:R : R]] =
  Ok (slices (fun l : 'I_2 => (nth 0 [:: 1; 2%:R] l)%:M : 'M[R]_1)).
Proof.
move=> R; apply: from_func_run => // l; exists (FNum (Fin (nth 0 [:: 1; 2%:R] l))) => //.
exact: IsNumber.
Qed.
