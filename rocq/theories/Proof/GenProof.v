(** Proofs about Model/Gen.v (gras/gen/gen.py): everything except sort_rows_tol. *)
From mathcomp Require Import all_ssreflect all_algebra.
From mathcomp.algebra_tactics Require Import ring.
Require Import Coq.Strings.String.
From Verif.Model Require Import Py NP NP3 Linalg Compare La Gen.
From Verif.Spec Require Import MatSpec LinalgSpec OrthSpec GenSpec.
From Verif.Proof Require Import NPLib NP3Lib MatLib LaBasic.
Set Implicit Arguments.
Unset Strict Implicit.
Unset Printing Implicit Defensive.
Import Order.TTheory GRing.Theory Num.Theory.
Local Open Scope ring_scope.

Section G.
Variable R : rcfType.
Notation X := (xnum R).
Notation A := (arr X).
Notation get := (getn (@NaN R)).

(** ---------------------------------------------------------------- sqrt_pos *)
Lemma sqrt_clip (x : R) : xsqrt (if xlt (Fin x) x0 then x0 else Fin x) = Fin (Num.sqrt (Num.max x 0)).
Proof. by rewrite /= /Order.max; case: (ltP x 0) => H /=; rewrite ?ltxx // ltNge H. Qed.

Lemma sqrt_pos_run (a : arr R) (t : R) :
  sqrt_pos (fin_arr a) (Fin t) =
  if t < 0 then throw "wrongInput:abs_tolNegative"
  else if has (fun x => x < - t) (data a) then throw "wrongInput:negativeInput"
  else Ok (fin_arr (np_map (fun x => Num.sqrt (Num.max x 0)) a)).
Proof.
rewrite /sqrt_pos /=; case: ifP => // _; rewrite has_map.
rewrite (@eq_has _ _ (fun x => x < - t)) //; case: ifP => // _.
congr (Ok (Arr _ _)); rewrite /= -!map_comp; apply: eq_map => x; exact: sqrt_clip.
Qed.

Lemma sqrt_pos_scal_run (x t : R) :
  sqrt_pos_scal (Fin x) (Fin t) =
  if t < 0 then throw "wrongInput:abs_tolNegative"
  else if x < - t then throw "wrongInput:negativeInput"
  else Ok (Fin (Num.sqrt (Num.max x 0))).
Proof.
rewrite /sqrt_pos_scal /=; case: ifP => // _; case: ifP => // _; congr Ok; exact: sqrt_clip.
Qed.

(** ---------------------------------------------------------------- mat_dot *)
Lemma np_mul_slices m n p (D E : 'I_p -> 'M[R]_(m, n)) :
  np_mul (slices D) (slices E) = Ok (slices (fun l => \matrix_(i, j) (D l i j * E l i j))).
Proof.
by rewrite /np_mul np_bin_same //; congr Ok; apply: slicesE => i j l; rewrite !get_slices mxE.
Qed.
Lemma np_add_slices m n p (D E : 'I_p -> 'M[R]_(m, n)) :
  np_add (slices D) (slices E) = Ok (slices (fun l => D l + E l)).
Proof.
by rewrite /np_add np_bin_same //; congr Ok; apply: slicesE => i j l; rewrite !get_slices mxE.
Qed.
Lemma np_map_slices (f : X -> X) m n p (D E : 'I_p -> 'M[R]_(m, n)) :
  (forall l i j, f (Fin (D l i j)) = Fin (E l i j)) -> np_map f (slices D) = slices E.
Proof. by move=> H; rewrite np_map_mkn; apply: slicesE => i j l; rewrite /= valK mxgetE. Qed.

Lemma sum_axis1_mat m n (M : 'M[R]_(m, n)) :
  np_sum_axis 1 true (mat M) = Ok (mat (\col_i \sum_j M i j)).
Proof.
rewrite -[LHS]/(Ok (Arr [:: m; 1%N] (data (mkn [:: m] (fun idx =>
  xsum [seq get (mat M) (take 1 idx ++ i :: drop 1 idx) | i <- iota 0 n]))))).
congr Ok; apply: (@arr_ext _ NaN).
- by rewrite /wf_arr size_mkn /= mul1n.
- exact: wf_mat.
- by [].
move=> idx /valid2[i [j ->]]; rewrite (ord1 j) get_mat mxE.
rewrite (_ : getn _ _ _ = getn NaN (mkn [:: m] (fun idx => xsum [seq get (mat M) (take 1 idx ++ i :: drop 1 idx) | i <- iota 0 n])) [:: val i]); last first.
  by rewrite /getn /= !muln1 !addn0.
rewrite getn_mkn ?is_valid1 //=; apply: xsum_ord => j'; exact: get_mat.
Qed.
Lemma sum_axis0_mat m n (M : 'M[R]_(m, n)) :
  np_sum_axis 0 true (mat M) = Ok (mat (\row_j \sum_i M i j)).
Proof.
rewrite -[LHS]/(Ok (Arr [:: 1%N; n] (data (mkn [:: n] (fun idx =>
  xsum [seq get (mat M) (take 0 idx ++ i :: drop 0 idx) | i <- iota 0 m]))))).
congr Ok; apply: (@arr_ext _ NaN).
- by rewrite /wf_arr size_mkn /= mul1n.
- exact: wf_mat.
- by [].
move=> idx /valid2[i [j ->]]; rewrite (ord1 i) get_mat mxE.
rewrite (_ : getn _ _ _ = getn NaN (mkn [:: n] (fun idx => xsum [seq get (mat M) (take 0 idx ++ i :: drop 0 idx) | i <- iota 0 m])) [:: val j]); last first.
  by rewrite /getn /= !muln1 !addn0.
rewrite getn_mkn ?is_valid1 //=; apply: xsum_ord => i'; exact: get_mat.
Qed.
Lemma sum_axis1_slices m n p (D : 'I_p -> 'M[R]_(m, n)) :
  np_sum_axis 1 true (slices D) = Ok (slices (fun l => \col_i \sum_j D l i j)).
Proof.
rewrite -[LHS]/(Ok (Arr [:: m; 1%N; p] (data (mkn [:: m; p] (fun idx =>
  xsum [seq get (slices D) (take 1 idx ++ i :: drop 1 idx) | i <- iota 0 n]))))).
congr Ok; apply: (@arr_ext _ NaN).
- by rewrite /wf_arr size_mkn /= mul1n.
- exact: wf_slices.
- by [].
move=> idx /valid3[i [j [l ->]]]; rewrite (ord1 j) get_slices mxE.
rewrite (_ : getn _ _ _ = getn NaN (mkn [:: m; p] (fun idx => xsum [seq get (slices D) (take 1 idx ++ i :: drop 1 idx) | i <- iota 0 n])) [:: val i; val l]); last first.
  by rewrite /getn /= !muln1 !mul1n !addn0 add0n.
rewrite getn_mkn ?is_valid2 //=; apply: xsum_ord => j'; exact: get_slices.
Qed.
Lemma sum_axis0_slices m n p (D : 'I_p -> 'M[R]_(m, n)) :
  np_sum_axis 0 true (slices D) = Ok (slices (fun l => \row_j \sum_i D l i j)).
Proof.
rewrite -[LHS]/(Ok (Arr [:: 1%N; n; p] (data (mkn [:: n; p] (fun idx =>
  xsum [seq get (slices D) (take 0 idx ++ i :: drop 0 idx) | i <- iota 0 m]))))).
congr Ok; apply: (@arr_ext _ NaN).
- by rewrite /wf_arr size_mkn /= mul1n.
- exact: wf_slices.
- by [].
move=> idx /valid3[i [j [l ->]]]; rewrite (ord1 i) get_slices mxE.
rewrite (_ : getn _ _ _ = getn NaN (mkn [:: n; p] (fun idx => xsum [seq get (slices D) (take 0 idx ++ i :: drop 0 idx) | i <- iota 0 m])) [:: val j; val l]); last first.
  by rewrite /getn /= !muln1 !addn0 add0n.
rewrite getn_mkn ?is_valid2 //=; apply: xsum_ord => i'; exact: get_slices.
Qed.

Lemma mat_dot_mat n (M N : 'M[R]_n) : (0 < n)%N ->
  mat_dot (mat M) (mat N) = Ok (mat ((frob M N / n%:R)%:M : 'M_1)).
Proof.
move=> n0; have n0' : n%:R != 0 :> R by rewrite pnatr_eq0 -lt0n.
rewrite /mat_dot /= !eqxx /= np_mul_mat rbind_okE sum_axis1_mat rbind_okE sum_axis0_mat rbind_okE.
rewrite np_divs_mat //; congr (Ok (mat _)); apply/matrixP => i j.
rewrite !mxE mulrC (ord1 i) (ord1 j) eqxx mulr1n; congr (_ / _).
by apply: eq_bigr => k _; rewrite mxE; apply: eq_bigr => l _; rewrite mxE.
Qed.

Lemma mat_dot_slices n p (D E : 'I_p -> 'M[R]_n) : (0 < n)%N ->
  mat_dot (slices D) (slices E) = Ok (slices (fun l => (frob (D l) (E l) / n%:R)%:M : 'M_1)).
Proof.
move=> n0; have n0' : n%:R != 0 :> R by rewrite pnatr_eq0 -lt0n.
rewrite /mat_dot /= !eqxx /= np_mul_slices rbind_okE sum_axis1_slices rbind_okE sum_axis0_slices rbind_okE.
congr Ok; apply: np_map_slices => l i j.
rewrite xdivE // !mxE (ord1 i) (ord1 j) eqxx mulr1n; congr (Fin (_ / _)).
by apply: eq_bigr => k _; rewrite mxE; apply: eq_bigr => l' _; rewrite mxE.
Qed.

Lemma frobC n (M N : 'M[R]_n) : frob M N = frob N M.
Proof. by apply: eq_bigr => i _; apply: eq_bigr => j _; rewrite mulrC. Qed.
Lemma frobDl n (M M' N : 'M[R]_n) : frob (M + M') N = frob M N + frob M' N.
Proof.
rewrite /frob -big_split /=; apply: eq_bigr => i _; rewrite -big_split /=.
by apply: eq_bigr => j _; rewrite mxE mulrDl.
Qed.
Lemma frobZl n a (M N : 'M[R]_n) : frob (a *: M) N = a * frob M N.
Proof.
rewrite /frob mulr_sumr; apply: eq_bigr => i _; rewrite mulr_sumr.
by apply: eq_bigr => j _; rewrite mxE mulrA.
Qed.
Lemma frob_ge0 n (M : 'M[R]_n) : 0 <= frob M M.
Proof. by apply: sumr_ge0 => i _; apply: sumr_ge0 => j _; rewrite -expr2 sqr_ge0. Qed.
Lemma frob_eq0 n (M : 'M[R]_n) : (frob M M == 0) = (M == 0).
Proof.
apply/idP/idP => [|/eqP->]; last first.
  by rewrite /frob big1 // => i _; rewrite big1 // => j _; rewrite mxE mul0r.
rewrite psumr_eq0 => [/allP H|i _]; last by apply: sumr_ge0 => j _; rewrite -expr2 sqr_ge0.
apply/eqP/matrixP => i j; have := H i (mem_index_enum _); rewrite /= psumr_eq0 => [/allP/(_ j (mem_index_enum _))|k _].
  by rewrite mxE /= -expr2 sqrf_eq0 => /eqP.
by rewrite -expr2 sqr_ge0.
Qed.
Lemma frob_tr n (M N : 'M[R]_n) : frob M N = \tr (M^T *m N).
Proof.
rewrite /frob /mxtrace exchange_big /=; apply: eq_bigr => j _; rewrite mxE.
by apply: eq_bigr => i _; rewrite mxE.
Qed.

(** ---------------------------------------------------------------- MatVector *)
Lemma mat_as_slices m n (M : 'M[R]_(m, n)) : np_expand 2 (mat M) = slices (fun _ : 'I_1 => M).
Proof.
apply: (@arr_ext _ NaN); rewrite ?wf_slices // ?/wf_arr ?size_mkn //= ?muln1 //.
move=> idx /valid3[i [j [l ->]]]; rewrite (ord1 l) get_slices -(get_mat M i j NaN).
by rewrite /getn /= !muln1 !addn0.
Qed.

Lemma transpose_slices m n p (D : 'I_p -> 'M[R]_(m, n)) :
  mv_transpose (slices D) = Ok (slices (fun l => (D l)^T)).
Proof.
rewrite /mv_transpose /= gT102_mkn; congr Ok; apply: slicesE => i j l.
by rewrite /= valK mxgetE mxE.
Qed.
Lemma transpose_mat m n (M : 'M[R]_(m, n)) :
  mv_transpose (mat M) = Ok (slices (fun _ : 'I_1 => M^T)).
Proof. by rewrite /mv_transpose /= mat_as_slices -(transpose_slices (fun _ : 'I_1 => M)). Qed.

Lemma make_symmetric_slices n p (D : 'I_p -> 'M[R]_n) :
  mv_make_symmetric (slices D) = Ok (slices (fun l => (1 / 2%:R) *: (D l + (D l)^T))).
Proof.
rewrite /mv_make_symmetric transpose_slices rbind_okE np_add_slices rbind_okE; congr Ok.
by apply: np_map_slices => l i j; rewrite !mxE.
Qed.

Lemma triu_slices m n p (D : 'I_p -> 'M[R]_(m, n)) :
  mv_triu (slices D) = Ok (slices (fun l => \matrix_(i, j) (if (i <= j)%N then D l i j else 0))).
Proof.
rewrite /mv_triu [ndim _ == _]/= /dim_res [(_ < _)%N]/= rbind_okE -[dim _ 2]/p.
pose P t (o : A) := o = slices (fun l : 'I_p => if (l < t)%N then (\matrix_(i, j) (if (i <= j)%N then D l i j else 0)) else D l).
have [|t o lt_t ->|o -> ->] := @foldM_iota _ P (fun o t => let* s := np_slice o t in np_set_slice o t (np_triu s)) (slices D) p.
- by apply: eq_slices => l.
- rewrite (np_slice_slices _ (Ordinal lt_t)) rbind_okE /= ltnn.
  have -> : np_triu (mat (D (Ordinal lt_t))) = mat (\matrix_(i, j) (if (i <= j)%N then D (Ordinal lt_t) i j else 0)).
    by apply: matE => i j; rewrite /= get_mat mxE; case: ifP.
  rewrite (np_set_slice_mat (Ordinal lt_t)) //.
  eexists; first by reflexivity.
  apply: slicesE => i j l; rewrite get_slices [nth _ _ _]/=; case: eqP => [E|/eqP ne].
    have -> : l = Ordinal lt_t by apply: val_inj.
    by rewrite mxgetE /= ltnSn.
  by rewrite ltnS [(l <= t)%N]leq_eqVlt (negbTE ne).
by congr Ok; apply: eq_slices => l; rewrite ltn_ord.
Qed.
Lemma triu_mat m n (M : 'M[R]_(m, n)) :
  mv_triu (mat M) = Ok (slices (fun _ : 'I_1 => \matrix_(i, j) (if (i <= j)%N then M i j else 0))).
Proof. by rewrite -triu_slices /mv_triu /= mat_as_slices. Qed.

Lemma zeros_slices m n p : np_zeros R [:: m; n; p] = slices (fun _ : 'I_p => 0 : 'M[R]_(m, n)).
Proof. by apply: slicesE => i j l; rewrite mxE. Qed.

Lemma r_multiply_by_vec_run m n p (D : 'I_p -> 'M[R]_(m, n)) (B : 'M[R]_(n, p)) s :
  r_multiply_by_vec (slices D) (mat B) s = Ok (mat (\matrix_(i, l) (D l *m col l B) i 0)).
Proof.
rewrite /r_multiply_by_vec !dim_slices dim_mat [_ != _]/= !rbind_okE.
case: s; last first.
  rewrite (np_zeros_mat _ m p) (@fill_cols_ok _ _ _ _ _ (fun l => D l *m col l B)) // => l.
  by rewrite np_slice_slices rbind_okE np_col_mat rbind_okE np_matmul_mv.
rewrite csc_vec rbind_okE reshape_side rbind_okE np_matmul_mm; congr (Ok (mat _)).
apply/matrixP => i l; rewrite !mxE big_ord_pair; apply: eq_bigr => j _.
rewrite (bigD1 l) //= big1 => [|l' ne]; last first.
  by rewrite !mxE ord_pair_div (negbTE ne) mulr0.
by rewrite !mxE ord_pair_mod ord_pair_div eqxx addr0.
Qed.

Lemma get_sparse_slices m n p (D : 'I_p -> 'M[R]_(m, n)) :
  get_sparse_mat p (slices D) = Ok (mat (bdiag D)).
Proof.
rewrite /get_sparse_mat !dim_slices [(_ < _)%N]/= !rbind_okE.
have := sparse_i m n p.
case: (reshape_F 0%N [:: n; m; p] _) => //= x; case: (gT102 _ _) => //= y ->.
rewrite rbind_okE sparse_j rbind_okE; exact: csc_bdiag.
Qed.

Lemma tile_slices_mat m n p (M : 'M[R]_(m, n)) :
  tile_slices p (slices (fun _ : 'I_1 => M)) = slices (fun _ : 'I_p => M).
Proof.
rewrite /tile_slices /= mul1n; apply: slicesE => i j l; rewrite /= modn1.
exact: (get_slices (fun _ : 'I_1 => M) i j 0).
Qed.

Lemma get_sparse_mat2 m n p (M : 'M[R]_(m, n)) :
  get_sparse_mat p (mat M) = Ok (mat (bdiag (fun _ : 'I_p => M))).
Proof.
rewrite -get_sparse_slices /get_sparse_mat [(_ < 3)%N]/= [in RHS](_ : (ndim (slices _) < 3)%N = false) //.
by rewrite mat_as_slices tile_slices_mat.
Qed.

Lemma r_multiply_slices m k n p (D : 'I_p -> 'M[R]_(m, k)) (E : 'I_p -> 'M[R]_(k, n)) s :
  r_multiply (slices D) (slices E) None s = Ok (slices (fun l => D l *m E l)).
Proof.
rewrite /r_multiply !dim_slices [(_ < _)%N]/= !rbind_okE.
case: ifP => [_|_].
  rewrite reshape_side rbind_okE get_sparse_slices rbind_okE np_matmul_mm rbind_okE side_bdiag.
  exact: reshape_unside.
rewrite eqxx; set z := (if _ then _ else _).
have -> : z = [:: m; n; p].
  by rewrite {}/z; case: (m =P 1%N) => [->|_]; case: (k =P 1%N) => [->|_]; case: (n =P 1%N) => [->|_].
apply: fill_slices_ok => //; first exact: wf_mkn.
by move=> l; rewrite !np_slice_slices !rbind_okE np_matmul_mm.
Qed.

Lemma r_multiply3_slices m k n q p (D : 'I_p -> 'M[R]_(m, k)) (E : 'I_p -> 'M[R]_(k, n)) (F : 'I_p -> 'M[R]_(n, q)) s :
  r_multiply (slices D) (slices E) (Some (slices F)) s = Ok (slices (fun l => D l *m E l *m F l)).
Proof.
rewrite /r_multiply !dim_slices !rbind_okE [fst _]/= [snd _]/=.
case: ifP => [_|_].
  rewrite reshape_side rbind_okE !get_sparse_slices rbind_okE np_matmul_mm !rbind_okE side_bdiag.
  by rewrite np_matmul_mm rbind_okE side_bdiag reshape_unside.
set z := (if _ then _ else _).
have -> : z = [:: m; q; p].
  by rewrite {}/z; case: (m =P 1%N) => [->|_]; case: (k =P 1%N) => [->|_]; case: (n =P 1%N) => [->|_].
apply: fill_slices_ok => //; first exact: wf_mkn.
by move=> l; rewrite !np_slice_slices !rbind_okE np_matmul_mm !rbind_okE np_matmul_mm.
Qed.

(** a constant second factor *)
Lemma r_multiply_mat m k n p (D : 'I_p -> 'M[R]_(m, k)) (M : 'M[R]_(k, n)) : p != 1%N ->
  r_multiply (slices D) (mat M) None false = Ok (slices (fun l => D l *m M)).
Proof.
move=> p1; rewrite /r_multiply !dim_slices !dim_mat [(_ < _)%N]/= !rbind_okE if_same.
rewrite eq_sym (negbTE p1) eqxx; set z := (if _ then _ else _).
have -> : z = [:: m; n; p].
  by rewrite {}/z; case: (m =P 1%N) => [->|_]; case: (k =P 1%N) => [->|_]; case: (n =P 1%N) => [->|_].
apply: fill_slices_ok => //; first exact: wf_mkn.
by move=> l; rewrite !np_slice_slices !rbind_okE np_matmul_mm.
Qed.
Lemma r_multiply_mat_sparse m k n p (D : 'I_p -> 'M[R]_(m, k)) (M : 'M[R]_(k, n)) :
  ~~ ((m == 1%N) && (k == 1%N)) -> ~~ ((k == 1%N) && (n == 1%N)) ->
  r_multiply (slices D) (mat M) None true = Ok (slices (fun l => D l *m M)).
Proof.
move=> /negbTE a1 /negbTE b1; rewrite /r_multiply !dim_slices !dim_mat [(_ < _)%N]/= !rbind_okE.
rewrite andbC a1 andbC b1 /= reshape_side rbind_okE get_sparse_mat2 rbind_okE np_matmul_mm rbind_okE side_bdiag.
exact: reshape_unside.
Qed.
Lemma r_multiply_mat_one m k n (M : 'M[R]_(m, k)) (N : 'M[R]_(k, n)) :
  r_multiply (slices (fun _ : 'I_1 => M)) (mat N) None false = IndexError.
Proof.
rewrite /r_multiply !dim_slices !dim_mat [(_ < _)%N]/= !rbind_okE if_same eqxx.
apply: foldM_iota_err => //; by rewrite (np_slice_slices _ (0 : 'I_1)).
Qed.

(** ---------------------------------------------------------------- lr_multiply and friends *)
Lemma lr1R m n (B : 'M[R]_m) (M : 'M[R]_(m, n)) : lr1 FlagR (mat B) (mat M) = Ok (mat (M^T *m B *m M)).
Proof. by rewrite /lr1 np_T_mat np_matmul_mm rbind_okE np_matmul_mm. Qed.
Lemma lr1L m n (B : 'M[R]_m) (M : 'M[R]_(n, m)) : lr1 FlagL (mat B) (mat M) = Ok (mat (M *m B *m M^T)).
Proof. by rewrite /lr1 np_T_mat np_matmul_mm rbind_okE np_matmul_mm. Qed.

Lemma lr_multiply_22R m n (B : 'M[R]_m) (M : 'M[R]_(m, n)) :
  lr_multiply (mat B) (mat M) FlagR = Ok (mat (M^T *m B *m M)).
Proof. by rewrite /lr_multiply dim_mat lr1R. Qed.
Lemma lr_multiply_22L m n (B : 'M[R]_m) (M : 'M[R]_(n, m)) :
  lr_multiply (mat B) (mat M) FlagL = Ok (mat (M *m B *m M^T)).
Proof. by rewrite /lr_multiply dim_mat lr1L. Qed.
Lemma lr_multiply_32R m n p (B : 'I_p -> 'M[R]_m) (M : 'M[R]_(m, n)) :
  lr_multiply (slices B) (mat M) FlagR = Ok (slices (fun l => M^T *m B l *m M)).
Proof.
rewrite /lr_multiply dim_slices !dim_slices [_ == _]/= !dim_mat !rbind_okE.
apply: fill_slices_ok => // [|l]; first exact: wf_mkn.
by rewrite np_slice_slices !rbind_okE lr1R.
Qed.
Lemma lr_multiply_32L m n p (B : 'I_p -> 'M[R]_m) (M : 'M[R]_(n, m)) :
  lr_multiply (slices B) (mat M) FlagL = Ok (slices (fun l => M *m B l *m M^T)).
Proof.
rewrite /lr_multiply dim_slices !dim_slices [_ == _]/= !dim_mat !rbind_okE.
apply: fill_slices_ok => // [|l]; first exact: wf_mkn.
by rewrite np_slice_slices !rbind_okE lr1L.
Qed.
Lemma lr_multiply_33R m n p (B : 'I_p -> 'M[R]_m) (M : 'I_p -> 'M[R]_(m, n)) :
  lr_multiply (slices B) (slices M) FlagR = Ok (slices (fun l => (M l)^T *m B l *m M l)).
Proof.
rewrite /lr_multiply dim_slices !dim_slices [_ == _]/= !rbind_okE.
apply: fill_slices_ok => // [|l]; first exact: wf_mkn.
by rewrite np_slice_slices !rbind_okE [(_ <= _)%N]/= np_slice_slices rbind_okE lr1R.
Qed.
Lemma lr_multiply_33L m n p (B : 'I_p -> 'M[R]_m) (M : 'I_p -> 'M[R]_(n, m)) :
  lr_multiply (slices B) (slices M) FlagL = Ok (slices (fun l => M l *m B l *m (M l)^T)).
Proof.
rewrite /lr_multiply dim_slices !dim_slices [_ == _]/= !rbind_okE.
apply: fill_slices_ok => // [|l]; first exact: wf_mkn.
by rewrite np_slice_slices !rbind_okE [(_ <= _)%N]/= np_slice_slices rbind_okE lr1L.
Qed.
Lemma lr_multiply_bad (b a : A) : lr_multiply b a FlagOther = throw "wrong_input".
Proof. by rewrite /lr_multiply /=; case: ifP => // _; case: ifP. Qed.

Lemma tr_congr m n (B : 'M[R]_m) (M : 'M[R]_(m, n)) : symm B -> symm (M^T *m B *m M).
Proof. by move=> HB; rewrite /symm !trmx_mul trmxK HB mulmxA. Qed.
Lemma psd_congr m n (B : 'M[R]_m) (M : 'M[R]_(m, n)) : psd B -> psd (M^T *m B *m M).
Proof. by move=> HB x; have := HB (M *m x); rewrite /qf -!mulmxA dotv_mull. Qed.

Lemma lr_by_vec_mat n k (B : 'M[R]_n) (M : 'M[R]_(n, k)) :
  lr_multiply_by_vec (mat B) (mat M) = Ok (mat (\row_j qf B (col j M))).
Proof.
rewrite /lr_multiply_by_vec /as_col !dim_mat [_ == _]/= rbind_okE np_zeros_mat.
rewrite (@fill_cols_scal _ _ _ _ _ (fun j => qf B (col j M))).
  by congr (Ok (mat _)); apply/matrixP => i j; rewrite !mxE.
move=> l; rewrite np_col_mat 2!rbind_okE np_matmul_vm 2!rbind_okE np_matmul_vv; congr (Ok (scal _)).
by rewrite -dotvE dotv_mull trmxK.
Qed.
Lemma lr_by_vec_slices n k (B : 'I_k -> 'M[R]_n) (M : 'M[R]_(n, k)) :
  lr_multiply_by_vec (slices B) (mat M) = Ok (mat (\row_j qf (B j) (col j M))).
Proof.
rewrite /lr_multiply_by_vec /as_col !dim_mat !dim_slices [_ == _]/= rbind_okE np_zeros_mat.
rewrite (@fill_cols_scal _ _ _ _ _ (fun j => qf (B j) (col j M))).
  by congr (Ok (mat _)); apply/matrixP => i j; rewrite !mxE.
move=> l; rewrite np_col_mat np_slice_slices 2!rbind_okE np_matmul_vm 2!rbind_okE np_matmul_vv; congr (Ok (scal _)).
by rewrite -dotvE dotv_mull trmxK.
Qed.

Lemma lstsq_unit (la : linalg R) n k (B : 'M[R]_n) (M : 'M[R]_(n, k)) : lstsq_ok la -> (0 < n)%N ->
  B \in unitmx -> la_lstsq la (mat B) (mat M) = Ok (mat (invmx B *m M)).
Proof.
move=> [Hl _] n0 uB; have [Z [-> HZ]] := Hl n n k B M n0 n0; congr (Ok (mat _)).
have uBt : B^T \in unitmx by rewrite unitmx_tr.
have {}HZ : B *m Z = M by rewrite -(mulKmx uBt (B *m Z)) (mulmxA B^T) HZ mulKmx.
by rewrite -HZ mulKmx.
Qed.
Lemma lstsq_unitv (la : linalg R) n (B : 'M[R]_n) (v : 'cV[R]_n) : lstsq_ok la -> (0 < n)%N ->
  B \in unitmx -> la_lstsq la (mat B) (vec v) = Ok (vec (invmx B *m v)).
Proof.
move=> [_ Hl] n0 uB; have [Z [-> HZ]] := Hl n n B v n0 n0; congr (Ok (vec _)).
have uBt : B^T \in unitmx by rewrite unitmx_tr.
have {}HZ : B *m Z = v by rewrite -(mulKmx uBt (B *m Z)) (mulmxA B^T) HZ mulKmx.
by rewrite -HZ mulKmx.
Qed.

Lemma lr_divide_mat (la : linalg R) n k (B : 'M[R]_n) (M : 'M[R]_(n, k)) : lstsq_ok la -> (0 < n)%N ->
  B \in unitmx -> lr_divide_vec la (mat B) (mat M) = Ok (mat (M^T *m invmx B *m M)).
Proof.
move=> Hl n0 uB; rewrite /lr_divide_vec /as_col !dim_mat [_ == _]/= lstsq_unit // rbind_okE.
by rewrite np_T_mat np_matmul_mm mulmxA.
Qed.
Lemma data_mat11 (M : 'M[R]_1) : data (mat M) = [:: Fin (M 0 0)].
Proof. by rewrite /mat /mkn /= -(mxgetE M 0 0). Qed.
Lemma lr_divide_one (la : linalg R) n p (B : 'I_p -> 'M[R]_n) (v : 'cV[R]_n) : lstsq_ok la -> (0 < n)%N ->
  (forall l, B l \in unitmx) -> lr_divide_vec la (slices B) (mat v) = Ok (vec (\col_l qf (invmx (B l)) v)).
Proof.
move=> Hl n0 uB; rewrite /lr_divide_vec /as_col !dim_mat !dim_slices [_ == _]/= !rbind_okE np_zeros_vec.
apply: fill_elems_ok => l; rewrite np_slice_slices rbind_okE lstsq_unit // rbind_okE np_T_mat np_matmul_mm.
eexists; first by reflexivity.
by rewrite data_mat11 mxE -dotvE.
Qed.
Lemma lr_divide_many (la : linalg R) n k (B : 'I_k -> 'M[R]_n) (M : 'M[R]_(n, k)) : lstsq_ok la -> (0 < n)%N ->
  (k != 1)%N -> (forall l, B l \in unitmx) ->
  lr_divide_vec la (slices B) (mat M) = Ok (vec (\col_l qf (invmx (B l)) (col l M))).
Proof.
move=> Hl n0 k1 uB; rewrite /lr_divide_vec /as_col !dim_mat !dim_slices [_ == _]/= !rbind_okE (negbTE k1) np_zeros_vec.
apply: fill_elems_ok => l; rewrite np_col_mat np_slice_slices !rbind_okE lstsq_unitv // rbind_okE np_matmul_vv.
eexists; first by reflexivity.
by rewrite /= mxE -dotvE.
Qed.

(** ---------------------------------------------------------------- inverses, roots *)
Lemma sq_inv_slices (la : linalg R) n p (B : 'I_p -> 'M[R]_n) : inv_ok la -> (0 < n)%N ->
  (forall l, B l \in unitmx) -> sq_inv la (slices B) = Ok (slices (fun l => invmx (B l))).
Proof.
move=> Hi n0 uB; rewrite /sq_inv !dim_slices [_ == _]/= rbind_okE.
apply: fill_slices_ok => // [|l]; first exact: wf_mkn.
by rewrite np_slice_slices rbind_okE Hi // uB.
Qed.
Lemma sq_inv_sing (la : linalg R) n p (B : 'I_p -> 'M[R]_n) l : inv_ok la -> (0 < n)%N ->
  B l \notin unitmx -> sq_inv la (slices B) = LinAlgError.
Proof.
move=> Hi n0 uB; rewrite /sq_inv !dim_slices [_ == _]/= rbind_okE /fill_slices.
set f := (fun o t => _).
have Herr o (t : 'I_p) : B t \notin unitmx -> f o t = LinAlgError.
  by move=> /negbTE u; rewrite /f np_slice_slices rbind_okE Hi // u.
have Hok o (t : 'I_p) : B t \in unitmx -> shape o = [:: n; n; p] -> exists2 o', f o t = Ok o' & shape o' = [:: n; n; p].
  move=> u Hs; rewrite /f np_slice_slices rbind_okE Hi // u rbind_okE (np_set_slice_mat _ _ Hs).
  by eexists.
have : (val l \in iota 0 p) by rewrite mem_iota /= ltn_ord.
have : all (fun t => t < p)%N (iota 0 p) by apply/allP => t; rewrite mem_iota.
have : shape (np_zeros R (shape (slices B))) = [:: n; n; p] by [].
elim: (iota 0 p) (np_zeros _ _) => [//|t s IH] o Hs /= /andP[Ht Hall].
have [u|u] := boolP (B (Ordinal Ht) \in unitmx); last by rewrite (Herr o (Ordinal Ht)).
have [o' -> Hs'] := Hok o _ u Hs; rewrite rbind_okE inE => /orP[/eqP E|]; last exact: IH.
by move: uB; rewrite (_ : l = Ordinal Ht) ?u //; apply: val_inj.
Qed.

Lemma mv_pinv_slices (la : linalg R) m n p (B : 'I_p -> 'M[R]_(m, n)) : pinv_ok la -> (0 < m)%N -> (0 < n)%N ->
  exists P : 'I_p -> 'M[R]_(n, m), mv_pinv la (slices B) = Ok (slices P) /\
  forall l, [/\ B l *m P l *m B l = B l, P l *m B l *m P l = P l,
                (B l *m P l)^T = B l *m P l & (P l *m B l)^T = P l *m B l].
Proof.
move=> Hi m0 n0; have [P HP] := fin_all_exists (fun l => Hi m n (B l) m0 n0).
exists P; split; last by move=> l; case: (HP l).
rewrite /mv_pinv !dim_slices [_ == _]/= !rbind_okE.
apply: fill_slices_ok => // [|l]; first exact: wf_mkn.
by rewrite np_slice_slices rbind_okE; case: (HP l).
Qed.
Lemma mv_pinv_mat (la : linalg R) m n (M : 'M[R]_(m, n)) : mv_pinv la (mat M) = IndexError.
Proof. by rewrite /mv_pinv !dim_mat [_ == _]/= !rbind_okE; apply: foldM_iota_err. Qed.

Lemma squeeze_sq n (M : 'M[R]_n) : n != 1%N -> np_squeeze (mat M) = mat M.
Proof. by rewrite /np_squeeze /= => ->. Qed.

Lemma no_nan m n (M : 'M[R]_(m, n)) : has (@xis_nan R) (data (mat M)) = false.
Proof. by rewrite /mat /mkn [data _]/= has_map (@eq_has _ _ pred0) // has_pred0. Qed.

Lemma sq_sqrtm_slices (la : linalg R) n p (B : 'I_p -> 'M[R]_n) : eigh_ok la -> (1 < n)%N ->
  (forall l, symm (B l)) -> (forall l, psd (B l)) ->
  exists S : 'I_p -> 'M[R]_n, sq_sqrtm_pos la (slices B) = Ok (slices S) /\
    forall l, [/\ symm (S l), psd (S l) & S l *m S l = B l].
Proof.
move=> Hl n1 Hs Hp; have n0 : (0 < n)%N by case: n n1 {B Hs Hp}.
have [S HS] := fin_all_exists (fun l => sqrtm_pos_exact Hl n0 (Hs l) (Hp l)).
exists S; split; last by move=> l; case: (HS l).
rewrite /sq_sqrtm_pos !dim_slices [_ == _]/= rbind_okE.
rewrite -[RHS](@fill_slices_ok R n n p (np_zeros R (shape (slices B))) (fun t => let* s := np_slice (slices B) t in sqrtm_pos la s x0)) //.
- rewrite /fill_slices.
  have : all (fun t => t < p)%N (iota 0 p) by apply/allP => t; rewrite mem_iota.
  elim: (iota 0 p) (np_zeros _ _) => [//|t s IH] o /= /andP[Ht Hall].
  rewrite !(np_slice_slices _ (Ordinal Ht)) 2!rbind_okE no_nan rbind_okE squeeze_sq; last by case: (n) n1 => [|[]].
  by case: (sqrtm_pos _ _ _) => //= r; case: (np_set_slice _ _ _) => //= o'; apply: IH.
- exact: wf_mkn.
by move=> l; rewrite np_slice_slices rbind_okE; case: (HS l).
Qed.
Lemma sq_sqrtm_one (la : linalg R) p (B : 'I_p -> 'M[R]_1) : (0 < p)%N ->
  sq_sqrtm_pos la (slices B) = throw "wrongInput:nonSquareMat".
Proof.
move=> p0; rewrite /sq_sqrtm_pos !dim_slices [_ == _]/= rbind_okE; apply: foldM_iota_err => //.
rewrite (np_slice_slices B (Ordinal p0)) rbind_okE no_nan rbind_okE.
by rewrite /sqrtm_pos [xlt _ _]/= ltxx is_mat_symm_nonsq.
Qed.

(** ---------------------------------------------------------------- make_pos_definite_* *)
Definition sets m n p (v : A) (g : seq nat -> X) := forall (o : A) (l : nat), shape o = [:: m; n; p] -> (l < p)%N ->
  np_set_slice o l v = Ok (mkn [:: m; n; p] (fun idx => if nth 0%N idx 2 == l then g idx else get o idx)).
Lemma sets_mat m n p (M : 'M[R]_(m, n)) : sets m n p (mat M) (fun idx => Fin (mxget M (nth 0%N idx 0) (nth 0%N idx 1))).
Proof. by move=> o l Hs Hl; rewrite (np_set_slice_mat (Ordinal Hl) _ Hs). Qed.
Lemma sets_scalar m n p (x : X) : sets m n p (np_scalar x) (fun _ => x).
Proof.
move=> o l Hs Hl; rewrite /np_set_slice Hs Hl /bshape /= eqxx; congr Ok; apply: mkn_ext => idx _; by case: ifP.
Qed.
Lemma fill_slices_ent m n p (out : A) (f : nat -> res A) (G : 'I_p -> seq nat -> X) :
  shape out = [:: m; n; p] -> wf_arr out ->
  (forall l : 'I_p, exists2 v, f l = Ok v & sets m n p v (G l)) ->
  exists o, [/\ fill_slices out p f = Ok o, shape o = [:: m; n; p], wf_arr o &
    forall (i : 'I_m) (j : 'I_n) (l : 'I_p), get o [:: val i; val j; val l] = G l [:: val i; val j; val l]].
Proof.
move=> Ho Hw Hf; rewrite /fill_slices.
pose P t (o : A) := [/\ shape o = [:: m; n; p], wf_arr o & forall (i : 'I_m) (j : 'I_n) (l : 'I_p),
  (l < t)%N -> get o [:: val i; val j; val l] = G l [:: val i; val j; val l]].
have [//|t o lt_t [Hs _ Ho1]|o -> [Hs Hw' Hg]] :=
  @foldM_iota _ P (fun o t => let* v := f t in np_set_slice o t v) out p; last first.
  by exists o; split=> // i j l; apply: Hg.
have [v -> Hv] := Hf (Ordinal lt_t); rewrite rbind_okE (Hv o t) //.
eexists; first by reflexivity.
split=> [||i j l] //; first exact: wf_mkn.
rewrite ltnS => le; rewrite getn_mkn /= ?ltn_ord //; case: eqP => [E|/eqP ne].
  by rewrite (_ : Ordinal lt_t = l) //; apply: val_inj.
by apply: Ho1; rewrite ltn_neqAle ne.
Qed.

Lemma min_eig (la : linalg R) n (M : 'M[R]_n) : eigvalsh_ok la -> (0 < n)%N ->
  exists2 x, (let* e := la_eigvalsh la (mat M) in py_min e) = Ok (Fin x) & (x < 0) = true <-> ~ psd (lowsym M).
Proof.
move=> Hl n0; have [d [V [-> HE _]]] := Hl n M n0; rewrite rbind_okE.
have [i -> Hi] := py_min_vec d n0; exists (d i 0) => //; rewrite (eig_psd HE); split.
  by move=> Hd Hall; have := Hall i; rewrite leNgt Hd.
by move=> H; rewrite ltNge; apply/negP => Hd; apply: H => j; apply: le_trans Hd (Hi j).
Qed.

Lemma pos_or_nan_slices (la : linalg R) n p (B : 'I_p -> 'M[R]_n) : eigvalsh_ok la -> (0 < n)%N ->
  exists o, [/\ sq_make_pos_or_nan la (slices B) = Ok o, shape o = [:: n; n; p], wf_arr o &
    forall l, (psd (lowsym (B l)) -> forall i j : 'I_n, get o [:: val i; val j; val l] = Fin (B l i j)) /\
              (~ psd (lowsym (B l)) -> forall i j : 'I_n, get o [:: val i; val j; val l] = NaN)].
Proof.
move=> Hl n0.
have [x Hx0] := fin_all_exists2 (fun l => min_eig (B l) Hl n0) => Hx.
rewrite /sq_make_pos_or_nan !dim_slices [_ == _]/= rbind_okE.
pose G (l : 'I_p) idx : X := if x l < 0 then NaN else Fin (mxget (B l) (nth 0%N idx 0) (nth 0%N idx 1)).
have [|||o [-> Hs Hw Hg]] := @fill_slices_ent n n p (np_zeros R (shape (slices B))) (fun t =>
   let* s := np_slice (slices B) t in let* e := la_eigvalsh la s in let* m := py_min e in
   if xlt m x0 then Ok (np_scalar NaN) else Ok s) G => //; first exact: wf_mkn.
- move=> l; rewrite np_slice_slices rbind_okE; have := Hx0 l.
  case: (la_eigvalsh _ _) => //= e ->; rewrite rbind_okE /= /G; case: (ltP (x l) 0) => H.
    by eexists; [reflexivity | exact: sets_scalar].
  by eexists; [reflexivity | exact: sets_mat].
exists o; split=> // l; split=> H i j; rewrite Hg /G.
  case: (ltP (x l) 0) => H1; first by case/Hx: H1.
  by rewrite mxgetE.
by move/Hx: H => ->.
Qed.

Lemma pos_by_eig1_run (la : linalg R) n (M : 'M[R]_n) (v : R) : eigh_ok la -> (0 < n)%N -> symm M ->
  exists d V, eigdec M d V /\ pos_by_eig1 la (Fin v) (mat M) =
    Ok (mat (V *m diagv (\col_i (if d i 0 < 0 then v else d i 0)) *m V^T)).
Proof.
move=> Hl n0 HM; rewrite /pos_by_eig1; have [b Hb Hbs] := is_mat_symm0 M.
have -> : is_mat_symm (mat M) x0 = Ok true by rewrite Hb; congr Ok; apply/Hbs.
rewrite rbind_okE; have [d [V [-> HE _]]] := Hl n M n0; rewrite lowsym_symm // in HE.
exists d, V; split=> //; rewrite [negb _]/= rbind_okE; cbv beta iota zeta; rewrite (@vec_map _ _ _ _ (\col_i (if d i 0 < 0 then v else d i 0))); last first.
  by move=> i; rewrite mxE /=; case: ifP.
by rewrite np_diag_vec rbind_okE np_T_mat matmul3.
Qed.

Lemma eig_fun_vec n (M : 'M[R]_n) d V (g : R -> R) (x : 'cV[R]_n) lam : eigdec M d V -> M *m x = lam *: x ->
  V *m diagv (\col_i g (d i 0)) *m V^T *m x = g lam *: x.
Proof.
move=> [HV HM] Hx; have HV' := proj1 (orthogC V) HV.
have E i : d i 0 * (V^T *m x) i 0 = lam * (V^T *m x) i 0.
  have : V^T *m (M *m x) = V^T *m (lam *: x) by rewrite Hx.
  rewrite HM -!mulmxA (mulmxA V^T V) HV mul1mx mul_diagv -scalemxAr.
  by move/matrixP/(_ i 0); rewrite !mxE.
have -> : g lam *: x = V *m (g lam *: (V^T *m x)) by rewrite -scalemxAr mulmxA HV' mul1mx.
rewrite -!mulmxA mul_diagv; congr (_ *m _); apply/matrixP => i j; rewrite (ord1 j) !mxE.
have [y0|y0] := eqVneq ((V^T *m x) i 0) 0; first by move: y0; rewrite !mxE => ->; rewrite !mulr0.
by have /(mulIf y0) <- := E i.
Qed.

Lemma make_pos_by_eig_spec (la : linalg R) n (M : 'M[R]_n) (v : R) : eigh_ok la -> (0 < n)%N -> symm M ->
  exists P : 'M[R]_n, [/\ pos_by_eig1 la (Fin v) (mat M) = Ok (mat P), symm P &
    forall (x : 'cV[R]_n) lam, M *m x = lam *: x -> P *m x = (if lam < 0 then v else lam) *: x].
Proof.
move=> Hl n0 HM; have [d [V [HE ->]]] := pos_by_eig1_run v Hl n0 HM.
eexists; split; first by reflexivity.
  by rewrite /symm !trmx_mul trmxK tr_diagv mulmxA.
by move=> x lam /(eig_fun_vec (fun d => if d < 0 then v else d) HE).
Qed.
Lemma make_pos_by_eig_psd (la : linalg R) n (M : 'M[R]_n) (v : R) P : eigh_ok la -> (0 < n)%N -> symm M ->
  0 <= v -> pos_by_eig1 la (Fin v) (mat M) = Ok (mat P) ->
  [/\ psd P, psd M -> P = M & 0 < v -> M \in unitmx -> posdef P].
Proof.
move=> Hl n0 HM v0; have [d [V [HE ->]]] := pos_by_eig1_run v Hl n0 HM.
move/Ok_inj/mat_inj => <-; set e := (\col_i _).
have HP : eigdec (V *m diagv e *m V^T) e V by split=> //; case: HE.
split.
- by apply/(eig_psd HP) => i; rewrite mxE; case: ltP.
- move/(eig_psd HE) => Hd; case: HE => _ ->; congr (_ *m diagv _ *m _).
  by apply/matrixP => i j; rewrite (ord1 j) mxE ltNge Hd.
move=> v1 uM; apply/(eig_posdef HP) => i; rewrite mxE; case: (ltP (d i 0) 0) => // Hd.
rewrite lt_def Hd andbT; apply/eqP => d0; move: uM; rewrite unitmxE (eig_det HE) (bigD1 i) //= d0 mul0r unitr0.
by [].
Qed.

(** ---------------------------------------------------------------- SymmetricMatVector *)
Lemma array_svd_run (la : linalg R) n p (B : 'I_p -> 'M[R]_n) : eigh_ok la -> (0 < n)%N -> (forall l, symm (B l)) ->
  exists (d : 'I_p -> 'cV[R]_n) (V : 'I_p -> 'M[R]_n),
    [/\ forall l, la_eigh la (mat (B l)) = Ok (vec (d l), mat (V l)),
        forall l, eigdec (B l) (d l) (V l), forall l, ascending (d l) &
        array_svd la (slices B) = Ok (slices V, slices (fun l => diagv (d l)))].
Proof.
move=> Hl n0 Hs; have [d Hd] := fin_all_exists (fun l => Hl n (B l) n0).
have [V HV] := fin_all_exists Hd; exists d, V.
have HE l : eigdec (B l) (d l) (V l) by case: (HV l); rewrite lowsym_symm.
split=> //; try by move=> l; case: (HV l).
rewrite /array_svd !dim_slices [_ == _]/= rbind_okE.
pose P t (o : A * A) := exists (D1 D2 : 'I_p -> 'M[R]_n), [/\ o = (slices D1, slices D2),
  forall l : 'I_p, (l < t)%N -> D1 l = V l & forall l : 'I_p, (l < t)%N -> D2 l = diagv (d l)].
set f := (fun us t => _).
have [|t o lt_t [D1 [D2 [-> H1 H2]]]|o -> [D1 [D2 [-> H1 H2]]]] := @foldM_iota _ P f (np_zeros R (shape (slices B)), np_zeros R (shape (slices B))) p.
- by exists (fun _ => 0), (fun _ => 0); rewrite -zeros_slices.
- rewrite /f (np_slice_slices _ (Ordinal lt_t)) rbind_okE; have [-> _ _] := HV (Ordinal lt_t).
  rewrite rbind_okE [fst _]/= [snd _]/=; cbv beta iota.
  rewrite (np_set_slice_mat (Ordinal lt_t)) // rbind_okE np_diag_vec rbind_okE.
  rewrite (np_set_slice_mat (Ordinal lt_t)) // rbind_okE.
  eexists; first by reflexivity.
  exists (fun l => if l == Ordinal lt_t then V l else D1 l), (fun l => if l == Ordinal lt_t then diagv (d l) else D2 l); split.
  + congr (_, _); apply: slicesE => i j l; rewrite [nth _ _ _]/= -[t]/(val (Ordinal lt_t)) val_eqE;
      case: eqP => [->|_]; rewrite ?mxgetE ?get_slices //.
  + by move=> l; rewrite ltnS => le; case: eqP => // /eqP ne; apply: H1; rewrite ltn_neqAle le andbT; apply: contra ne => /eqP e; apply/eqP/val_inj.
  by move=> l; rewrite ltnS => le; case: eqP => // /eqP ne; apply: H2; rewrite ltn_neqAle le andbT; apply: contra ne => /eqP e; apply/eqP/val_inj.
by congr (Ok (_, _)); apply: eq_slices => l; rewrite ?H1 ?H2.
Qed.

(** what the products really compute: V^T D V = (V V)^T B (V V) in the place of B = V D V^T *)
Lemma svd_conj n (B : 'M[R]_n) d V : eigdec B d V -> V^T *m diagv d *m V = (V *m V)^T *m B *m (V *m V).
Proof.
move=> [HV ->]; rewrite trmx_mul -!mulmxA (mulmxA V^T V) HV mul1mx; congr (_ *m _).
by rewrite !(mulmxA V^T V) HV !mul1mx.
Qed.

Lemma lr_svd_multiply_R (la : linalg R) n k p (B : 'I_p -> 'M[R]_n) (M : 'I_p -> 'M[R]_(n, k)) :
  eigh_ok la -> (0 < n)%N -> (forall l, symm (B l)) ->
  exists d V, [/\ forall l, la_eigh la (mat (B l)) = Ok (vec (d l), mat (V l)),
    forall l, eigdec (B l) (d l) (V l), forall l, ascending (d l) &
    lr_svd_multiply la (slices B) (slices M) FlagR =
      Ok (slices (fun l => (M l)^T *m ((V l)^T *m diagv (d l) *m V l) *m M l))].
Proof.
move=> Hl n0 Hs; have [d [V [He HE Ha Hr]]] := array_svd_run Hl n0 Hs; exists d, V; split=> //.
rewrite /lr_svd_multiply Hr rbind_okE; cbv beta iota; rewrite r_multiply_slices rbind_okE lr_multiply_33R.
by congr Ok; apply: eq_slices => l; rewrite trmx_mul -!mulmxA.
Qed.

Lemma lr_svd_multiply_L_dim (la : linalg R) n k p (B : 'I_p -> 'M[R]_n) (M : 'I_p -> 'M[R]_(k, n)) :
  eigh_ok la -> (0 < n)%N -> (0 < p)%N -> (forall l, symm (B l)) -> k != n ->
  lr_svd_multiply la (slices B) (slices M) FlagL = ValueError.
Proof.
move=> Hl n0 p0 Hs kn; have [d [V [_ _ _ Hr]]] := array_svd_run Hl n0 Hs.
rewrite /lr_svd_multiply Hr rbind_okE; cbv beta iota; rewrite transpose_slices rbind_okE r_multiply_slices rbind_okE.
rewrite /lr_multiply !dim_slices [_ == _]/= !rbind_okE; apply: foldM_iota_err => //.
rewrite (np_slice_slices _ (Ordinal p0)) rbind_okE [(_ <= _)%N]/= (np_slice_slices _ (Ordinal p0)) rbind_okE /lr1.
by rewrite /np_matmul /= kn.
Qed.
Lemma lr_svd_multiply_L (la : linalg R) n p (B : 'I_p -> 'M[R]_n) (M : 'I_p -> 'M[R]_n) :
  eigh_ok la -> (0 < n)%N -> (forall l, symm (B l)) ->
  exists d V, [/\ forall l, la_eigh la (mat (B l)) = Ok (vec (d l), mat (V l)),
    forall l, eigdec (B l) (d l) (V l), forall l, ascending (d l) &
    lr_svd_multiply la (slices B) (slices M) FlagL =
      Ok (slices (fun l => V l *m ((M l)^T *m diagv (d l) *m M l) *m (V l)^T))].
Proof.
move=> Hl n0 Hs; have [d [V [He HE Ha Hr]]] := array_svd_run Hl n0 Hs; exists d, V; split=> //.
rewrite /lr_svd_multiply Hr rbind_okE; cbv beta iota; rewrite transpose_slices rbind_okE r_multiply_slices rbind_okE lr_multiply_33L.
by congr Ok; apply: eq_slices => l; rewrite trmx_mul trmxK !mulmxA.
Qed.

Lemma col_of_cols m n (f : 'I_n -> 'cV[R]_m) j : col j (\matrix_(i, l) f l i 0) = f j.
Proof. by apply/matrixP => i k; rewrite !mxE (ord1 k). Qed.

Lemma r_svd_by_vec (la : linalg R) n p (B : 'I_p -> 'M[R]_n) (M : 'M[R]_(n, p)) :
  eigh_ok la -> (0 < n)%N -> (forall l, symm (B l)) ->
  exists d V, [/\ forall l, la_eigh la (mat (B l)) = Ok (vec (d l), mat (V l)),
    forall l, eigdec (B l) (d l) (V l), forall l, ascending (d l) &
    r_svd_multiply_by_vec la (slices B) (mat M) =
      Ok (mat (\matrix_(i, l) ((V l)^T *m diagv (d l) *m V l *m col l M) i 0))].
Proof.
move=> Hl n0 Hs; have [d [V [He HE Ha Hr]]] := array_svd_run Hl n0 Hs; exists d, V; split=> //.
rewrite /r_svd_multiply_by_vec Hr rbind_okE; cbv beta iota; rewrite r_multiply_by_vec_run rbind_okE.
rewrite !dim_mat !dim_slices [_ != _]/= !rbind_okE np_zeros_mat.
rewrite (@fill_cols_ok _ _ _ _ _ (fun l => (V l)^T *m diagv (d l) *m V l *m col l M)) // => l.
rewrite !np_slice_slices 2!rbind_okE np_T_mat np_matmul_mm rbind_okE np_col_mat rbind_okE np_matmul_mv.
by rewrite col_of_cols !mulmxA.
Qed.

Lemma lr_svd_by_vec (la : linalg R) n p (B : 'I_p -> 'M[R]_n) (M : 'M[R]_(n, p)) :
  eigh_ok la -> (0 < n)%N -> (forall l, symm (B l)) ->
  exists d V, [/\ forall l, la_eigh la (mat (B l)) = Ok (vec (d l), mat (V l)),
    forall l, eigdec (B l) (d l) (V l), forall l, ascending (d l) &
    lr_svd_multiply_by_vec la (slices B) (mat M) =
      Ok (mat (\row_l qf ((V l)^T *m diagv (d l) *m V l) (col l M)))].
Proof.
move=> Hl n0 Hs; have [d [V [He HE Ha Hr]]] := array_svd_run Hl n0 Hs; exists d, V; split=> //.
rewrite /lr_svd_multiply_by_vec Hr rbind_okE; cbv beta iota; rewrite r_multiply_by_vec_run rbind_okE.
rewrite lr_by_vec_slices; congr (Ok (mat _)); apply/matrixP => i l; rewrite !mxE col_of_cols.
by rewrite /qf -!mulmxA [RHS]dotv_mulr trmxK.
Qed.

Lemma diag_recip_run n (d : 'cV[R]_n) : (forall i, d i 0 != 0) ->
  diag_recip (mat (diagv d)) = Ok (mat (diagv (\col_i (d i 0)^-1))).
Proof.
move=> Hd; rewrite /diag_recip np_diag_mat rbind_okE (@vec_map _ _ _ _ (\col_i (d i 0)^-1)).
  by rewrite np_diag_vec.
by move=> i; rewrite !mxE eqxx mulr1n xdivE // mul1r.
Qed.

Lemma lr_svd_divide_one (la : linalg R) n (B : 'I_1 -> 'M[R]_n) (v : 'cV[R]_n) :
  eigh_ok la -> (0 < n)%N -> (forall l, symm (B l)) ->
  lr_svd_divide_vec la (slices B) (mat v) = ValueError.
Proof.
move=> Hl n0 Hs; have [d [V [He HE Ha Hr]]] := array_svd_run Hl n0 Hs.
rewrite /lr_svd_divide_vec Hr rbind_okE; cbv beta iota; rewrite r_multiply_by_vec_run rbind_okE.
by rewrite !dim_slices !dim_mat 2!rbind_okE eqxx.
Qed.
Lemma lr_svd_divide (la : linalg R) n p (B : 'I_p -> 'M[R]_n) (M : 'M[R]_(n, p)) :
  eigh_ok la -> (0 < n)%N -> (p != 1)%N -> (forall l, symm (B l)) -> (forall l, B l \in unitmx) ->
  exists d V, [/\ forall l, la_eigh la (mat (B l)) = Ok (vec (d l), mat (V l)),
    forall l, eigdec (B l) (d l) (V l), forall l, ascending (d l) &
    lr_svd_divide_vec la (slices B) (mat M) =
      Ok (vec (\col_l qf ((V l)^T *m diagv (\col_i (d l i 0)^-1) *m V l) (col l M)))].
Proof.
move=> Hl n0 p1 Hs uB; have [d [V [He HE Ha Hr]]] := array_svd_run Hl n0 Hs; exists d, V; split=> //.
have d0 l i : d l i 0 != 0.
  by have := uB l; rewrite unitmxE (eig_det (HE l)) unitfE prodf_seq_neq0 => /allP/(_ i); rewrite mem_index_enum; apply.
rewrite /lr_svd_divide_vec Hr rbind_okE; cbv beta iota; rewrite r_multiply_by_vec_run rbind_okE.
rewrite !dim_slices !dim_mat 2!rbind_okE (negbTE p1) np_zeros_vec; apply: fill_elems_ok => l.
rewrite np_slice_slices rbind_okE diag_recip_run // rbind_okE np_col_mat rbind_okE np_matmul_mv rbind_okE np_matmul_vv.
eexists; first by reflexivity.
by rewrite /= mxE -dotvE col_of_cols /qf -!mulmxA [in RHS]dotv_mulr trmxK.
Qed.

(** diag(2, 3, 1) *)
Notation b231 := (b231 R).
Lemma b231_wrong d V : eigdec b231 d V -> ascending d -> (V^T *m diagv d *m V) 0 0 = 3%:R.
Proof.
move=> [HV HB] Ha; pose b : 'cV[R]_3 := \col_i nth 0 [:: 2%:R; 3%:R; 1] i.
have HBV : b231 *m V = V *m diagv d by rewrite HB -!mulmxA HV mulmx1.
have E i j : (b i 0 - d j 0) * V i j = 0.
  have := congr1 (fun M : 'M_3 => M i j) HBV; rewrite /b231 -/b mul_diag_mx mul_mx_diag ![LHS]mxE ![RHS]mxE.
  by rewrite mulrBl => H; rewrite (mulrC (d j 0)); apply/eqP; rewrite subr_eq0; apply/eqP; move: H; rewrite !mxE.
have nz i j : V i j != 0 -> d j 0 = b i 0.
  by move=> Vn; have /eqP := E i j; rewrite mulf_eq0 (negbTE Vn) orbF subr_eq0 => /eqP.
have rowne i : exists j, V i j != 0.
  apply/existsP; apply: contraT; rewrite negb_exists => /forallP H.
  have /matrixP/(_ i i) := proj1 (orthogC V) HV; rewrite !mxE eqxx big1 => [/esym/eqP|j _].
    by rewrite oner_eq0.
  by have := H j; rewrite negbK => /eqP ->; rewrite mul0r.
have colne j : exists i, V i j != 0.
  apply/existsP; apply: contraT; rewrite negb_exists => /forallP H.
  have /matrixP/(_ j j) := HV; rewrite !mxE eqxx big1 => [/esym/eqP|i _].
    by rewrite oner_eq0.
  by have := H i; rewrite negbK => /eqP ->; rewrite mulr0.
pose i0 : 'I_3 := 0; pose i1 : 'I_3 := inord 1; pose i2 : 'I_3 := inord 2.
have b0 : b i0 0 = 2%:R by rewrite mxE.
have b1 : b i1 0 = 3%:R by rewrite mxE inordK.
have b2 : b i2 0 = 1 by rewrite mxE inordK.
have I3 i : [\/ i = i0, i = i1 | i = i2].
  case: i => [[|[|[|]]]] //= Hi; [apply: Or31|apply: Or32|apply: Or33]; apply: val_inj; by rewrite /= ?inordK.
have b_ge1 i : 1 <= b i 0.
  by case: (I3 i) => ->; rewrite ?b0 ?b1 ?b2 // ler1n.
have b_le3 i : b i 0 <= 3%:R.
  by case: (I3 i) => ->; rewrite ?b0 ?b1 ?b2 // ?ler_nat // -[1]/(1%:R) ler_nat.
have d0 : d i0 0 = 1.
  have [j /nz Hj] := rowne i2; have [i /nz Hi] := colne i0.
  apply/eqP; rewrite eq_le {2}Hi b_ge1 andbT -b2 -Hj; exact: Ha.
have d2 : d i2 0 = 3%:R.
  have [j /nz Hj] := rowne i1; have [i /nz Hi] := colne i2.
  apply/eqP; rewrite eq_le {1}Hi b_le3 /= -b1 -Hj; apply: Ha; rewrite /i2 inordK //.
  by rewrite -ltnS ltn_ord.
have V0 : V i0 i0 = 0.
  have /eqP := E i0 i0; rewrite b0 d0 mulf_eq0 => /orP[|/eqP//].
  by rewrite -[2%:R]/(1 + 1) addrK oner_eq0.
have V1 : V i1 i0 = 0.
  have /eqP := E i1 i0; rewrite b1 d0 mulf_eq0 => /orP[|/eqP//].
  by rewrite (_ : 3%:R - 1 = 2%:R) ?pnatr_eq0 // -(natrB _ (_ : 1 <= 3)%N).
have V2 : V i2 i0 ^+ 2 = 1.
  have /matrixP/(_ i0 i0) := HV; rewrite !mxE eqxx mulr1n => <-.
  rewrite (bigD1 i2) //= mxE expr2 big1 ?addr0 // => i ni; case: (I3 i) ni => ->; rewrite ?eqxx // => _; by rewrite ?V0 ?V1 mulr0.
rewrite -mulmxA mul_diag_mx mxE (bigD1 i2) //= big1 => [|i ni].
  by rewrite addr0 !mxE -[d i2 0]/(d i2 0) d2 mulrCA -expr2 V2 mulr1.
by case: (I3 i) ni => ->; rewrite ?eqxx // => _; rewrite !mxE ?V0 ?V1 mul0r.
Qed.

(** ---------------------------------------------------------------- from_func, eval_func *)
Lemma as_matrix_value m n (v : fval R) (M : 'M[R]_(m, n)) : value_is v M -> as_matrix v = Ok (mat M).
Proof.
case=> {m n v M} [m n M|m v|x]; rewrite /as_matrix //=; first by rewrite np_expand1_vec.
have -> : Arr [:: 1%N] [:: Fin x] = vec (x%:M : 'cV[R]_1).
  by rewrite /vec /mkn /= -[0%N]/(val (ord0 : 'I_1)) mxgetE mxE eqxx.
by rewrite np_expand1_vec.
Qed.

Lemma from_func_run m n p (f : X -> res (fval R)) (t : seq R) (F : 'I_p -> 'M[R]_(m, n)) :
  size t = p -> (0 < p)%N ->
  (forall l : 'I_p, exists2 v, f (Fin (nth 0 t l)) = Ok v & value_is v (F l)) ->
  mv_from_func f [seq Fin x | x <- t] = Ok (slices F).
Proof.
move=> Ht p0 Hf; case: t Ht Hf => [E|t0 ts Ht Hf]; first by rewrite -E in p0.
rewrite [LHS]/=; have [v0 /= -> /as_matrix_value Hv0] := Hf (Ordinal p0).
rewrite rbind_okE Hv0 rbind_okE !dim_mat !rbind_okE !size_map.
rewrite -[(size ts).+1]/(size (t0 :: ts)) Ht (np_set_slice_mat (Ordinal p0)) // rbind_okE.
have Ep : (1 + size ts = p)%N by rewrite -Ht.
set o0 := mkn _ _.
have H0 : shape o0 = [:: m; n; p] /\ wf_arr o0 by split=> //; apply: wf_mkn.
have G0 (i : 'I_m) (j : 'I_n) (l : 'I_p) : (l < 1)%N -> get o0 [:: val i; val j; val l] = Fin (F l i j).
  rewrite ltnS leqn0 => /eqP l0; rewrite getn_mkn /= ?ltn_ord // l0 eqxx mxgetE.
  by congr (Fin (F _ _ _)); apply: val_inj.
suff: forall k c o, (c + k)%N = p -> shape o = [:: m; n; p] /\ wf_arr o ->
    (forall (i : 'I_m) (j : 'I_n) (l : 'I_p), (l < c)%N -> get o [:: val i; val j; val l] = Fin (F l i j)) ->
    foldM (fun o i => let* v := f (nth NaN (Fin t0 :: [seq Fin x | x <- ts]) i) in
                      let* v := as_matrix v in np_set_slice o i v) o (iota c k) = Ok (slices F).
  by apply; [exact: Ep | exact: H0 | exact: G0].
elim=> [|k IH] c {}o0 Ec {H0 G0} [Hs Hw] Hg.
  rewrite /=; congr Ok; rewrite (arr_mkn NaN Hw) Hs; apply: slicesE => i j l; apply: Hg.
  by rewrite addn0 in Ec; rewrite Ec ltn_ord.
have lt_c : (c < p)%N by rewrite -Ec -addSnnS leq_addr.
rewrite [LHS]/=.
have -> : nth NaN (Fin t0 :: [seq Fin x | x <- ts]) c = Fin (nth 0 (t0 :: ts) c).
  by rewrite -[_ :: _]/[seq Fin x | x <- t0 :: ts] (nth_map 0) // Ht.
have [v /= -> /as_matrix_value Hv] := Hf (Ordinal lt_c).
rewrite rbind_okE Hv rbind_okE (np_set_slice_mat (Ordinal lt_c)) // rbind_okE.
apply: IH; first by rewrite addSnnS.
  by split=> //; apply: wf_mkn.
move=> i j l; rewrite ltnS => le; rewrite getn_mkn /= ?ltn_ord //; case: eqP => [E|/eqP ne].
  by rewrite mxgetE; congr (Fin (F _ _ _)); apply: val_inj.
by apply: Hg; rewrite ltn_neqAle ne.
Qed.

Lemma eval_keep m n p (f : A -> res A) (D E : 'I_p -> 'M[R]_(m, n)) :
  (forall l, f (mat (D l)) = Ok (mat (E l))) -> mv_eval_func f (slices D) true = Ok (slices E).
Proof.
move=> Hf; rewrite /mv_eval_func /as_stack !dim_slices [(_ < _)%N]/= rbind_okE.
apply: fill_slices_ok => // [|l]; first exact: wf_slices.
by rewrite np_slice_slices rbind_okE Hf.
Qed.
Lemma eval_scalar m n p (f : A -> res A) (D : 'I_p -> 'M[R]_(m, n)) (r : 'cV[R]_p) :
  (forall l, f (mat (D l)) = Ok (scal (r l 0))) -> mv_eval_func f (slices D) false = Ok (vec r).
Proof.
move=> Hf; rewrite /mv_eval_func /as_stack !dim_slices [(_ < _)%N]/= rbind_okE np_zeros_vec.
apply: fill_elems_ok => l; rewrite np_slice_slices rbind_okE Hf.
by eexists; first by reflexivity.
Qed.
Lemma eval_list m n p (f : A -> res A) (D : 'I_p -> 'M[R]_(m, n)) (g : 'I_p -> A) :
  (forall l, f (mat (D l)) = Ok (g l)) -> mv_eval_list f (slices D) = Ok [seq g l | l <- enum 'I_p].
Proof.
move=> Hf; rewrite /mv_eval_list /as_stack !dim_slices [(_ < _)%N]/= rbind_okE -val_enum_ord.
elim: (enum 'I_p) => //= l s IH.
by rewrite np_slice_slices rbind_okE Hf rbind_okE IH.
Qed.

(** ---------------------------------------------------------------- consequences *)
Lemma transpose_invol m n p (D : 'I_p -> 'M[R]_(m, n)) :
  (let* t := mv_transpose (slices D) in mv_transpose t) = Ok (slices D).
Proof.
rewrite transpose_slices rbind_okE transpose_slices; congr Ok; apply: eq_slices => l.
by rewrite trmxK.
Qed.

Lemma half_sym n (M : 'M[R]_n) : symm M -> (1 / 2%:R) *: (M + M^T) = M.
Proof.
by move=> ->; apply/matrixP => i j; rewrite !mxE; rewrite div1r mulrC mulrDl -splitr.
Qed.

Lemma make_symmetric_laws n p (D : 'I_p -> 'M[R]_n) :
  exists E : 'I_p -> 'M[R]_n, [/\ mv_make_symmetric (slices D) = Ok (slices E),
    forall l, symm (E l), forall l, symm (D l) -> E l = D l &
    mv_make_symmetric (slices E) = Ok (slices E)].
Proof.
pose E l := (1 / 2%:R) *: (D l + (D l)^T).
have SE l : symm (E l) by rewrite /symm /E linearZ /= linearD /= trmxK addrC.
exists E; split=> //; [exact: make_symmetric_slices | by move=> l /half_sym | ].
by rewrite make_symmetric_slices; congr Ok; apply: eq_slices => l; apply: half_sym.
Qed.

Lemma mat_dot_rejects (a b : A) : shape b != shape a -> mat_dot a b = throw "wrongInput:size".
Proof. by rewrite /mat_dot => ->. Qed.
Lemma mat_dot_nonsq m n (M N : 'M[R]_(m, n)) : m != n -> mat_dot (mat M) (mat N) = throw "wrongInput:not_square".
Proof. by move=> ne; rewrite /mat_dot eqxx /= ne. Qed.

Lemma mat_dot_laws n : (0 < n)%N -> exists f : 'M[R]_n -> 'M[R]_n -> R,
  [/\ forall M N, mat_dot (mat M) (mat N) = Ok (mat ((f M N)%:M : 'M_1)),
      forall p (D E : 'I_p -> 'M[R]_n), mat_dot (slices D) (slices E) = Ok (slices (fun l => (f (D l) (E l))%:M : 'M_1)),
      forall M N, f M N = \tr (M^T *m N) / n%:R,
      (forall M N, f M N = f N M) /\ (forall a M M' N, f (a *: M + M') N = a * f M N + f M' N) &
      forall M, 0 <= f M M ?= iff (M == 0)].
Proof.
move=> n0; exists (fun M N => frob M N / n%:R).
have np : 0 < n%:R^-1 :> R by rewrite invr_gt0 ltr0n.
split=> [M N|p D E|M N||M].
- exact: mat_dot_mat.
- exact: mat_dot_slices.
- by rewrite frob_tr.
- by split=> [M N|a M M' N]; [rewrite frobC | rewrite frobDl frobZl mulrDl mulrA].
- split; first by rewrite mulr_ge0 ?frob_ge0 // ltW.
  by rewrite eq_sym mulf_eq0 frob_eq0 (gt_eqF np) orbF.
Qed.

Lemma b231_posdef : symm b231 /\ posdef b231.
Proof.
have S : symm b231 by rewrite /symm /GenSpec.b231 /diagv tr_diag_mx.
split=> // x nz; rewrite /qf /dotv.
have E i : x i 0 * (b231 *m x) i 0 = nth 0 [:: 2%:R; 3%:R; 1] i * x i 0 ^+ 2.
  by rewrite /GenSpec.b231 /diagv mul_diag_mx !mxE mulrCA expr2.
rewrite (eq_bigr _ (fun i _ => E i)) lt_neqAle.
have pos (i : 'I_3) : 0 < nth 0 [:: 2%:R; 3%:R; 1] i :> R.
  by case: i => [[|[|[|//]]] ?] /=; rewrite ?ltr0n ?ltr01.
rewrite sumr_ge0 ?andbT => [|i _]; last by rewrite mulr_ge0 ?sqr_ge0 // ltW.
rewrite eq_sym; apply: contra nz => /eqP H; apply/eqP/colP => i; rewrite mxE.
have := @psumr_eq0P _ _ _ _ (fun j _ => mulr_ge0 (ltW (pos j)) (sqr_ge0 (x j 0))) H i isT.
by move/eqP; rewrite mulf_eq0 (gt_eqF (pos i)) sqrf_eq0 => /eqP.
Qed.

Lemma qf_e0 n (B : 'M[R]_n.+1) : qf B (delta_mx 0 0) = B 0 0.
Proof.
rewrite /qf /dotv (bigD1 0) //= big1 ?addr0 => [|i ne]; last by rewrite mxE (negbTE ne) mul0r.
by rewrite mxE eqxx mul1r -colE mxE.
Qed.

Lemma svd_by_vec_wrong (la : linalg R) : eigh_ok la ->
  lr_svd_multiply_by_vec la (slices (fun _ : 'I_1 => b231)) (mat (delta_mx 0 0 : 'cV[R]_3)) = Ok (mat (3%:R%:M : 'M_1)) /\
  lr_multiply_by_vec (slices (fun _ : 'I_1 => b231)) (mat (delta_mx 0 0 : 'cV[R]_3)) = Ok (mat (2%:R%:M : 'M_1)).
Proof.
move=> ok; have c0 (j : 'I_1) : col j (delta_mx 0 0 : 'cV[R]_3) = delta_mx 0 0.
  by apply/matrixP => i k; rewrite !mxE (ord1 k) (ord1 j).
split.
  have [d [V [_ H1 H2 ->]]] := lr_svd_by_vec (la := la) (delta_mx 0 0 : 'cV[R]_3) ok isT (fun _ => b231_posdef.1).
  congr (Ok (mat _)); apply/matrixP => i j; rewrite (ord1 i) (ord1 j) !mxE eqxx mulr1n c0 qf_e0.
  exact: b231_wrong.
rewrite lr_by_vec_slices; congr (Ok (mat _)); apply/matrixP => i j; rewrite (ord1 i) (ord1 j) !mxE eqxx mulr1n c0 qf_e0.
by rewrite /GenSpec.b231 /diagv !mxE.
Qed.

Lemma svd_by_vec_partial (la : linalg R) n p (B : 'I_p -> 'M[R]_n) (M : 'M[R]_(n, p)) :
  eigh_ok la -> (0 < n)%N -> (forall l, symm (B l)) ->
  exists W : 'I_p -> 'M[R]_n, [/\ forall l, orthog (W l),
    forall l, exists2 V, W l = V *m V & exists d, eigdec (B l) d V,
    lr_svd_multiply_by_vec la (slices B) (mat M) = Ok (mat (\row_l qf (B l) (W l *m col l M))),
    r_svd_multiply_by_vec la (slices B) (mat M) = Ok (mat (\matrix_(i, l) ((W l)^T *m B l *m W l *m col l M) i 0)) &
    forall k (N : 'I_p -> 'M[R]_(n, k)), lr_svd_multiply la (slices B) (slices N) FlagR =
      Ok (slices (fun l => (W l *m N l)^T *m B l *m (W l *m N l)))].
Proof.
move=> ok n0 SB.
have [d [V [Hd HE HA E1]]] := lr_svd_by_vec M ok n0 SB.
have [d2 [V2 [Hd2 _ _ E2]]] := r_svd_by_vec M ok n0 SB.
have dV l : d2 l = d l /\ V2 l = V l.
  have := Hd2 l; rewrite Hd => /Ok_inj H; split; symmetry.
    exact: vec_inj (f_equal fst H).
  exact: mat_inj (f_equal snd H).
exists (fun l => V l *m V l); split.
- move=> l; have [O _] := HE l; rewrite /orthog trmx_mul mulmxA -(mulmxA (V l)^T) O mulmx1; exact: O.
- by move=> l; exists (V l) => //; exists (d l).
- rewrite E1; congr (Ok (mat _)); apply/rowP => l; rewrite !mxE (svd_conj (HE l)).
  by rewrite /qf !dotvE !trmx_mul !mulmxA.
- rewrite E2; congr (Ok (mat _)); apply/matrixP => i l; rewrite !mxE.
  by have [-> ->] := dV l; rewrite (svd_conj (HE l)).
move=> k N; have [d3 [V3 [Hd3 _ _ ->]]] := lr_svd_multiply_R N ok n0 SB.
congr Ok; apply: eq_slices => l; have := Hd3 l; rewrite Hd => /Ok_inj H.
rewrite -(vec_inj (f_equal fst H)) -(mat_inj (f_equal snd H)).
by rewrite (svd_conj (HE l)) !trmx_mul !mulmxA.
Qed.

Lemma make_pos_by_eig_slices (la : linalg R) n p (B : 'I_p -> 'M[R]_n) (v : R) : eigh_ok la -> (0 < n)%N ->
  (forall l, symm (B l)) -> exists P : 'I_p -> 'M[R]_n,
    sq_make_pos_by_eig la (slices B) (Fin v) = Ok (slices P) /\
    forall l, pos_by_eig1 la (Fin v) (mat (B l)) = Ok (mat (P l)).
Proof.
move=> ok n0 SB.
have H l : exists P : 'M[R]_n, pos_by_eig1 la (Fin v) (mat (B l)) = Ok (mat P).
  by have [P [E _ _]] := make_pos_by_eig_spec v ok n0 (SB l); exists P.
have [P HP] := fin_all_exists H; exists P; split=> //.
rewrite /sq_make_pos_by_eig !dim_slices ?rbind_okE.
apply: fill_slices_ok => // [|l]; first by apply: wf_mkn.
by rewrite np_slice_slices rbind_okE HP.
Qed.

Lemma make_pos_by_eig_zero (la : linalg R) (v : R) : eigh_ok la ->
  pos_by_eig1 la (Fin v) (mat (0 : 'M[R]_2)) = Ok (mat (0 : 'M[R]_2)).
Proof.
move=> ok; have [|P [-> _ HP]] := @make_pos_by_eig_spec la 2 0 v ok isT; first by rewrite /symm trmx0.
congr (Ok (mat _)); apply/matrixP => i j; rewrite mxE.
have := HP (delta_mx j 0) 0; rewrite mul0mx scale0r => /(_ erefl); rewrite ltxx scale0r -colE.
by move/colP/(_ i); rewrite !mxE.
Qed.

(** ---------------------------------------------------------------- single matrices, 1-D vectors *)
Lemma lr_multiply_23 m n p (B : 'M[R]_m) :
  (forall M : 'I_p.+1 -> 'M[R]_(m, n), lr_multiply (mat B) (slices M) FlagR = Ok (mat ((M 0)^T *m B *m M 0))) /\
  (forall M : 'I_p.+1 -> 'M[R]_(n, m), lr_multiply (mat B) (slices M) FlagL = Ok (mat (M 0 *m B *m (M 0)^T))).
Proof.
split=> M; rewrite /lr_multiply [ndim (mat B)]/= [_ == _]/= [(_ <= _)%N]/=.
  by rewrite (np_slice_slices M 0) rbind_okE lr1R.
by rewrite (np_slice_slices M 0) rbind_okE lr1L.
Qed.

Lemma as_col_vec n (v : 'cV[R]_n) : as_col (vec v) = mat v.
Proof. by rewrite /as_col /= np_expand1_vec. Qed.
Lemma lr_by_vec_1d n (v : 'cV[R]_n) (b : A) : lr_multiply_by_vec b (vec v) = lr_multiply_by_vec b (mat v).
Proof. by rewrite /lr_multiply_by_vec as_col_vec. Qed.
Lemma lr_divide_1d (la : linalg R) n (v : 'cV[R]_n) (b : A) : lr_divide_vec la b (vec v) = lr_divide_vec la b (mat v).
Proof. by rewrite /lr_divide_vec as_col_vec. Qed.

Lemma sq_inv_mat (la : linalg R) n (M : 'M[R]_n) : inv_ok la -> (0 < n)%N ->
  sq_inv la (mat M) = if M \in unitmx then Ok (mat (invmx M)) else LinAlgError.
Proof. by move=> ok n0; rewrite /sq_inv /= ok. Qed.
Lemma sq_sqrtm_mat (la : linalg R) n (M : 'M[R]_n) : eigh_ok la -> (0 < n)%N -> symm M -> psd M ->
  exists S : 'M[R]_n, [/\ sq_sqrtm_pos la (mat M) = Ok (mat S), symm S, psd S & S *m S = M].
Proof. by move=> ok n0 S P; rewrite /sq_sqrtm_pos /=; apply: sqrtm_pos_exact. Qed.
Lemma pos_or_nan_mat (la : linalg R) n (M : 'M[R]_n) : eigvalsh_ok la -> (0 < n)%N ->
  (psd (lowsym M) -> sq_make_pos_or_nan la (mat M) = Ok (mat M)) /\
  (~ psd (lowsym M) -> sq_make_pos_or_nan la (mat M) = Ok (np_scalar NaN)).
Proof.
move=> ok n0; have [x E Hx] := min_eig M ok n0.
move: E; rewrite /sq_make_pos_or_nan /=; case: (la_eigvalsh la _) => // e; rewrite rbind_okE => E.
rewrite rbind_okE E rbind_okE /=; split=> [P|P].
  by case: (boolP (x < 0)) Hx => // lt [H _]; case: (H isT).
by have -> : x < 0 by apply/Hx.
Qed.
Lemma pos_by_eig_mat (la : linalg R) n (M : 'M[R]_n) (v : X) :
  sq_make_pos_by_eig la (mat M) v = pos_by_eig1 la v (mat M).
Proof. by []. Qed.
Lemma pos_by_eig_nonsymm (la : linalg R) n (M : 'M[R]_n) (v : X) : ~ symm M ->
  pos_by_eig1 la v (mat M) = throw "wrongInput:non SymmMat".
Proof.
by move=> ns; rewrite /pos_by_eig1; have [[] -> Hb] := is_mat_symm0 M; [case: ns; apply/Hb | ].
Qed.

End G.
