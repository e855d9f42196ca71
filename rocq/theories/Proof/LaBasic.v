(** Proofs about gras/la/la.py except the orth_transl family: is_mat_*, mat_orth, sqrtm_pos,
    reg_pos_def_mat, reg_mat, try_treat_as_real. *)
From mathcomp Require Import all_ssreflect all_algebra ring.
Require Import Coq.Strings.String.
From Verif.Model Require Import Py NP Linalg Compare La.
From Verif.Spec Require Import CompareSpec MatSpec LinalgSpec.
From Verif.Proof Require Import NPLib CompareProof MatLib.
Set Implicit Arguments.
Unset Strict Implicit.
Unset Printing Implicit Defensive.
Import Order.Theory GRing.Theory Num.Theory.
Local Open Scope ring_scope.

Section LB.
Variable R : rcfType.
Notation X := (xnum R).
Notation A := (arr X).

(** ------------------------------------------------ minimum / maximum of a vector *)
Lemma foldl_min (a : R) s :
  foldl (@xmin R) (Fin a) [seq Fin x | x <- s] = Fin (foldl Num.min a s).
Proof. by elim: s a => //= b s IH a; rewrite xminE IH. Qed.
Lemma foldl_max (a : R) s :
  foldl (@xmax R) (Fin a) [seq Fin x | x <- s] = Fin (foldl Num.max a s).
Proof. by elim: s a => //= b s IH a; rewrite xmaxE IH. Qed.
Lemma foldl_pymin (a : R) s :
  foldl (fun m y => if xlt y m then y else m) (Fin a) [seq Fin x | x <- s] = Fin (foldl Num.min a s).
Proof.
elim: s a => //= b s IH a; rewrite -[Num.min a b]/(if a < b then a else b).
by case: (ltgtP a b) => [_|_|->]; rewrite IH.
Qed.
Lemma foldl_min_spec (a : R) s : foldl Num.min a s \in a :: s /\
  forall y, y \in a :: s -> foldl Num.min a s <= y.
Proof.
elim: s a => [|b s IH] a /=.
  by rewrite inE eqxx; split=> // y; rewrite inE => /eqP->.
have [H1 H2] := IH (Num.min a b); split.
  move: H1; rewrite !inE => /orP[/eqP->|->]; last by rewrite !orbT.
  by case: leP => _; rewrite eqxx ?orbT.
move=> y; rewrite !inE => /or3P[/eqP->|/eqP->|y_in].
- by apply: le_trans (H2 _ (mem_head _ _)) _; rewrite le_minl lexx.
- by apply: le_trans (H2 _ (mem_head _ _)) _; rewrite le_minl lexx orbT.
- by apply: H2; rewrite inE y_in orbT.
Qed.
Lemma foldl_max_spec (a : R) s : foldl Num.max a s \in a :: s /\
  forall y, y \in a :: s -> y <= foldl Num.max a s.
Proof.
elim: s a => [|b s IH] a /=.
  by rewrite inE eqxx; split=> // y; rewrite inE => /eqP->.
have [H1 H2] := IH (Num.max a b); split.
  move: H1; rewrite !inE => /orP[/eqP->|->]; last by rewrite !orbT.
  by case: leP => _; rewrite eqxx ?orbT.
move=> y; rewrite !inE => /or3P[/eqP->|/eqP->|y_in].
- by apply: le_trans (H2 _ (mem_head _ _)); rewrite le_maxr lexx.
- by apply: le_trans (H2 _ (mem_head _ _)); rewrite le_maxr lexx orbT.
- by apply: H2; rewrite inE y_in orbT.
Qed.

Definition vals n (v : 'cV[R]_n) : seq R := [seq v i 0 | i <- enum 'I_n].
Lemma data_vals n (v : 'cV[R]_n) : data (vec v) = [seq Fin x | x <- vals v].
Proof.
rewrite data_vec -val_enum_ord /vals -!map_comp.
by apply: eq_map => i /=; rewrite -(mxgetE v i 0).
Qed.
Lemma size_vals n (v : 'cV[R]_n) : size (vals v) = n.
Proof. by rewrite size_map size_enum_ord. Qed.
Lemma nth_vals n (v : 'cV[R]_n) (i : 'I_n) : nth 0 (vals v) i = v i 0.
Proof. by rewrite (nth_map i) ?size_enum_ord // nth_ord_enum. Qed.
Lemma mem_vals n (v : 'cV[R]_n) x : reflect (exists i, x = v i 0) (x \in vals v).
Proof.
apply: (iffP mapP) => [[i _ ->]|[i ->]]; first by exists i.
by exists i; rewrite ?mem_enum.
Qed.
Lemma vals_cons n (v : 'cV[R]_n) : (0 < n)%N -> exists a s, vals v = a :: s.
Proof.
move=> n0; have : size (vals v) = n by rewrite size_map size_enum_ord.
by case: (vals v) => [E|a s _]; [move: n0; rewrite -E | exists a, s].
Qed.

Lemma np_min_vec n (v : 'cV[R]_n) : (0 < n)%N ->
  exists2 i, np_min (vec v) = Ok (Fin (v i 0)) & forall j, v i 0 <= v j 0.
Proof.
move=> n0; have [a [s E]] := vals_cons v n0.
have [H1 H2] := foldl_min_spec a s; rewrite -E in H1 H2.
have [i Hi] := mem_vals _ _ H1; exists i.
  by rewrite /np_min data_vals E /= foldl_min Hi.
by move=> j; rewrite -Hi; apply: H2; apply/mem_vals; exists j.
Qed.
Lemma np_max_vec n (v : 'cV[R]_n) : (0 < n)%N ->
  exists2 i, np_max (vec v) = Ok (Fin (v i 0)) & forall j, v j 0 <= v i 0.
Proof.
move=> n0; have [a [s E]] := vals_cons v n0.
have [H1 H2] := foldl_max_spec a s; rewrite -E in H1 H2.
have [i Hi] := mem_vals _ _ H1; exists i.
  by rewrite /np_max data_vals E /= foldl_max Hi.
by move=> j; rewrite -Hi; apply: H2; apply/mem_vals; exists j.
Qed.
Lemma py_min_vec n (v : 'cV[R]_n) : (0 < n)%N ->
  exists2 i, py_min (vec v) = Ok (Fin (v i 0)) & forall j, v i 0 <= v j 0.
Proof.
move=> n0; have [a [s E]] := vals_cons v n0.
have [H1 H2] := foldl_min_spec a s; rewrite -E in H1 H2.
have [i Hi] := mem_vals _ _ H1; exists i.
  by rewrite /py_min data_vals E /= foldl_pymin Hi.
by move=> j; rewrite -Hi; apply: H2; apply/mem_vals; exists j.
Qed.

(** ------------------------------------------------ C18 *)
Lemma wf_mat m n (M : 'M[R]_(m, n)) : wf_arr (mat M). Proof. exact: wf_mkn. Qed.
Lemma wf_vec n (v : 'cV[R]_n) : wf_arr (vec v). Proof. exact: wf_mkn. Qed.

Lemma is_mat_symm_mat n (M : 'M[R]_n) (t : R) : 0 <= t ->
  exists2 b, is_mat_symm (mat M) (Fin t) = Ok b & (b <-> forall i j, `|M i j - M j i| <= t).
Proof.
move=> t0; rewrite /is_mat_symm /= eqxx /= np_T_mat.
have [o Ho [V _]] := @compare_verdict R (mat M) (mat M^T) (Fin t) TNone None
   (wf_mat _) (wf_mat _) erefl t0 (or_introl (conj erefl erefl)).
rewrite Ho; exists (co_equal o) => //; rewrite V; split=> H.
  by move=> i j; have := H _ (is_valid2 i j); rewrite !get_mat mxE /= => -[|[]].
move=> idx /valid2[i [j ->]]; rewrite !get_mat mxE /=; left; exact: H.
Qed.

Lemma is_mat_symm0 n (M : 'M[R]_n) :
  exists2 b, is_mat_symm (mat M) x0 = Ok b & (b <-> symm M).
Proof.
have [b Hb Hs] := is_mat_symm_mat M (lexx 0); exists b => //; rewrite Hs; split=> H.
  by apply/matrixP => i j; have := H j i; rewrite mxE normr_le0 subr_eq0 => /eqP.
by move=> i j; rewrite -{1}H mxE subrr normr0.
Qed.

Lemma is_mat_symm_nonsq (q : A) t : (ndim q != 2%N) || (dim q 0 != dim q 1) ->
  is_mat_symm q t = throw "wrongInput:nonSquareMat".
Proof. by rewrite /is_mat_symm; case: eqP => //= _ ->. Qed.

Lemma is_mat_symm_neg n (M : 'M[R]_n) t : t < 0 ->
  is_mat_symm (mat M) (Fin t) = throw "wrongInput:wrongAbsTol".
Proof.
move=> t0; rewrite /is_mat_symm /= eqxx /= np_T_mat.
rewrite compare_bad_tol //= => u [<-] /=; by rewrite leNgt t0.
Qed.

Lemma is_mat_pos_def_spec (la : linalg R) n (M : 'M[R]_n) (t : R) flag :
  eigvalsh_ok la -> (0 < n)%N -> 0 <= t -> (forall i j, `|M i j - M j i| <= t) ->
  exists2 b, is_mat_pos_def la (mat M) (Fin t) flag = Ok b &
    if flag then b <-> forall x, - t * sqn x <= qf (lowsym M) x
    else b <-> forall x, x != 0 -> t * sqn x < qf (lowsym M) x.
Proof.
move=> Hla n0 t0 Hs; rewrite /is_mat_pos_def /= ltNge t0 /=.
have [b Hb Hbs] := is_mat_symm_mat M t0.
have -> : is_mat_symm (mat M) (Fin t) = Ok true by rewrite Hb; congr Ok; apply/Hbs.
have [d [V [-> HE _]]] := Hla n M n0; rewrite /=.
have [i -> Hi] := py_min_vec d n0; rewrite /=.
case: flag; eexists; try reflexivity.
  rewrite -leNgt; split=> H; first by apply: (eig_lower HE) => j; apply: le_trans (Hi j).
  by have := H (col i V); rewrite (eig_attained _ HE) (eig_sqn_col _ HE) mulr1.
rewrite xleE -ltNge; split=> H.
  move=> x x0; apply: lt_le_trans (eig_lower HE Hi x).
  by rewrite ltr_pmul2r // sqn_gt0.
have := H (col i V); rewrite (eig_attained _ HE) (eig_sqn_col _ HE) mulr1; apply.
by rewrite -sqn_gt0 (eig_sqn_col _ HE) ltr01.
Qed.

Lemma is_mat_pos_def_symm (la : linalg R) n (M : 'M[R]_n) flag :
  eigvalsh_ok la -> (0 < n)%N -> symm M ->
  exists2 b, is_mat_pos_def la (mat M) x0 flag = Ok b & (b <-> if flag then psd M else posdef M).
Proof.
move=> Hla n0 Hs; have [|b Hb H] := is_mat_pos_def_spec flag Hla n0 (lexx 0) (M := M).
  by move=> i j; rewrite -{1}Hs mxE subrr normr0.
exists b => //; rewrite lowsym_symm // in H; case: flag H {Hb} => H; rewrite H; split=> Hx x.
- by have := Hx x; rewrite oppr0 mul0r.
- by rewrite oppr0 mul0r.
- by move=> x0; have := Hx x x0; rewrite mul0r.
- by move=> x0; rewrite mul0r; apply: Hx.
Qed.

Lemma is_mat_pos_def_nonsymm (la : linalg R) n (M : 'M[R]_n) (t : R) flag i j : 0 <= t ->
  t < `|M i j - M j i| -> is_mat_pos_def la (mat M) (Fin t) flag = throw "wrongInput:nonSymmMat".
Proof.
move=> t0 Hij; rewrite /is_mat_pos_def /= ltNge t0 /=.
have [b -> Hbs] := is_mat_symm_mat M t0; case: b Hbs => //= Hbs.
by have := proj1 Hbs isT i j; rewrite leNgt Hij.
Qed.

Lemma is_mat_pos_def_neg (la : linalg R) (q : A) (t : R) flag : t < 0 ->
  is_mat_pos_def la q (Fin t) flag = throw "wrongInput:abs_tolNegative".
Proof. by rewrite /is_mat_pos_def /= => ->. Qed.

(** square SVD with a plain diagonal *)
Lemma vec_cast m n (e : m = n) (s : 'cV[R]_m) : vec (castmx (e, erefl) s) = vec s.
Proof. by case: n / e; rewrite castmx_id. Qed.
Lemma mat_cast m n p q (e1 : m = n) (e2 : p = q) (s : 'M[R]_(m, p)) : mat (castmx (e1, e2) s) = mat s.
Proof. by case: n / e1; case: q / e2; rewrite castmx_id. Qed.

Lemma svd_square n (s : 'cV[R]_(minn n n)) : exists s' : 'cV_n,
  [/\ vec s = vec s', rdiag s = diagv s', (forall i, exists j, s' i 0 = s j 0) &
      (descending s -> descending s')].
Proof.
exists (castmx (minnn n, erefl) s); split.
- by rewrite vec_cast.
- apply/matrixP => i j; rewrite (rdiagE _ _ (k := cast_ord (esym (minnn n)) i)) // diagvE castmxE.
  rewrite val_eqE; case: eqP => // _; rewrite mulr1n; congr (s _ _); exact: val_inj.
- move=> i; eexists; rewrite castmxE; congr (s _ _); exact: ord1.
- move=> H i j lij; rewrite !castmxE (ord1 (cast_ord _ 0)); exact: H.
Qed.

Lemma svd_sq_dec n (M U V : 'M[R]_n) s : svdec M U s V -> exists s' : 'cV_n,
  [/\ vec s = vec s', M = U *m diagv s' *m V, descending s' & forall i, 0 <= s' i 0].
Proof.
case=> _ _ EM Hd Hs; have [s' [H1 H2 H3 H4]] := svd_square s.
exists s'; split=> //; [by rewrite -H2|exact: H4|].
by move=> i; have [j ->] := H3 i.
Qed.

(** |M x|^2 in singular coordinates *)
Lemma svd_sqn n (M U V : 'M[R]_n) (s : 'cV[R]_n) x : orthog U -> M = U *m diagv s *m V ->
  sqn (M *m x) = \sum_i s i 0 ^+ 2 * (V *m x) i 0 ^+ 2.
Proof.
move=> HU ->; rewrite -!mulmxA orthog_sqn // mul_diagv; apply: eq_bigr => i _.
by rewrite mxE -expr2 exprMn.
Qed.
Lemma svd_lower n (M U V : 'M[R]_n) (s : 'cV[R]_n) c : orthog U -> orthog V -> M = U *m diagv s *m V ->
  0 <= c -> (forall i, c <= s i 0) -> forall x, c ^+ 2 * sqn x <= sqn (M *m x).
Proof.
move=> HU HV EM c0 Hc x; rewrite (svd_sqn _ HU EM) -(orthog_sqn x HV) mulr_sumr.
apply: ler_sum => i _; rewrite -expr2; apply: ler_wpmul2r; rewrite ?sqr_ge0 //.
by rewrite ler_pexpn2r // nnegrE; apply: le_trans (Hc i).
Qed.
Lemma svd_attained n (M U V : 'M[R]_n) (s : 'cV[R]_n) i : orthog U -> orthog V ->
  M = U *m diagv s *m V ->
  sqn (M *m (V^T *m delta_mx i 0)) = s i 0 ^+ 2 /\ sqn (V^T *m (delta_mx i 0 : 'cV_n)) = 1.
Proof.
move=> HU HV EM.
have Hd : sqn (delta_mx i 0 : 'cV[R]_n) = 1.
  rewrite /sqn /dotv (bigD1 i) //= mxE !eqxx mulr1 big1 ?addr0 // => j /negbTE ji.
  by rewrite mxE ji mul0r.
split; last by rewrite orthog_sqn //; exact: orthogT.
rewrite (svd_sqn _ HU EM) mulmxA; move/orthogC: HV => ->; rewrite mul1mx.
rewrite (bigD1 i) //= big1 ?addr0 => [|j /negbTE ji]; last by rewrite mxE ji expr0n mulr0.
by rewrite mxE !eqxx expr1n mulr1.
Qed.

Lemma is_mat_not_deg_spec (la : linalg R) n (M : 'M[R]_n) (t : R) :
  svdvals_ok la -> (0 < n)%N -> 0 < t ->
  exists2 b, is_mat_not_deg la (mat M) (Fin t) = Ok b &
    (b <-> forall x, t ^+ 2 * sqn x <= sqn (M *m x)).
Proof.
move=> Hla n0 t0; rewrite /is_mat_not_deg /= ltNge (ltW t0) /= gt_eqF //.
have [U [s [V [-> Hsv]]]] := Hla n n M n0 n0; rewrite /=.
have [HU HV _ _ _] := Hsv; have [s' [-> EM _ Hs0]] := svd_sq_dec Hsv.
have [i -> Hi] := np_min_vec s' n0; rewrite /=; eexists; first by reflexivity.
rewrite -leNgt; split=> H.
  by apply: (svd_lower HU HV EM (ltW t0)) => j; apply: le_trans (Hi j).
have [H1 H2] := svd_attained i HU HV EM.
have := H (V^T *m delta_mx i 0); rewrite H1 H2 mulr1.
by rewrite ler_pexpn2r // nnegrE ?Hs0 // ltW.
Qed.

(** with the default tolerance 0 nothing is checked *)
Lemma is_mat_not_deg_zero (la : linalg R) (q : A) : is_mat_not_deg la q x0 = Ok true.
Proof. by rewrite /is_mat_not_deg /= ltxx eqxx. Qed.
Lemma is_mat_not_deg_neg (la : linalg R) (q : A) t : t < 0 ->
  is_mat_not_deg la q (Fin t) = throw "wrongInput:abs_tolNegative".
Proof. by rewrite /is_mat_not_deg /= => ->. Qed.

(** ------------------------------------------------ C28 mat_orth *)
Definition sgcol m (neg : 'I_m -> bool) : 'cV[R]_m := \col_i (-1) ^+ neg i.

Lemma orthog_sg m (neg : 'I_m -> bool) : orthog (diagv (sgcol neg)).
Proof.
rewrite /orthog tr_diagv mul_diagv2 -(diagv_const m 1); congr diagv.
by apply/matrixP => i j; rewrite !mxE -expr2 sqrr_sign.
Qed.

Lemma neg_cols_mat m (Q : 'M[R]_m) (mask : seq bool) :
  neg_cols (mat Q) mask = mat (Q *m diagv (sgcol (fun j => nth false mask j))).
Proof.
rewrite /neg_cols; apply: matE => i j; rewrite /= get_mat mul_mx_diag !mxE.
by case: nth; rewrite ?expr0 ?expr1 ?mulr1 ?mulrN1.
Qed.

Lemma mat_orth_spec (la : linalg R) m n (M : 'M[R]_(m, n)) : qr_complete_ok la ->
  (0 < m)%N -> (0 < n)%N ->
  exists (O : 'M_m) (T : 'M_(m, n)), 
    [/\ mat_orth la (mat M) = Ok (mat O), orthog O, M = O *m T, uppertri T &
        forall (i : 'I_m) (j : 'I_n), i = j :> nat -> 0 <= T i j].
Proof.
move=> Hla m0 n0; have [Q [T [E HQ HT EM]]] := Hla m n M m0 n0.
rewrite /mat_orth E rbind_okE.
have -> : np_diagonal (mat T) = Ok (vec (\col_i (mxget T i i) : 'cV_(minn m n))).
  rewrite /np_diagonal /=; congr Ok; apply: vecE => i /=; rewrite mxE.
  have im : (i < m)%N by apply: leq_trans (ltn_ord i) (geq_minl m n).
  have jn : (i < n)%N by apply: leq_trans (ltn_ord i) (geq_minr m n).
  by rewrite (get_mat' T _ im jn) -(mxgetE T (Ordinal im) (Ordinal jn)).
rewrite rbind_okE data_vals.
have -> : dim_res (mat Q) 1 = Ok m by [].
rewrite rbind_okE; set neg := [seq xlt x x0 | x <- _].
have sn : size neg = minn m n by rewrite 2!size_map size_vals.
rewrite sn ltnNge geq_minl [~~ true]/=.
set mask := neg ++ _; rewrite neg_cols_mat.
set D := diagv _.
have HD : orthog D by exact: orthog_sg.
exists (Q *m D), (D *m T); split=> //.
- exact: orthogM.
- by move/orthogC: HD; rewrite tr_diagv -/D mulmxA -(mulmxA Q) => ->; rewrite mulmx1.
- by move=> i j lij; rewrite mul_diag_mx !mxE HT ?mulr0.
- move=> i j Eij; rewrite mul_diag_mx !mxE.
  have ik : (i < minn m n)%N by rewrite leq_min ltn_ord Eij ltn_ord.
  have -> : nth false mask i = (T i j < 0).
    rewrite /mask nth_cat sn ik.
    rewrite /neg (nth_map x0) ?(size_map, size_vals) //.
    rewrite (nth_map 0) ?size_vals // (nth_vals _ (Ordinal ik)).
    by rewrite mxE -(mxgetE T i j) -Eij.
  by case: ltP; rewrite ?expr1 ?expr0 ?mul1r ?mulN1r ?oppr_ge0 // => /ltW.
Qed.

Lemma math_orth_col_spec (la : linalg R) n k (M : 'M[R]_(n + k, n)) : qr_complete_ok la ->
  (0 < n)%N ->
  exists (O : 'M_(n + k, n)) (T : 'M_n),
    [/\ math_orth_col la (mat M) = Ok (mat O), orthocols O, M = O *m T, uppertri T &
        forall i, 0 <= T i i].
Proof.
move=> Hla n0; have nk0 : (0 < n + k)%N by rewrite addn_gt0 n0.
have [O [T [E HO EM HT Hp]]] := mat_orth_spec M Hla nk0 n0.
have HO' : orthocols (lsubmx O).
  apply/orthocolsP => i j; move/orthocolsP: HO => /(_ (lshift k i) (lshift k j)).
  rewrite (inj_eq (@lshift_inj _ _)) => <-.
  by congr dotv; apply/matrixP => a b; rewrite !mxE.
exists (lsubmx O), (usubmx T); split=> //.
- by rewrite /math_orth_col E /= /dim_res /= /dim /= np_cols_lsub.
- rewrite {1}EM -{1}[O]hsubmxK -{1}[T]vsubmxK mul_row_col.
  have -> : dsubmx T = 0.
    apply/matrixP => i j; rewrite !mxE; apply: HT; rewrite /=.
    by apply: leq_trans (ltn_ord j) _; rewrite leq_addr.
  by rewrite mulmx0 addr0.
- by move=> i j lij; rewrite mxE; apply: HT.
- by move=> i; rewrite mxE; apply: Hp.
Qed.

(** ------------------------------------------------ C24 sqrtm_pos *)
Lemma matmul3 m n p q (M1 : 'M[R]_(m, n)) (M2 : 'M[R]_(n, p)) (M3 : 'M[R]_(p, q)) :
  (let* a := np_matmul (mat M1) (mat M2) in np_matmul a (mat M3)) = Ok (mat (M1 *m M2 *m M3)).
Proof. by rewrite np_matmul_mm /= np_matmul_mm. Qed.

Definition clip0 (x : R) : R := if x < 0 then 0 else x.

Lemma clip0_ge0 x : 0 <= clip0 x. Proof. by rewrite /clip0; case: ltP. Qed.

(** the computed root: symmetric positive semidefinite, and its square differs from lowsym M exactly by
    the clipped negative eigenvalues, each at most the tolerance *)
Lemma sqrtm_pos_spec (la : linalg R) n (M : 'M[R]_n) (t : R) :
  eigh_ok la -> (0 < n)%N -> 0 <= t -> (forall i j, `|M i j - M j i| <= t) ->
  (forall x, - t * sqn x <= qf (lowsym M) x) ->
  exists S : 'M_n, [/\ sqrtm_pos la (mat M) (Fin t) = Ok (mat S), symm S, psd S &
     forall x, 0 <= qf (S *m S - lowsym M) x <= t * sqn x].
Proof.
move=> Hla n0 t0 Hs Hp; rewrite /sqrtm_pos /= ltNge t0 /=.
have [b Hb Hbs] := is_mat_symm_mat M t0.
have -> : is_mat_symm (mat M) (Fin t) = Ok true by rewrite Hb; congr Ok; apply/Hbs.
have [d [V [-> HE _]]] := Hla n M n0; have [HV EM] := HE.
have Hd i : - t <= d i 0.
  by have := Hp (col i V); rewrite (eig_attained _ HE) (eig_sqn_col _ HE) mulr1.
rewrite rbind_okE rbind_okE.
have -> : has (fun x => xlt x (Fin (- t))) (data (vec d)) = false.
  rewrite data_vals has_map; apply/negbTE; rewrite -all_predC.
  by apply/allP => x /mem_vals[i ->] /=; rewrite -leNgt.
have -> : np_sqrt (np_map (fun x => if xlt x x0 then x0 else x) (vec d)) =
    vec (\col_i Num.sqrt (clip0 (d i 0))).
  rewrite (vec_map (w := \col_i clip0 (d i 0))); last first.
    by move=> i; rewrite mxE /= /clip0; case: ifP.
  apply: vec_map => i; rewrite !mxE xsqrtE ?clip0_ge0 //.
rewrite np_diag_vec rbind_okE np_T_mat matmul3 -/(diagv _).
set r := \col_i _; exists (V *m diagv r *m V^T).
have HE' : eigdec (V *m diagv r *m V^T) r V by [].
split=> //.
- exact: eig_symm HE'.
- by apply/(eig_psd HE') => i; rewrite mxE sqrtr_ge0.
have -> : V *m diagv r *m V^T *m (V *m diagv r *m V^T) - lowsym M =
    V *m diagv (\col_i (clip0 (d i 0) - d i 0)) *m V^T.
  rewrite EM -!mulmxA (mulmxA V^T) HV mul1mx (mulmxA (diagv r)) mul_diagv2.
  rewrite -mulmxBr -mulmxBl; congr (_ *m (_ *m _)).
  apply/matrixP => i j; rewrite !mxE; case: eqP => [->|_]; rewrite ?mulr1n ?mulr0n ?subr0 //.
  by rewrite -expr2 sqr_sqrtr ?clip0_ge0.
set e := \col_i _; have HE2 : eigdec (V *m diagv e *m V^T) e V by [].
move=> x; apply/andP; split.
  rewrite -(mul0r (sqn x)); apply: (eig_lower HE2) => i; rewrite mxE /clip0.
  by case: ltP => h; rewrite ?subrr // sub0r oppr_ge0 ltW.
apply: (eig_upper HE2) => i; rewrite mxE /clip0; case: ltP => h; rewrite ?subrr // sub0r.
by rewrite ler_oppl.
Qed.

Lemma sqrtm_pos_exact (la : linalg R) n (M : 'M[R]_n) : eigh_ok la -> (0 < n)%N ->
  symm M -> psd M ->
  exists S : 'M_n, [/\ sqrtm_pos la (mat M) x0 = Ok (mat S), symm S, psd S & S *m S = M].
Proof.
move=> Hla n0 HM Hp.
have [||S [E HS HP HQ]] := @sqrtm_pos_spec la n M 0 Hla n0 (lexx 0).
- by move=> i j; rewrite -{1}HM mxE subrr normr0.
- by move=> x; rewrite oppr0 mul0r lowsym_symm.
exists S; split=> //; move: HQ; rewrite lowsym_symm // => HQ.
have Hsym : symm (S *m S - M).
  by rewrite /symm (raddfB (@trmx_additive _ _ _)) /= trmx_mul HS HM.
have Z x : qf (S *m S - M) x = 0.
  by have := HQ x; rewrite mul0r => /le_anti.
apply/eqP; rewrite -subr_eq0; apply/eqP; set N := S *m S - M in Hsym Z *; clearbody N.
apply/matrixP => i j; rewrite [RHS]mxE.
have H2 : dotv (delta_mx i 0) (N *m delta_mx j 0) = 0.
  have := Z (delta_mx i 0 + delta_mx j 0); rewrite /qf mulmxDr dotvDl !dotvDr.
  rewrite -!/(qf _ _) !Z add0r addr0 (dotv_mulr N (delta_mx j 0)) Hsym (dotvC (N *m _)).
  by rewrite -mulr2n => /eqP; rewrite mulrn_eq0 /= => /eqP.
suff <- : dotv (delta_mx i 0) (N *m delta_mx j 0) = N i j by [].
rewrite col_delta /dotv (bigD1 i) //= !(mxE, eqxx) mul1r big1 ?addr0 // => k /negbTE ki.
by rewrite [X in X * _]mxE ki mul0r.
Qed.

Lemma sqrtm_pos_notpsd (la : linalg R) n (M : 'M[R]_n) (t : R) x : eigh_ok la -> (0 < n)%N -> 0 <= t ->
  (forall i j, `|M i j - M j i| <= t) -> qf (lowsym M) x < - t * sqn x ->
  sqrtm_pos la (mat M) (Fin t) = throw "wrongInput:notPosSemDef".
Proof.
move=> Hla n0 t0 Hs Hx; rewrite /sqrtm_pos /= ltNge t0 /=.
have [b Hb Hbs] := is_mat_symm_mat M t0.
have -> : is_mat_symm (mat M) (Fin t) = Ok true by rewrite Hb; congr Ok; apply/Hbs.
have [d [V [-> HE _]]] := Hla n M n0.
rewrite rbind_okE rbind_okE.
suff -> : has (fun x => xlt x (Fin (- t))) (data (vec d)) by [].
rewrite data_vals has_map; apply: contraT; rewrite -all_predC => /allP Hall.
suff : - t * sqn x <= qf (lowsym M) x by rewrite leNgt Hx.
apply: (eig_lower HE) => i; have := Hall (d i 0); rewrite /= -leNgt; apply.
by apply/mem_vals; exists i.
Qed.

Lemma sqrtm_pos_nonsymm (la : linalg R) n (M : 'M[R]_n) (t : R) i j : 0 <= t ->
  t < `|M i j - M j i| -> sqrtm_pos la (mat M) (Fin t) = throw "wrongInput:nonSymmMat".
Proof.
move=> t0 Hij; rewrite /sqrtm_pos /= ltNge t0 /=.
have [b -> Hbs] := is_mat_symm_mat M t0; case: b Hbs => //= Hbs.
by have := proj1 Hbs isT i j; rewrite leNgt Hij.
Qed.

(** ------------------------------------------------ C26 reg_mat *)
Lemma reg_mat_spec (la : linalg R) n (M : 'M[R]_n) (t : R) : svd_ok la -> (0 < n)%N -> 0 < t ->
  exists B : 'M_n, [/\ reg_mat la (mat M) (PReal (Fin t)) = Ok (mat B),
    (forall x, t ^+ 2 * sqn x <= sqn (B *m x)),
    (forall x, sqn ((B - M) *m x) <= t ^+ 2 * sqn x) &
    ((forall x, t ^+ 2 * sqn x <= sqn (M *m x)) -> B = M)].
Proof.
move=> Hla n0 t0; rewrite /reg_mat /xgt /= t0 /=.
have [U [s [V [-> Hsv]]]] := Hla n n M n0 n0; rewrite rbind_okE.
have [HU HV _ _ _] := Hsv; have [s' [-> EM _ Hs0]] := svd_sq_dec Hsv.
rewrite (vec_map (w := \col_i Num.max (s' i 0) t)); last by move=> i; rewrite mxE xmaxE.
rewrite np_diag_vec rbind_okE matmul3 -/(diagv _).
set r := \col_i _; exists (U *m diagv r *m V); split=> //.
- by apply: (svd_lower HU HV erefl (ltW t0)) => i; rewrite mxE le_maxr lexx orbT.
- move=> x; have -> : U *m diagv r *m V - M = U *m diagv (r - s') *m V.
    rewrite EM -!mulmxA -mulmxBr -mulmxBl; congr (_ *m (_ *m _)).
    by apply/matrixP => i j; rewrite !mxE; case: eqP => _; rewrite ?mulr1n ?mulr0n ?subr0.
  rewrite (svd_sqn _ HU erefl) -(orthog_sqn x HV) mulr_sumr.
  apply: ler_sum => i _; rewrite -expr2; apply: ler_wpmul2r; rewrite ?sqr_ge0 //.
  rewrite !mxE; case: (leP (s' i 0) t) => h; last by rewrite subrr expr0n sqr_ge0.
  by rewrite ler_pexpn2r ?nnegrE ?subr_ge0 ?(ltW t0) // ler_subl_addr ler_addl.
- move=> H; rewrite [RHS]EM; congr (_ *m diagv _ *m _); apply/matrixP => i j; rewrite (ord1 j) mxE.
  have [H1 H2] := svd_attained i HU HV EM.
  have := H (V^T *m delta_mx i 0); rewrite H1 H2 mulr1 ler_pexpn2r ?nnegrE ?(ltW t0) ?Hs0 //.
  by move/max_idPl.
Qed.

Lemma reg_mat_badtol (la : linalg R) (q : A) (t : pynum R) :
  match t with PReal x => ~~ xgt x x0 | PCplx _ _ => false | PNotNum => true end ->
  reg_mat la q t = throw "wrongInput:reg_tol".
Proof. by case: t => //= x ->. Qed.

(** ------------------------------------------------ C25 reg_pos_def_mat *)
Lemma reg_pos_def_run (la : linalg R) n (M : 'M[R]_n) (t : R) (d : 'cV[R]_n) (V : 'M[R]_n) : 0 < t -> symm M ->
  la_eig la (mat M) = Ok (vec d, mat V) ->
  reg_pos_def_mat la (mat M) (PReal (Fin t)) =
  Ok (mat (M + V *m diagv (\col_i Num.max 0 (t - d i 0)) *m V^T)).
Proof.
move=> t0 HM HE; rewrite /reg_pos_def_mat /xgt /= t0 /=.
have [b Hb Hbs] := is_mat_symm0 M.
have -> : is_mat_symm (mat M) x0 = Ok true by rewrite Hb; congr Ok; apply/Hbs.
rewrite rbind_okE HE rbind_okE.
rewrite (vec_map (w := \col_i Num.max 0 (t - d i 0))); last first.
  by move=> i; rewrite mxE -xmaxE.
rewrite np_diag_vec rbind_okE np_matmul_mm rbind_okE np_T_mat np_matmul_mm.
rewrite rbind_okE np_add_mat rbind_okE np_T_mat np_add_mat rbind_okE.
rewrite np_scale_mat -/(diagv _); congr (Ok (mat _)).
set D := diagv _.
have HD : (M + V *m D *m V^T)^T = M + V *m D *m V^T.
  by rewrite (raddfD (@trmx_additive _ _ _)) /= HM !trmx_mul trmxK tr_diagv mulmxA.
by rewrite HD -mulr2n -scaler_nat scalerA div1r mulVf ?scale1r // pnatr_eq0.
Qed.

Lemma reg_pos_def_nonsymm (la : linalg R) n (M : 'M[R]_n) (t : R) : 0 < t -> ~ symm M ->
  reg_pos_def_mat la (mat M) (PReal (Fin t)) = throw "wrongInput:inp_mat".
Proof.
move=> t0 HM; rewrite /reg_pos_def_mat /xgt /= t0 /=.
by have [b -> Hbs] := is_mat_symm0 M; case: b Hbs => //= -[/(_ isT)].
Qed.

Lemma reg_pos_def_badtol (la : linalg R) (q : A) (t : pynum R) :
  match t with PReal x => ~~ xgt x x0 | PCplx re _ => ~~ xgt re x0 | PNotNum => true end ->
  reg_pos_def_mat la q t = throw "wrongInput:reg_tol".
Proof. by rewrite /reg_pos_def_mat; case: t => //= [x|re im] ->. Qed.

(** orthogonality of the eigenvectors follows from the contract when the eigenvalues differ *)
Lemma eig_orth n (M V : 'M[R]_n) d : symm M -> M *m V = V *m diagv d ->
  (forall j, sqn (col j V) = 1) -> (forall i j, i != j -> d i 0 != d j 0) -> orthog V.
Proof.
move=> HM E Hn Hd; apply/orthocolsP => i j.
case: (eqVneq i j) => [->|ij]; first exact: Hn.
have Ev k : M *m col k V = d k 0 *: col k V.
  rewrite -!col_delta mulmxA E -mulmxA.
  have -> : diagv d *m (delta_mx k 0 : 'cV[R]_n) = d k 0 *: delta_mx k 0.
    apply/matrixP => a l; rewrite (ord1 l) mul_diagv !mxE.
    by case: (eqVneq a k) => [->|_] //=; rewrite !mulr0.
  by rewrite -scalemxAr.
have : d i 0 * dotv (col i V) (col j V) = d j 0 * dotv (col i V) (col j V).
  by rewrite -dotvZl -Ev dotv_mull HM Ev dotvZr.
move/eqP; rewrite -subr_eq0 -mulrBl mulf_eq0 subr_eq0 (negbTE (Hd _ _ ij)) /= => /eqP //.
Qed.

Lemma reg_pos_def_orth (la : linalg R) n (M : 'M[R]_n) (t : R) (d : 'cV[R]_n) (V : 'M[R]_n) : 0 < t ->
  symm M -> la_eig la (mat M) = Ok (vec d, mat V) -> eigdec M d V ->
  exists B : 'M_n, [/\ reg_pos_def_mat la (mat M) (PReal (Fin t)) = Ok (mat B), symm B,
    (forall x, t * sqn x <= qf B x) & ((forall x, t * sqn x <= qf M x) -> B = M)].
Proof.
move=> t0 HM HE [HV EM]; rewrite (reg_pos_def_run t0 HM HE); eexists; split; first by reflexivity.
- by rewrite /symm (raddfD (@trmx_additive _ _ _)) /= HM !trmx_mul trmxK tr_diagv mulmxA.
- set e := \col_i _; have -> : M + V *m diagv e *m V^T = V *m diagv (d + e) *m V^T.
    by rewrite {1}EM -add_diagv mulmxDr mulmxDl.
  apply: eig_lower (_ : eigdec _ (d + e) V) _ => // i; rewrite !mxE.
  case: (leP 0 (t - d i 0)) => h; first by rewrite addrCA subrr addr0.
  by rewrite addr0 ltW // -subr_lt0.
- move=> H; set e := \col_i _; suff -> : e = 0.
    suff -> : diagv (0 : 'cV[R]_n) = 0 by rewrite mulmx0 mul0mx addr0.
    by apply/matrixP => i j; rewrite !mxE mul0rn.
  apply/matrixP => i j; rewrite !mxE; apply/max_idPl; rewrite subr_le0.
  have HEg : eigdec M d V by [].
  by have := H (col i V); rewrite (eig_attained _ HEg) (eig_sqn_col _ HEg) mulr1.
Qed.

(** what the bare contract of eig gives *)
Lemma reg_pos_def_any (la : linalg R) n (M : 'M[R]_n) (t : R) : eig_ok la -> (0 < n)%N -> 0 < t ->
  symm M ->
  exists B : 'M_n, [/\ reg_pos_def_mat la (mat M) (PReal (Fin t)) = Ok (mat B), symm B,
    (forall x, qf M x <= qf B x) & ((forall x, t * sqn x <= qf M x) -> B = M)].
Proof.
move=> Hla n0 t0 HM; have [d [V [E EV _ Hn]]] := Hla n M n0 HM.
rewrite (reg_pos_def_run t0 HM E); eexists; split; first by reflexivity.
- by rewrite /symm (raddfD (@trmx_additive _ _ _)) /= HM !trmx_mul trmxK tr_diagv mulmxA.
- move=> x; rewrite qfD ler_addl qf_conj qf_diagv; apply: sumr_ge0 => i _.
  by rewrite mulr_ge0 ?sqr_ge0 // mxE le_maxr lexx.
move=> H; set e := \col_i _; suff -> : e = 0.
  by rewrite -[0]/(const_mx 0) diagv_const (raddf0 (@scalar_mx_additive _ _)) mulmx0 mul0mx addr0.
apply/matrixP => i j; rewrite !mxE; apply/max_idPl; rewrite subr_le0.
have Ev : M *m col i V = d i 0 *: col i V.
  rewrite -col_delta mulmxA EV -mulmxA.
  have -> : diagv d *m (delta_mx i 0 : 'cV[R]_n) = d i 0 *: delta_mx i 0.
    apply/matrixP => a l; rewrite (ord1 l) mul_diagv !mxE.
    by case: (eqVneq a i) => [->|_] //=; rewrite !mulr0.
  by rewrite -scalemxAr.
have := H (col i V); rewrite Hn mulr1 /qf Ev dotvZr -/(sqn _) Hn mulr1.
by [].
Qed.

(** the lower bound, when the eigenvalues returned are pairwise distinct *)
Lemma reg_pos_def_distinct (la : linalg R) n (M V : 'M[R]_n) (t : R) (d : 'cV[R]_n) : eig_ok la -> (0 < n)%N ->
  0 < t -> symm M -> la_eig la (mat M) = Ok (vec d, mat V) ->
  (forall i j, i != j -> d i 0 != d j 0) ->
  exists B : 'M_n, reg_pos_def_mat la (mat M) (PReal (Fin t)) = Ok (mat B) /\
    forall x, t * sqn x <= qf B x.
Proof.
move=> Hla n0 t0 HM E Hd; have [d' [V' [E' EV _ Hn]]] := Hla n M n0 HM.
have [/vec_inj Ed /mat_inj EV'] : vec d' = vec d /\ mat V' = mat V.
  by apply: Ok_inj2; rewrite -E -E'.
subst d' V'; have HV := eig_orth HM EV Hn Hd.
have HE : eigdec M d V.
  split=> //; rewrite -EV -mulmxA; move/orthogC: HV => ->; by rewrite mulmx1.
have [B [H1 _ H2 _]] := reg_pos_def_orth t0 HM E HE.
by exists B.
Qed.

(** ------------------------------------------------ C27 try_treat_as_real *)
Lemma try_real (inp : ninp R) (t : R) : 0 < t ->
  match inp with RealArr _ | RealScal _ => True | _ => False end ->
  try_treat_as_real inp (PReal (Fin t)) = Ok inp.
Proof. by move=> t0; case: inp => //=; rewrite /xgt /= t0. Qed.

Lemma norm_inf_vec n (v : 'cV[R]_n) : (0 < n)%N ->
  exists i, norm_inf (vec v) = Ok (Fin `|v i 0|) /\ forall j, `|v j 0| <= `|v i 0|.
Proof.
move=> n0; rewrite /norm_inf /=.
rewrite /np_abs (vec_map (w := \col_i `|v i 0|)); last by move=> i; rewrite mxE.
have [i -> Hi] := np_max_vec (\col_i `|v i 0|) n0; exists i; rewrite mxE; split=> // j.
by have := Hi j; rewrite !mxE.
Qed.

Lemma np_abs_mat m n (M : 'M[R]_(m, n)) : np_abs (mat M) = mat (\matrix_(i, j) `|M i j|).
Proof. by rewrite /np_abs np_map_mkn; apply: matE => i j; rewrite /= mxE mxgetE. Qed.

Lemma np_sum_axis1_mat m n (M : 'M[R]_(m, n)) :
  np_sum_axis 1 false (mat M) = Ok (vec (\col_i \sum_j M i j)).
Proof.
rewrite /np_sum_axis /=; congr Ok; apply: vecE => i; rewrite mxE.
rewrite (xsum_ord (g := fun j => M i j)) // => j; exact: get_mat.
Qed.

Lemma norm_inf_mat m n (M : 'M[R]_(m, n)) : (0 < m)%N ->
  exists i, norm_inf (mat M) = Ok (Fin (\sum_j `|M i j|)) /\
            forall i', \sum_j `|M i' j| <= \sum_j `|M i j|.
Proof.
move=> m0; rewrite /norm_inf; cbn [shape mat mkn].
rewrite np_abs_mat np_sum_axis1_mat rbind_okE.
set v := \col_i _; have [i -> Hi] := np_max_vec v m0; exists i.
have Ev k : v k 0 = \sum_j `|M k j| by rewrite mxE; apply: eq_bigr => j _; rewrite mxE.
by rewrite Ev; split=> // k; rewrite -!Ev.
Qed.

Lemma all_mkn T s (f : seq nat -> T) (P : pred T) :
  reflect (forall idx, valid_idx s idx -> P (f idx)) (all P (data (mkn s f))).
Proof.
rewrite /= all_map; apply: (iffP allP) => H idx.
  by rewrite -indices_valid => /H.
by rewrite indices_valid => /H.
Qed.

Lemma all_zero_mat m n (M : 'M[R]_(m, n)) : all (fun x => xeq x x0) (data (mat M)) = (M == 0).
Proof.
apply/all_mkn/eqP => [H|-> idx /valid2[i [j ->]] /=]; last by rewrite mxgetE mxE eqxx.
by apply/matrixP => i j; have /eqP := H _ (is_valid2 i j); rewrite /= mxgetE mxE.
Qed.
Lemma all_zero_vec n (v : 'cV[R]_n) : all (fun x => xeq x x0) (data (vec v)) = (v == 0).
Proof. by rewrite -all_zero_mat -np_expand1_vec. Qed.

Lemma try_cplx_scal (t : R) re im : 0 < t ->
  try_treat_as_real (CplxScal re (Fin im)) (PReal (Fin t)) =
  if im == 0 then Ok (CplxScal re (Fin im))
  else if `|im| < t then Ok (RealScal re) else throw "wrongInput:inp_mat".
Proof. by move=> t0; rewrite /try_treat_as_real /xgt /= t0. Qed.

Lemma try_cplx_vec (t : R) n (re im : 'cV[R]_n) : (0 < n)%N -> 0 < t -> im != 0 ->
  exists r, try_treat_as_real (CplxArr (vec re) (vec im)) (PReal (Fin t)) = r /\
    ((r = Ok (RealArr (vec re)) /\ forall i, `|im i 0| < t) \/
     (r = throw "wrongInput:inp_mat" /\ exists i, t <= `|im i 0|)).
Proof.
move=> n0 t0 /negbTE i0; have Ht : xlt x0 (Fin t) = true by [].
rewrite /try_treat_as_real /xgt Ht all_zero_vec i0 [~~ true]/=; have [i [-> Hi]] := norm_inf_vec im n0; rewrite rbind_okE /=.
case: ltP => h; eexists; (split; first by reflexivity); [left|right]; split=> //.
  by move=> j; apply: le_lt_trans h.
by exists i.
Qed.

Lemma try_cplx_mat (t : R) m n (re im : 'M[R]_(m, n)) : (0 < m)%N -> 0 < t -> im != 0 ->
  exists r, try_treat_as_real (CplxArr (mat re) (mat im)) (PReal (Fin t)) = r /\
    ((r = Ok (RealArr (mat re)) /\ forall i, \sum_j `|im i j| < t) \/
     (r = throw "wrongInput:inp_mat" /\ exists i, t <= \sum_j `|im i j|)).
Proof.
move=> n0 t0 /negbTE i0; have Ht : xlt x0 (Fin t) = true by [].
rewrite /try_treat_as_real /xgt Ht all_zero_mat i0 [~~ true]/=; have [i [-> Hi]] := norm_inf_mat im n0; rewrite rbind_okE /=.
case: ltP => h; eexists; (split; first by reflexivity); [left|right]; split=> //.
  by move=> j; apply: le_lt_trans h.
by exists i.
Qed.

(** complex arrays with an exactly zero imaginary part come back unchanged (still complex) *)
Lemma try_cplx_zero (t : R) (re im : A) : 0 < t -> all (fun x => xeq x x0) (data im) ->
  try_treat_as_real (CplxArr re im) (PReal (Fin t)) = Ok (CplxArr re im).
Proof. by move=> t0; rewrite /try_treat_as_real /xgt /= t0 /= => ->. Qed.

Lemma try_badtol inp (t : pynum R) :
  match t with PReal x => ~~ xgt x x0 | PCplx _ _ => false | PNotNum => true end ->
  try_treat_as_real inp t = throw "wrongInput:tol_val".
Proof. by case: t => //= x ->. Qed.

Lemma real_arrE (a : A) : real_arr (RealArr a) = Ok a.
Proof.
rewrite /real_arr /default_tol /eps try_real //.
by rewrite invr_gt0 exprn_gt0 // ltr0n.
Qed.

(** ------------------------------------------------ uniqueness of the psd square root *)
Lemma psd_root_unique (la : linalg R) n (S T : 'M[R]_n) : eigh_ok la -> (0 < n)%N ->
  symm S -> psd S -> symm T -> psd T -> S *m S = T *m T -> S = T.
Proof.
move=> Hla n0 HS PS HT PT E.
have Hs : symm (S - T) by rewrite /symm (raddfB (@trmx_additive _ _ _)) /= HS HT.
have [d [V [_ HE _]]] := Hla n (S - T) n0; rewrite lowsym_symm // in HE.
suff Hd i : d i 0 = 0.
  apply/eqP; rewrite -subr_eq0; case: HE => _ ->.
  have -> : d = 0 by apply/matrixP => i j; rewrite (ord1 j) Hd mxE.
  by rewrite -[0]/(const_mx 0) diagv_const (raddf0 (@scalar_mx_additive _ _)) mulmx0 mul0mx.
set v := col i V; have Hv := eig_vec i HE; have Hq := eig_attained i HE.
have : dotv v ((S *m S - T *m T) *m v) = 0 by rewrite E subrr mul0mx dotv0r.
have -> : S *m S - T *m T = S *m (S - T) + (S - T) *m T.
  by rewrite mulmxBr mulmxBl addrA subrK.
rewrite mulmxDl dotvDr -!mulmxA Hv dotv_mulr HS dotvZr dotvC -[dotv v (S *m v)]/(qf S v).
rewrite (dotv_mulr (S - T)) Hs Hv dotvZl -[dotv v (T *m v)]/(qf T v) -mulrDr => /eqP.
rewrite mulf_eq0 => /orP[/eqP //|].
rewrite paddr_eq0 ?PS ?PT // => /andP[/eqP H1 /eqP H2].
by rewrite -Hq -/v qfD qfN H1 H2 subrr.
Qed.

End LB.
