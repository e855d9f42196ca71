(** Counterexamples and concrete cases for Props/CoreProps.v. *)
From mathcomp Require Import all_ssreflect all_algebra.
Require Import Coq.Strings.String.
From mathcomp.algebra_tactics Require Import ring.
From Verif.Model Require Import Py NP NP3 Linalg Compare La Core EllGeom Ellipsoid.
From Verif.Spec Require Import MatSpec LinalgSpec EllSpec EllipsoidSpec.
From Verif.Proof Require Import NPLib NP3Lib MatLib OrthLib LaBasic Decomp LinalgSat GenProof EllLib EllGeomProof RankLib EllipsoidProof EllScalProof EllScalEx CoreProof.
Set Implicit Arguments.
Unset Strict Implicit.
Unset Printing Implicit Defensive.
Import Order.Theory GRing.Theory Num.Theory.
Local Open Scope ring_scope.

Section Ex.
Variable R : rcfType.

(** An SVD routine that factors an orthogonal matrix M as I * I * M *)
Definition left_svd (a : arr (xnum R)) :=
  on2 a (fun m n M => if (m == n) && (M^T *m M == 1%:M)
    then Ok (mat (1%:M : 'M[R]_m), vec (const_mx 1 : 'cV[R]_(minn m n)), mat (decm n n a))
    else la_svd (the_linalg R) a).
Definition left_linalg : linalg R := let the := the_linalg R in
  Linalg (la_eigh the) (la_eigvalsh the) (la_eig the) left_svd (la_svdvals the) (la_qr_complete the)
    (la_qr the) (la_inv the) (la_pinv the) (la_lstsq the) (la_det the).

Lemma rdiag_one n : rdiag (const_mx 1 : 'cV[R]_(minn n n)) = 1%:M.
Proof.
have [s' [_ -> H _]] := svd_square (const_mx 1 : 'cV[R]_(minn n n)).
by apply/matrixP => i j; rewrite diagvE [RHS]mxE; have [k ->] := H i; rewrite mxE.
Qed.

Lemma left_svdE n (M : 'M[R]_n) : orthog M ->
  la_svd left_linalg (mat M) = Ok (mat (1%:M : 'M[R]_n), vec (const_mx 1 : 'cV[R]_(minn n n)), mat M).
Proof. by move=> HM; rewrite /= /left_svd on2E eqxx HM eqxx decmK. Qed.

Lemma left_linalg_ok : linalg_ok left_linalg.
Proof.
have [h1 [h2 [h3 [h4 h5]]]] := the_linalg_ok R; split=> //; split=> //; split=> //; split=> // {h1 h2 h3 h5}.
move=> m n M m0 n0; rewrite [la_svd _ _]/= /left_svd on2E; case: ifP => [/andP[/eqP mn /eqP HM]|_]; last exact: h4.
subst m; exists 1%:M, (const_mx 1), M; split; first by rewrite decmK.
by split=> //; [rewrite /orthog trmx1 mul1mx|rewrite rdiag_one !mul1mx|move=> i j _; rewrite !mxE|move=> i; rewrite mxE ler01].
Qed.

Lemma swap_sq : two_one 0 1 *m two_one 0 1 = 1%:M :> 'M[R]_2.
Proof.
apply/matrixP => i j; rewrite [LHS]mxE sum2 !mxE; case: i => [[|[|//]] ?]; case: j => [[|[|//]] ?] /=;
  by rewrite ?mulr0 ?mul0r ?mulr1 ?addr0 ?add0r.
Qed.
Lemma swap_orthog : orthog (two_one 0 1 : 'M[R]_2).
Proof. by rewrite /orthog two_one_symm swap_sq. Qed.

Lemma sim_diag_swap t : 0 <= t -> t < 1 ->
  ell_sim_diag left_linalg (mat (1%:M : 'M[R]_2)) (mat (two_one 0 1 : 'M[R]_2)) (Fin t) = Ok (mat (1%:M : 'M[R]_2)).
Proof.
move=> t0 t1; rewrite /ell_sim_diag.
have [Heh [Hev [_ [_ [_ [_ [_ [_ [_ [Hls _]]]]]]]]]] := left_linalg_ok.
have H1 : symm (1%:M : 'M[R]_2) by exact: scal_symm.
have [|b -> Hb] := is_mat_pos_def_spec false Hev (isT : (0 < 2)%N) t0 (M := (1%:M : 'M[R]_2)).
  by move=> i j; rewrite -{1}H1 mxE subrr normr0.
rewrite lowsym_symm // in Hb; rewrite rbind_okE Hb.2 => [|x x0]; last by rewrite qf_scal ltr_pmul2r ?sqn_gt0.
have [b' -> Hb'] := is_mat_symm0 (two_one 0 1 : 'M[R]_2); rewrite rbind_okE (Hb'.2 (two_one_symm _ _)).
have O1 : orthog (1%:M : 'M[R]_2) by rewrite /orthog trmx1 mul1mx.
rewrite (left_svdE O1) rbind_okE.
have [s' [-> _ H _]] := svd_square (const_mx 1 : 'cV[R]_(minn 2 2)).
have E1 : diagv s' = 1%:M.
  by apply/matrixP => i j; rewrite diagvE [RHS]mxE; have [k ->] := H i; rewrite mxE.
rewrite np_diag_vec rbind_okE -/(diagv s') E1.
have P1 : psd (1%:M : 'M[R]_2) by exact/scal_psd/ler01.
have [S [-> HS PS ES]] := sqrtm_pos_exact_tol Heh (isT : (0 < 2)%N) t0 H1 P1.
have {HS PS ES} -> : S = 1%:M by apply: (psd_root_unique Heh (isT : (0 < 2)%N)) => //; rewrite mulmx1.
rewrite rbind_okE !np_T_mat !trmx1 (lstsq_unit _ Hls (isT : (0 < 2)%N)) ?unitmx1 // rbind_okE invmx1 mulmx1.
rewrite !np_T_mat !trmx1 np_matmul_mm rbind_okE np_matmul_mm rbind_okE mul1mx mulmx1 (left_svdE swap_orthog) rbind_okE.
by rewrite np_T_mat trmx1 np_matmul_mm mulmx1.
Qed.

(** ell_sim_diag need not diagonalise an indefinite second matrix *)
Lemma sim_diag_indefinite : exists la : linalg R, linalg_ok la /\
  exists (A B T : 'M[R]_2) i j,
    [/\ posdef A, symm A, symm B, ell_sim_diag la (mat A) (mat B) (Fin (10%:R ^- 7)) = Ok (mat T) &
        i != j /\ (T *m B *m T^T) i j != 0].
Proof.
exists left_linalg; split; first exact: left_linalg_ok.
exists 1%:M, (two_one 0 1), 1%:M, 0, 1; split.
- by move=> x x0; rewrite qf_scal mul1r sqn_gt0.
- exact: scal_symm.
- exact: two_one_symm.
- by apply: sim_diag_swap; [exact/ltW/ten7|exact: ten7_1].
by split=> //; rewrite mul1mx trmx1 mulmx1 mxE oner_eq0.
Qed.

(** the numerical rank drops when one direction dwarfs another *)
Lemma matrix_rank_low (la : linalg R) n (M : 'M[R]_n) x y : svdvals_ok la -> (0 < n)%N ->
  sqn x = 1 -> sqn y = 1 -> sqn (M *m y) <= (n%:R * (2%:R ^+ 52)^-1) ^+ 2 * sqn (M *m x) ->
  exists2 r, matrix_rank la (mat M) = Ok r & (r < n)%N.
Proof.
move=> Hla n0 Ex Ey Hxy; have [U [s [V [E Hs]]]] := Hla n n M n0 n0.
have [HU HV _ _ _] := Hs; have [s' [Es EM Hd H0]] := svd_sq_dec Hs.
have [i Ei Hi] := np_max_vec s' n0.
rewrite /matrix_rank [(_ < 2)%N]/= E Es rbind_okE Ei rbind_okE maxnn data_vals count_map.
eexists; first reflexivity.
set k := n%:R * (2%:R ^+ 52)^-1 in Hxy.
have k0 : 0 < k by rewrite mulr_gt0 ?ltr0n ?invr_gt0 ?exprn_gt0 ?ltr0n.
set c := count _ _; have cn : (c <= n)%N by apply: leq_trans (count_size _ _) _; rewrite size_map size_enum_ord.
rewrite ltn_neqAle cn andbT; apply/eqP => cE.
have Ha : all (fun x => s' i 0 * k < x) (vals s').
  rewrite all_count size_map size_enum_ord; apply/eqP; apply: etrans cE; apply: eq_count => z.
  by rewrite /xgt /= mulrA.
have Hk j : s' i 0 * k < s' j 0.
  by move/allP: Ha; apply; rewrite /vals; apply/mapP; exists j => //; rewrite mem_enum.
have [j Hj] : exists j, forall l, s' j 0 <= s' l 0.
  by exists (Ordinal (ltac:(by rewrite prednK) : (n.-1 < n)%N)) => l; apply: Hd; rewrite /= -ltnS prednK.
have hy := svd_lower HU HV EM (H0 j) Hj y; rewrite Ey mulr1 in hy.
have hx : sqn (M *m x) <= s' i 0 ^+ 2.
  rewrite (svd_sqn _ HU EM) -[X in _ <= X]mulr1 -Ex -(orthog_sqn x HV) mulr_sumr; apply: ler_sum => l _.
  by rewrite -expr2 ler_wpmul2r ?sqr_ge0 // ler_sqr ?nnegrE.
have h := le_trans hy Hxy; suff : s' j 0 ^+ 2 < s' j 0 ^+ 2 by rewrite ltxx.
apply: (le_lt_trans h).
apply: le_lt_trans (_ : k ^+ 2 * s' i 0 ^+ 2 < _); first by rewrite ler_wpmul2l ?sqr_ge0.
have ki : 0 <= s' i 0 * k by exact: mulr_ge0 (ltW k0).
by rewrite -exprMn (mulrC k) ltr_sqr ?nnegrE.
Qed.

(** is_bigger on a huge but thin ellipsoid and the unit ball it contains *)
Definition thin : 'M[R]_2 := diagv (\col_i (if i == 0 then 2%:R ^+ 53 else 1)).

Lemma thinE x : qf thin x = 2%:R ^+ 53 * x 0 0 ^+ 2 + x 1 0 ^+ 2.
Proof. by rewrite qf_diagv sum2 !mxE /= mul1r. Qed.
Lemma sqn2 (x : 'cV[R]_2) : sqn x = x 0 0 ^+ 2 + x 1 0 ^+ 2.
Proof. by rewrite /sqn /dotv sum2 -!expr2. Qed.
Lemma thin_ge x : sqn x <= qf thin x.
Proof.
rewrite thinE sqn2 ler_add2r ler_pemull ?sqr_ge0 //.
by rewrite -natrX ler1n expn_gt0.
Qed.

Lemma is_bigger_thin (la : linalg R) : svdvals_ok la ->
  let p := Props (Fin (10%:R ^- 7)) (Fin (10%:R ^- 5)) 200 200 : props R in
  let e1 := Ell (vec (0 : 'cV[R]_2)) (mat thin) p in
  let e2 := Ell (vec (0 : 'cV[R]_2)) (mat (1%:M : 'M[R]_2)) p in
  [/\ repr e1 0 thin (10%:R ^- 7), repr e2 0 (1%:M : 'M[R]_2) (10%:R ^- 7),
      (forall x, x != 0 -> 10%:R ^- 7 * sqn x < qf thin x) /\
      (forall x, in_ell 0 (1%:M : 'M[R]_2) x -> in_ell 0 thin x) &
      is_bigger la e1 e2 = Ok false].
Proof.
move=> Hsv p e1 e2.
have Hp : exists2 r : R, p_rel p = Fin r & 0 < r by exists (10%:R ^- 5) => //; exact: ten5.
have St : symm thin by exact: tr_diagv.
have Pt : psd thin by move=> x; apply: le_trans (thin_ge x); exact: sqn_ge0.
have S1 : symm (1%:M : 'M[R]_2) by exact: scal_symm.
have P1 : psd (1%:M : 'M[R]_2) by exact/scal_psd/ler01.
have R1 : repr e1 0 thin (10%:R ^- 7) by split; split=> //; exact: ten7.
have R2 : repr e2 0 (1%:M : 'M[R]_2) (10%:R ^- 7) by split; split=> //; exact: ten7.
split=> //; first split=> [x x0|].
- by apply: lt_le_trans (thin_ge x); rewrite -[X in _ < X]mul1r ltr_pmul2r ?sqn_gt0 // ten7_1.
- by apply/ell_subset_center => // x; rewrite qfD qfN subr_ge0 qf_scal mul1r thin_ge.
have d0 : sqn (delta_mx 0 0 : 'cV[R]_2) = 1 by rewrite sqn2 !mxE /= expr0n expr1n addr0.
have d1 : sqn (delta_mx 1 0 : 'cV[R]_2) = 1 by rewrite sqn2 !mxE /= expr0n expr1n add0r.
have [|r1 E1 r1n] := matrix_rank_low (M := thin) Hsv (isT : (0 < 2)%N) d0 d1.
  rewrite !sqn2 !mul_diagv !mxE /= !mulr0 !mulr1 !expr0n addr0 add0r expr1n.
  rewrite -exprMn exprn_ege1 // (exprS _ 52) (mulrC 2%:R (_ ^+ 52)) mulrA mulfVK.
    by rewrite -natrM ler1n.
  by rewrite expf_neq0 // pnatr_eq0.
have Hw := @eye_wellcond R.
apply: is_bigger_rank R1 R2 E1 (rank_full (isT : (0 < 2)%N) S1 P1 Hw Hsv) r1n.
Qed.

End Ex.
