(** Proofs about gras/geom/ell/ell.py. *)
From mathcomp Require Import all_ssreflect all_algebra ring.
Require Import Coq.Strings.String.
From Verif.Model Require Import Py NP Linalg La Gen EllGeom.
From Verif.Spec Require Import MatSpec LinalgSpec OrthSpec GenSpec EllSpec.
From Verif.Proof Require Import NPLib NP3Lib MatLib LaBasic Decomp LinalgSat GenProof EllLib.
Set Implicit Arguments.
Unset Strict Implicit.
Unset Printing Implicit Defensive.
Import Order.Theory GRing.Theory Num.Theory.
Local Open Scope ring_scope.

Section EllGeomProof.
Variable R : rcfType.
Notation X := (xnum R).
Notation A := (arr X).
Notation get := (getn (@NaN R)).
Variable la : linalg R.

(** ------------------------------------------------------------ ell_volume *)
Lemma gamma_gt0 (vf : volfun R) pi : volfun_ok vf pi -> forall k, 0 < gamma_half vf k.+1.
Proof.
case=> [[p0 _ _ _] [g1 g2 gS]] k.
suff: 0 < gamma_half vf k.+1 /\ 0 < gamma_half vf k.+2 by case.
elim: k => [|k [H1 H2]]; first by rewrite g1 g2 sqrtr_gt0 p0 ltr01.
split=> //; rewrite -addn2 gS // mulr_gt0 // divr_gt0 ?ltr0n //.
Qed.

Lemma ball_volE (vf : volfun R) pi n : volfun_ok vf pi ->
  pi_pow vf n / gamma_half vf (n + 2) = ball_vol pi n.
Proof.
move=> Hv; have := Hv => -[[p0 P0 P1 PS] [g1 g2 gS]].
suff: pi_pow vf n / gamma_half vf (n + 2) = ball_vol pi n /\
      pi_pow vf n.+1 / gamma_half vf (n.+1 + 2) = ball_vol pi n.+1 by case.
elim: n => [|n [H1 H2]].
  split; first by rewrite P0 g2 divr1.
  rewrite P1 gS // g1 [ball_vol _ _]/=; have s0 : Num.sqrt pi != 0 by rewrite gt_eqF // sqrtr_gt0.
  by field.
split=> //.
have -> : pi_pow vf n.+2 = pi * pi_pow vf n by rewrite -addn2 PS.
have -> : gamma_half vf (n.+2 + 2) = n.+2%:R / 2%:R * gamma_half vf (n + 2) by rewrite gS // addn2.
have -> : ball_vol pi n.+2 = 2%:R * pi / n.+2%:R * ball_vol pi n by [].
rewrite -H1; have h : gamma_half vf (n + 2) != 0 by rewrite addn2 gt_eqF // (gamma_gt0 Hv).
have h2 : (n.+2)%:R != 0 :> R by rewrite pnatr_eq0.
by move: (pi_pow vf n) (gamma_half vf (n + 2)) h (n.+2)%:R h2 => a g h m h2; field; rewrite h h2.
Qed.

Lemma ell_volume_run (vf : volfun R) pi n (Q : 'M[R]_n) : volfun_ok vf pi -> det_ok la -> 0 <= \det Q ->
  ell_volume la vf (mat Q) = Ok (Fin (ball_vol pi n * Num.sqrt (\det Q))).
Proof.
move=> Hv Hd d0; rewrite /ell_volume dim_mat rbind_okE Hd rbind_okE xsqrtE //.
rewrite [xmul _ _]/= xdivE; last by rewrite addn2 gt_eqF // (gamma_gt0 Hv).
by rewrite -(ball_volE n Hv) mulrAC.
Qed.

Lemma psd_det n (Q : 'M[R]_n) : symm Q -> psd Q -> 0 <= \det Q.
Proof.
move=> HQ Hp; have [d [V HE]] := spectral HQ.
by rewrite (eig_det HE) prodr_ge0 // => i _; exact: ((eig_psd HE).1 Hp).
Qed.
Lemma posdef_det n (Q : 'M[R]_n) : symm Q -> posdef Q -> 0 < \det Q.
Proof.
move=> HQ Hp; have [d [V HE]] := spectral HQ.
by rewrite (eig_det HE) prodr_gt0 // => i _; exact: ((eig_posdef HE).1 Hp).
Qed.

(** ------------------------------------------------------------ inv_mat *)
Lemma inv_mat_run n (Q : 'M[R]_n) : inv_ok la -> (0 < n)%N ->
  inv_mat la (mat Q) = if Q \in unitmx then Ok (mat (invmx Q)) else LinAlgError.
Proof.
move=> Hi n0; rewrite /inv_mat dim_mat [dim _ 0]/= [dim _ 1]/= !eqxx /= Hi //.
case: ifP => uQ //; rewrite rbind_okE np_matmul_mm rbind_okE mulVmx // Hi // unitmx1 invmx1 rbind_okE.
by rewrite np_matmul_mm mul1mx.
Qed.
Lemma inv_mat_rejects (q : A) : (ndim q != 2%N) || (dim q 0 != dim q 1) ->
  inv_mat la q = throw "wrongInput:q_mat".
Proof. by rewrite /inv_mat; case: ifP => //= _ ->. Qed.

(** ------------------------------------------------------------ quad_mat *)
Lemma dimE m n (M : 'M[R]_(m, n)) : (dim (mat M) 0 = m) * (dim (mat M) 1 = n). Proof. by []. Qed.

Lemma quad_x_run n (v : 'cV[R]_n) (x : A) : (0 < n)%N -> holds v x -> quad_x x = Ok (mat v^T).
Proof.
move=> n0 []; rewrite /quad_x.
- have nv : ndim (vec v) = 1%N by [].
  by rewrite nv [(2 < 1)%N]/= [(1 == 1)%N]/= np_expand0_vec dim_mat !dimE.
- have -> : (if ndim (mat v) == 1%N then np_expand 0 (mat v) else mat v) = mat v by [].
  rewrite !dim_mat !dimE [(1 < 1)%N]/= andbF np_T_mat.
  rewrite [(2 != 2)%N]/= [(2 < 2)%N]/=; case: (ltnP 1 n) => // n1; congr (Ok _).
  have {}n1 : n = 1%N by apply/eqP; rewrite eqn_leq n1 n0.
  by subst n; rewrite [v]mx11_scalar tr_scalar_mx.
have -> : (if ndim (mat v^T) == 1%N then np_expand 0 (mat v^T) else mat v^T) = mat v^T by [].
by rewrite !dim_mat !dimE.
Qed.

Lemma data_vec1 (v : 'cV[R]_1) : data (vec v) = [:: Fin (v 0 0)].
Proof. by rewrite /vec /mkn /= -(mxgetE v 0 0). Qed.

(** the centre: an array holding c, or the number 0 for the zero vector *)
Lemma quad_c_run n (v : 'cV[R]_n) (c : A) : (0 < n)%N -> holds v c \/ (c = scal 0 /\ v = 0) ->
  exists2 c', quad_c c n = Ok c' & (c' = mat v \/ c' = mat v^T).
Proof.
move=> n0 H; rewrite /quad_c; case: ifP => [/andP[/eqP s1 /eqP d0]|H0].
  exists (np_zeros R [:: 1%N; n]) => //; right; rewrite np_zeros_mat.
  case: H => [H|[_ ->]]; last by rewrite trmx0.
  have n1 : n = 1%N by case: H s1; rewrite /np_size /= ?muln1 ?mul1n.
  subst n; congr mat; rewrite [v]mx11_scalar tr_scalar_mx; suff -> : v 0 0 = 0 by rewrite raddf0.
  suff: xeq (Fin (v 0 0)) x0 by move/eqP.
  by case: H d0; rewrite ?data_mat11 ?data_vec1 // ?mxE => /eqP.
case: H => [H|[E _]]; last by rewrite E /= eqxx in H0.
case: H {H0}.
- have nv : ndim (vec v) = 1%N by [].
  rewrite nv [(2 < 1)%N]/= [(1 <= 1)%N]/= /np_size /= muln1 np_reshape_row.
  by exists (mat v^T) => //; right.
- by rewrite !dim_mat; exists (mat v) => //; left.
by rewrite !dim_mat; exists (mat v^T) => //; right.
Qed.

Lemma quad_run n (Q : 'M[R]_n) (x c : 'cV[R]_n) (xa ca : A) mode : (0 < n)%N -> holds x xa ->
  holds c ca \/ (ca = scal 0 /\ c = 0) ->
  quad_mat la (mat Q) xa ca mode =
  let m := str_lower mode in
  if String.eqb m "plain" then Ok (mat ((qf Q (x - c))%:M : 'M[R]_1))
  else if String.eqb m "invadv" then
    let* i := inv_mat la (mat Q) in
    let* t := np_matmul i (mat (x - c)) in np_matmul (mat (x - c)^T) t
  else if String.eqb m "inv" then
    let* t := la_lstsq la (mat Q) (mat (x - c)) in np_matmul (mat (x - c)^T) t
  else throw "wrongInput:mode".
Proof.
move=> n0 Hx Hc; rewrite /quad_mat; cbv zeta; set m := str_lower mode.
rewrite dim_mat !dimE eqxx [(2 != 2)%N]/= (quad_x_run n0 Hx) rbind_okE !dimE.
have [c' -> Ec] := quad_c_run n0 Hc; rewrite rbind_okE eqxx [~~ true]/=.
have -> : (1 < dim c' 0)%N && (1 < dim c' 1)%N = false.
  by case: Ec => ->; rewrite !dimE /= ?andbF.
have -> : (if (1 < dim c' 0)%N then np_T c' else c') = mat c^T.
  case: Ec => ->; rewrite !dimE //; case: (ltnP 1 n) => [_|n1]; first by rewrite np_T_mat.
  have {}n1 : n = 1%N by apply/eqP; rewrite eqn_leq n1 n0.
  by subst n; rewrite [c]mx11_scalar tr_scalar_mx.
rewrite dimE eqxx np_sub_mat rbind_okE -(raddfB (@trmx_additive _ _ _)) np_T_mat trmxK [~~ true]/=.
case: (String.eqb m "plain").
  rewrite np_matmul_mm rbind_okE np_matmul_mm dotv_outer.
  by [].
by case: (String.eqb m "invadv"); case: (String.eqb m "inv").
Qed.

Lemma quad_inv n (Q : 'M[R]_n) w : Q \in unitmx -> w^T *m (invmx Q *m w) = (qf (invmx Q) w)%:M.
Proof. by rewrite dotv_outer. Qed.

Lemma quad_plain n (Q : 'M[R]_n) (x c : 'cV[R]_n) (xa ca : A) mode : (0 < n)%N -> holds x xa ->
  holds c ca \/ (ca = scal 0 /\ c = 0) -> str_lower mode = "plain"%string ->
  quad_mat la (mat Q) xa ca mode = Ok (mat ((qf Q (x - c))%:M : 'M[R]_1)).
Proof. by move=> n0 Hx Hc E; rewrite (quad_run Q mode n0 Hx Hc) E. Qed.

Lemma quad_invs n (Q : 'M[R]_n) (x c : 'cV[R]_n) (xa ca : A) mode : inv_ok la -> lstsq_ok la ->
  (0 < n)%N -> holds x xa -> holds c ca \/ (ca = scal 0 /\ c = 0) ->
  str_lower mode = "inv"%string \/ str_lower mode = "invadv"%string -> Q \in unitmx ->
  quad_mat la (mat Q) xa ca mode = Ok (mat ((qf (invmx Q) (x - c))%:M : 'M[R]_1)).
Proof.
move=> Hi Hl n0 Hx Hc E uQ; rewrite (quad_run Q mode n0 Hx Hc); case: E => -> /=.
  by rewrite lstsq_unit // rbind_okE np_matmul_mm quad_inv.
by rewrite inv_mat_run // uQ rbind_okE np_matmul_mm rbind_okE np_matmul_mm quad_inv.
Qed.

(** 'invadv' raises for a singular matrix *)
Lemma quad_invadv_sing n (Q : 'M[R]_n) (x c : 'cV[R]_n) (xa ca : A) mode : inv_ok la ->
  (0 < n)%N -> holds x xa -> holds c ca \/ (ca = scal 0 /\ c = 0) ->
  str_lower mode = "invadv"%string -> Q \notin unitmx ->
  quad_mat la (mat Q) xa ca mode = LinAlgError.
Proof.
move=> Hi n0 Hx Hc E /negbTE uQ; rewrite (quad_run Q mode n0 Hx Hc) E /=.
by rewrite inv_mat_run // uQ.
Qed.

(** 'inv' on a symmetric, possibly singular, matrix: for x - c = Q y the value is <y, Q y> *)
Lemma quad_inv_range n (Q : 'M[R]_n) (x c y : 'cV[R]_n) (xa ca : A) mode : lstsq_ok la ->
  (0 < n)%N -> holds x xa -> holds c ca \/ (ca = scal 0 /\ c = 0) ->
  str_lower mode = "inv"%string -> symm Q -> x - c = Q *m y ->
  quad_mat la (mat Q) xa ca mode = Ok (mat ((qf Q y)%:M : 'M[R]_1)).
Proof.
move=> [Hl _] n0 Hx Hc E HQ Ey; rewrite (quad_run Q mode n0 Hx Hc) E /=.
have [Z [-> HZ]] := Hl n n 1%N Q (x - c) n0 n0; rewrite rbind_okE np_matmul_mm.
congr (Ok (mat _)); rewrite dotv_outer; congr (_%:M); rewrite Ey dotv_mull HQ.
suff -> : Q *m Z = Q *m y by [].
have E2 : Q^T *m Q *m (Z - y) = 0 by rewrite mulmxBr HZ Ey mulmxA subrr.
by apply/eqP; rewrite -subr_eq0 -mulmxBr -sqn_eq0 /sqn dotv_mull mulmxA E2 dotv0r.
Qed.

Lemma quad_badmode (q x c : A) mode : str_lower mode <> "plain"%string ->
  str_lower mode <> "inv"%string -> str_lower mode <> "invadv"%string ->
  quad_mat la q x c mode = throw "wrongInput:mode".
Proof.
rewrite /quad_mat; cbv zeta => /String.eqb_neq -> /String.eqb_neq -> /String.eqb_neq -> //.
Qed.

(** ------------------------------------------------------------ rho_mat *)
Lemma np_sqrt_clip s (f : seq nat -> R) t :
  sqrt_pos (mkn s (fun idx => Fin (f idx))) (Fin t) =
  if t < 0 then throw "wrongInput:abs_tolNegative"
  else if has (fun idx => f idx < - t) (indices s) then throw "wrongInput:negativeInput"
  else Ok (mkn s (fun idx => Fin (Num.sqrt (Num.max (f idx) 0)))).
Proof.
rewrite /sqrt_pos /=; case: ifP => // _; rewrite has_map.
rewrite (@eq_has _ _ (fun idx => f idx < - t)) //; case: ifP => // _.
congr (Ok (Arr _ _)); rewrite /= -!map_comp; apply: eq_map => x; exact: sqrt_clip.
Qed.

Lemma sqrt_pos_vec n (v : 'cV[R]_n) t : 0 <= t -> (forall i, - t <= v i 0) ->
  sqrt_pos (vec v) (Fin t) = Ok (vec (\col_i Num.sqrt (Num.max (v i 0) 0))).
Proof.
move=> t0 H; rewrite /vec np_sqrt_clip (_ : (t < 0) = false) ?ltNge ?t0 //.
case: hasP => [[idx]|_].
  by rewrite indices_valid => /valid1[i ->] /=; rewrite (mxgetE v i 0) ltNge H.
by congr Ok; symmetry; apply: mkn_ext => idx /valid1[i ->] /=; rewrite (mxgetE v i 0) (mxgetE _ i 0) mxE.
Qed.
Lemma sqrt_pos_mat m n (M : 'M[R]_(m, n)) t : 0 <= t -> (forall i j, - t <= M i j) ->
  sqrt_pos (mat M) (Fin t) = Ok (mat (\matrix_(i, j) Num.sqrt (Num.max (M i j) 0))).
Proof.
move=> t0 H; rewrite /mat np_sqrt_clip (_ : (t < 0) = false) ?ltNge ?t0 //.
case: hasP => [[idx]|_].
  by rewrite indices_valid => /valid2[i [j ->]] /=; rewrite mxgetE ltNge H.
by congr Ok; symmetry; apply: mkn_ext => idx /valid2[i [j ->]] /=; rewrite !mxgetE mxE.
Qed.
Lemma sqrt_pos_vec_neg n (v : 'cV[R]_n) t i : 0 <= t -> v i 0 < - t ->
  sqrt_pos (vec v) (Fin t) = throw "wrongInput:negativeInput".
Proof.
move=> t0 H; rewrite /vec np_sqrt_clip (_ : (t < 0) = false) ?ltNge ?t0 //; case: hasP => // -[].
by exists [:: val i]; rewrite ?indices_valid ?is_valid1 //= (mxgetE v i 0).
Qed.
Lemma sqrt_pos_mat_neg m n (M : 'M[R]_(m, n)) t i j : 0 <= t -> M i j < - t ->
  sqrt_pos (mat M) (Fin t) = throw "wrongInput:negativeInput".
Proof.
move=> t0 H; rewrite /mat np_sqrt_clip (_ : (t < 0) = false) ?ltNge ?t0 //; case: hasP => // -[].
by exists [:: val i; val j]; rewrite ?indices_valid ?is_valid2 //= mxgetE.
Qed.

Lemma one_idx n (j : 'I_n) : (if n == 1%N then 0%N else val j) = val j.
Proof. by case: eqP => // E; case: j => [[|j] Hj] //=; exfalso; rewrite E in Hj. Qed.

(** row + 1-d array *)
Lemma np_add_row_vec n (r : 'rV[R]_n) (v : 'cV[R]_n) : np_add (mat r) (vec v) = Ok (mat (r + v^T)).
Proof.
rewrite /np_add /np_bin /=.
have -> : bshape [:: 1%N; n] [:: n] = Some [:: 1%N; n] by rewrite /bshape /= eqxx.
congr Ok; apply: matE => i j; rewrite (ord1 i) {i}.
have -> : bidx [:: 1%N; n] [:: 0%N; val j] = [:: 0%N; val j].
  by rewrite /bidx /= one_idx.
have -> : bidx [:: n] [:: 0%N; val j] = [:: val j].
  by rewrite /bidx /= one_idx.
have -> : get (mat r) [:: 0%N; val j] = Fin (r 0 j) by rewrite -(get_mat r 0 j NaN).
by rewrite get_vec /= !mxE.
Qed.

Lemma np_tile_rows_vec m n (v : 'cV[R]_n) : np_tile_rows (vec v) m = mat (\matrix_(i < m, j < n) v j 0).
Proof.
apply: matE => i j /=.
have -> : bidx [:: n] [:: val i; val j] = [:: val j].
  by rewrite /bidx /= one_idx.
by rewrite get_vec mxE.
Qed.

Lemma tile_cols_col m k (c : 'cV[R]_m) : tile_cols k (mat c) = Ok (mat (\matrix_(i < m, j < k) c i 0)).
Proof.
rewrite /tile_cols /= mul1n; congr Ok; apply: matE => i j /=.
by rewrite modn1 mxE -(get_mat c i 0 NaN).
Qed.

(** entrywise quotient, as extended reals *)
Lemma np_div_mat m n (M N : 'M[R]_(m, n)) : np_div (mat M) (mat N) =
  Ok (mkn [:: m; n] (fun idx => xdiv (Fin (mxget M (nth 0%N idx 0) (nth 0%N idx 1)))
                                     (Fin (mxget N (nth 0%N idx 0) (nth 0%N idx 1))))).
Proof.
rewrite /np_div np_bin_same //; congr Ok; apply: mkn_ext => idx /valid2[i [j ->]].
by rewrite !get_mat /= !mxgetE.
Qed.

(** the boundary points: entry by entry, 0 where the support function vanishes *)
Definition bpm m n (Q : 'M[R]_m) (D : 'M[R]_(m, n)) : 'M[R]_(m, n) :=
  \matrix_(i, j) ((Num.sqrt (qf Q (col j D)))^-1 * (Q *m col j D) i 0).

Lemma qd_entry m n (Q : 'M[R]_m) (D : 'M[R]_(m, n)) i j : (Q *m D) i j = (Q *m col j D) i 0.
Proof. by rewrite !mxE; apply: eq_bigr => k _; rewrite mxE. Qed.

Lemma zero_nan_colsE m n (B : A) (M : 'M[R]_(m, n)) : (0 < m)%N -> shape B = [:: m; n] ->
  (forall j, (forall i : 'I_m, getn NaN B [:: val i; val j] = Fin (M i j)) \/
             ((forall i : 'I_m, getn NaN B [:: val i; val j] = NaN) /\ col j M = 0)) ->
  zero_nan_cols B = mat M.
Proof.
move=> m0 Hs H; rewrite /zero_nan_cols /dim Hs; apply: matE => i j.
rewrite [nth 0%N [:: m; n] 0]/= [nth 0%N _ 1]/=; case: (H j) => [E|[E Z]].
  rewrite ifF ?E //; apply/negbTE/hasP => -[k]; rewrite mem_iota => /andP[_ km].
  by rewrite (E (Ordinal km)).
rewrite ifT; first by have := congr1 (fun N : 'cV[R]_m => N i 0) Z; rewrite !mxE => ->.
by apply/hasP; exists 0%N; rewrite ?mem_iota // (E (Ordinal m0)).
Qed.

Lemma bp_zero_cols m n (Q : 'M[R]_m) (D : 'M[R]_(m, n)) : symm Q -> psd Q -> (0 < m)%N ->
  zero_nan_cols (mkn [:: m; n] (fun idx => xdiv (Fin (mxget (Q *m D) (nth 0%N idx 0) (nth 0%N idx 1)))
     (Fin (mxget (\matrix_(i < m, j < n) Num.sqrt (qf Q (col j D))) (nth 0%N idx 0) (nth 0%N idx 1))))) =
  mat (bpm Q D).
Proof.
move=> HQ Hp m0; apply: zero_nan_colsE => // j.
have G (k : 'I_m) : getn NaN (mkn [:: m; n] (fun idx => xdiv (Fin (mxget (Q *m D) (nth 0%N idx 0) (nth 0%N idx 1)))
     (Fin (mxget (\matrix_(i < m, j < n) Num.sqrt (qf Q (col j D))) (nth 0%N idx 0) (nth 0%N idx 1)))))
     [:: val k; val j] = xdiv (Fin ((Q *m col j D) k 0)) (Fin (Num.sqrt (qf Q (col j D)))).
  rewrite getn_mkn ?is_valid2 //.
  by rewrite [nth _ _ 0]/= [nth _ _ 1]/= !mxgetE (qd_entry Q D) [X in xdiv _ (Fin X)]mxE.
have [q0|q0] := eqVneq (qf Q (col j D)) 0.
  have K := psd_ker HQ Hp q0; right; split.
    by move=> i; rewrite G K q0 sqrtr0 mxE /= !eqxx.
  by apply/colP => i; rewrite mxE [LHS]mxE K !mxE mulr0.
have s0 : Num.sqrt (qf Q (col j D)) != 0 by rewrite gt_eqF // sqrtr_gt0 lt_def q0 Hp.
by left=> i; rewrite G xdivE // [in RHS]mxE mulrC.
Qed.

Lemma center_run n (c : 'cV[R]_n) ca : center_is c ca ->
  (if ca is Some c then c else np_zeros R [:: n; 1%N]) = mat c.
Proof. by case=> [->|[-> ->]] //; rewrite np_zeros_mat. Qed.

Lemma dmd m n (Q : 'M[R]_m) (D : 'M[R]_(m, n)) j : \sum_i (D^T *m Q) j i * D^T j i = qf Q (col j D).
Proof.
rewrite /qf dotvE mulmxA mxE; apply: eq_bigr => i _; rewrite !mxE; congr (_ * _).
by apply: eq_bigr => k _; rewrite !mxE.
Qed.


Definition sup_row m n (Q : 'M[R]_m) (c : 'cV[R]_m) (D : 'M[R]_(m, n)) : 'rV[R]_n :=
  \row_j (dotv (col j D) c + Num.sqrt (qf Q (col j D))).
Definition bp_mat m n (Q : 'M[R]_m) (c : 'cV[R]_m) (D : 'M[R]_(m, n)) : 'M[R]_(m, n) :=
  \matrix_(i, j) (c i 0 + bpm Q D i j).

Lemma rho_mat_many m n (Q : 'M[R]_m) (c : 'cV[R]_m) (D : 'M[R]_(m, n)) t ca :
  n != 1%N -> (0 < m)%N -> symm Q -> psd Q -> 0 <= t -> center_is c ca ->
  rho_mat (mat Q) (mat D) (Fin t) ca = Ok (mat (sup_row Q c D), mat (bp_mat Q c D)).
Proof.
move=> n1 m0 HQ Hp t0 Hc; rewrite /rho_mat.
rewrite [dim_res _ 0]/= rbind_okE [dim_res _ 1]/= rbind_okE (center_run Hc) (negbTE n1).
rewrite !np_T_mat np_matmul_mm rbind_okE np_mul_mat rbind_okE.
rewrite np_sum_axis1_mat rbind_okE.
have -> : (\col_j \sum_i (\matrix_(i, j) ((D^T *m Q) i j * D^T i j)) j i) = \col_j qf Q (col j D).
  by apply/colP => j; rewrite !mxE -dmd; apply: eq_bigr => i _; rewrite mxE.
rewrite sqrt_pos_vec //; last by move=> i; rewrite mxE (le_trans _ (Hp _)) // oppr_le0.
have -> : (\col_j Num.sqrt (Num.max ((\col_j qf Q (col j D)) j 0) 0)) = \col_j Num.sqrt (qf Q (col j D)).
  by apply/colP => j; rewrite !mxE max_l.
rewrite rbind_okE; cbv zeta; rewrite np_T_vec np_matmul_mm rbind_okE np_add_row_vec rbind_okE.
rewrite np_matmul_mm rbind_okE np_tile_rows_vec.
have -> : (\matrix_(i < m, j < n) (\col_j Num.sqrt (qf Q (col j D))) j 0) = (\matrix_(i < m, j < n) Num.sqrt (qf Q (col j D))).
  by apply/matrixP => i j; rewrite !mxE.
rewrite np_div_mat rbind_okE bp_zero_cols // tile_cols_col rbind_okE np_add_mat rbind_okE.
congr Ok; congr pair; congr mat; apply/matrixP => i j; last by rewrite [LHS]mxE [RHS]mxE addrC; congr (_ + _); rewrite mxE.
rewrite ?(ord1 i) [LHS]mxE [RHS]mxE; congr (_ + _); last by rewrite !mxE.
by rewrite /dotv mxE; apply: eq_bigr => k _; rewrite !mxE mulrC.
Qed.

Lemma np_div_col11 m (v : 'cV[R]_m) (a : R) : np_div (mat v) (mat (a%:M : 'M[R]_1)) =
  Ok (mkn [:: m; 1%N] (fun idx => xdiv (Fin (mxget v (nth 0%N idx 0) 0)) (Fin a))).
Proof.
rewrite /np_div /np_bin /=.
have -> : bshape [:: m; 1%N] [:: 1%N; 1%N] = Some [:: m; 1%N].
  by rewrite /bshape /=; case: eqP => [->|].
congr Ok; apply: mkn_ext => idx /valid2[i [j ->]]; rewrite (ord1 j) {j} [nth _ _ 0]/=.
have -> : bidx [:: m; 1%N] [:: val i; val (0 : 'I_1)] = [:: val i; val (0 : 'I_1)].
  by rewrite /bidx /= one_idx.
have -> : bidx [:: 1%N; 1%N] [:: val i; val (0 : 'I_1)] = [:: val (0 : 'I_1); val (0 : 'I_1)] by [].
by rewrite !get_mat mxE eqxx mulr1n -(mxgetE v i 0).
Qed.

Lemma has_nan_col m (v : 'cV[R]_m) (a : R) : (0 < m)%N -> (a = 0 -> v = 0) ->
  let bp := mkn [:: m; 1%N] (fun idx => xdiv (Fin (mxget v (nth 0%N idx 0) 0)) (Fin a)) in
  (if has (@xis_nan R) (data bp) then np_zeros R (shape bp) else bp) = mat (a^-1 *: v).
Proof.
move=> m0 H bp; have [a0|a0] := eqVneq a 0.
  rewrite ifT; first by rewrite [shape _]/= np_zeros_mat a0 (H a0) scaler0.
  rewrite -[data bp]/(map (fun idx => xdiv (Fin (mxget v (nth 0%N idx 0) 0)) (Fin a)) (indices [:: m; 1%N])) has_map; apply/hasP; exists [:: 0; 0]%N.
    by rewrite indices_valid (is_valid2 (Ordinal m0) (0 : 'I_1)).
  by rewrite /preim /= (mxgetE v (Ordinal m0) 0) (H a0) mxE a0 /= !eqxx.
rewrite ifF; last first.
  apply/negbTE; rewrite -[data bp]/(map (fun idx => xdiv (Fin (mxget v (nth 0%N idx 0) 0)) (Fin a)) (indices [:: m; 1%N])) has_map; apply/hasP => -[idx].
  by rewrite indices_valid => /valid2[i [j ->]]; rewrite /preim /= (negbTE a0).
by apply: matE => i j; rewrite [nth _ _ 0]/= (ord1 j) (mxgetE v i 0) xdivE // mxE mulrC.
Qed.

Lemma rho_mat_one m (Q : 'M[R]_m) (c : 'cV[R]_m) (d : 'cV[R]_m) a ca :
  (0 < m)%N -> symm Q -> psd Q -> center_is c ca ->
  rho_mat (mat Q) (mat d) a ca = Ok (mat (sup_row Q c d), mat (bp_mat Q c d)).
Proof.
move=> m0 HQ Hp Hc; rewrite /rho_mat.
rewrite [dim_res _ 0]/= rbind_okE [dim_res _ 1]/= rbind_okE (center_run Hc) eqxx.
have cd : col 0 d = d by apply/colP => i; rewrite mxE.
have q1 : d^T *m Q *m d = (qf Q d)%:M.
  by apply/matrixP => i j; rewrite (ord1 i) (ord1 j) [in RHS]mxE eqxx mulr1n /qf dotvE mulmxA.
rewrite !np_T_mat np_matmul_mm rbind_okE np_matmul_mm rbind_okE q1.
rewrite -[x0]/(Fin 0) sqrt_pos_mat //; last first.
  by move=> i j; rewrite (ord1 i) (ord1 j) mxE eqxx oppr0 mulr1n; apply: Hp.
have -> : \matrix_(i < 1, j < 1) Num.sqrt (Num.max ((qf Q d)%:M i j) 0) = (Num.sqrt (qf Q d))%:M.
  by apply/matrixP => i j; rewrite (ord1 i) (ord1 j) !mxE eqxx !mulr1n max_l.
rewrite rbind_okE np_matmul_mm rbind_okE np_add_mat rbind_okE np_matmul_mm rbind_okE.
rewrite np_div_col11 rbind_okE; cbv zeta; rewrite has_nan_col //; last first.
  move=> /eqP; rewrite sqrtr_eq0 => q0; apply: (psd_ker HQ Hp); apply/eqP.
  by rewrite eq_le q0 Hp.
rewrite np_add_mat rbind_okE; congr Ok; congr pair; congr mat; apply/matrixP => i j; rewrite ?(ord1 i) (ord1 j).
  rewrite [LHS]mxE [RHS]mxE cd; congr (_ + _); last by rewrite mxE eqxx mulr1n.
  by rewrite /dotv mxE; apply: eq_bigr => k _; rewrite mxE mulrC.
by rewrite [LHS]mxE [RHS]mxE addrC; congr (_ + _); rewrite [LHS]mxE [RHS]mxE cd.
Qed.

Theorem rho_mat_run m n (Q : 'M[R]_m) (c : 'cV[R]_m) (D : 'M[R]_(m, n)) t ca :
  (0 < m)%N -> symm Q -> psd Q -> 0 <= t -> center_is c ca ->
  rho_mat (mat Q) (mat D) (Fin t) ca = Ok (mat (sup_row Q c D), mat (bp_mat Q c D)).
Proof.
move=> m0 HQ Hp t0 Hc; have [n1|n1] := eqVneq n 1%N; last exact: rho_mat_many.
by subst n; apply: rho_mat_one.
Qed.


Theorem rho_mat_spec m n (Q : 'M[R]_m) (c : 'cV[R]_m) (D : 'M[R]_(m, n)) t ca :
  (0 < m)%N -> symm Q -> psd Q -> 0 <= t -> center_is c ca ->
  exists (s : 'rV[R]_n) (P : 'M[R]_(m, n)), rho_mat (mat Q) (mat D) (Fin t) ca = Ok (mat s, mat P) /\
    forall j, [/\ max_over (in_ell c Q) (col j D) (s 0 j), in_ell c Q (col j P) &
                  dotv (col j D) (col j P) = s 0 j].
Proof.
move=> m0 HQ Hp t0 Hc; exists (sup_row Q c D), (bp_mat Q c D); split; first exact: rho_mat_run.
move=> j; have -> : sup_row Q c D 0 j = dotv (col j D) c + Num.sqrt (qf Q (col j D)) by rewrite mxE.
have -> : col j (bp_mat Q c D) = c + (Num.sqrt (qf Q (col j D)))^-1 *: (Q *m col j D).
  by apply/colP => i; rewrite [LHS]mxE [LHS]mxE [RHS]mxE; congr (_ + _); rewrite [LHS]mxE [RHS]mxE.
split; [exact: ell_support | exact: ell_bp_in | exact: ell_bp_dot].
Qed.

Lemma rho_mat_closed m n (Q : 'M[R]_m) (c : 'cV[R]_m) (D : 'M[R]_(m, n)) t ca :
  (0 < m)%N -> symm Q -> psd Q -> 0 <= t -> center_is c ca ->
  rho_mat (mat Q) (mat D) (Fin t) ca =
  Ok (mat (\row_j (dotv (col j D) c + Num.sqrt (qf Q (col j D)))),
      mat (\matrix_(i, j) (c i 0 + (Num.sqrt (qf Q (col j D)))^-1 * (Q *m col j D) i 0))).
Proof.
move=> m0 HQ Hp t0 Hc; rewrite (rho_mat_run D m0 HQ Hp t0 Hc); congr Ok; congr pair; congr mat.
by apply/matrixP => i j; rewrite [LHS]mxE [RHS]mxE [bpm _ _ _ _]mxE.
Qed.

(** a matrix that is negative along a direction is rejected; a single direction has no tolerance *)
Lemma rho_mat_neg_many m n (Q : 'M[R]_m) (D : 'M[R]_(m, n)) t ca j :
  n != 1%N -> 0 <= t -> qf Q (col j D) < - t ->
  rho_mat (mat Q) (mat D) (Fin t) ca = throw "wrongInput:negativeInput".
Proof.
move=> n1 t0 Hj; rewrite /rho_mat.
rewrite [dim_res _ 0]/= rbind_okE [dim_res _ 1]/= rbind_okE (negbTE n1).
rewrite !np_T_mat np_matmul_mm rbind_okE np_mul_mat rbind_okE np_sum_axis1_mat rbind_okE.
rewrite (@sqrt_pos_vec_neg _ _ _ j) // mxE.
by apply: le_lt_trans Hj; rewrite -dmd; under eq_bigr do rewrite mxE.
Qed.
Lemma rho_mat_neg_one m (Q : 'M[R]_m) (d : 'cV[R]_m) a ca : qf Q d < 0 ->
  rho_mat (mat Q) (mat d) a ca = throw "wrongInput:negativeInput".
Proof.
move=> Hj; rewrite /rho_mat.
rewrite [dim_res _ 0]/= rbind_okE [dim_res _ 1]/= rbind_okE eqxx.
rewrite !np_T_mat np_matmul_mm rbind_okE np_matmul_mm rbind_okE.
by rewrite -[x0]/(Fin 0) (@sqrt_pos_mat_neg _ _ _ _ 0 0) // oppr0 -mulmxA -dotvE.
Qed.

(** within the tolerance the two code paths differ: one direction raises, the same direction twice
    is accepted, with support 0 and a boundary point at -inf *)
Lemma rho_mat_paths (t : R) : 0 < t -> let Q : 'M[R]_1 := (- (t / 2%:R))%:M in
  rho_mat (mat Q) (mat (1%:M : 'M[R]_1)) (Fin t) None = throw "wrongInput:negativeInput" /\
  rho_mat (mat Q) (mat (const_mx 1 : 'M[R]_(1, 2))) (Fin t) None =
    Ok (mat (0 : 'M[R]_(1, 2)), Arr [:: 1%N; 2%N] [:: NInf; NInf]).
Proof.
move=> t0 Q; split.
  by apply: rho_mat_neg_one; rewrite /qf dotvE mulmx1 trmx1 mul1mx mxE eqxx mulr1n oppr_lt0 divr_gt0 ?ltr0n.
have h0 : 0 < t / 2%:R by rewrite divr_gt0 ?ltr0n.
have E (i : 'I_2) : (\col_(i < 2) \sum_(j < 1) (\matrix_(i, j) (((const_mx 1 : 'M[R]_(1, 2))^T *m Q) i j *
  (const_mx 1 : 'M[R]_(1, 2))^T i j)) i j) i 0 = - (t / 2%:R).
  by rewrite mxE big_ord1 !mxE big_ord1 !mxE eqxx mulr1n mul1r mulr1.
rewrite /rho_mat.
rewrite [dim_res _ 0]/= rbind_okE [dim_res _ 1]/= rbind_okE (negbTE (isT : (2 != 1)%N)).
rewrite !np_T_mat np_matmul_mm rbind_okE np_mul_mat rbind_okE np_sum_axis1_mat rbind_okE.
rewrite sqrt_pos_vec ?(ltW t0) // => [|i]; last first.
  by rewrite E ler_opp2 ler_pdivr_mulr ?ltr0n // ler_pmulr // ler1n.
have -> : \col_i Num.sqrt (Num.max ((\col_(i < 2) \sum_(j < 1) (\matrix_(i, j) (((const_mx 1 : 'M[R]_(1, 2))^T *m Q) i j * (const_mx 1 : 'M[R]_(1, 2))^T i j)) i j) i 0) 0) = 0.
  by apply/colP => i; rewrite [LHS]mxE E mxE max_r ?sqrtr0 // oppr_le0 ltW.
rewrite rbind_okE; cbv zeta; rewrite dimE np_zeros_mat np_T_mat np_T_vec np_matmul_mm rbind_okE np_add_row_vec rbind_okE.
rewrite np_matmul_mm rbind_okE np_tile_rows_vec np_div_mat rbind_okE tile_cols_col rbind_okE.
rewrite !trmx0 mul0mx addr0.
have -> : zero_nan_cols (mkn [:: 1; 2]%N (fun idx => xdiv (Fin (mxget (Q *m (const_mx 1 : 'M[R]_(1, 2))) (nth 0%N idx 0) (nth 0%N idx 1)))
     (Fin (mxget (\matrix_(i < 1, j < 2) (0 : 'cV[R]_2) j 0) (nth 0%N idx 0) (nth 0%N idx 1))))) = Arr [:: 1; 2]%N [:: NInf; NInf].
  have -> : (\matrix_(i < 1, j < 2) (0 : 'cV[R]_2) j 0) = 0 by apply/matrixP => i j; rewrite !mxE.
  have -> : Q *m (const_mx 1 : 'M[R]_(1, 2)) = const_mx (- (t / 2%:R)).
    by apply/matrixP => i j; rewrite !mxE big_ord1 !mxE (ord1 i) eqxx mulr1n mulr1.
  rewrite (@mkn_ext _ _ _ (fun => NInf)) // => idx /valid2[i [j ->]] /=.
  by rewrite !mxgetE !mxE /= eqxx oppr_eq0 gt_eqF // oppr_gt0 ltNge ltW.
rewrite /np_add np_bin_same //= rbind_okE; congr Ok; congr pair.
Qed.

(** volume *)
Lemma ell_volume_image (vf : volfun R) pi n (Q T : 'M[R]_n) : volfun_ok vf pi -> det_ok la -> symm Q -> psd Q ->
  exists v, ell_volume la vf (mat Q) = Ok (Fin v) /\
            ell_volume la vf (mat (T *m Q *m T^T)) = Ok (Fin (`|\det T| * v)).
Proof.
move=> Hv Hd HQ Hp; exists (ball_vol pi n * Num.sqrt (\det Q)); have d0 := psd_det HQ Hp.
have dT : \det (T *m Q *m T^T) = \det T ^+ 2 * \det Q by rewrite !det_mulmx det_tr mulrAC -expr2.
split; first exact: ell_volume_run.
rewrite (ell_volume_run Hv) //; last by rewrite dT mulr_ge0 ?sqr_ge0.
by rewrite dT sqrtrM ?sqr_ge0 // sqrtr_sqr mulrCA.
Qed.

Definition vf_ex (pi : R) : volfun R :=
  VolFun (fun k => (if odd k then Num.sqrt pi else 1) * pi ^+ k./2)
    (fun k => (fix g (k : nat) : R := match k with
       | 0%N => 1 | 1%N => Num.sqrt pi | 2%N => 1
       | S (S k' as k1) => k'%:R / 2%:R * g k' end) k).
Lemma vf_ex_ok (pi : R) : 0 < pi -> volfun_ok (vf_ex pi) pi.
Proof.
move=> p0; split; split=> //=; rewrite ?mul1r ?mulr1 //.
- by move=> k; rewrite addn2 /= negbK exprS mulrCA.
by move=> [|k] // _; rewrite addn2.
Qed.


Lemma quad_membership n (Q : 'M[R]_n) (x c : 'cV[R]_n) (xa ca : A) mode : inv_ok la -> lstsq_ok la ->
  (0 < n)%N -> holds x xa -> holds c ca \/ (ca = scal 0 /\ c = 0) ->
  str_lower mode = "inv"%string \/ str_lower mode = "invadv"%string -> symm Q -> posdef Q ->
  exists v : R, quad_mat la (mat Q) xa ca mode = Ok (mat (v%:M : 'M[R]_1)) /\
                (in_ell c Q x <-> v <= 1).
Proof.
move=> Hi Hl n0 Hx Hc Hm HQ Hp; exists (qf (invmx Q) (x - c)); split; last exact: in_ellP_inv.
by apply: quad_invs => //; apply: posdef_unit.
Qed.

Lemma quad_shapes n k (Q : 'M[R]_n) (x : 'cV[R]_k) (xa ca : A) mode :
  (str_lower mode = "plain" \/ str_lower mode = "inv" \/ str_lower mode = "invadv")%string ->
  (0 < k)%N -> holds x xa -> (ca = scal 0 \/ exists2 c : 'cV[R]_k, (0 < k)%N & holds c ca) -> k <> n ->
  quad_mat la (mat Q) xa ca mode = throw "wrongInput:q_mat:x_vec".
Proof.
move=> Hm k0 Hx Hc Hkn; rewrite /quad_mat; cbv zeta.
have -> : (String.eqb (str_lower mode) "plain" || String.eqb (str_lower mode) "inv" || String.eqb (str_lower mode) "invadv") = true.
  by case: Hm => [->|[->|->]].
rewrite !dim_mat !dimE eqxx (quad_x_run k0 Hx) rbind_okE !dimE.
have [c Hc'] : exists c : 'cV[R]_k, holds c ca \/ (ca = scal 0 /\ c = 0).
  by case: Hc => [->|[c _ H]]; [exists 0; right | exists c; left].
have [c' -> _] := quad_c_run k0 Hc'; rewrite rbind_okE.
by rewrite eqxx; have -> : k != n by apply/eqP.
Qed.

Lemma quad_sing_member : lstsq_min la ->
  exists (Q : 'M[R]_2) (x : 'cV[R]_2), [/\ symm Q, psd Q, ~ in_ell 0 Q x &
    quad_mat la (mat Q) (mat x) (mat (0 : 'cV[R]_2)) "inv" = Ok (mat (0%:M : 'M[R]_1))].
Proof.
move=> Hl; pose Q : 'M[R]_2 := 0; exists Q, (delta_mx 1 0).
have HQ : symm Q by rewrite /symm trmx0.
have Hp : psd Q by move=> x; rewrite /qf mul0mx dotv0r.
split=> //.
  move=> /(in_ellP_range 0 _ HQ Hp)[y + _]; rewrite mul0mx addr0 => /colP/(_ 1).
  by rewrite !mxE /= => /eqP; rewrite oner_eq0.
rewrite (@quad_run _ Q (delta_mx 1 0) 0 _ _ "inv"%string) //; last by left; constructor.
  2: by constructor.
rewrite [str_lower _]/= /= ; have [W [-> _]] := Hl 2%N 2%N 1%N Q (delta_mx 1 0 - 0) isT isT.
by rewrite rbind_okE trmx0 mul0mx np_matmul_mm mulmx0 raddf0.
Qed.

Lemma inv_refine n (Q B : 'M[R]_n) : Q \in unitmx -> B \in unitmx -> invmx (B *m Q) *m B = invmx Q.
Proof.
move=> uQ uB; apply: (can_inj (mulKmx uQ)); rewrite mulmxV // -[Q *m _]mul1mx -{1}(mulVmx uB) -!mulmxA.
by rewrite [B *m (Q *m _)]mulmxA [B *m Q *m (_ *m _)]mulmxA mulmxV ?unitmx_mul ?uQ ?uB // mul1mx mulVmx.
Qed.

Lemma ball_vol23 (pi : R) : ball_vol pi 2 = pi /\ ball_vol pi 3 = 4%:R / 3%:R * pi.
Proof. by split; rewrite /=; field. Qed.


Lemma the_linalg_min : lstsq_min (the_linalg R).
Proof.
move=> m n k M B m0 n0; have [H1 H2 H3 H4] := pinv_fP M; set P := pinv_f M in H1 H2 H3 H4.
have EP : P = M^T *m (P^T *m P) by rewrite mulmxA -trmx_mul H4 H2.
have EZ : M^T *m (P^T *m P *m B) = P *m B by rewrite mulmxA -EP.
exists (P^T *m P *m B); rewrite EZ; split; first by rewrite /= on2E /= eqxx decmK.
by rewrite -!mulmxA (mulmxA M P) (mulmxA M^T) -{1}H3 -trmx_mul H1.
Qed.

End EllGeomProof.
