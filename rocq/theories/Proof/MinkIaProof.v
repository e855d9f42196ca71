(** Minkowski sums: minksum_ia. *)
From mathcomp Require Import all_ssreflect all_algebra.
Require Import Coq.Strings.String.
From mathcomp.algebra_tactics Require Import ring.
From Verif.Model Require Import Py NP NP3 Linalg Compare La Core EllGeom Ellipsoid.
From Verif.Spec Require Import MatSpec LinalgSpec OrthSpec EllSpec EllipsoidSpec.
From Verif.Proof Require Import NPLib NP3Lib MatLib OrthLib LaBasic OrthProof Decomp GenProof EllLib EllGeomProof RankLib EllipsoidProof EllScalProof CoreProof RegProof MinksumProof.
Set Implicit Arguments.
Unset Strict Implicit.
Unset Printing Implicit Defensive.
Import Order.Theory GRing.Theory Num.Theory.
Local Open Scope ring_scope.

Section IA.
Variable R : rcfType.
Notation X := (xnum R).
Notation A := (arr X).

(** ------------------------------------------------------------------ geometry *)
Lemma tr_bound_sqn n (O : 'M[R]_n) a u : 0 <= a -> (forall x, sqn (O *m x) <= a * sqn x) -> sqn (O^T *m u) <= a * sqn u.
Proof.
move=> a0 H; have [E|E] := eqVneq (O^T *m u) 0; first by rewrite E sqn0 mulr_ge0 ?sqn_ge0.
have s0 : 0 < sqn (O^T *m u) by rewrite sqn_gt0.
have : sqn (O^T *m u) ^+ 2 <= a * sqn u * sqn (O^T *m u).
  have -> : sqn (O^T *m u) = dotv (O *m (O^T *m u)) u by rewrite dotv_mull.
  apply: le_trans (cauchy_schwarz _ _) _; rewrite mulrAC ler_wpmul2r ?sqn_ge0 //.
  by apply: le_trans (H _) _; rewrite /sqn [dotv (O *m _) u]dotv_mull.
by rewrite expr2 ler_pmul2r.
Qed.

Section Shape.
Variables (n k : nat) (c : 'I_k -> 'cV[R]_n) (B S O : 'I_k -> 'M[R]_n).
Hypotheses (HS : forall j, symm (S j)) (SS : forall j, S j *m S j = B j).
Let W := \sum_j O j *m S j.

Lemma ia_contains a : 0 < a -> (forall j u, sqn ((O j)^T *m u) <= a * sqn u) ->
  forall x, in_ell (\sum_j c j) (W^T *m W) x -> in_msum (fun j => in_ell (c j) (a *: B j)) x.
Proof.
move=> a0 Ha x H; have [|z Hz ->] := (in_ellP_factor (S := W^T) (\sum_j c j) x _).1 H; first by rewrite trmxK.
exists (fun j => c j + S j *m ((O j)^T *m z)) => [j|].
  exists (Num.sqrt a *: S j), ((Num.sqrt a)^-1 *: ((O j)^T *m z)).
  have sa : Num.sqrt a != 0 by rewrite gt_eqF // sqrtr_gt0.
  split.
  - have -> : (Num.sqrt a *: S j)^T = Num.sqrt a *: S j by apply: symm_scale.
    by rewrite -scalemxAl -scalemxAr scalerA -expr2 sqr_sqrtr ?(ltW a0) // SS.
  - rewrite sqnZ exprVn sqr_sqrtr ?(ltW a0) // ler_pdivr_mull // mulr1.
    by apply: le_trans (Ha j z) _; rewrite -[X in _ <= X]mulr1 ler_wpmul2l // ltW.
  - by rewrite -scalemxAl -scalemxAr scalerA mulfV // scale1r.
rewrite big_split /=; congr (_ + _).
have -> : W^T = \sum_j S j *m (O j)^T.
  rewrite /W raddf_sum; apply: eq_bigr => j _ /=; by rewrite trmx_mul HS.
by rewrite mulmx_suml; apply: eq_bigr => j _; rewrite mulmxA.
Qed.

Lemma ia_symm : symm (W^T *m W). Proof. by rewrite /symm trmx_mul trmxK. Qed.
Lemma ia_psd : psd (W^T *m W). Proof. by move=> x; rewrite qf_mulT sqn_ge0. Qed.

Lemma root_len j l : Num.sqrt (qf (B j) l) = len (S j *m l).
Proof. by rewrite -SS -{1}HS qf_mulT. Qed.

Variables (l u : 'cV[R]_n) (e : R).
Hypotheses (u1 : sqn u = 1) (He : forall j, (1 - e) * len (S j *m l) <= dotv u (O j *m (S j *m l))).

Lemma ia_reach : exists2 s, max_over (in_ell (\sum_j c j) (W^T *m W)) l s &
  dotv l (\sum_j c j) + (1 - e) * (\sum_j Num.sqrt (qf (B j) l)) <= s.
Proof.
eexists; first exact: (ell_support (\sum_j c j) l ia_symm ia_psd).
rewrite ler_add2l qf_mulT -/(len _).
apply: le_trans (_ : dotv u (W *m l) <= _); last first.
  by apply: le_trans (cauchy_len _ _) _; rewrite /len u1 sqrtr1 mul1r.
rewrite /W mulmx_suml dotv_sumr mulr_sumr; apply: ler_sum => j _.
by rewrite -mulmxA root_len.
Qed.
End Shape.

(** the two readings of a rotation produced by orth_transl *)
Lemma rot_near n (O : 'M[R]_n) (v w : 'cV[R]_n) (e : R) : v != 0 -> w != 0 ->
  sqn (O *m unitv v - unitv w) <= 2%:R * e -> (forall x, `|sqn (O *m x) - sqn x| <= e * sqn x) ->
  (1 - 2%:R * e) * len v <= dotv (unitv w) (O *m v).
Proof.
move=> v0 w0 H1 H2.
rewrite -{2}(unitvK v) -scalemxAr dotvZr [_ * len v]mulrC ler_pmul2l ?len_gt0 //.
have := H2 (unitv v); rewrite sqn_unitv // mulr1 ler_norml => /andP[h _].
have e0 : 0 <= e by have := H2 (unitv v); rewrite sqn_unitv // mulr1; apply: le_trans; rewrite normr_ge0.
move: H1; rewrite sqnB sqn_unitv // [dotv (O *m _) _]dotvC => H1.
have p2 : 0 < (2%:R : R) by rewrite ltr0n.
rewrite -(ler_pmul2l p2) -subr_ge0.
have H3 : 0 <= sqn (O *m unitv v) - 1 - - e by rewrite subr_ge0.
have H4 : 0 <= 2%:R * e - (sqn (O *m unitv v) - 2%:R * dotv (unitv w) (O *m unitv v) + 1) by rewrite subr_ge0.
have -> : 2%:R * dotv (unitv w) (O *m unitv v) - 2%:R * (1 - 2%:R * e) =
  (2%:R * e - (sqn (O *m unitv v) - 2%:R * dotv (unitv w) (O *m unitv v) + 1)) +
  (sqn (O *m unitv v) - 1 - - e) + e.
  move: (dotv _ _) (sqn (O *m _)) => a b; ring.
by apply: addr_ge0 e0; apply: addr_ge0.
Qed.
Lemma rot_exact n (O : 'M[R]_n) (v w : 'cV[R]_n) : w != 0 -> transl O v w ->
  (1 - 0) * len v <= dotv (unitv w) (O *m v).
Proof.
move=> w0 [_ ->]; rewrite subr0 mul1r.
rewrite dotvZr -[X in _ <= _ * dotv _ X]unitvK dotvZr -/(sqn _) sqn_unitv // mulr1 mulfVK // len_eq0 //.
Qed.

(** ------------------------------------------------------------------ the run *)
Lemma ml_size (src dst o : A) : ml_orth_transl src dst = Ok o -> size (data o) = prodn (shape o).
Proof.
rewrite /ml_orth_transl; cbv zeta; case: (dim_res dst 0) => [n|] //; rewrite rbind_okE.
case: np_reshape => [a|] //; rewrite rbind_okE; case: np_reshape => [b|] //; rewrite rbind_okE.
by case: mapM => [x|] //; rewrite rbind_okE => -[<-]; rewrite size_mkn.
Qed.

Lemma ml_reshaped n m (U V : 'M[R]_(n, m)) (src dst : A) : np_reshape [:: n; m] src = Ok (mat U) ->
  np_reshape [:: n; m; 1%N] dst = Ok (slices (fun _ : 'I_1 => V)) ->
  shape dst = [:: n; m] \/ (shape dst = [:: n] /\ m = 1%N) ->
  (forall v, col v U != 0) -> (forall v, col v V != 0) ->
  exists2 O : 'I_m -> 'M[R]_n, (let* o := ml_orth_transl src dst in np_reshape [:: n; n; m] o) = Ok (slices O) &
    forall v, orth_transl (RealArr (mat (col v U))) (RealArr (mat (col v V))) = Ok (mat (O v)).
Proof.
move=> HU HV Hsh U0 V0.
have Hsh' : shape dst = [:: n; m; 1%N] \/ (shape dst = [:: n; m] /\ 1%N = 1%N) \/
    (shape dst = [:: n] /\ m = 1%N /\ 1%N = 1%N).
  by case: Hsh => [->|[-> ->]]; right; [left|right].
have [o Eo [So Ho]] := ml_run HU HV Hsh' U0 (fun v _ => V0 v).
have Hz := ml_size Eo.
have Hv v : exists O : 'M[R]_n, orth_transl (RealArr (mat (col v U))) (RealArr (mat (col v V))) = Ok (mat O) /\
      forall i j : 'I_n, getn NaN o [:: val i; val j; 0%N; val v] = Fin (O i j).
  by have [O E H] := Ho v 0; exists O.
have [O HO] := fin_all_exists Hv; exists O => [|v]; last by have [] := HO v.
rewrite Eo rbind_okE /np_reshape Hz So /= mul1n eqxx; congr Ok.
have Hw : wf_arr (Arr [:: n; n; m] (data o)) by rewrite /wf_arr /= Hz So /= mul1n.
rewrite (arr_mkn NaN Hw); apply: slicesE => i j v.
have [_ <-] := HO v; rewrite /getn /= So /=; congr nth.
by rewrite !mul1n ?muln1 ?mul0n ?add0n ?addn0.
Qed.

(** da holds the directions D: a matrix, or one vector *)
Definition dir_arr n m (D : 'M[R]_(n, m)) (da : A) : Prop := forall S : 'M[R]_n,
  exists2 a, np_matmul (mat S) da = Ok a &
    [/\ np_reshape [:: n; m] a = Ok (mat (S *m D)),
        np_reshape [:: n; m; 1%N] a = Ok (slices (fun _ : 'I_1 => S *m D)) &
        shape a = [:: n; m] \/ (shape a = [:: n] /\ m = 1%N)].

Lemma dir_arr_mat n m (D : 'M[R]_(n, m)) : dir_arr D (mat D).
Proof.
move=> S; exists (mat (S *m D)); first by rewrite np_matmul_mm.
split; [| |by left]; rewrite /np_reshape size_mkn /= ?muln1 eqxx //; congr Ok.
have Hw : wf_arr (Arr [:: n; m; 1%N] (data (mat (S *m D)))).
  by rewrite /wf_arr; cbn [data shape]; rewrite size_mkn /= !muln1.
rewrite (arr_mkn NaN Hw).
apply: slicesE => i j l; rewrite (ord1 l) -(get_mat (S *m D) i j NaN) /getn /=; congr nth; rewrite ?muln1 ?addn0.
Qed.
Lemma dir_arr_vec n (l : 'cV[R]_n) : dir_arr l (vec l).
Proof.
move=> S; exists (vec (S *m l)); first by rewrite np_matmul_mv.
split; [exact: np_reshape_col| |by right].
rewrite /np_reshape size_mkn /= ?muln1 eqxx //; congr Ok.
have Hw : wf_arr (Arr [:: n; 1%N; 1%N] (data (vec (S *m l)))).
  by rewrite /wf_arr; cbn [data shape]; rewrite size_mkn /= !muln1.
rewrite (arr_mkn NaN Hw).
apply: slicesE => i j k; rewrite (ord1 k) (ord1 j) -(get_vec (S *m l) i NaN) /getn /=; congr nth; rewrite ?muln1 ?addn0.
Qed.

Variable la : linalg R.

Lemma ia_rot_run e n m (D : 'M[R]_(n, m)) da (B S S0 : 'M[R]_n) src : dir_arr D da ->
  np_matmul (mat S0) da = Ok src -> reg_shape la e (e_abs e) = Ok (mat B) ->
  sqrtm_pos la (mat B) (e_abs e) = Ok (mat S) ->
  (forall v, S *m col v D != 0) -> (forall v, S0 *m col v D != 0) ->
  exists2 O : 'I_m -> 'M[R]_n, ia_rot la n m src da e = Ok (mat S, slices O) &
    forall v, [/\ sqn (O v *m unitv (S *m col v D) - unitv (S0 *m col v D)) <= 2%:R * 10%:R ^- 14,
      forall x, `|sqn (O v *m x) - sqn x| <= 10%:R ^- 14 * sqn x &
      clear_angle (S *m col v D) (S0 *m col v D) -> transl (O v) (S *m col v D) (S0 *m col v D)].
Proof.
move=> Hd Es0 Er Es H1 H2; rewrite /ia_rot Er rbind_okE Es rbind_okE.
have [a Ea [Ea1 _ _]] := Hd S; rewrite Ea rbind_okE.
have [a0] := Hd S0; rewrite Es0 => -[<-] [_ Ea3 Ea4].
have C1 v : col v (S *m D) = S *m col v D by rewrite !colE mulmxA.
have C2 v : col v (S0 *m D) = S0 *m col v D by rewrite !colE mulmxA.
have [v|v|O EO HO] := ml_reshaped Ea1 Ea3 Ea4; rewrite ?C1 ?C2 //; exists O => [|v].
  by move: EO; case: ml_orth_transl => // o; rewrite !rbind_okE => ->.
have := HO v; rewrite C1 C2 -![mat (_ *m _)]/(colarr true (_ *m _)) => E.
have [O' [E' h1 h2]] := orth_transl_error true (H1 v) (H2 v).
have EO' : O' = O v by move: E; rewrite E' => /Ok_inj/mat_inj.
rewrite EO' in h1 h2; split=> // hc; have [O2 [E2 h3]] := orth_transl_exact true (H1 v) (H2 v) hc.
by have <- : O2 = O v by move: E; rewrite E2 => /Ok_inj/mat_inj.
Qed.

Lemma min_tol n k es (c : 'I_k.+1 -> 'cV[R]_n) Q t : family es c Q t ->
  exists2 u : R, 0 <= u & np_min (Arr [:: size es] (map (@e_abs R) es)) = Ok (Fin u).
Proof.
move=> [Es H].
have : exists2 f : seq R, map (@e_abs R) es = map (@Fin R) f & all (fun x => 0 <= x) f.
  elim: (k.+1) es c Q t Es H => [|k' IH] [|e es] c' Q' t' //= => [_ _|[Es] H]; first by exists [::].
  have [|f Ef Hf] := IH es (c' \o lift ord0) (Q' \o lift ord0) (t' \o lift ord0) Es.
    by move=> j e0; exact: (H (lift ord0 j) e0).
  have [[_ _ Et t0] _] := H ord0 e; exists (t' ord0 :: f); first by rewrite /= Ef /e_abs Et.
  by rewrite /= ltW.
case=> f Ef Hf; rewrite /np_min /= Ef; case: f Ef Hf => [|x f] Ef.
  by case: es Es Ef {H}.
cbn [map all] => /andP[x0 Hf]; elim: f x x0 Hf {Ef} => [|y f IH] x x0 /=; first by exists x.
move=> /andP[y0 Hf]; rewrite xminE; apply: IH => //.
by rewrite /Num.min; case: ifP.
Qed.

Theorem minksum_ia_dirs cfg p t0 n k es (c : 'I_k.+2 -> 'cV[R]_n) Q t : eigvalsh_ok la -> eig_ok la -> eigh_ok la ->
  (0 < n)%N -> family es c Q t -> props_of cfg (no_kw R) p t0 ->
  exists2 B : 'I_k.+2 -> 'M[R]_n, forall j, regularised (t j) (Q j) (B j) &
    forall m (D : 'M[R]_(n, m)) da, dir_arr D da -> dim_res da 0 = Ok n ->
    (if (ndim da <= 1)%N then 1%N else dim da 1) = m ->
    (forall v, 0 < qf (Q ord0) (col v D)) ->
    exists2 rs, minksum_ia la cfg es da = Ok (Arr [:: m] rs) & size rs = m /\
     forall (v : 'I_m) e0, exists c' Q', [/\ repr (nth e0 rs v) c' Q' t0,
       inner_near c B (col v D) c' Q' &
       (forall j, clear_roots (B j) (Q ord0) (col v D)) ->
       inner_at (in_msum (fun j => in_ell (c j) (B j))) (col v D) c' Q'].
Proof.
move=> Hev Heig Heh n0 Hf Hpr; have [B HB Er] := reg_family Hev Heig n0 Hf; exists B => // m D da Hd Edim Em HQ0.
have [Es H] := Hf; rewrite /minksum_ia (minksum_run la cfg _ n0 _ Hf Edim) // Em.
have [u u0 ->] := min_tol Hf; rewrite rbind_okE.
have [e [es' Ees]] : exists e es', es = e :: es' by case: (es) Es => // e es' _; exists e, es'.
have [[_ Esh _ _] [HQs HQp _]] := H ord0 e.
have [T [ET HT PT TT]] := sqrtm_pos_exact_tol Heh n0 u0 HQs HQp.
have -> : (if es is e :: _ then sqrtm_pos la (e_shape e) (Fin u) else IndexError) = Ok (mat T).
  by rewrite Ees; move: Esh; rewrite Ees /= => ->.
rewrite rbind_okE; have [src Esrc _] := Hd T; rewrite Esrc rbind_okE.
have HSx (j : 'I_k.+2) : exists S : 'M[R]_n, [/\ symm S, psd S, S *m S = B j &
     forall e0, sqrtm_pos la (mat (B j)) (e_abs (nth e0 es j)) = Ok (mat S)].
  have [HBs HBp _ _] := HB j; have [[_ _ Et tj0] _] := H j e.
  have [S [ES h1 h2 h3]] := sqrtm_pos_exact_tol Heh n0 (ltW tj0) HBs (posdef_psd HBp).
  exists S; split=> // e0; have [[_ _ Et' _] _] := H j e0; by rewrite /e_abs Et'.
have [S HS] := fin_all_exists HSx.
have T0 v : T *m col v D != 0.
  by apply/eqP => E; move: (HQ0 v); rewrite -TT -{1}HT qf_mulT E sqn0 ltxx.
have S0 j v : S j *m col v D != 0.
  have [HBs HBp _ _] := HB j; have [h1 _ h3 _] := HS j.
  have D0 : col v D != 0 by apply/eqP => E; move: (HQ0 v); rewrite E /qf mulmx0 dotv0r ltxx.
  by apply/eqP => E; have := HBp _ D0; rewrite -h3 -{1}h1 qf_mulT E sqn0 ltxx.
have HOx (j : 'I_k.+2) : exists O : 'I_m -> 'M[R]_n, (forall e0, ia_rot la n m src da (nth e0 es j) = Ok (mat (S j), slices O)) /\
    forall v, [/\ sqn (O v *m unitv (S j *m col v D) - unitv (T *m col v D)) <= 2%:R * 10%:R ^- 14,
      forall x, `|sqn (O v *m x) - sqn x| <= 10%:R ^- 14 * sqn x &
      clear_angle (S j *m col v D) (T *m col v D) -> transl (O v) (S j *m col v D) (T *m col v D)].
  have [_ _ _ Ej] := HS j.
  have [O EO HO] := ia_rot_run Hd Esrc (Er j e) (Ej e) (S0 j) T0; exists O; split=> // e0.
  by rewrite (set_nth_default e) // Es.
have [O HO] := fin_all_exists HOx.
rewrite (mapM_ord (g := fun j => (mat (S j), slices (O j))) Es) => [|j e0]; last by have [-> _] := HO j.
rewrite rbind_okE; pose W v := \sum_j O j v *m S j.
rewrite (mapM_iota (g := fun v : 'I_m => Ell (vec (\sum_j c j)) (mat ((W v)^T *m W v)) p)) => [|v]; last first.
  rewrite /ia_direction (mapM_ord (k := k.+2) (g := fun j => mat (O j v *m S j))) => [||j x0]; first last.
  - by rewrite nth_mapord; cbn [fst snd]; rewrite np_slice_slices rbind_okE np_matmul_mm.
  - by rewrite size_map size_enum_ord.
  rewrite rbind_okE (sum_arrs_mat (fun j => O j v *m S j)) // rbind_okE np_T_mat np_matmul_mm rbind_okE.
  by rewrite (mk_valid _ Hev Hpr) //; [exact: ia_symm|exact: ia_psd].
rewrite rbind_okE; eexists; first by reflexivity.
split=> [|v e0]; first by rewrite size_map size_enum_ord.
rewrite nth_mapord; exists (\sum_j c j), ((W v)^T *m W v).
have HSs j : symm (S j) by have [] := HS j.
have SSj j : S j *m S j = B j by have [] := HS j.
have BM : max_over (in_msum (fun j => in_ell (c j) (B j))) (col v D) (\sum_j (dotv (col v D) (c j) + Num.sqrt (qf (B j) (col v D)))).
  by apply: msum_support => j; have [h1 h2 _ _] := HB j; apply: ell_support => //; exact: posdef_psd.
have e0' : 0 <= (10%:R ^- 14 : R) by rewrite invr_ge0 exprn_ge0 ?ler0n.
split; first by apply: mk_repr Hpr _ _; [exact: ia_symm|exact: ia_psd].
  split.
    apply: ia_contains => //; first by apply: lt_le_trans ltr01 _; rewrite ler_addl.
    move=> j w; apply: tr_bound_sqn; first by rewrite addr_ge0 ?ler01.
    move=> x; have [_ /(_ v)[_ /(_ x) + _]] := HO j.
    by rewrite ler_norml => /andP[_]; rewrite ler_subl_addr mulrDl mul1r addrC.
  have [|j|s Hs Ls] := ia_reach c HSs SSj (O := fun j => O j v) (l := col v D) (u := unitv (T *m col v D)) (e := 2%:R * 10%:R ^- 14).
  - by rewrite sqn_unitv.
  - by have [_ /(_ v)[h1 h2 _]] := HO j; apply: rot_near.
  exists s, (\sum_j (dotv (col v D) (c j) + Num.sqrt (qf (B j) (col v D)))); split=> //.
  apply: le_trans Ls; rewrite big_split /= dotv_sumr -addrA ler_add2l.
  by rewrite mulrBl mul1r.
move=> Hc; have Htr j : transl (O j v) (S j *m col v D) (T *m col v D).
  have [_ /(_ v)[_ _ h]] := HO j; apply: h.
  by have [h1 h2 h3 _] := HS j; apply: (Hc j).
have Hin x : in_ell (\sum_j c j) ((W v)^T *m W v) x -> in_msum (fun j => in_ell (c j) (B j)) x.
  move=> Hx; apply: msum_mono (_ : in_msum (fun j => in_ell (c j) (1 *: B j)) x) => [j y|]; first by rewrite scale1r.
  apply: (@ia_contains _ _ c B S (fun j => O j v) HSs SSj 1 ltr01 _ x Hx).
  by move=> j w; rewrite mul1r orthog_sqn //; have [hO _] := Htr j; exact: orthogT.
split=> //.
have [|j|s Hs Ls] := ia_reach c HSs SSj (O := fun j => O j v) (l := col v D) (u := unitv (T *m col v D)) (e := 0).
- by rewrite sqn_unitv.
- exact: rot_exact.
exists s; split=> //.
have <- : \sum_j (dotv (col v D) (c j) + Num.sqrt (qf (B j) (col v D))) = s; last by [].
apply/eqP; rewrite eq_le; apply/andP; split.
  by move: Ls; rewrite subr0 mul1r dotv_sumr big_split.
by have [_ [x /Hin /(BM.1 x) + <-]] := Hs.
Qed.

Theorem minksum_ia_run cfg p t0 n k es (c : 'I_k.+2 -> 'cV[R]_n) Q t : eigvalsh_ok la -> eig_ok la -> eigh_ok la ->
  (0 < n)%N -> family es c Q t -> props_of cfg (no_kw R) p t0 ->
  exists2 B : 'I_k.+2 -> 'M[R]_n, forall j, regularised (t j) (Q j) (B j) &
   (forall m (D : 'M[R]_(n, m)), (forall v, 0 < qf (Q ord0) (col v D)) ->
    exists2 rs, minksum_ia la cfg es (mat D) = Ok (Arr [:: m] rs) & size rs = m /\
     forall (v : 'I_m) e0, exists c' Q', [/\ repr (nth e0 rs v) c' Q' t0,
       inner_near c B (col v D) c' Q' &
       (forall j, clear_roots (B j) (Q ord0) (col v D)) ->
       inner_at (in_msum (fun j => in_ell (c j) (B j))) (col v D) c' Q']) /\
   (forall l : 'cV[R]_n, 0 < qf (Q ord0) l ->
    exists e c' Q', [/\ minksum_ia la cfg es (vec l) = Ok (Arr [:: 1%N] [:: e]), repr e c' Q' t0,
       inner_near c B l c' Q' &
       (forall j, clear_roots (B j) (Q ord0) l) ->
       inner_at (in_msum (fun j => in_ell (c j) (B j))) l c' Q']).
Proof.
move=> H1 H2 H3 n0 Hf Hp; have [B HB H] := minksum_ia_dirs H1 H2 H3 n0 Hf Hp; exists B => //; split=> [m D HD|l Hl].
  exact: H (dir_arr_mat D) _ _ HD.
have cl v : col v l = l by apply/matrixP => i j; rewrite mxE (ord1 v) (ord1 j).
have [|rs E [Es Hr]] := H 1%N l (vec l) (dir_arr_vec l) erefl erefl; first by move=> v; rewrite cl.
case: rs Es E Hr => [|e [|]] // _ E /(_ 0 e); rewrite cl => -[c' [Q' [h1 h2 h3]]].
by exists e, c', Q'.
Qed.

(** a degenerate first ellipsoid and a direction orthogonal to it *)
Theorem minksum_ia_degenerate cfg n k es (c : 'I_k.+2 -> 'cV[R]_n) Q t (l : 'cV[R]_n) : eigvalsh_ok la -> eig_ok la ->
  eigh_ok la -> (0 < n)%N -> family es c Q t -> qf (Q ord0) l = 0 ->
  minksum_ia la cfg es (vec l) = throw "wrongInput:dst_zero".
Proof.
move=> Hev Heig Heh n0 Hf Hl; have [Es H] := Hf; have [B HB Er] := reg_family Hev Heig n0 Hf.
rewrite /minksum_ia (minksum_run la cfg _ n0 _ Hf (D := vec l)) //.
have [u u0 ->] := min_tol Hf; rewrite rbind_okE.
have [e [es' Ees]] : exists e es', es = e :: es' by case: (es) Es => // e es' _; exists e, es'.
have [[_ Esh _ _] [HQs HQp _]] := H ord0 e.
have [T [ET HT PT TT]] := sqrtm_pos_exact_tol Heh n0 u0 HQs HQp.
have -> : (if es is e :: _ then sqrtm_pos la (e_shape e) (Fin u) else IndexError) = Ok (mat T).
  by rewrite Ees; move: Esh; rewrite Ees /= => ->.
have Tl : T *m l = 0.
  by apply/eqP; rewrite -sqn_eq0 -qf_mulT HT TT Hl.
rewrite rbind_okE np_matmul_mv rbind_okE Tl Ees (@mapM_err _ _ _ _ _ (Tagged "wrongInput:dst_zero")) //.
have := Er ord0 e; rewrite Ees [nth _ _ _]/= => Er0.
have [[_ _ Et t0] _] := H ord0 e; rewrite Ees [nth _ _ _]/= in Et.
have [HBs HBp _ _] := HB ord0.
have [S [ES HS PS _]] := sqrtm_pos_exact_tol Heh n0 (ltW t0) HBs (posdef_psd HBp).
rewrite /ia_rot Er0 rbind_okE /e_abs Et ES rbind_okE np_matmul_mv rbind_okE.
suff -> : ml_orth_transl (vec (S *m l)) (vec (0 : 'cV[R]_n)) = Err (Tagged "wrongInput:dst_zero") by [].
have [a Ea [Ea1 _ _]] := dir_arr_vec (S *m l) 1%:M.
have [b Eb [_ Eb3 _]] := dir_arr_vec (0 : 'cV[R]_n) 1%:M.
move: Ea Eb; rewrite !np_matmul_mv !mul1mx => -[Ea] [Eb]; rewrite -Ea in Ea1; rewrite -Eb in Eb3.
have D2 (z : 'cV[R]_n) : (if (ndim (vec z) <= 2)%N then 1%N else dim (vec z) 2) = 1%N by [].
have D1 (z : 'cV[R]_n) : (if (ndim (vec z) <= 1)%N then 1%N else dim (vec z) 1) = 1%N by [].
have D0 (z : 'cV[R]_n) : dim_res (vec z) 0 = Ok n by [].
rewrite /ml_orth_transl; cbv zeta; rewrite (D2 0) ?(D1 0) (D0 0); rewrite rbind_okE Ea1 rbind_okE Eb3 rbind_okE !mul1mx.
have -> : iota 0 1 = [:: nat_of_ord (0 : 'I_1)] by [].
rewrite (@mapM_err _ _ _ _ _ (Tagged "wrongInput:dst_zero")) // (@mapM_err _ _ _ _ _ (Tagged "wrongInput:dst_zero")) //.
rewrite mat_col_get mat_col_slices.
have -> : col (0 : 'I_1) (0 : 'cV[R]_n) = 0 by apply/matrixP => i j; rewrite !mxE.
exact: (orth_transl_dst0 true).
Qed.

End IA.
