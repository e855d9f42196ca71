(** Minkowski sums: minksum_ea and minksum_ia. *)
From mathcomp Require Import all_ssreflect all_algebra.
Require Import Coq.Strings.String.
From mathcomp.algebra_tactics Require Import ring.
From Verif.Model Require Import Py NP NP3 Linalg Compare La Core EllGeom Ellipsoid.
From Verif.Spec Require Import MatSpec LinalgSpec EllSpec EllipsoidSpec.
From Verif.Proof Require Import NPLib NP3Lib MatLib OrthLib LaBasic Decomp GenProof EllLib EllGeomProof RankLib EllipsoidProof EllScalProof CoreProof RegProof.
Set Implicit Arguments.
Unset Strict Implicit.
Unset Printing Implicit Defensive.
Import Order.Theory GRing.Theory Num.Theory.
Local Open Scope ring_scope.

Section Sums.
Variable R : rcfType.
Notation X := (xnum R).
Notation A := (arr X).

Lemma sum_arrs_mat m n k (F : 'I_k -> 'M[R]_(m, n)) : (0 < k)%N ->
  sum_arrs [seq mat (F j) | j <- enum 'I_k] = Ok (mat (\sum_j F j)).
Proof.
case: k F => // k F _; rewrite enum_ordSl big_ord_recl; cbn [map sum_arrs].
rewrite -map_comp; move: (F ord0) => M0.
have -> : \sum_(i < k) F (lift ord0 i) = \sum_(i <- enum 'I_k) F (lift ord0 i) by rewrite big_enum.
elim: (enum 'I_k) M0 => [|j s IH] M0 /=; first by rewrite big_nil addr0.
by rewrite np_add_mat /= IH big_cons addrA.
Qed.
Lemma sum_arrs_vec n k (F : 'I_k -> 'cV[R]_n) : (0 < k)%N ->
  sum_arrs [seq vec (F j) | j <- enum 'I_k] = Ok (vec (\sum_j F j)).
Proof.
case: k F => // k F _; rewrite enum_ordSl big_ord_recl; cbn [map sum_arrs].
rewrite -map_comp; move: (F ord0) => M0.
have -> : \sum_(i < k) F (lift ord0 i) = \sum_(i <- enum 'I_k) F (lift ord0 i) by rewrite big_enum.
elim: (enum 'I_k) M0 => [|j s IH] M0 /=; first by rewrite big_nil addr0.
by rewrite np_add_vec /= IH big_cons addrA.
Qed.

Lemma dotv_sumr n k (F : 'I_k -> 'cV[R]_n) l : dotv l (\sum_j F j) = \sum_j dotv l (F j).
Proof. by rewrite (big_morph (dotv l) (fun u v => dotvDr u v l) (dotv0r l)). Qed.
Lemma qf_sum n k (F : 'I_k -> 'M[R]_n) x : qf (\sum_j F j) x = \sum_j qf (F j) x.
Proof.
rewrite (big_morph (fun M => qf M x) (fun M N => qfD M N x) (id1 := 0)) //.
by rewrite /qf mul0mx dotv0r.
Qed.
Lemma qf_scale n a (M : 'M[R]_n) x : qf (a *: M) x = a * qf M x.
Proof. by rewrite /qf -scalemxAl dotvZr. Qed.

Lemma symm_scale n a (M : 'M[R]_n) : symm M -> symm (a *: M).
Proof. by move=> H; apply/matrixP => i j; rewrite !mxE -{1}H mxE. Qed.
Lemma symm_sum n k (F : 'I_k -> 'M[R]_n) : (forall j, symm (F j)) -> symm (\sum_j F j).
Proof.
by move=> H; apply/matrixP => i j; rewrite mxE !summxE; apply: eq_bigr => u _; rewrite -{1}(H u) mxE.
Qed.

(** support functions add up *)
Lemma msum_support n k (E : 'I_k -> 'cV[R]_n -> Prop) l (s : 'I_k -> R) : (forall j, max_over (E j) l (s j)) ->
  max_over (in_msum E) l (\sum_j s j).
Proof.
move=> H; split=> [x [y Hy ->]|].
  by rewrite dotv_sumr; apply: ler_sum => j _; apply: (H j).1.
have H1 j : exists y, E j y /\ dotv l y = s j by have [_ [y ? ?]] := H j; exists y.
have [y Hy] := fin_all_exists H1; exists (\sum_j y j).
  by exists y => // j; have [] := Hy j.
by rewrite dotv_sumr; apply: eq_bigr => j _; have [] := Hy j.
Qed.

Lemma sum_cauchy k (a b : 'I_k -> R) : (\sum_i a i * b i) ^+ 2 <= (\sum_i a i ^+ 2) * (\sum_i b i ^+ 2).
Proof.
have := cauchy_schwarz (\col_i a i) (\col_i b i); rewrite /sqn /dotv.
under eq_bigr do rewrite !mxE.
under [X in _ <= X * _]eq_bigr do rewrite !mxE -expr2.
by under [X in _ <= _ * X]eq_bigr do rewrite !mxE -expr2.
Qed.

Lemma sum_sqrt_bound k (p b : 'I_k -> R) : (forall i, 0 < p i) -> (forall i, 0 <= b i) ->
  \sum_i Num.sqrt (b i) <= Num.sqrt ((\sum_i p i) * \sum_i (p i)^-1 * b i).
Proof.
move=> p0 b0.
have s0 : 0 <= \sum_i Num.sqrt (b i) by apply: sumr_ge0 => i _; exact: sqrtr_ge0.
rewrite -(ger0_norm s0) -sqrtr_sqr ler_sqrt'; first last.
- by apply: mulr_ge0; apply: sumr_ge0 => i _; rewrite ?mulr_ge0 ?invr_ge0 // ltW.
- exact: sqr_ge0.
have := sum_cauchy (fun i => Num.sqrt (p i)) (fun i => Num.sqrt (b i / p i)).
have -> : \sum_i Num.sqrt (p i) * Num.sqrt (b i / p i) = \sum_i Num.sqrt (b i).
  by apply: eq_bigr => i _; rewrite -sqrtrM ?ltW // mulrC mulfVK // gt_eqF.
have -> : \sum_i Num.sqrt (p i) ^+ 2 = \sum_i p i by apply: eq_bigr => i _; rewrite sqr_sqrtr // ltW.
suff -> : \sum_i Num.sqrt (b i / p i) ^+ 2 = \sum_i (p i)^-1 * b i by [].
by apply: eq_bigr => i _; rewrite sqr_sqrtr 1?mulrC // mulr_ge0 ?invr_ge0 // ltW.
Qed.

(** the external ellipsoid for the direction l *)
Definition ea_shape n k (B : 'I_k -> 'M[R]_n) (l : 'cV[R]_n) : 'M[R]_n :=
  (\sum_j Num.sqrt (qf (B j) l)) *: \sum_j (Num.sqrt (qf (B j) l))^-1 *: B j.

Section EA.
Variables (n k : nat) (c : 'I_k -> 'cV[R]_n) (B : 'I_k -> 'M[R]_n) (l : 'cV[R]_n).
Hypotheses (HB : forall j, symm (B j)) (Hp : forall j, posdef (B j)) (l0 : l != 0).
Let p j := Num.sqrt (qf (B j) l).
Let p0 j : 0 < p j. Proof. by rewrite sqrtr_gt0 Hp. Qed.

Lemma ea_qf v : qf (ea_shape B l) v = (\sum_j p j) * \sum_j (p j)^-1 * qf (B j) v.
Proof. by rewrite /ea_shape qf_scale qf_sum; congr (_ * _); apply: eq_bigr => j _; rewrite qf_scale. Qed.
Lemma ea_symm : symm (ea_shape B l).
Proof.
by apply: symm_scale; apply: symm_sum => j; apply: symm_scale.
Qed.
Lemma ea_psd : psd (ea_shape B l).
Proof.
move=> v; rewrite ea_qf; apply: mulr_ge0; apply: sumr_ge0 => j _; first exact: ltW.
by apply: mulr_ge0; [rewrite invr_ge0 ltW|exact: posdef_psd].
Qed.
Lemma ea_contains x : in_msum (fun j => in_ell (c j) (B j)) x -> in_ell (\sum_j c j) (ea_shape B l) x.
Proof.
case=> y Hy ->; apply/(in_ellP_dual _ _ ea_symm ea_psd) => v.
rewrite !dotv_sumr; apply: le_trans (_ : \sum_j (dotv v (c j) + Num.sqrt (qf (B j) v)) <= _).
  by apply: ler_sum => j _; exact: ell_support_ub.
rewrite big_split /= ler_add2l ea_qf; apply: sum_sqrt_bound => // j; exact: posdef_psd.
Qed.
Lemma ea_tight : let s := \sum_j (dotv l (c j) + p j) in
  max_over (in_ell (\sum_j c j) (ea_shape B l)) l s /\ max_over (in_msum (fun j => in_ell (c j) (B j))) l s.
Proof.
split; last by apply: msum_support => j; apply: ell_support => //; exact: posdef_psd.
have := ell_support (\sum_j c j) l ea_symm ea_psd.
suff -> : dotv l (\sum_j c j) + Num.sqrt (qf (ea_shape B l) l) = \sum_j (dotv l (c j) + p j) by [].
rewrite big_split /= dotv_sumr ea_qf; congr (_ + _).
have -> : \sum_j (p j)^-1 * qf (B j) l = \sum_j p j.
  by apply: eq_bigr => j _; rewrite -[qf _ _](sqr_sqrtr (posdef_psd (Hp j) l)) -/(p j) expr2 mulKf // gt_eqF.
by rewrite -expr2 sqrtr_sqr ger0_norm //; apply: sumr_ge0 => j _; exact: ltW.
Qed.
End EA.

Lemma np_mul_11mat n (a : R) (M : 'M[R]_n) :
  np_mul (mat (a%:M : 'M_1)) (mat M) = Ok (mat (a *: M)).
Proof.
rewrite /np_mul /np_bin.
have -> : bshape (shape (mat (a%:M : 'M[R]_1))) (shape (mat M)) = Some [:: n; n].
  by rewrite /bshape /=; case: eqP => [<-|].
congr Ok; apply: matE => i j; rewrite mxE.
have -> : bidx (shape (mat M)) [:: nat_of_ord i; nat_of_ord j] = [:: nat_of_ord i; nat_of_ord j].
  have H (u : 'I_n) : (if n == 1%N then 0%N else u) = u :> nat.
    by case: eqP => // En; case: u => u /=; rewrite En; case: u.
  by rewrite /bidx /= !H.
by rewrite get_mat (get_mat (a%:M : 'M[R]_1) 0 0) /= mxE mulr1n.
Qed.

Variable la : linalg R.

Lemma ea_add_sh_run e n (B : 'M[R]_n) (l : 'cV[R]_n) da : (0 < n)%N -> posdef B -> l != 0 -> holds l da ->
  reg_shape la e (e_abs e) = Ok (mat B) ->
  ea_add_sh la da e = Ok (mat ((Num.sqrt (qf B l))^-1 *: B), mat ((Num.sqrt (qf B l))%:M : 'M[R]_1)).
Proof.
move=> n0 Hp l0 Hl Er; rewrite /ea_add_sh Er rbind_okE.
rewrite (quad_plain la B n0 Hl (or_intror (conj erefl erefl))) // rbind_okE subr0.
have p0 : 0 < Num.sqrt (qf B l) by rewrite sqrtr_gt0 Hp.
have -> : np_sqrt (mat ((qf B l)%:M : 'M[R]_1)) = mat ((Num.sqrt (qf B l))%:M : 'M[R]_1).
  rewrite /np_sqrt np_map_mkn; apply: matE => i j; rewrite /= mxgetE (ord1 i) (ord1 j) !mxE !mulr1n.
  by rewrite /xsqrt ltNge posdef_psd.
have -> : np_map (xdiv x1) (mat ((Num.sqrt (qf B l))%:M : 'M[R]_1)) = mat (((Num.sqrt (qf B l))^-1)%:M : 'M[R]_1).
  rewrite np_map_mkn; apply: matE => i j; rewrite /= mxgetE (ord1 i) (ord1 j) !mxE !mulr1n.
  by rewrite gt_eqF // mul1r.
by rewrite np_mul_11mat.
Qed.

Lemma data_mat11 (a : R) : data (mat (a%:M : 'M[R]_1)) = [:: Fin a].
Proof. by rewrite /mat /mkn /= (mxgetE _ 0 0) mxE mulr1n. Qed.

Lemma ea_sum_run es n k (B : 'I_k -> 'M[R]_n) (c : 'I_k -> 'cV[R]_n) (l : 'cV[R]_n) da cfg p t :
  eigvalsh_ok la -> (0 < n)%N -> (0 < k)%N -> props_of cfg (no_kw R) p t ->
  (forall j, symm (B j)) -> (forall j, posdef (B j)) -> l != 0 -> holds l da -> size es = k ->
  (forall (j : 'I_k) e0, reg_shape la (nth e0 es j) (e_abs (nth e0 es j)) = Ok (mat (B j))) ->
  (let* l := mapM (ea_add_sh la da) es in
   let* s := sum_arrs (map fst l) in
   let coef := xsum (flatten (map (fun p => data p.2) l)) in
   let* st := np_add s (np_T s) in
   let sh := np_scale (xmul (Fin (1 / 2%:R)) coef) st in
   mk_ell la cfg (CBoth (RealArr (vec (\sum_j c j))) (RealArr sh)) (no_kw R))
  = Ok (Ell (vec (\sum_j c j)) (mat (ea_shape B l)) p).
Proof.
move=> Hla n0 k0 Hpr HB Hp l0 Hl Es Er.
rewrite (mapM_ord (g := fun j => (mat ((Num.sqrt (qf (B j) l))^-1 *: B j), mat ((Num.sqrt (qf (B j) l))%:M : 'M[R]_1))) Es);
  last by move=> j e0; apply: ea_add_sh_run.
rewrite rbind_okE -map_comp (sum_arrs_mat (fun j => (Num.sqrt (qf (B j) l))^-1 *: B j) k0) rbind_okE.
have -> : xsum (flatten [seq data p.2 | p <- [seq (mat ((Num.sqrt (qf (B j) l))^-1 *: B j),
     mat ((Num.sqrt (qf (B j) l))%:M : 'M[R]_1)) | j <- enum 'I_k]]) = Fin (\sum_j Num.sqrt (qf (B j) l)).
  rewrite -map_comp -big_enum -(big_map (fun j => Num.sqrt (qf (B j) l)) xpredT id) -xsum_fin; congr xsum.
  elim: (enum 'I_k) => [|j s IH] //; cbn [map flatten foldr comp snd]; rewrite data_mat11.
  by congr (_ :: _).
cbv zeta; rewrite np_T_mat np_add_mat rbind_okE /= np_scale_mat.
have -> : (\sum_j (Num.sqrt (qf (B j) l))^-1 *: B j)^T = \sum_j (Num.sqrt (qf (B j) l))^-1 *: B j.
  by apply: symm_sum => j; apply: symm_scale.
have -> : (1 / 2%:R * \sum_j Num.sqrt (qf (B j) l)) *:
  (\sum_j (Num.sqrt (qf (B j) l))^-1 *: B j + \sum_j (Num.sqrt (qf (B j) l))^-1 *: B j) = ea_shape B l.
  rewrite -mulr2n -scaler_nat scalerA /ea_shape; congr (_ *: _).
  by rewrite mul1r mulrAC mulVf ?mul1r // pnatr_eq0.
by rewrite (mk_valid _ Hla Hpr) //; [exact: ea_symm|exact: ea_psd].
Qed.

Lemma family_ends n k es (c : 'I_k -> 'cV[R]_n) Q t : family es c Q t ->
  [seq e_center e | e <- es] = [seq vec (c j) | j <- enum 'I_k].
Proof.
move=> [Es H]; have S2 : size [seq vec (c j) | j <- enum 'I_k] = k by rewrite size_map size_enum_ord.
apply: (@eq_from_nth _ (np_scalar x0)); rewrite ?S2 size_map // Es => i Hi.
pose j := Ordinal Hi.
have [e _] : exists e : ell R, True.
  by case: (es) Es => [E|e ? _]; [move: (Hi); rewrite -E|exists e].
rewrite (nth_map e) ?Es // -[i]/(nat_of_ord j) nth_mapord.
by have [[-> _ _ _] _] := H j e.
Qed.

Lemma minksum_run cfg n k es (c : 'I_k -> 'cV[R]_n) Q t D body : (0 < n)%N -> (1 < k)%N -> family es c Q t ->
  dim_res D 0 = Ok n ->
  minksum la cfg es D body = body (vec (\sum_j c j)) n (if (ndim D <= 1)%N then 1%N else dim D 1).
Proof.
move=> n0 k1 Hf En; rewrite /minksum En rbind_okE; have [Es H] := Hf.
have Hd : all (fun d => d == n) (map (fun e => np_size (e_center e)) es).
  rewrite all_map -(map_id es).
  have -> : all (preim (fun e => np_size (e_center e)) (fun d => d == n)) (map id es)
         = all (fun a => np_size a == n) (map (@e_center R) es) by rewrite map_id all_map.
  by rewrite (family_ends Hf) all_mapord; apply/forallP => j; rewrite size_vec.
have Hh : has (fun d => d == 0%N) (map (fun e => np_size (e_center e)) es) = false.
  by apply/negbTE; rewrite -all_predC; apply: sub_all Hd => d /eqP->; rewrite /= -lt0n.
case: es Es H Hf Hd Hh => [|e [|e' es]] Es H Hf Hd Hh; [by rewrite -Es in k1|by rewrite -Es in k1|].
by rewrite Hh Hd [X in let* _ := sum_arrs X in _](family_ends Hf) (sum_arrs_vec _ (ltnW k1)) rbind_okE.
Qed.

Lemma reg_family n k es (c : 'I_k -> 'cV[R]_n) Q t : eigvalsh_ok la -> eig_ok la -> (0 < n)%N -> family es c Q t ->
  exists2 B : 'I_k -> 'M[R]_n, forall j, regularised (t j) (Q j) (B j) &
   forall (j : 'I_k) e0, reg_shape la (nth e0 es j) (e_abs (nth e0 es j)) = Ok (mat (B j)).
Proof.
move=> Hev Heig n0 [Es H].
have HB (j : 'I_k) : exists B : 'M[R]_n, regularised (t j) (Q j) B /\
   forall e0, reg_shape la (nth e0 es j) (e_abs (nth e0 es j)) = Ok (mat B).
  have Hj : (j < size es)%N by rewrite Es ltn_ord.
  case: es Es H Hj => [|e es] Es H Hj; first by [].
  have [B EB HB] := reg_shape_run Hev Heig n0 (H j e); exists B; split=> // e0.
  by rewrite (set_nth_default e).
by have [B HB'] := fin_all_exists HB; exists B => j; [have [] := HB' j|move=> e0; have [_ ->] := HB' j].
Qed.

Lemma msum_mono n k (E F : 'I_k -> 'cV[R]_n -> Prop) : (forall j x, E j x -> F j x) -> forall x, in_msum E x -> in_msum F x.
Proof. by move=> H x [y Hy ->]; exists y => // j; exact/H/Hy. Qed.

Theorem minksum_ea_run cfg p t0 n k es (c : 'I_k -> 'cV[R]_n) Q t : eigvalsh_ok la -> eig_ok la ->
  (0 < n)%N -> (1 < k)%N -> family es c Q t -> props_of cfg (no_kw R) p t0 ->
  exists2 B : 'I_k -> 'M[R]_n, forall j, regularised (t j) (Q j) (B j) &
   (forall m (D : 'M[R]_(n, m)), (forall j, col j D != 0) ->
    exists2 rs, minksum_ea la cfg es (mat D) = Ok (Arr [:: m] rs) & size rs = m /\
     forall (j : 'I_m) e0, exists c' Q', [/\ repr (nth e0 rs j) c' Q' t0,
       outer_at (in_msum (fun i => in_ell (c i) (B i))) (col j D) c' Q' &
       forall x, in_msum (fun i => in_ell (c i) (Q i)) x -> in_ell c' Q' x]) /\
   (forall l : 'cV[R]_n, l != 0 -> exists e c' Q', [/\ minksum_ea la cfg es (vec l) = Ok (Arr [:: 1%N] [:: e]),
       repr e c' Q' t0,
       outer_at (in_msum (fun i => in_ell (c i) (B i))) l c' Q' &
       forall x, in_msum (fun i => in_ell (c i) (Q i)) x -> in_ell c' Q' x]).
Proof.
move=> Hev Heig n0 k1 Hf Hpr; have [B HB Er] := reg_family Hev Heig n0 Hf; exists B => //.
have HBs j : symm (B j) by have [] := HB j.
have HBp j : posdef (B j) by have [] := HB j.
have [Es H] := Hf.
have Hin x : in_msum (fun i => in_ell (c i) (Q i)) x -> in_msum (fun i => in_ell (c i) (B i)) x.
  apply: msum_mono => j y.
  have Hj : (j < size es)%N by rewrite Es ltn_ord.
  have : exists e : ell R, True by case: (es) Hj => [|e ?] // _; exists e.
  case=> e _; have [_ [HQ Hq _]] := H j e; have [H1 H2 H3 _] := HB j.
  have Hs := (ell_subset_center (c j) HQ Hq H1 (posdef_psd H2)).2; apply: Hs => z.
  by rewrite qfD qfN subr_ge0; have /andP[] := H3 z.
have HE l : l != 0 -> [/\ repr (Ell (vec (\sum_j c j)) (mat (ea_shape B l)) p) (\sum_j c j) (ea_shape B l) t0,
   outer_at (in_msum (fun i => in_ell (c i) (B i))) l (\sum_j c j) (ea_shape B l) &
   forall x, in_msum (fun i => in_ell (c i) (Q i)) x -> in_ell (\sum_j c j) (ea_shape B l) x].
  move=> l0; have Ho x : in_msum (fun i => in_ell (c i) (B i)) x -> in_ell (\sum_j c j) (ea_shape B l) x.
    exact: ea_contains.
  split.
  - apply: mk_repr Hpr _ _; [exact: ea_symm|exact: ea_psd].
  - by split=> //; eexists; exact: (ea_tight c HBs HBp l0).
  - by move=> x /Hin /Ho.
split=> [m D HD|l l0].
  rewrite /minksum_ea (minksum_run _ _ n0 k1 Hf (D := mat D)) //.
  rewrite (mapM_iota (g := fun j : 'I_m => Ell (vec (\sum_j c j)) (mat (ea_shape B (col j D))) p)) => [|j].
    eexists; first by rewrite rbind_okE.
    split=> [|j e0]; first by rewrite size_map size_enum_ord.
    rewrite nth_mapord; exists (\sum_j c j), (ea_shape B (col j D)); exact: HE.
  rewrite /ea_direction [if _ then _ else _](_ : _ = np_col (mat D) j) // np_col_mat rbind_okE.
  exact: (ea_sum_run c Hev n0 (ltnW k1) Hpr HBs HBp (HD j) (HoldsVec _) Es Er).
rewrite /minksum_ea (minksum_run _ _ n0 k1 Hf (D := vec l)) //.
exists (Ell (vec (\sum_j c j)) (mat (ea_shape B l)) p), (\sum_j c j), (ea_shape B l); split; try by have [] := HE l l0.
have -> : mapM (ea_direction la cfg es (vec (\sum_j c j)) (vec l)) [:: 0%N] =
  Ok [:: Ell (vec (\sum_j c j)) (mat (ea_shape B l)) p].
  cbn [mapM]; rewrite {1}/ea_direction.
  have -> : (if (1 < ndim (vec l))%N then np_col (vec l) 0 else Ok (vec l)) = Ok (vec l) by [].
  rewrite rbind_okE.
  by rewrite (ea_sum_run c Hev n0 (ltnW k1) Hpr HBs HBp l0 (HoldsVec _) Es Er).
by [].
Qed.

Theorem minksum_ea_nondeg cfg p t0 n k es (c : 'I_k -> 'cV[R]_n) Q t : eigvalsh_ok la -> eig_ok la ->
  (0 < n)%N -> (1 < k)%N -> family es c Q t -> props_of cfg (no_kw R) p t0 ->
  (forall j x, x != 0 -> t j * sqn x < qf (Q j) x) ->
  forall m (D : 'M[R]_(n, m)), (forall j, col j D != 0) ->
  exists2 rs, minksum_ea la cfg es (mat D) = Ok (Arr [:: m] rs) & size rs = m /\
    forall (j : 'I_m) e0, exists c' Q', repr (nth e0 rs j) c' Q' t0 /\
      outer_at (in_msum (fun i => in_ell (c i) (Q i))) (col j D) c' Q'.
Proof.
move=> H1 H2 n0 k1 Hf Hp Hnd m D HD; have [B HB [H _]] := minksum_ea_run H1 H2 n0 k1 Hf Hp.
have [rs E [Es Hr]] := H m D HD; exists rs => //; split=> // j e0; have [c' [Q' [h1 h2 h3]]] := Hr j e0.
exists c', Q'; split=> //; split=> //; have [_ [s [s1 [s2 [x [y Hy ->] Ex]]]]] := h2.
have BQ i : B i = Q i by have [_ _ _ h] := HB i; exact: h (Hnd i).
exists s; split=> //; split=> [z Hz|]; first by apply: s1.1; exact: h3.
by exists (\sum_j y j) => //; exists y => // i; rewrite -BQ.
Qed.

(** one ellipsoid: a copy for each direction *)
Theorem minksum_one cfg e n (c : 'cV[R]_n) Q t m (D : 'M[R]_(n, m)) : eigvalsh_ok la -> (0 < n)%N -> repr e c Q t ->
  minksum_ea la cfg [:: e] (mat D) = Ok (np_squeeze (Arr [:: 1%N; m] (nseq m e))) /\
  minksum_ia la cfg [:: e] (mat D) = Ok (np_squeeze (Arr [:: 1%N; m] (nseq m e))).
Proof.
move=> Hev n0 Hr.
suff H body : minksum la cfg [:: e] (mat D) body = Ok (np_squeeze (Arr [:: 1%N; m] (nseq m e))) by split; exact: H.
rewrite /minksum; have -> : dim_res (mat D) 0 = Ok n by [].
rewrite rbind_okE [map _ _]/= (repr_dim Hr) [has _ _]/= orbF -[n == 0%N]negbK -lt0n n0.
rewrite [all _ _]/= eqxx.
have -> : (if (ndim (mat D) <= 1)%N then 1%N else dim (mat D) 1) = m by [].
have -> : mapM (fun _ => single_copy la cfg e) (iota 0 m) = Ok (nseq m e).
  have Hv : valid e by exists n, c, Q, t.
  rewrite single_copy_run // -{2}(size_iota 0 m); elim: (iota 0 m) => [|i s IH] //=.
  by rewrite IH.
by [].
Qed.

Theorem minksum_errors cfg es D body : (0 < ndim D)%N ->
  [/\ es = [::] -> minksum la cfg es D body = throw "wrongInput:emptyArray",
      has (fun e => np_size (e_center e) == 0%N) es ->
      minksum la cfg es D body = throw "wrongInput:emptyEllipsoid" &
      all (fun e => np_size (e_center e) != 0%N) es -> has (fun e => np_size (e_center e) != dim D 0) es ->
      minksum la cfg es D body = throw "wrongSizes:"].
Proof.
move=> H0; have Ed : dim_res D 0 = Ok (dim D 0) by case: D H0 => -[|d s] x.
rewrite /minksum Ed rbind_okE; split=> [->//|H|Ha H].
  by case: es H => // e es H; rewrite has_map H.
case: es H Ha => // e es H Ha; rewrite has_map ifF.
  by rewrite all_map -[all _ _]negbK -has_predC [has _ _]H.
by apply/negbTE; rewrite -all_predC.
Qed.

End Sums.
