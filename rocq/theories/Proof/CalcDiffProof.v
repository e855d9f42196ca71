(** Proofs for _calc_diff_one_dir. *)
From mathcomp Require Import all_ssreflect all_algebra.
From mathcomp.algebra_tactics Require Import ring.
From mathcomp.zify Require Import zify.
From Verif.Model Require Import Py NP NP3 Linalg EllGeom Ellipsoid CalcDiff.
From Verif.Spec Require Import MatSpec LinalgSpec EllSpec EllipsoidSpec RhoSpec CalcDiffSpec.
From Verif.Proof Require Import NPLib MatLib LaBasic EllLib EllGeomProof EllScalProof RegProof RhoProof.
Set Implicit Arguments.
Unset Strict Implicit.
Unset Printing Implicit Defensive.
Import Order.Theory GRing.Theory Num.Theory.
Local Open Scope ring_scope.

Section CalcDiff.
Variable R : rcfType.
Notation X := (xnum R).
Notation A := (arr X).
Notation ell := (ell R).
Variable abs_tol : X.

(** ------------------------------------------------------------------ the point where the maximum is attained *)
Lemma max_point n (c : 'cV[R]_n) Q l x : in_ell c Q x -> 0 < qf Q l -> dotv l x = dotv l c + Num.sqrt (qf Q l) ->
  x = c + (Num.sqrt (qf Q l))^-1 *: (Q *m l).
Proof.
move=> [S [z [ES z1 ->]]] q0 E; set r := Num.sqrt (qf Q l); have r0 : 0 < r by rewrite sqrtr_gt0.
set u := r^-1 *: (S^T *m l); have Eu : dotv z u = 1.
  have -> : dotv z u = r^-1 * dotv l (S *m z) by rewrite dotvZr dotvC dotv_mulr.
  by move: E; rewrite dotvDr => /addrI ->; rewrite mulVf ?gt_eqF.
have E1 : sqn u = 1.
  rewrite sqnZ -qf_mulT' ES -[qf Q l]sqr_sqrtr ?ltW // -/r -exprMn mulVf ?expr1n ?gt_eqF //.
have : sqn (z - u) <= 0.
  rewrite sqnB Eu E1 mulr1 -addrA [- 2%:R + 1](_ : _ = -1); last by rewrite -[2%:R]/(1 + 1) opprD addrNK.
  by rewrite subr_le0.
rewrite le_eqVlt ltNge sqn_ge0 orbF sqn_eq0 subr_eq0 => /eqP ->.
by rewrite /u -scalemxAr mulmxA ES.
Qed.

Lemma supports_uniq n (c : 'cV[R]_n) Q l s p s' p' : 0 < qf Q l -> supports c Q l s p -> in_ell c Q p' ->
  dotv l p' = s' -> s = s' -> p = p'.
Proof.
move=> q0 [Hm Hi Ep] Hi' Ep' Es; have [HQ Hp] := in_ell_symm Hi.
have E := max_over_uniq Hm (ell_support c l HQ Hp).
by rewrite (max_point Hi q0) ?Ep // (max_point Hi' q0) // Ep' -Es.
Qed.

(** along a direction where the support function of the difference is the difference of the support functions,
    the difference of the two points lies in the geometric difference *)
Theorem good_point n (c1 : 'cV[R]_n) Q1 c2 Q2 l s1 s2 p1 p2 : 0 < qf Q1 l ->
  supports c1 Q1 l s1 p1 -> supports c2 Q2 l s2 p2 -> max_over (geom_diff c1 Q1 c2 Q2) l (s1 - s2) ->
  geom_diff c1 Q1 c2 Q2 (p1 - p2).
Proof.
move=> q0 H1 [_ i2 E2] [_ [x Gx Ex]].
have E : p1 = x + p2.
  apply: (supports_uniq q0 H1 (Gx _ i2) (erefl _)); by rewrite dotvDr Ex E2 subrK.
by rewrite E addrK.
Qed.

(** ------------------------------------------------------------------ the code *)
Definition is_near n (c p : 'cV[R]_n) : bool := [forall i, `|p i 0 - c i 0| < 10%:R ^- 14].

Lemma nearP n (c p : 'cV[R]_n) : reflect (near p c) (is_near c p).
Proof. exact: forallP. Qed.

Lemma calc_tail n e1 e2 (c1 c2 p : 'cV[R]_n) : e_center e1 = vec c1 -> e_center e2 = vec c2 ->
  (let* x := np_sub (vec p) (e_center e1) in
   let* x := np_add x (e_center e2) in
   if all (fun a => xlt a (diff_tol R)) (data (np_abs x)) then
     let* c := np_sub (e_center e1) (e_center e2) in Ok (c, true)
   else Ok (vec p, false)) = Ok (vec (if is_near (c1 - c2) p then c1 - c2 else p), is_near (c1 - c2) p).
Proof.
move=> -> ->; rewrite np_sub_vec rbind_okE np_add_vec rbind_okE.
have -> : all (fun a => xlt a (diff_tol R)) (data (np_abs (vec (p - c1 + c2)))) = is_near (c1 - c2) p.
  have -> : data (np_abs (vec (p - c1 + c2))) = map (@xabs R) (data (vec (p - c1 + c2))) by [].
  have -> : data (vec (p - c1 + c2)) = [seq Fin ((p - c1 + c2) i 0) | i <- enum 'I_n] by rewrite data_vals /vals -map_comp.
  rewrite -map_comp all_mapord; apply: eq_forallb => i.
  by rewrite /= !mxE opprB addrA addrAC.
by rewrite np_sub_vec; case: ifP.
Qed.

Lemma stack_rows m n (f : 'I_m -> 'cV[R]_n) : (0 < m)%N ->
  np_stack [seq vec (f j) | j <- enum 'I_m] = mat (\matrix_(j, i) f j i 0).
Proof.
move=> m0; rewrite /np_stack; case E : [seq vec (f j) | j <- enum 'I_m] => [|a l].
  by have := f_equal size E; rewrite size_map size_enum_ord => Em; rewrite Em in m0.
have Ea : shape a = [:: n] by case: m f m0 E => // m f _; rewrite enum_ordSl /= => -[<-].
rewrite -E Ea size_map size_enum_ord -map_comp /mat /mkn; congr (Arr _ _).
have -> : indices [:: m; n] = flatten [seq [seq i :: r | r <- indices [:: n]] | i <- map val (enum 'I_m)].
  by rewrite val_enum_ord.
rewrite map_flatten -!map_comp; congr flatten; apply: eq_map => j.
transitivity [seq Fin (mxget (\matrix_(j, i) f j i 0) (nth 0%N idx 0) (nth 0%N idx 1)) |
  idx <- [seq val j :: r | r <- indices [:: n]]]; last by [].
rewrite -map_comp.
apply/eq_in_map => idx; rewrite indices_valid => /valid1[i ->].
by rewrite [in RHS]/= (mxgetE (f j) i 0) (mxgetE _ j i) mxE.
Qed.

Theorem good_run n e1 e2 (c1 c2 : 'cV[R]_n) Q1 Q2 t1 t2 m (D : 'M[R]_(n, m)) univ : (0 < n)%N -> (0 < m)%N ->
  repr e1 c1 Q1 t1 -> repr e2 c2 Q2 t2 ->
  let p (j : 'I_m) := col j (bp_mat Q1 c1 D) - col j (bp_mat Q2 c2 D) in
  calc_diff_one_dir abs_tol e1 e2 (mat D) univ (nseq m true) =
  Ok (mat (\matrix_(j, i) (if is_near (c1 - c2) (p j) then c1 - c2 else p j) i 0),
      (n == 3%N) && [forall j, is_near (c1 - c2) (p j)]).
Proof.
move=> n0 m0 H1 H2 p; rewrite /calc_diff_one_dir.
have ED : mat D = reshaped [:: n; m] D by [].
have Em : prodn [:: m] = m by rewrite /= muln1.
rewrite {1 2}ED (one_run [::] D n0 H1 _ Em) // rbind_okE (one_run [::] D n0 H2 _ Em) // rbind_okE.
rewrite (repr_dim H1) [dim_res _ _]/= rbind_okE.
rewrite (mapM_ord (k := m) (g := fun j => (vec (if is_near (c1 - c2) (p j) then c1 - c2 else p j), is_near (c1 - c2) (p j)))).
- rewrite rbind_okE all_mapord -map_comp [map (fst \o _) _](_ : _ = [seq vec (if is_near (c1 - c2) (p j) then c1 - c2 else p j) | j <- enum 'I_m]) //.
  by rewrite stack_rows.
- by rewrite size_zip size_iota size_nseq minnn.
move=> j [g0 i0]; rewrite nth_zip ?size_iota ?size_nseq // nth_nseq ltn_ord nth_iota // add0n [(_, _).1]/= [(_, _).2]/=.
rewrite /calc_diff /diff_point /reshaped -![Arr [:: n; m] (data (mat _))]/(mat _) !np_col_mat 2!rbind_okE np_sub_vec rbind_okE.
by apply: calc_tail; [case: H1 => [[]]|case: H2 => [[]]].
Qed.

Theorem good_spec n e1 e2 (c1 c2 : 'cV[R]_n) Q1 Q2 t1 t2 m (D : 'M[R]_(n, m)) univ : (0 < n)%N -> (0 < m)%N ->
  repr e1 c1 Q1 t1 -> repr e2 c2 Q2 t2 ->
  exists (B : 'M[R]_(m, n)) (b : bool),
    calc_diff_one_dir abs_tol e1 e2 (mat D) univ (nseq m true) = Ok (mat B, b) /\
    (b <-> n = 3%N /\ forall j, (row j B)^T = c1 - c2) /\
    forall j, exists s1 s2 p1 p2, [/\ supports c1 Q1 (col j D) s1 p1, supports c2 Q2 (col j D) s2 p2,
      near (p1 - p2) (c1 - c2) -> (row j B)^T = c1 - c2 & ~ near (p1 - p2) (c1 - c2) -> (row j B)^T = p1 - p2].
Proof.
move=> n0 m0 H1 H2; have [_ [HQ1 Hp1 _]] := H1; have [_ [HQ2 Hp2 _]] := H2.
set p := fun j : 'I_m => col j (bp_mat Q1 c1 D) - col j (bp_mat Q2 c2 D).
set B := \matrix_(j, i) (if is_near (c1 - c2) (p j) then c1 - c2 else p j) i 0.
have EB j : (row j B)^T = if is_near (c1 - c2) (p j) then c1 - c2 else p j.
  by apply/colP => i; rewrite [LHS]mxE [LHS]mxE [LHS]mxE.
have r0 : 0 < 10%:R ^- 14 :> R by rewrite invr_gt0 exprn_gt0 // ltr0n.
exists B, ((n == 3%N) && [forall j, is_near (c1 - c2) (p j)]); split; first exact: (good_run D univ n0 m0 H1 H2); split.
  split=> [/andP[/eqP n3 /forallP H]|[n3 H]]; first by split=> // j; rewrite EB H.
  apply/andP; split; [by rewrite n3|apply/forallP => j; have := H j; rewrite EB; case: ifP => // Hn E].
  by move/negP: Hn; case; apply/nearP => i; rewrite E subrr normr0.
move=> j; exists (sup_row Q1 c1 D 0 j), (sup_row Q2 c2 D 0 j), (col j (bp_mat Q1 c1 D)), (col j (bp_mat Q2 c2 D)).
split; [exact: bp_supports|exact: bp_supports| |]; rewrite EB -/(p j).
  by move=> /nearP ->.
by move=> H; case: nearP.
Qed.

(** each point is on the hyperplane <l, x> = rho1(l) - rho2(l), up to 10^-14 |l|_1 *)
Theorem good_plane n e1 e2 (c1 c2 : 'cV[R]_n) Q1 Q2 t1 t2 m (D : 'M[R]_(n, m)) univ (B : 'M[R]_(m, n)) b : (0 < n)%N -> (0 < m)%N ->
  repr e1 c1 Q1 t1 -> repr e2 c2 Q2 t2 ->
  calc_diff_one_dir abs_tol e1 e2 (mat D) univ (nseq m true) = Ok (mat B, b) ->
  forall j s1 s2, max_over (in_ell c1 Q1) (col j D) s1 -> max_over (in_ell c2 Q2) (col j D) s2 ->
  `|dotv (col j D) (row j B)^T - (s1 - s2)| <= 10%:R ^- 14 * \sum_i `|D i j|.
Proof.
move=> n0 m0 H1 H2 E j s1 s2 M1 M2; have [B' [b' [E' [_ /(_ j) H]]]] := good_spec D univ n0 m0 H1 H2.
have /mat_inj EB : mat B = mat B' by have K := etrans (esym E) E'; have := f_equal (fun r => if r is Ok q then q.1 else mat B) K.
rewrite EB {E E' EB}; have r0 : 0 <= 10%:R ^- 14 :> R by rewrite invr_ge0 exprn_ge0 // ler0n.
have [s1' [s2' [p1 [p2 [[M1' _ E1] [M2' _ E2] Hn Hf]]]]] := H.
rewrite (max_over_uniq M1 M1') (max_over_uniq M2 M2') -E1 -E2 -dotvBr -dotvBr.
have [N|N] := nearP (c1 - c2) (p1 - p2); last first.
  by rewrite (Hf N) subrr dotv0r normr0 mulr_ge0 ?sumr_ge0.
rewrite (Hn N) /dotv; apply: le_trans (ler_norm_sum _ _ _) _; rewrite mulr_sumr; apply: ler_sum => i _.
rewrite normrM; have -> : (col j D) i 0 = D i j by rewrite mxE.
rewrite [X in X <= _]mulrC; apply: ler_wpmul2r => //.
by have := N i; rewrite distrC !mxE => /ltW.
Qed.

(** a bad direction always fails *)
Lemma bad_one e1 e2 l_mat k (us : seq X) p1 p2 ind n (c1 c2 : 'cV[R]_n) (Q1 Q2 : 'M[R]_n) m (D : 'M[R]_(n, m)) :
  e_center e1 = vec c1 -> e_center e2 = vec c2 -> e_shape e1 = mat Q1 -> e_shape e2 = mat Q2 ->
  l_mat = mat D -> calc_diff abs_tol e1 e2 l_mat (Arr [:: k] us) p1 p2 false ind = IndexError.
Proof.
move=> Ec1 Ec2 Eq1 Eq2 ->; rewrite /calc_diff /diff_point /vec_item [shape _]/=; case: ifP => // _.
rewrite rbind_okE Eq1 Eq2 /np_scale !np_map_mkn /np_add np_bin_same // rbind_okE.
rewrite /np_col [shape _]/=; case: ifP => // _; rewrite rbind_okE Ec1 Ec2 np_sub_vec rbind_okE.
by rewrite /rho_mat.
Qed.

Theorem bad_run n e1 e2 (c1 c2 : 'cV[R]_n) Q1 Q2 t1 t2 m (D : 'M[R]_(n, m)) k us good : (0 < n)%N -> (0 < m)%N ->
  repr e1 c1 Q1 t1 -> repr e2 c2 Q2 t2 -> ~~ all id (take m good) ->
  calc_diff_one_dir abs_tol e1 e2 (mat D) (Arr [:: k] us) good = IndexError.
Proof.
move=> n0 m0 H1 H2; rewrite /calc_diff_one_dir.
have ED : mat D = reshaped [:: n; m] D by [].
have Em : prodn [:: m] = m by rewrite /= muln1.
rewrite {1 2}ED (one_run [::] D n0 H1 _ Em) // rbind_okE (one_run [::] D n0 H2 _ Em) // rbind_okE [dim_res _ _]/= rbind_okE.
have [[Ec1 Eq1 _ _] _] := H1; have [[Ec2 Eq2 _ _] _] := H2.
set f := (fun g : bool * nat => _).
have Hbad i : f (false, i) = IndexError by exact: (bad_one k us _ _ i Ec1 Ec2 Eq1 Eq2 (erefl _)).
have Hgood (j : 'I_m) : exists y, f (true, val j) = Ok y.
  rewrite /f /calc_diff /diff_point /reshaped -![Arr [:: n; m] (data (mat _))]/(mat _) [(_, _).1]/= [(_, _).2]/=.
  by rewrite !np_col_mat 2!rbind_okE np_sub_vec rbind_okE (calc_tail _ Ec1 Ec2); eexists.
suff H m' a : (a + m' = m)%N -> ~~ all id (take m' good) -> mapM f (zip good (iota a m')) = IndexError.
  by move=> Hn; rewrite (H m 0%N).
elim: good m' a => [|[] g IH] [|m'] a //= Ea Hn; last by rewrite Hbad.
have am : (a < m)%N by lia.
have [y ->] := Hgood (Ordinal am); by rewrite rbind_okE (IH m' a.+1) //; lia.
Qed.

(** the points of good directions are in the geometric difference *)
Theorem good_inside n e1 e2 (c1 c2 : 'cV[R]_n) Q1 Q2 t1 t2 m (D : 'M[R]_(n, m)) univ (B : 'M[R]_(m, n)) b : (0 < n)%N -> (0 < m)%N ->
  repr e1 c1 Q1 t1 -> repr e2 c2 Q2 t2 ->
  calc_diff_one_dir abs_tol e1 e2 (mat D) univ (nseq m true) = Ok (mat B, b) ->
  forall j s1 s2, 0 < qf Q1 (col j D) ->
  max_over (in_ell c1 Q1) (col j D) s1 -> max_over (in_ell c2 Q2) (col j D) s2 ->
  max_over (geom_diff c1 Q1 c2 Q2) (col j D) (s1 - s2) ->
  (row j B)^T = c1 - c2 \/
  geom_diff c1 Q1 c2 Q2 (row j B)^T /\ dotv (col j D) (row j B)^T = s1 - s2.
Proof.
move=> n0 m0 H1 H2 E j s1 s2 q0 M1 M2 M; have [B' [b' [E' [_ /(_ j) H]]]] := good_spec D univ n0 m0 H1 H2.
have /mat_inj EB : mat B = mat B'.
  by have K := etrans (esym E) E'; have := f_equal (fun r => if r is Ok q then q.1 else mat B) K.
rewrite EB {E E' EB}.
have [s1' [s2' [p1 [p2 [S1 S2 Hn Hf]]]]] := H; have [M1' _ E1] := S1; have [M2' _ E2] := S2.
have [N|N] := nearP (c1 - c2) (p1 - p2); [left; exact: Hn|right; rewrite (Hf N)].
rewrite (max_over_uniq M1 M1') (max_over_uniq M2 M2') in M *; split; first exact: good_point S1 S2 M.
by rewrite dotvBr E1 E2.
Qed.

(** the difference of the balls of radius 2 and 1: every direction is good *)
Lemma balls_good n (c1 c2 l : 'cV[R]_n) : sqn l = 1 ->
  max_over (in_ell c1 (4%:R)%:M) l (dotv l c1 + 2%:R) /\ max_over (in_ell c2 1%:M) l (dotv l c2 + 1) /\
  max_over (geom_diff c1 (4%:R)%:M c2 1%:M) l ((dotv l c1 + 2%:R) - (dotv l c2 + 1)).
Proof.
move=> l1.
have Ea (a : R) : 0 <= a -> max_over (in_ell c1 (a ^+ 2)%:M) l (dotv l c1 + a) /\ max_over (in_ell c2 (a ^+ 2)%:M) l (dotv l c2 + a).
  move=> a0; have Es : Num.sqrt (qf (a ^+ 2)%:M l) = a.
    by rewrite /qf mul_scalar_mx dotvZr -/(sqn l) l1 mulr1 sqrtr_sqr ger0_norm.
  have Hp : psd ((a ^+ 2)%:M : 'M[R]_n) by move=> x; rewrite /qf mul_scalar_mx dotvZr mulr_ge0 ?sqr_ge0 ?sqn_ge0.
  have HQ : symm ((a ^+ 2)%:M : 'M[R]_n) by rewrite /symm tr_scalar_mx.
  by split; rewrite -[a in _ + a]Es; apply: ell_support.
have [M1 _] := Ea 2%:R (ler0n _ 2); have [_ M2] := Ea 1 ler01.
have E4 : (2%:R : R) ^+ 2 = 4%:R by rewrite -natrX.
rewrite E4 in M1; rewrite expr1n in M2; split=> //; split=> //; split.
  move=> x Gx; have [y Hy Ey] := M2.2; rewrite -Ey; rewrite ler_subr_addr -dotvDr.
  exact: M1.1 (Gx y Hy).
exists (c1 - c2 + l); last first.
  have E (u v : R) : u - v + 1 = u + 2%:R - (v + 1) by ring.
  by rewrite dotvDr dotvBr -/(sqn l) l1; exact: E.
move=> y [S [z [ES z1 ->]]]; exists (2%:R *: S), (2%:R^-1 *: (S^T *m l + z)); split.
- by rewrite linearZ /= -scalemxAl -scalemxAr ES scalerA -natrM scale_scalar_mx mulr1.
- rewrite sqnZ sqnD -qf_mulT' ES; have -> : qf 1%:M l = 1 by rewrite /qf mul1mx.
  have K : 2%:R * dotv (S^T *m l) z <= 1 + sqn z.
    have := sqn_ge0 (S^T *m l - z); rewrite sqnB -qf_mulT' ES; have -> : qf 1%:M l = 1 by rewrite /qf mul1mx.
    by rewrite addrAC subr_ge0.
  rewrite exprVn E4 mulrC ler_pdivr_mulr ?ltr0n // mul1r.
  apply: le_trans (_ : 1 + (1 + sqn z) + sqn z <= _); first by rewrite ler_add2r ler_add2l.
  have -> : 4%:R = 1 + (1 + 1) + 1 :> R by ring.
  by rewrite !ler_add.
rewrite -scalemxAl -scalemxAr scalerA mulfV ?pnatr_eq0 // scale1r mulmxDr mulmxA ES mul1mx.
by rewrite addrACA subrK.
Qed.
End CalcDiff.
