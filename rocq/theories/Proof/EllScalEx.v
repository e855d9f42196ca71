(** Corollaries and concrete cases for Props/EllipsoidProps.v. *)
From mathcomp Require Import all_ssreflect all_algebra.
Require Import Coq.Strings.String.
From mathcomp.algebra_tactics Require Import ring.
From Verif.Model Require Import Py NP NP3 Linalg Compare La Core EllGeom Ellipsoid.
From Verif.Spec Require Import MatSpec LinalgSpec EllSpec EllipsoidSpec.
From Verif.Proof Require Import NPLib NP3Lib MatLib OrthLib LaBasic Decomp EllLib EllGeomProof RankLib EllipsoidProof EllScalProof.
Set Implicit Arguments.
Unset Strict Implicit.
Unset Printing Implicit Defensive.
Import Order.Theory GRing.Theory Num.Theory.
Local Open Scope ring_scope.

Section Ex.
Variable R : rcfType.
Variable la : linalg R.

Lemma unitball_set cfg p t n : eigvalsh_ok la -> props_of cfg (no_kw R) p t -> (0 < n)%N ->
  exists2 e, ell_unitball la cfg n = Ok e &
    exists2 c : 'cV[R]_n, exists2 Q, repr e c Q t & forall x, in_ell c Q x <-> sqn x <= 1 & c = 0.
Proof.
move=> Hla Hp n0; have [e -> He] := unitball_run Hla Hp n0; exists e => //; exists 0 => //.
by exists 1%:M => // x; exact: in_unitball.
Qed.

Lemma qf_scal n (a : R) (x : 'cV[R]_n) : qf a%:M x = a * sqn x.
Proof. by rewrite /qf mul_scalar_mx dotvZr. Qed.

Lemma scal_symm n (a : R) : symm (a%:M : 'M[R]_n).
Proof. by rewrite /symm tr_scalar_mx. Qed.
Lemma scal_psd n (a : R) : 0 <= a -> psd (a%:M : 'M[R]_n).
Proof. by move=> a0 x; rewrite qf_scal mulr_ge0 ?sqn_ge0. Qed.

Lemma ctor_indefinite cfg k p t : eigvalsh_ok la -> props_of cfg k p t ->
  let Q : 'M[R]_1 := (- t)%:M in
  mk_ell la cfg (CShape (RealArr (mat Q))) k = Ok (Ell (vec (0 : 'cV_1)) (mat Q) p) /\
  forall x, ~ in_ell 0 Q x.
Proof.
move=> Hla Hp Q; have t0 : 0 < t by case: Hp.
split.
  apply: (ctor1_run Hp Q Hla isT).1; split=> [i j|x]; first by rewrite !ord1 subrr normr0 ltW.
  by rewrite lowsym_symm ?qf_scal //; exact: scal_symm.
move=> x [S [z [E _ _]]]; have := congr1 (fun M : 'M[R]_1 => M 0 0) E.
rewrite !mxE big_ord1 mxE eqxx mulr1n => E'; have := sqr_ge0 (S 0 0).
by rewrite expr2 E' oppr_ge0 leNgt t0.
Qed.

Lemma ten7 : 0 < 10%:R ^- 7 :> R. Proof. by rewrite invr_gt0 exprn_gt0 // ltr0n. Qed.
Lemma ten7_1 : 10%:R ^- 7 < 1 :> R.
Proof. by rewrite invf_lt1 ?exprn_gt0 ?ltr0n // exprn_egt1 // ltr1n. Qed.
Lemma ten5 : 0 < 10%:R ^- 5 :> R. Proof. by rewrite invr_gt0 exprn_gt0 // ltr0n. Qed.
Lemma ten3 : 0 < 10%:R ^- 3 :> R. Proof. by rewrite invr_gt0 exprn_gt0 // ltr0n. Qed.

Definition two_one (a b : R) : 'M[R]_2 := \matrix_(i, j) (if i == j then a else b).
Lemma two_one_symm a b : symm (two_one a b).
Proof. by apply/matrixP => i j; rewrite !mxE eq_sym. Qed.
Lemma qf_two_one a b (x : 'cV[R]_2) :
  qf (two_one a b) x = a * (x 0 0 ^+ 2 + x 1 0 ^+ 2) + 2%:R * b * (x 0 0 * x 1 0).
Proof.
rewrite /qf /dotv !big_ord_recl big_ord0 !mxE !big_ord_recl !big_ord0 !mxE /=.
have -> : lift (0 : 'I_2) 0 = 1 by apply/val_inj.
by move: (x 0 0) (x 1 0) => u v; ring.
Qed.

Lemma ctor_examples :
  let cfg := Props (Fin (10%:R ^- 7)) (Fin (10%:R ^- 5)) 200 200 : props R in
  [/\ props_of cfg (no_kw R) cfg (10%:R ^- 7),
      near_psd (10%:R ^- 7) (\matrix_(i < 2, j < 2) (if i == j then 2%:R else 1) : 'M[R]_2) &
      ~ near_psd (10%:R ^- 7) (\matrix_(i < 2, j < 2) (if i == j then 1 else 2%:R) : 'M[R]_2)].
Proof.
split.
- by split=> //; [exact: ten7 | exists (10%:R ^- 5) => //; exact: ten5].
- apply: near_psd_exact; [exact: ten7|exact: two_one_symm|] => x.
  rewrite (qf_two_one 2%:R 1).
  have -> : 2%:R * (x 0 0 ^+ 2 + x 1 0 ^+ 2) + 2%:R * 1 * (x 0 0 * x 1 0) =
    x 0 0 ^+ 2 + x 1 0 ^+ 2 + (x 0 0 + x 1 0) ^+ 2 by move: (x 0 0) (x 1 0) => u v; ring.
  by rewrite !addr_ge0 ?sqr_ge0.
move=> [_ /(_ (\col_i (if i == 0 then 1 else - 1)))].
rewrite lowsym_symm; last exact: two_one_symm.
rewrite (qf_two_one 1 2%:R) !mxE /= /sqn /dotv !big_ord_recl big_ord0 !mxE /= sqrrN !expr1n mulrNN !mulr1 addr0.
rewrite leNgt => /negP; apply.
have -> : 1 * (1 + 1) + 2%:R * 2%:R * (1 * -1) = - (1 + 1) :> R by ring.
rewrite mulNr ltr_opp2 -[X in _ < X]mul1r ltr_pmul2r ?ten7_1 //; exact: addr_gt0 ltr01 ltr01.
Qed.

Lemma eye_wellcond : wellcond (1%:M : 'M[R]_2).
Proof.
move=> x y Ex Ey; rewrite !qf_scal Ex Ey !mulr1 ltr_pdivr_mulr ?exprn_gt0 ?ltr0n // mul1r.
by rewrite -natrX ltr_nat -{1}(expn1 2) ltn_exp2l.
Qed.

Lemma scal_examples :
  let p := Props (Fin (10%:R ^- 7)) (Fin (10%:R ^- 5)) 200 200 : props R in
  [/\ List.Forall (@good R) [:: Ell (vec (0 : 'cV[R]_2)) (mat (1%:M : 'M[R]_2)) p; Ell (vec (0 : 'cV[R]_1)) (mat (0 : 'M[R]_1)) p],
      wellcond (1%:M : 'M[R]_2), symm (1%:M : 'M[R]_2), psd (1%:M : 'M[R]_2) &
      forall x : 'cV[R]_2, x != 0 -> 10%:R ^- 7 * sqn x < qf 1%:M x].
Proof.
move=> p; have Hp : exists2 r : R, p_rel p = Fin r & 0 < r by exists (10%:R ^- 5) => //; exact: ten5.
have Z : (0 : 'M[R]_1) = 0%:M by rewrite -scalemx1 scale0r.
split; [|exact: eye_wellcond|exact: scal_symm|exact/scal_psd/ler01|].
  constructor; [|constructor=> //].
    exists 2%N, 0, 1%:M, (10%:R ^- 7); split=> //; split; split=> //; [exact: ten7|exact: scal_symm|exact/scal_psd/ler01].
  exists 1%N, 0, 0, (10%:R ^- 7); split=> //; split; split=> //; first exact: ten7.
    by rewrite Z; exact: scal_symm.
  by rewrite Z; exact/scal_psd/lexx.
by move=> x x0; rewrite qf_scal ltr_pmul2r ?sqn_gt0 // ten7_1.
Qed.

Lemma dict_examples :
  let p := Props (Fin (10%:R ^- 3)) (Fin (10%:R ^- 5)) 20 30 : props R in
  List.Forall (@valid R) [:: Ell (vec (const_mx 1 : 'cV[R]_2)) (mat (1%:M : 'M[R]_2)) p; Ell (vec (0 : 'cV[R]_0)) (mat (0 : 'M[R]_0)) p].
Proof.
move=> p; have Hp : exists2 r : R, p_rel p = Fin r & 0 < r by exists (10%:R ^- 5) => //; exact: ten5.
constructor; [|constructor=> //].
  exists 2%N, (const_mx 1), 1%:M, (10%:R ^- 3); split; split=> //; [exact: ten3|exact: scal_symm|exact/scal_psd/ler01].
exists 0%N, 0, 0, (10%:R ^- 3); split; split=> //; first exact: ten3.
  by rewrite /symm trmx0.
by move=> x; rewrite /qf mul0mx dotv0r.
Qed.

Lemma is_degenerate_rank s es : List.Forall (@good R) es -> eigvalsh_ok la ->
  exists2 bs, is_degenerate la (Arr s es) = Ok (Arr s bs) &
    results (fun n _ Q _ b => (\rank Q < n)%N -> b = true) es bs.
Proof.
move=> H Hla; have [bs Eb Hb] := is_degenerate_run s H Hla; exists bs => //.
elim: {Eb H} Hb => [|e b l l' Heb _ IH]; constructor=> // n c Q t Hr rk.
have [[_ _ _ t0] [HQ Hq _]] := Hr; have := Heb n c Q t Hr; case: b Heb => // Heb [] /(_ erefl) h _.
have U : Q \in unitmx.
  apply: posdef_unit => x x0; apply: le_lt_trans (h x x0).
  by rewrite mulr_ge0 ?sqn_ge0 // ltW.
by move: rk; rewrite -row_free_unit in U; rewrite (eqP U) ltnn.
Qed.

Lemma scal_det1 (t : R) : \det (t%:M : 'M[R]_1) = t. Proof. by rewrite det_scalar expr1. Qed.

Lemma flat1 e (t : R) : repr e (0 : 'cV_1) (t%:M : 'M[R]_1) t ->
  ~ (forall x : 'cV[R]_1, x != 0 -> t * sqn x < qf t%:M x).
Proof.
move=> _ H; have := H (const_mx 1); rewrite qf_scal ltxx => /(_ _)/negP; apply=> //.
by apply/eqP => /matrixP/(_ 0 0); rewrite !mxE => /eqP; rewrite oner_eq0.
Qed.

Lemma degenerate_full_rank e (t : R) : eigvalsh_ok la -> repr e (0 : 'cV_1) (t%:M : 'M[R]_1) t ->
  is_degenerate la (Arr [:: 1%N] [:: e]) = Ok (Arr [:: 1%N] [:: true]) /\ \rank (t%:M : 'M[R]_1) = 1%N.
Proof.
move=> Hla Hr; have t0 : 0 < t by case: Hr => -[].
have Hg : List.Forall (@good R) [:: e] by constructor=> //; exists 1%N, 0, t%:M, t.
split.
  have [bs -> Hb] := is_degenerate_run [:: 1%N] Hg Hla; congr (Ok (Arr _ _)).
  inversion Hb as [|? b ? l He Hn]; subst; inversion Hn; subst; congr cons.
  by case: b He {Hb} => // He; have := (He 1%N 0 t%:M t Hr).1 erefl; move/(flat1 Hr).
apply/eqP; rewrite -[_ == _]/(row_free (t%:M : 'M[R]_1)) row_free_unit unitmxE scal_det1 unitfE.
by rewrite gt_eqF.
Qed.

Lemma volume_agrees (vf : volfun R) pi s es : List.Forall (@good R) es ->
  eigvalsh_ok la -> det_ok la -> volfun_ok vf pi ->
  exists2 vs, volume la vf (Arr s es) = Ok vs &
    results (fun n _ Q t v => (forall x, x != 0 -> t * sqn x < qf Q x) \/ ~ posdef Q ->
      ell_volume la vf (mat Q) = Ok (vol_value v)) es vs.
Proof.
move=> H Hla Hdet Hvf; have [vs Ev Hv] := volume_run s H Hla Hdet Hvf; exists vs => //.
elim: {Ev H} Hv => [|e v l l' Hev _ IH]; constructor=> // n c Q t Hr.
have [[_ _ _ t0] [HQ Hq _]] := Hr; have [H1 H2] := Hev n c Q t Hr.
have E := ell_volume_run Hvf Hdet.
rewrite E ?psd_det //; case=> [h|h]; first by rewrite H1.
rewrite (degenerate_det HQ Hq h) sqrtr0 mulr0 H2 // => h'; apply: h => x x0.
by apply: le_lt_trans (h' x x0); rewrite mulr_ge0 ?sqn_ge0 // ltW.
Qed.

Lemma volume_disagrees (vf : volfun R) pi e (t : R) : eigvalsh_ok la -> det_ok la -> volfun_ok vf pi ->
  repr e (0 : 'cV_1) (t%:M : 'M[R]_1) t ->
  volume la vf (Arr [:: 1%N] [:: e]) = Ok [:: VolArr0 R] /\
  exists2 v, ell_volume la vf (mat (t%:M : 'M[R]_1)) = Ok (Fin v) & 0 < v.
Proof.
move=> Hla Hdet Hvf Hr; have t0 : 0 < t by case: Hr => -[].
have Hg : List.Forall (@good R) [:: e] by constructor=> //; exists 1%N, 0, t%:M, t.
split.
  have [vs -> Hv] := volume_run [:: 1%N] Hg Hla Hdet Hvf; congr Ok.
  inversion Hv as [|? v ? l He Hn]; subst; inversion Hn; subst; congr cons.
  by apply: (He 1%N 0 t%:M t Hr).2; exact: flat1 Hr.
eexists; first by apply: (ell_volume_run Hvf Hdet) => //; rewrite ?scal_det1 ltW.
by rewrite scal_det1 mulr_gt0 ?sqrtr_gt0 //= ltr0n.
Qed.

Lemma uminus_tolerance cfg p t e : eigvalsh_ok la -> props_of cfg (no_kw R) p t -> valid e ->
  p_abs (e_props e) <> Fin t ->
  exists2 r, uminus la cfg (Arr [::] [:: e]) = Ok (Arr [::] [:: r]) & p_abs (e_props r) <> p_abs (e_props e).
Proof.
move=> Hla Hp He Ht; have Hv : List.Forall (@valid R) [:: e] by constructor.
have [rs -> [H1 _ H2]] := uminus_run [::] Hla Hp Hv.
inversion H1 as [|? r ? l Hr Hn]; subst; inversion Hn; subst.
exists r => //; inversion H2 as [|? ? Ep _ E1]; rewrite Ep; case: Hp => _ -> _ _; exact: nesym.
Qed.

End Ex.
