(** Proofs about Model/Ellipsoid.v: constructor, scalar characteristics, volume, uminus, dicts. *)
From mathcomp Require Import all_ssreflect all_algebra.
Require Import Coq.Strings.String.
From mathcomp.algebra_tactics Require Import ring.
From Verif.Model Require Import Py NP NP3 Linalg Compare La Core EllGeom Ellipsoid.
From Verif.Spec Require Import MatSpec LinalgSpec EllSpec EllipsoidSpec.
From Verif.Proof Require Import NPLib NP3Lib MatLib OrthLib LaBasic Decomp EllLib EllGeomProof.
Set Implicit Arguments.
Unset Strict Implicit.
Unset Printing Implicit Defensive.
Import Order.Theory GRing.Theory Num.Theory.
Local Open Scope ring_scope.

Section Ctor.
Variable R : rcfType.
Variable la : linalg R.
Notation X := (xnum R).
Notation A := (arr X).
Variables (cfg : props R) (k : kwargs R) (p : props R) (t : R).
Hypothesis Hp : props_of cfg k p t.

Lemma parse_props_ok : parse_props cfg k = Ok p.
Proof.
case: Hp => Ep Et t0 [r Er r0]; rewrite Ep /= in Et Er.
by rewrite /parse_props Et Er /xgt /= t0 r0 /= Ep Et Er.
Qed.

Lemma fin_data_mat m n (M : 'M[R]_(m, n)) : all (@xis_fin R) (data (mat M)).
Proof. by apply/all_mkn => idx. Qed.
Lemma fin_data_vec n (v : 'cV[R]_n) : all (@xis_fin R) (data (vec v)).
Proof. by apply/all_mkn => idx. Qed.

Lemma size_mat m n (M : 'M[R]_(m, n)) : np_size (mat M) = (m * n)%N.
Proof. by rewrite /np_size /= muln1. Qed.
Lemma size_vec n (v : 'cV[R]_n) : np_size (vec v) = n.
Proof. by rewrite /np_size /= muln1. Qed.

Lemma holds_flat n (c : 'cV[R]_n) ca : holds c ca -> np_flatten ca = vec c.
Proof. by case; rewrite ?np_flatten_vec ?np_flatten_col ?np_flatten_row ?trmxK. Qed.
Lemma holds_fin n (c : 'cV[R]_n) ca : holds c ca -> all (@xis_fin R) (data ca).
Proof. by case; rewrite ?fin_data_vec ?fin_data_mat. Qed.
Lemma holds_max n (c : 'cV[R]_n) ca : (0 < n)%N -> holds c ca -> max_shape ca = Ok n /\ np_size ca = n.
Proof.
move=> n0 [] /=; rewrite ?size_vec ?size_mat /max_shape /= ?muln1 ?mul1n; split=> //; congr Ok;
  [exact/maxn_idPr | exact/maxn_idPl].
Qed.

Lemma set_center_ok n (c : 'cV[R]_n) ca : (0 < n)%N -> holds c ca -> set_center (Fin t) (RealArr ca) = Ok (vec c).
Proof.
case: Hp => _ _ t0 _ n0 Hc; rewrite /set_center try_real // rbind_okE /= .
have [-> ->] := holds_max n0 Hc; rewrite rbind_okE eqxx /= -/(data (np_flatten ca)).
by rewrite (holds_flat Hc) -(holds_flat Hc) /= (holds_fin Hc).
Qed.

Lemma set_shapeE (q : A) : ndim q = 2%N -> dim q 0 = dim q 1 -> set_shape la (Fin t) (RealArr q) =
  if (0 < np_size q)%N then
    if ~~ all (@xis_fin R) (data q) then throw "wrongInput:shape_mat" else
    let* s := is_mat_symm q (Fin t) in
    let* p := if s then is_mat_pos_def la q (Fin t) true else Ok false in
    if ~~ p then throw "wrongInput:shape_mat" else Ok q
  else Ok q.
Proof.
by case: Hp => _ _ t0 _ E1 E2; rewrite /set_shape E1 E2 !eqxx /= t0 /=.
Qed.

Lemma set_shape_run n (Q : 'M[R]_n) : eigvalsh_ok la -> (0 < n)%N ->
  (near_psd t Q -> set_shape la (Fin t) (RealArr (mat Q)) = Ok (mat Q)) /\
  (~ near_psd t Q -> set_shape la (Fin t) (RealArr (mat Q)) = throw "wrongInput:shape_mat").
Proof.
case: Hp => _ _ t0 _ Hla n0.
rewrite set_shapeE // size_mat muln_gt0 n0 [_ && _]/= fin_data_mat [if ~~ true then _ else _]/=.
have [b -> Hb] := is_mat_symm_mat Q (ltW t0); rewrite rbind_okE.
case: b Hb => Hb; last by split=> [[/Hb]|] //.
have Hs := Hb.1 isT; have [b' -> Hb'] := is_mat_pos_def_spec true Hla n0 (ltW t0) Hs.
rewrite rbind_okE; case: b' Hb' => /= Hb'; first by split=> // -[]; split=> //; exact: Hb'.1.
by split=> // -[_ /Hb'].
Qed.

Lemma ctor_run n (c : 'cV[R]_n) ca (Q : 'M[R]_n) : eigvalsh_ok la -> (0 < n)%N -> holds c ca ->
  (near_psd t Q -> mk_ell la cfg (CBoth (RealArr ca) (RealArr (mat Q))) k = Ok (Ell (vec c) (mat Q) p)) /\
  (~ near_psd t Q ->
   mk_ell la cfg (CBoth (RealArr ca) (RealArr (mat Q))) k = throw "wrongInput:shape_mat").
Proof.
move=> Hla n0 Hc; rewrite /mk_ell parse_props_ok rbind_okE.
have -> : p_abs p = Fin t by case: Hp.
rewrite (set_center_ok n0 Hc) rbind_okE; have [H1 H2] := set_shape_run Q Hla n0.
split=> H; [rewrite H1 // | by rewrite H2].
by rewrite rbind_okE size_vec dimE eqxx.
Qed.

Lemma ctor1_run n (Q : 'M[R]_n) : eigvalsh_ok la -> (0 < n)%N ->
  (near_psd t Q -> mk_ell la cfg (CShape (RealArr (mat Q))) k = Ok (Ell (vec (0 : 'cV_n)) (mat Q) p)) /\
  (~ near_psd t Q -> mk_ell la cfg (CShape (RealArr (mat Q))) k = throw "wrongInput:shape_mat").
Proof.
move=> Hla n0; rewrite /mk_ell parse_props_ok rbind_okE.
have -> : p_abs p = Fin t by case: Hp.
have [H1 H2] := set_shape_run Q Hla n0.
by split=> H; [rewrite H1 // rbind_okE dimE np_zeros_vec | rewrite H2].
Qed.

Lemma ctor0_run : mk_ell la cfg (CNone R) k = Ok (Ell (vec (0 : 'cV[R]_0)) (mat (0 : 'M[R]_0)) p).
Proof. by rewrite /mk_ell parse_props_ok rbind_okE np_zeros_vec np_zeros_mat. Qed.

(** whatever is accepted is a finite matrix, square, nearly symmetric and semidefinite, with a finite
    vector of its size *)
Lemma near_psd_dec n (Q : 'M[R]_n) : eigvalsh_ok la -> (0 < n)%N -> near_psd t Q \/ ~ near_psd t Q.
Proof.
case: Hp => _ _ t0 _ Hla n0; have [[] _ Hb] := is_mat_symm_mat Q (ltW t0); last by right=> -[/Hb].
have [[] _ Hb'] := is_mat_pos_def_spec true Hla n0 (ltW t0) (Hb.1 isT); last by right=> -[_ /Hb'].
by left; split; [exact: Hb.1 | exact: Hb'.1].
Qed.

Lemma set_shape_sound (q : A) sh : eigvalsh_ok la -> wf_arr q -> set_shape la (Fin t) (RealArr q) = Ok sh ->
  sh = q /\ exists n (Q : 'M[R]_n), q = mat Q /\ ((0 < n)%N -> near_psd t Q).
Proof.
move=> Hla wq H.
case: (eqVneq (ndim q) 2%N) => [Eq|/negbTE Eq]; last by move: H; rewrite /set_shape Eq.
case: (eqVneq (dim q 0) (dim q 1)) => [Ed|/negbTE Ed]; last by move: H; rewrite /set_shape Eq Ed.
have [n Es] : exists n, shape q = [:: n; n].
  by move: Eq Ed; rewrite /ndim /dim; case: (shape q) => [|n [|m [|]]] //= _ ->; exists m.
move: (H); rewrite set_shapeE //; case: (posnP n) => n0.
  have Ef : all (@xis_fin R) (data q).
    by move: wq; rewrite /wf_arr Es n0 /= => /eqP; case: (data q).
  have [Q EQ] := fin_mat wq Es Ef; rewrite /np_size Es n0 /= => -[<-]; split=> //.
  by exists n, Q; split=> // h; exfalso; move: h; rewrite {1}n0.
have -> : (0 < np_size q)%N by rewrite /np_size Es /= muln1 muln_gt0 n0.
case Ef : (all (@xis_fin R) (data q)) => //.
have [Q EQ] := fin_mat wq Es Ef; move=> _; rewrite EQ in H *.
have [H1 H2] := set_shape_run Q Hla n0; have [Hn|Hn] := near_psd_dec Q Hla n0; last by rewrite H2 in H.
by move: H; rewrite H1 // => -[<-]; split=> //; exists n, Q.
Qed.

Lemma set_center_sound (c : A) ce : wf_arr c -> set_center (Fin t) (RealArr c) = Ok ce ->
  exists n (v : 'cV[R]_n), [/\ ce = vec v, data c = data (vec v) & max_shape c = Ok n].
Proof.
case: Hp => _ _ t0 _ wc; rewrite /set_center try_real // rbind_okE /=.
case Em : (max_shape c) => [m|] //=; case: eqP => //= Es; case: ifP => //= /negbFE Ef [<-].
have Hs : size (data c) = m by rewrite -Es; exact/eqP.
have wf : wf_arr (np_flatten c) by rewrite /wf_arr /= muln1.
have [v Ev] := @fin_vec _ (np_flatten c) m wf (congr1 (fun n => [:: n]) Hs) Ef; exists m, v.
by split=> //; exact: (congr1 (@data _) Ev).
Qed.

End Ctor.

Section Ctor2.
Variable R : rcfType.
Variable la : linalg R.
Notation X := (xnum R).
Notation A := (arr X).

Lemma near_psd_exact n (t : R) (Q : 'M[R]_n) : 0 < t -> symm Q -> psd Q -> near_psd t Q.
Proof.
move=> t0 HQ Hq; split=> [i j|x]; first by rewrite -{1}HQ mxE subrr normr0 ltW.
rewrite lowsym_symm //; apply: le_trans (Hq x).
by rewrite mulNr oppr_le0 mulr_ge0 ?sqn_ge0 // ltW.
Qed.

Lemma ctor_sound cfg k p t (ca qa : A) e : props_of cfg k p t -> eigvalsh_ok la -> wf_arr ca -> wf_arr qa ->
  mk_ell la cfg (CBoth (RealArr ca) (RealArr qa)) k = Ok e ->
  exists n (c : 'cV[R]_n) (Q : 'M[R]_n),
    [/\ qa = mat Q, data ca = data (vec c), max_shape ca = Ok n, e = Ell (vec c) (mat Q) p &
        ((0 < n)%N -> near_psd t Q)].
Proof.
move=> Hp Hla wc wq; rewrite /mk_ell (parse_props_ok Hp) rbind_okE.
have -> : p_abs p = Fin t by case: Hp.
case Ec : (set_center _ _) => [ce|] //; rewrite rbind_okE.
case Eq : (set_shape _ _ _) => [sh|] //; rewrite rbind_okE.
have [n [v [E1 E2 E3]]] := set_center_sound Hp wc Ec.
have [E4 [m [Q [E5 E6]]]] := set_shape_sound Hp Hla wq Eq.
rewrite E1 E4 E5 size_vec dimE; case: eqP => //= E [<-].
by subst m; exists n, v, Q.
Qed.

Lemma ctor_mismatch cfg k p t m n (c : 'cV[R]_m) ca (Q : 'M[R]_n) : props_of cfg k p t -> eigvalsh_ok la ->
  (0 < m)%N -> (0 < n)%N -> holds c ca -> near_psd t Q -> m != n ->
  mk_ell la cfg (CBoth (RealArr ca) (RealArr (mat Q))) k = throw "wrongInput".
Proof.
move=> Hp Hla m0 n0 Hc HQ mn; rewrite /mk_ell (parse_props_ok Hp) rbind_okE.
have -> : p_abs p = Fin t by case: Hp.
rewrite (set_center_ok Hp m0 Hc) rbind_okE; have [-> //] := set_shape_run Hp Q Hla n0.
by rewrite rbind_okE size_vec dimE mn.
Qed.

Lemma ctor_nonsquare cfg k p t (qa : A) : props_of cfg k p t ->
  (ndim qa != 2%N) || (dim qa 0 != dim qa 1) ->
  mk_ell la cfg (CShape (RealArr qa)) k = throw "wrongInput:shape_mat" /\
  forall n (c : 'cV[R]_n) ca, (0 < n)%N -> holds c ca ->
    mk_ell la cfg (CBoth (RealArr ca) (RealArr qa)) k = throw "wrongInput:shape_mat".
Proof.
move=> Hp H; have Es : set_shape la (p_abs p) (RealArr qa) = throw "wrongInput:shape_mat".
  by rewrite /set_shape; case: ifP => // E1; move: H; rewrite E1 orFb => ->.
split=> [|n c ca n0 Hc]; rewrite /mk_ell (parse_props_ok Hp) rbind_okE ?Es //.
have -> : p_abs p = Fin t by case: Hp.
by rewrite (set_center_ok Hp n0 Hc) rbind_okE.
Qed.

Lemma ctor_badcenter cfg k p t (ca : A) q m : props_of cfg k p t -> max_shape ca = Ok m ->
  np_size ca <> m \/ ~~ all (@xis_fin R) (data ca) ->
  mk_ell la cfg (CBoth (RealArr ca) q) k = throw "wrongInput:center_vec".
Proof.
move=> Hp Hm H; rewrite /mk_ell (parse_props_ok Hp) rbind_okE.
have -> : p_abs p = Fin t by case: Hp.
have t0 : 0 < t by case: Hp.
rewrite /set_center try_real // rbind_okE rbind_okE Hm rbind_okE.
case: eqP => [E|] //=; case: H => // H; by rewrite H.
Qed.

Lemma ctor_nonfinite cfg k p t (qa : A) n (c : 'cV[R]_n) ca : props_of cfg k p t -> (0 < n)%N -> holds c ca ->
  (0 < np_size qa)%N -> ~~ all (@xis_fin R) (data qa) ->
  mk_ell la cfg (CBoth (RealArr ca) (RealArr qa)) k = throw "wrongInput:shape_mat".
Proof.
move=> Hp n0 Hc H0 H.
case E1 : (ndim qa == 2%N); last by apply: (ctor_nonsquare Hp _).2 n0 Hc; rewrite E1.
case E2 : (dim qa 0 == dim qa 1); last by apply: (ctor_nonsquare Hp _).2 n0 Hc; rewrite E2 orbT.
rewrite /mk_ell (parse_props_ok Hp) rbind_okE.
have -> : p_abs p = Fin t by case: Hp.
rewrite (set_center_ok Hp n0 Hc) rbind_okE (set_shapeE _ Hp (eqP E1) (eqP E2)).
by rewrite H0 H.
Qed.

Lemma ctor_badtol cfg k args : ~~ xgt (odflt (p_abs cfg) (k_abs k)) x0 \/ ~~ xgt (odflt (p_rel cfg) (k_rel k)) x0 ->
  mk_ell la cfg args k = throw "wrongInput".
Proof.
move=> H; rewrite /mk_ell /parse_props; case: ifP => // /negbFE H1.
by case: H => H; [rewrite H1 in H | rewrite H].
Qed.

(** complex matrices: a small imaginary part is dropped *)
Lemma ctor_cplx cfg k p t n (re im : 'M[R]_n) : props_of cfg k p t -> (0 < n)%N ->
  ((forall i, \sum_j `|im i j| < t) ->
   mk_ell la cfg (CShape (CplxArr (mat re) (mat im))) k = mk_ell la cfg (CShape (RealArr (mat re))) k) /\
  (forall i, t <= \sum_j `|im i j| ->
   mk_ell la cfg (CShape (CplxArr (mat re) (mat im))) k = throw "wrongInput:inp_mat").
Proof.
move=> Hp n0; have t0 : 0 < t by case: Hp.
have Et : p_abs p = Fin t by case: Hp.
have E : forall q, (q = RealArr (mat re) \/ q = CplxArr (mat re) (mat im)) ->
    set_shape la (Fin t) q = (let* r := try_treat_as_real q (PReal (Fin t)) in
    let* a := float_arr r in
    if (0 < np_size a)%N then
      if ~~ all (@xis_fin R) (data a) then throw "wrongInput:shape_mat" else
      let* s := is_mat_symm a (Fin t) in
      let* p := if s then is_mat_pos_def la a (Fin t) true else Ok false in
      if ~~ p then throw "wrongInput:shape_mat" else Ok a
    else Ok a).
  by move=> q [->|->]; rewrite /set_shape dim_mat eqxx [if ~~ true then _ else _]/= dimE eqxx.
have Hz : im = 0 -> forall i, \sum_j `|im i j| = 0.
  by move=> -> i; rewrite big1 // => j _; rewrite mxE normr0.
split=> [H|i Hi]; rewrite /mk_ell (parse_props_ok Hp) !rbind_okE Et (E (CplxArr _ _)) ?(E (RealArr _)); auto.
  have [im0|im0] := eqVneq im 0.
    by rewrite try_cplx_zero ?all_zero_mat ?im0 // try_real // !rbind_okE.
  have [r [-> [[-> _]|[_ [i Hi]]]]] := try_cplx_mat re n0 t0 im0; first by rewrite try_real.
  by move: (H i); rewrite ltNge Hi.
have im0 : im != 0 by apply/eqP => im0; move: Hi; rewrite Hz // leNgt t0.
have [r [-> [[-> H]|[-> _]]]] := try_cplx_mat re n0 t0 im0 => //.
by move: (H i); rewrite ltNge Hi.
Qed.

End Ctor2.
