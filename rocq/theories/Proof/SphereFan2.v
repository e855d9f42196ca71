(** Refinement keeps fans fans, and keeps antipodal meshes antipodal. *)
From mathcomp Require Import all_ssreflect all_algebra.
From mathcomp Require Import ring.
From Verif.Model Require Import Py NP Tri Sphere.
From Verif.Spec Require Import TriSpec SphereSpec.
From Verif.Proof Require Import NPLib MatLib TriMap TriStep TriRefine TriFull TriLoop TriShrink TriTop TriDec SphereProof SphereFan.
From mathcomp.zify Require Import zify.
Set Implicit Arguments.
Unset Strict Implicit.
Unset Printing Implicit Defensive.
Import Order.Theory GRing.Theory Num.Theory.
Local Open Scope ring_scope.

Lemma perm3P (T : eqType) (a b c d e f : T) : perm_eq [:: a; b; c] [:: d; e; f] ->
  (a, b, c) \in [:: (d, e, f); (d, f, e); (e, d, f); (e, f, d); (f, d, e); (f, e, d)].
Proof.
move=> H.
have P2 (x y z t : T) : perm_eq [:: x; y] [:: z; t] -> (x, y) = (z, t) \/ (x, y) = (t, z).
  move=> H2; have : x \in [:: z; t] by rewrite -(perm_mem H2) mem_head.
  rewrite !inE => /orP[]/eqP E; subst x; [left|right].
    by move: H2; rewrite perm_cons => /perm_small_eq -/(_ isT)[->].
  move: H2; rewrite -[[:: z; t]]cat1s perm_sym perm_catC perm_cons => /perm_small_eq -/(_ isT)[->] //.
have : a \in [:: d; e; f] by rewrite -(perm_mem H) mem_head.
rewrite !inE => /or3P[]/eqP E; subst a.
- by move: H; rewrite perm_cons => /P2[][-> ->]; rewrite !eqxx ?orbT.
- have : perm_eq [:: e; b; c] [:: e; d; f] by rewrite (perm_trans H) //; apply/permP => P /=; rewrite addnCA.
  by rewrite perm_cons => /P2[][-> ->]; rewrite !eqxx ?orbT.
- have : perm_eq [:: f; b; c] [:: f; d; e] by rewrite (perm_trans H) //; apply/permP => P /=; rewrite !addn0 addnA addnC.
  by rewrite perm_cons => /P2[][-> ->]; rewrite !eqxx ?orbT.
Qed.

Section Step.
Variable R : rcfType.
Implicit Types (t : tri R 3).

(** every vertex belongs to a face *)
Definition covered (vs : seq 'rV[R]_3) (fs : seq face) : Prop :=
  forall i, (i < size vs)%N -> exists2 f, f \in fs & i \in verts f.

Lemma fan_uniq vs fs : fan vs fs -> covered vs fs -> uniq vs.
Proof.
move=> Hf Hc; apply/(uniqP 0) => i j; rewrite !inE => Hi Hj E; apply/eqP/negPn/negP => ij.
have [f ff fi] := Hc _ Hi; have [g gg gj] := Hc _ Hj.
pose dl (x v : nat) : R := (v == x)%:R.
have S x (h : face) : x \in verts h -> exists2 w : nat -> R, (forall v, 0 <= w v) & \sum_(v <- verts h) w v *: nth 0 vs v = nth 0 vs x /\
    (forall v, on (verts h) w v != 0 -> v = x) /\ on (verts h) w x != 0.
  move=> Hx; pose m : R := (count_mem x (verts h))%:R; have m0 : 0 < m by rewrite ltr0n -has_count has_pred1.
  exists (fun v => (v == x)%:R / m); first by move=> v; rewrite divr_ge0 ?ler0n.
  split; last first.
    split=> [v|]; rewrite /on; last by rewrite Hx eqxx mul1r invr_eq0 lt0r_neq0.
    by case: ifP => [_|_ /eqP //]; case: (eqVneq v x) => // _; rewrite mul0r eqxx.
  have -> : \sum_(v <- verts h) ((v == x)%:R / m) *: nth 0 vs v = \sum_(v <- verts h) ((v == x)%:R / m) *: nth 0 vs x.
    by apply: eq_bigr => v _; case: eqP => [->|_] //; rewrite mul0r !scale0r.
  rewrite -scaler_suml -mulr_suml -natr_sum.
  rewrite (_ : (\sum_(v <- verts h) (v == x))%:R = m) ?divff ?lt0r_neq0 ?scale1r //.
  have -> // : (\sum_(v <- verts h) (v == x) = count_mem x (verts h))%N.
  by elim: (verts h) => [|y l IH]; rewrite ?big_nil // big_cons IH.
have [w w0 [Sw [Ow Nw]]] := S _ _ fi; have [w' w0' [Sw' [Ow' Nw']]] := S _ _ gj.
have := Hf _ _ _ _ ff gg w0 w0'; rewrite Sw Sw' => /(_ E i) Ei.
by move: Nw; rewrite Ei => /Ow' ji; rewrite ji eqxx in ij.
Qed.

(** what one pass of sphere_tri does to a closed outward mesh *)
Variables (t t' : tri R 3).
Hypotheses (Hb : ball t) (St : step 0 (@normvert R) t = Ok t').
Notation N := (size (t_v t)).
Notation E := (t_e t).
Notation n := (size (t_f t)).
Notation e_ k := (nth e_def E k).
Notation v_ i := (nth 0 (t_v t) i).
Notation v' i := (nth 0 (t_v t') i).
Let Hl := ball_long Hb.

Definition mdl (x y : 'rV[R]_3) : 'rV[R]_3 := normed (2%:R^-1 *: (x + y)).
Lemma mdlC x y : mdl x y = mdl y x. Proof. by rewrite /mdl addrC. Qed.
Lemma vlenN d (x : 'rV[R]_d) : vlen (- x) = vlen x.
Proof. by rewrite /vlen; congr Num.sqrt; apply: eq_bigr => j _; rewrite !mxE mulrNN. Qed.
Lemma mdlN x y : mdl (- x) (- y) = - mdl x y.
Proof. by rewrite /mdl /normed -opprD scalerN vlenN scalerN. Qed.

Lemma Hcm : closed_mesh t. Proof. by case: Hb. Qed.
Lemma mids : midpoints 0 t = [seq 2%:R^-1 *: (v_ e.1 + v_ e.2) | e <- E].
Proof. by have [_ Hm _ _ _] := Hcm; rewrite /midpoints (full_edges (len_size Hm) Hl) mask_true. Qed.
Lemma next : t_v t' = t_v t ++ [seq normed x | x <- midpoints 0 t] /\ t_f t' = sF 0 t.
Proof.
have Ha : normvert (midpoints 0 t) = Ok [seq normed x | x <- midpoints 0 t].
  rewrite /normvert; case: hasP => // -[x /mapP[e /mem_mask/(ball_edge Hb)[H _] ->]].
  by rewrite vlen_eq0 scaler_eq0 (negbTE H) orbF invr_eq0 pnatr_eq0.
by move: St; rewrite (stepE Ha) => -[<-].
Qed.
Lemma size_next : size (t_v t') = (N + size E)%N.
Proof. by have [-> _] := next; rewrite size_cat size_map mids size_map. Qed.
Lemma old i : (i < N)%N -> v' i = v_ i. Proof. by move=> Hi; have [-> _] := next; rewrite nth_cat Hi. Qed.
Lemma new k : (k < size E)%N -> v' (N + k) = mdl (v_ (e_ k).1) (v_ (e_ k).2).
Proof.
move=> Hk; have [-> _] := next; rewrite nth_cat ltnNge leq_addr addKn (nth_map 0) ?mids ?size_map //.
by rewrite (nth_map e_def).
Qed.
Definition cf (k : nat) : R := if (k < size E)%N then (vlen (2%:R^-1 *: (v_ (e_ k).1 + v_ (e_ k).2)))^-1 * 2%:R^-1 else 1.
Lemma cf0 k : 0 < cf k.
Proof.
rewrite /cf; case: ltnP => Hk; last exact: ltr01.
have [H _] := ball_edge Hb (mem_nth e_def Hk).
by rewrite mulr_gt0 ?invr_gt0 ?ltr0n // lt_neqAle eq_sym vlen_eq0 vlen_ge0 scaler_eq0 (negbTE H) orbF invr_eq0 pnatr_eq0.
Qed.
Lemma new_cf k : (k < size E)%N -> v' (N + k) = cf k *: (v_ (e_ k).1 + v_ (e_ k).2).
Proof. by move=> Hk; rewrite new // /mdl /normed scalerA /cf Hk. Qed.

Lemma faces_next f : (f \in t_f t') = (f \in flatten [seq sub t i | i <- iota 0 n]).
Proof.
have [_ ->] := next; have [Hc Hm _ _ _] := Hcm.
by rewrite (perm_mem (full_perm Hc (len_size Hm) Hl)).
Qed.

(** the edges of face i, and only those, join two of its vertices *)
Notation kx i := (kk t i).
Lemma face_edges i : (i < n)%N -> let f := fc t i in
  [/\ [/\ f0 f != f1 f, f0 f != f2 f & f1 f != f2 f], [/\ (f0 f < N)%N, (f1 f < N)%N & (f2 f < N)%N],
      [/\ ends E (kx i).1.1 (f0 f) (f1 f), ends E (kx i).2 (f0 f) (f2 f) & ends E (kx i).1.2 (f1 f) (f2 f)],
      [/\ (kx i).1.1 < size E, (kx i).2 < size E & (kx i).1.2 < size E]%N &
      [/\ (kx i).1.1 != (kx i).2, (kx i).1.1 != (kx i).1.2 & (kx i).2 != (kx i).1.2] /\
      forall k, (k < size E)%N -> k \notin [:: (kx i).1.1; (kx i).2; (kx i).1.2] -> ~~ (((e_ k).1 \in verts f) && ((e_ k).2 \in verts f))].
Proof.
move=> Hi f; have [Hc [_ Hr] Hp _ [Hu Ho]] := Hcm.
have /and3P[p1 p2 p3] := allP Hp _ (mem_nth f_def Hi); rewrite -/(fc t i) -/f in p1 p2 p3.
have [d0 d1 d2] : [/\ f0 f < N, f1 f < N & f2 f < N]%N by split; apply: (f_lt Hr Hi); rewrite !inE eqxx ?orbT.
have [_ _ /(_ i Hi)/and3P[]] := Hc; rewrite -/(fc t i) -/f -/(kk t i) => r1 r2 r3.
have Q k b x y : records E k b (x, y) -> ends E k x y /\ (k < size E)%N.
  by move=> /andP[Hk /eqP He]; rewrite /ends He Hk; case: (b); rewrite /flip /= eqxx ?orbT.
have [s1 l1] := Q _ _ _ _ r1; have [s2 l2] := Q _ _ _ _ r2; have [s3 l3] := Q _ _ _ _ r3.
have DD x y z u k k' : ends E k x y -> ends E k' z u -> [|| (x != z) && (x != u), (y != z) && (y != u) | false] -> k != k'.
  move=> h1 h2 h3; apply/eqP => Ek; subst k'; move: h1 h2; rewrite /ends => /orP[]/eqP -> /orP[]/eqP[? ?]; subst; move: h3; rewrite ?eqxx ?andbF //= ?orbF; by rewrite ?andbF.
split=> //; split.
  by split; [apply: (DD _ _ _ _ _ _ s1 s3)|apply: (DD _ _ _ _ _ _ s1 s2)|apply: (DD _ _ _ _ _ _ s3 s2)];
    rewrite ?p1 ?p2 ?p3 ?(eq_sym (f1 f)) ?(eq_sym (f2 f)) ?p1 ?p2 ?p3 /= ?orbT.
move=> k Hk Hnk; apply/negP => /andP[h1 h2].
have U k' b e : records E k' b e -> e_ k = e \/ e_ k = flip e -> k = k'.
  move=> Hr' He; have M' := mu_rec Hu Ho Hr'.
  have : mu t e = (N + k)%N.
    case: He => He; [apply: (mu_rec Hu Ho (b := true))|apply: (mu_rec Hu Ho (b := false))]; by rewrite /records Hk He ?eqxx.
  by rewrite M' => /eqP; rewrite eqn_add2l => /eqP.
have ne : (e_ k).1 != (e_ k).2.
  have : e_ k \in all_darts (t_f t) by rewrite (perm_mem Ho) mem_cat mem_nth.
  case/flattenP => s /mapP[g /(allP Hp)/and3P[g1 g2 g3] ->].
  by rewrite !inE => /or3P[]/eqP -> //=; rewrite eq_sym.
have K k' : k' \in [:: (kx i).1.1; (kx i).2; (kx i).1.2] -> k <> k' by move=> H E'; rewrite E' H in Hnk.
case Ek: (e_ k) h1 h2 ne => [x y] /=; rewrite !inE => /or3P[]/eqP Ex /or3P[]/eqP Ey; subst x y; rewrite ?eqxx // => _.
- by apply: (K (kx i).1.1); rewrite ?inE ?eqxx // ; apply: (U _ _ _ r1); rewrite Ek; left.
- by apply: (K (kx i).2); rewrite ?inE ?eqxx ?orbT // ; apply: (U _ _ _ r3); rewrite Ek; left.
- by apply: (K (kx i).1.1); rewrite ?inE ?eqxx // ; apply: (U _ _ _ r1); rewrite Ek; right.
- by apply: (K (kx i).1.2); rewrite ?inE ?eqxx ?orbT // ; apply: (U _ _ _ r2); rewrite Ek; left.
- by apply: (K (kx i).2); rewrite ?inE ?eqxx ?orbT // ; apply: (U _ _ _ r3); rewrite Ek; right.
- by apply: (K (kx i).1.2); rewrite ?inE ?eqxx ?orbT // ; apply: (U _ _ _ r2); rewrite Ek; right.
Qed.

Notation det s w D f := (let T := \sum_(v <- verts f) D v in
  [/\ forall v, 0 <= D v, \sum_(v <- s) w v *: v' v = \sum_(v <- verts f) D v *: v_ v,
      forall v, (v < N)%N -> on s w v = wv (on (verts f) D v) T &
      forall k, (k < size E)%N -> 2%:R * (cf k * on s w (N + k)) = we (on (verts f) D (e_ k).1) (on (verts f) D (e_ k).2) T]).

Lemma det_perm (p q r : nat) s w (D : nat -> R) f : perm_eq [:: p; q; r] (verts f) -> determined (t_v t) (t_v t') E cf p q r s w D -> det s w D f.
Proof.
move=> Hp [H1 H2 H3 H4].
have O v : on [:: p; q; r] D v = on (verts f) D v by rewrite /on (perm_mem Hp).
rewrite !(perm_big _ Hp) /= in H2 H3 H4; split=> // x; rewrite -?O; [exact: H3|exact: H4].
Qed.

Lemma sub_det i g w : (i < n)%N -> g \in sub t i -> (forall v, 0 <= w v) -> exists D, det (verts g) w D (fc t i).
Proof.
move=> Hi Hg w0; have [[p1 p2 p3] [d0 d1 d2] [s1 s3 s2] [l1 l3 l2] [[k1 k2 k3] Ho]] := face_edges Hi.
set f := fc t i in p1 p2 p3 d0 d1 d2 s1 s2 s3 Ho *.
have C (p q r a b d : nat) (Pv : perm_eq [:: p; q; r] (verts f)) (Pk : perm_eq [:: a; b; d] [:: (kx i).1.1; (kx i).2; (kx i).1.2]) :
  forall k, (k < size E)%N -> k \notin [:: a; b; d] -> ~~ (((e_ k).1 \in [:: p; q; r]) && ((e_ k).2 \in [:: p; q; r])).
  by move=> k Hk; rewrite (perm_mem Pk) !(perm_mem Pv); exact: Ho.
have X x y z : ends E x y z = ends E x z y by rewrite /ends orbC.
have P3 (T : eqType) (x y z : T) : [/\ perm_eq [:: y; z; x] [:: x; y; z], perm_eq [:: z; x; y] [:: x; y; z] & perm_eq [:: z; y; x] [:: x; z; y]].
  by split; apply/permP => P /=; rewrite !addn0; move: (nat_of_bool (P x)) (nat_of_bool (P y)) (nat_of_bool (P z)) => *; lia.
have c0 := cf0; have Hold := old; have Hnew := new_cf.
move: Hg; rewrite /sub !inE => /or4P[]/eqP ->.
- have Pv : perm_eq [:: f0 f; f1 f; f2 f] (verts f) by [].
  have [|D /(det_perm Pv) H] := @centre _ _ (t_v t') E cf c0 Hnew _ _ _ _ _ _ p1 p2 p3 d0 d1 d2 s1 s3 s2 k1 k2 k3 l1 l3 l2 _ w w0; last by exists D.
  by apply: C.
- have Pv : perm_eq [:: f0 f; f1 f; f2 f] (verts f) by [].
  have [|D /(det_perm Pv) H] := @corner _ _ (t_v t') E cf c0 Hold Hnew _ _ _ _ _ _ p1 p2 p3 d0 d1 d2 s1 s3 s2 k1 k2 k3 l1 l3 l2 _ w w0; last by exists D.
  by apply: C.
- have [Pv _ _] := P3 _ (f0 f) (f1 f) (f2 f).
  rewrite eq_sym in p1; rewrite eq_sym in p2; rewrite X in s1; rewrite X in s3; rewrite eq_sym in k2; rewrite eq_sym in k3.
  have [|D /(det_perm Pv) H] := @corner _ _ (t_v t') E cf c0 Hold Hnew _ _ _ _ _ _ p3 p1 p2 d1 d2 d0 s2 s1 s3 k2 k3 k1 l2 l1 l3 _ w w0; last by exists D.
  by apply: C => //; apply/permP => P /=; rewrite !addn0; move: (nat_of_bool _) (nat_of_bool _) (nat_of_bool _) => *; lia.
- have [_ Pv _] := P3 _ (f0 f) (f1 f) (f2 f).
  rewrite eq_sym in p2; rewrite eq_sym in p3; rewrite X in s2; rewrite X in s3; rewrite eq_sym in k1; rewrite eq_sym in k2.
  have [|D /(det_perm Pv) H] := @corner _ _ (t_v t') E cf c0 Hold Hnew _ _ _ _ _ _ p2 p3 p1 d2 d0 d1 s3 s2 s1 k3 k1 k2 l3 l2 l1 _ w w0; last by exists D.
  by apply: C => //; apply/permP => P /=; rewrite !addn0; move: (nat_of_bool _) (nat_of_bool _) (nat_of_bool _) => *; lia.
Qed.

Lemma sub_below i g v : (i < n)%N -> g \in sub t i -> v \in verts g -> (v < N + size E)%N.
Proof.
move=> Hi; have [_ [d0 d1 d2] _ [l1 l3 l2] _] := face_edges Hi.
by rewrite /sub !inE => /or4P[]/eqP -> /or3P[]/eqP ->; rewrite ?ltn_add2l // (leq_trans _ (leq_addr _ _)).
Qed.

Lemma on_total (D : nat -> R) f : uniq (verts f) -> all (fun v => v < N)%N (verts f) -> \sum_(v <- verts f) D v = \sum_(i < N) on (verts f) D i.
Proof.
move=> Hu Hr; rewrite -(big_mkord xpredT (fun i => on (verts f) D i)) /on -big_mkcond /= -[RHS]big_filter.
apply: perm_big; apply: uniq_perm; rewrite ?filter_uniq ?iota_uniq // => v.
by rewrite mem_filter mem_index_iota /= andbC; case: (boolP (v \in verts f)) => [/(allP Hr) ->|]; rewrite ?andbF.
Qed.

Theorem fan_step : fan (t_v t) (t_f t) -> fan (t_v t') (t_f t').
Proof.
move=> Hf f g w w'; rewrite !faces_next => /flattenP[s /mapP[i]]; rewrite mem_iota add0n => /= Hi -> Hs.
move=> /flattenP[s' /mapP[j]]; rewrite mem_iota add0n => /= Hj -> Hs' w0 w0' Es.
have [D [D0 S1 V1 K1]] := sub_det Hi Hs w0; have [D' [D0' S2 V2 K2]] := sub_det Hj Hs' w0'.
have Ec : \sum_(v <- verts (fc t i)) D v *: v_ v = \sum_(v <- verts (fc t j)) D' v *: v_ v by rewrite -S1 -S2.
have Eo := Hf _ _ _ _ (mem_nth f_def Hi) (mem_nth f_def Hj) D0 D0' Ec.
have ET : \sum_(v <- verts (fc t i)) D v = \sum_(v <- verts (fc t j)) D' v.
  have [[p1 p2 p3] [d0 d1 d2] _ _ _] := face_edges Hi; have [[q1 q2 q3] [c0 c1 c2] _ _ _] := face_edges Hj.
  rewrite !on_total; [by apply: eq_bigr => k _; exact: Eo|by rewrite /verts /= ?inE ?negb_or ?p1 ?p2 ?p3 ?q1 ?q2 ?q3 ?d0 ?d1 ?d2 ?c0 ?c1 ?c2|
    by rewrite /verts /= ?inE ?negb_or ?p1 ?p2 ?p3 ?q1 ?q2 ?q3 ?d0 ?d1 ?d2 ?c0 ?c1 ?c2|
    by rewrite /verts /= ?inE ?negb_or ?p1 ?p2 ?p3 ?q1 ?q2 ?q3 ?d0 ?d1 ?d2 ?c0 ?c1 ?c2|
    by rewrite /verts /= ?inE ?negb_or ?p1 ?p2 ?p3 ?q1 ?q2 ?q3 ?d0 ?d1 ?d2 ?c0 ?c1 ?c2].
move=> v; case: (ltnP v N) => Hv; first by rewrite V1 // V2 // ET Eo.
case: (ltnP v (N + size E)) => Hv2; last first.
  rewrite /on; case: ifP => [/(sub_below Hi Hs)|_]; first lia.
  case: ifP => [/(sub_below Hj Hs')|_] //; lia.
have Hk : (v - N < size E)%N by lia.
have Ev : v = (N + (v - N))%N by lia.
have : 2%:R * (cf (v - N) * on (verts f) w (N + (v - N))) = 2%:R * (cf (v - N) * on (verts g) w' (N + (v - N))).
  by rewrite K1 // K2 // ET !Eo.
have two0 : 2%:R != 0 :> R by rewrite pnatr_eq0.
by rewrite -Ev => /(mulfI two0)/(mulfI (lt0r_neq0 (cf0 _))).
Qed.

Lemma sub_next i g : (i < n)%N -> g \in sub t i -> g \in t_f t'.
Proof. by move=> Hi Hg; rewrite faces_next; apply/flattenP; exists (sub t i) => //; apply/mapP; exists i => //; rewrite mem_iota. Qed.

Theorem covered_step : covered (t_v t) (t_f t) -> covered (t_v t') (t_f t').
Proof.
move=> Hcv v; rewrite size_next => Hv; case: (ltnP v N) => Hn.
  have [f /(nthP f_def)[i Hi <-] Hvf] := Hcv _ Hn; rewrite -/(fc t i) in Hvf.
  move: Hvf; rewrite !inE => /or3P[]/eqP ->.
  - by exists (u12 t i, u13 t i, f0 (fc t i)); rewrite ?(sub_next Hi) ?inE ?eqxx ?orbT.
  - by exists (u23 t i, u12 t i, f1 (fc t i)); rewrite ?(sub_next Hi) ?inE ?eqxx ?orbT.
  - by exists (u13 t i, u23 t i, f2 (fc t i)); rewrite ?(sub_next Hi) ?inE ?eqxx ?orbT.
have Hk : (v - N < size E)%N by lia.
have [_ _ _ _ [_ Ho]] := Hcm.
have : e_ (v - N) \in all_darts (t_f t) by rewrite (perm_mem Ho) mem_cat mem_nth.
case/flattenP => s /mapP[f /(nthP f_def)[i Hi <-] ->] Hd; rewrite -/(fc t i) in Hd.
have [_ _ _ _ [_ H]] := face_edges Hi.
exists (u12 t i, u23 t i, u13 t i); first by rewrite (sub_next Hi) ?inE ?eqxx.
have : (v - N)%N \in [:: (kx i).1.1; (kx i).2; (kx i).1.2].
  apply/negPn/negP => /(H _ Hk); rewrite negb_and; move: Hd; rewrite /darts !inE => /or3P[]/eqP -> /=; by rewrite !eqxx ?orbT.
by rewrite !inE /u12 /u23 /u13 => /or3P[]/eqP <-; rewrite subnKC // eqxx ?orbT.
Qed.

Lemma new_ends k x y : (k < size E)%N -> ends E k x y -> v' (N + k) = mdl (v_ x) (v_ y).
Proof. by move=> Hk /orP[]/eqP Ek; rewrite new // Ek //= mdlC. Qed.

(** the four corner lists of a subdivided face *)
Definition parts (x y z : 'rV[R]_3) : seq (seq 'rV[R]_3) :=
  [:: [:: mdl x y; mdl y z; mdl x z]; [:: mdl x y; mdl x z; x]; [:: mdl y z; mdl x y; y]; [:: mdl x z; mdl y z; z]].
Lemma sub_parts i : (i < n)%N -> [seq [seq v' v | v <- verts g] | g <- sub t i] = parts (v_ (f0 (fc t i))) (v_ (f1 (fc t i))) (v_ (f2 (fc t i))).
Proof.
move=> Hi; have [_ [d0 d1 d2] [s1 s3 s2] [l1 l3 l2] _] := face_edges Hi.
by rewrite /sub /parts /= /u12 /u23 /u13 (new_ends l1 s1) (new_ends l2 s2) (new_ends l3 s3) !old.
Qed.

Lemma parts_opp x y z x' y' z' l : perm_eq [:: x'; y'; z'] [:: - x; - y; - z] -> l \in parts x y z ->
  exists2 l', l' \in parts x' y' z' & perm_eq l' [seq - v | v <- l].
Proof.
have P3 (T : eqType) (a b c : T) l1 : l1 \in [:: [:: a; b; c]; [:: a; c; b]; [:: b; a; c]; [:: b; c; a]; [:: c; a; b]; [:: c; b; a]] -> perm_eq l1 [:: a; b; c].
  by rewrite !inE => /or4P[|||/or3P[]]/eqP ->; apply/permP => P /=; rewrite !addn0; move: (nat_of_bool (P a)) (nat_of_bool (P b)) (nat_of_bool (P c)) => *; lia.
move=> /perm3P; rewrite !inE => /or4P[|||/or3P[]]/eqP[-> -> ->] /or4P[]/eqP ->;
  rewrite /parts /= !mdlN ?(mdlC y x) ?(mdlC z x) ?(mdlC z y);
  (let go l := (exists l; [by rewrite !inE eqxx ?orbT|by apply: P3; rewrite !inE !eqxx ?orbT]) in
   match goal with |- context[cons ?p1 (cons ?p2 (cons ?p3 (cons ?p4 nil)))] => first [go p1|go p2|go p3|go p4] end).
Qed.

Theorem antipodal_step : antipodal (t_v t) (t_f t) -> antipodal (t_v t') (t_f t').
Proof.
move=> Ha f; rewrite faces_next => /flattenP[s /mapP[i]]; rewrite mem_iota add0n => /= Hi -> Hs.
have [g /(nthP f_def)[j Hj <-] Hp] := Ha _ (mem_nth f_def Hi).
have Hl' : [seq v' v | v <- verts f] \in parts (v_ (f0 (fc t i))) (v_ (f1 (fc t i))) (v_ (f2 (fc t i))).
  by rewrite -sub_parts //; apply/mapP; exists f.
have [l' Hl1 Hl2] := parts_opp Hp Hl'; move: Hl1; rewrite -sub_parts // => /mapP[g' Hg El].
by exists g'; [exact: (sub_next Hj)|by move: Hl2; rewrite El -map_comp].
Qed.
End Step.
