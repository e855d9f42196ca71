(** sphere_tri: the icosahedron and its refinement. *)
From mathcomp Require Import all_ssreflect all_algebra.
From mathcomp Require Import ring.
From Verif.Model Require Import Py NP Tri Sphere.
From Verif.Spec Require Import TriSpec SphereSpec.
From Verif.Proof Require Import NPLib MatLib TriMap TriStep TriRefine TriFull TriLoop TriShrink TriTop.
From mathcomp.zify Require Import zify.
Set Implicit Arguments.
Unset Strict Implicit.
Unset Printing Implicit Defensive.
Import Order.Theory GRing.Theory Num.Theory.
Local Open Scope ring_scope.

Section Vec.
Variable R : rcfType.
Implicit Types (a b c x : 'rV[R]_3).

Lemma tripleE a b c : triple a b c =
  a 0 0 * (b 0 1 * c 0 2%:R - b 0 2%:R * c 0 1) - a 0 1 * (b 0 0 * c 0 2%:R - b 0 2%:R * c 0 0)
  + a 0 2%:R * (b 0 0 * c 0 1 - b 0 1 * c 0 0).
Proof.
rewrite /triple (expand_det_row _ 0) !big_ord_recl big_ord0 /cofactor !(expand_det_row _ 0) !big_ord_recl !big_ord0 /cofactor !det_mx11 !mxE /=.
have [g E] : exists g, forall (x : 'rV[R]_3) i, x 0 i = g x (i : nat) by exists (fun x k => x 0 (inord k)) => x i; rewrite inord_val.
rewrite !E /= /bump /= !modn_small // !addnE /=.
ring.
Qed.

Lemma row3E p q r : [/\ row3 p q r 0 0 = p :> R, row3 p q r 0 1 = q :> R & row3 p q r 0 2%:R = r :> R].
Proof. by rewrite !mxE. Qed.
Lemma sum3 (F : 'I_3 -> R) : \sum_j F j = F 0 + F 1 + F 2%:R.
Proof. by rewrite !big_ord_recl big_ord0 addr0 addrA; congr (_ + F _ + F _); apply: val_inj. Qed.
Lemma triple_row p q r p' q' r' p'' q'' r'' : triple (row3 p q r) (row3 p' q' r') (row3 p'' q'' r'') =
  p * (q' * r'' - r' * q'') - q * (p' * r'' - r' * p'') + r * (p' * q'' - q' * p'') :> R.
Proof. by rewrite tripleE; have [-> -> ->] := row3E p q r; have [-> -> ->] := row3E p' q' r'; have [-> -> ->] := row3E p'' q'' r''. Qed.

Lemma vlenE d (x : 'rV[R]_d) : vlen x ^+ 2 = \sum_j x 0 j ^+ 2.
Proof. by rewrite sqr_sqrtr; [apply: eq_bigr => j _; rewrite expr2|apply: sumr_ge0 => j _; rewrite -expr2 sqr_ge0]. Qed.
Lemma vlen_eq0 d (x : 'rV[R]_d) : (vlen x == 0) = (x == 0).
Proof.
rewrite -sqrf_eq0 vlenE psumr_eq0 => [|j _]; last exact: sqr_ge0.
apply/allP/eqP => [H|-> j _]; last by rewrite /= mxE expr0n eqxx.
apply/rowP => j; have := H j; rewrite mem_index_enum => /(_ isT) /=; by rewrite sqrf_eq0 mxE => /eqP.
Qed.
Lemma triple_scale (p q r : R) a b c : triple (p *: a) (q *: b) (r *: c) = p * q * r * triple a b c.
Proof. by rewrite !tripleE !mxE; gring. Qed.
Lemma triple_mid a b c : [/\ triple (a + b) (b + c) (a + c) = 2%:R * triple a b c, triple (a + b) (a + c) a = triple a b c,
  triple (b + c) (a + b) b = triple a b c & triple (a + c) (b + c) c = triple a b c].
Proof. by rewrite !tripleE !mxE; split; gring. Qed.
Lemma triple_indep a b c : 0 < triple a b c -> [/\ a + b != 0, b + c != 0 & a + c != 0] /\ [/\ a - b != 0, b - c != 0 & a - c != 0].
Proof.
move=> H; have W (x : 'rV[R]_3) (P : Prop) : (x = 0 -> triple a b c = 0) -> x != 0.
  by move=> Hx; apply/eqP => /Hx E; rewrite E ltxx in H.
have N x y : x + y = 0 :> 'rV[R]_3 -> forall j, x 0 j = - y 0 j.
  by move=> /eqP; rewrite addr_eq0 => /eqP -> j; rewrite mxE.
have N' x y : x - y = 0 :> 'rV[R]_3 -> forall j, x 0 j = y 0 j by move=> /N E j; rewrite E mxE opprK.
split; split; apply: (W _ True) => H1; first [have E := N' _ _ H1 | have E := N _ _ H1];
  rewrite tripleE !E; gring.
Qed.
End Vec.

(** ------------------------------------------------------------------ refinement keeps a sphere a sphere *)
Section Ball.
Variable R : rcfType.
Implicit Types (t : tri R 3) (x : 'rV[R]_3).

Definition normed x : 'rV[R]_3 := (vlen x)^-1 *: x.
Definition ball t : Prop := [/\ closed_mesh t, forall x, x \in t_v t -> unit_vec x & forall f, f \in t_f t -> outward (t_v t) f].

Lemma normed_unit x : x != 0 -> unit_vec (normed x).
Proof.
move=> x0; have l0 : vlen x != 0 by rewrite vlen_eq0.
rewrite /unit_vec; under eq_bigr do rewrite mxE exprMn; by rewrite -mulr_sumr -vlenE -exprMn mulVf ?expr1n.
Qed.

Lemma normvert_size (s s' : seq 'rV[R]_3) : normvert s = Ok s' -> size s' = size s.
Proof. by rewrite /normvert; case: ifP => // _ [<-]; rewrite size_map. Qed.

Lemma ball_edge t e : ball t -> e \in t_e t -> nth 0 (t_v t) e.1 + nth 0 (t_v t) e.2 != 0 /\ nth 0 (t_v t) e.1 - nth 0 (t_v t) e.2 != 0.
Proof.
move=> [[_ _ _ _ [_ Ho]] _ Hout] He.
have : e \in all_darts (t_f t) by rewrite (perm_mem Ho) mem_cat He.
move=> /flattenP[l /mapP[f /Hout/triple_indep[[p1 p2 p3] [m1 m2 m3]] ->]].
rewrite !inE => /or3P[] /eqP -> //=; split=> //; first by rewrite addrC.
by rewrite -opprB oppr_eq0.
Qed.

Lemma ball_long t : ball t -> all (fun l => 0 < l) (t_len t).
Proof.
move=> Hb; have [[_ [-> _] _ _ _] _ _] := Hb; apply/allP => l /mapP[e /(ball_edge Hb)[_ H] ->].
by rewrite lt_neqAle eq_sym vlen_eq0 H vlen_ge0.
Qed.

Lemma ball_step t : ball t -> exists2 t', step 0 (@normvert R) t = Ok t' & ball t'.
Proof.
move=> Hb; have Hl := ball_long Hb; have [Hcm Hu Hout] := Hb; have [Hc Hm Hp Hsim Hda] := Hcm.
have Sl := len_size Hm.
pose vn := [seq normed x | x <- midpoints 0 t].
have Ha : normvert (midpoints 0 t) = Ok vn.
  rewrite /normvert; case: hasP => // -[x /mapP[e /mem_mask/(ball_edge Hb)[H _] ->]].
  by rewrite vlen_eq0 scaler_eq0 (negbTE H) orbF invr_eq0 pnatr_eq0.
have St := stepE Ha; eexists; [exact: St|].
have [Hcm' _ _ _] := full_step normvert_size Hcm Hl St; split=> //=.
  move=> x; rewrite mem_cat => /orP[/Hu //|/mapP[y /mapP[e /mem_mask/(ball_edge Hb)[H _] ->] ->]].
  by apply: normed_unit; rewrite scaler_eq0 (negbTE H) orbF invr_eq0 pnatr_eq0.
set vs := t_v t ++ vn; have [_ Hr] := Hm.
have mids : midpoints 0 t = [seq 2%:R^-1 *: (nth 0 (t_v t) e.1 + nth 0 (t_v t) e.2) | e <- t_e t].
  by rewrite /midpoints (full_edges Sl Hl) mask_true.
have new k b (x y : nat) : records (t_e t) k b (x, y) -> exists2 p, 0 < p & nth 0 vs (size (t_v t) + k) = p *: (nth 0 (t_v t) x + nth 0 (t_v t) y).
  move=> /andP[Hk /eqP He]; rewrite nth_cat ltnNge leq_addr addKn (nth_map 0) ?mids ?size_map // (nth_map e_def) //.
  have [H _] := ball_edge Hb (mem_nth e_def Hk).
  have -> : nth 0 (t_v t) x + nth 0 (t_v t) y = nth 0 (t_v t) (nth e_def (t_e t) k).1 + nth 0 (t_v t) (nth e_def (t_e t) k).2.
    by rewrite He; case: (b) => //=; rewrite addrC.
  rewrite /normed scalerA; eexists; last by [].
  by rewrite mulr_gt0 ?invr_gt0 ?ltr0n // lt_neqAle eq_sym vlen_eq0 vlen_ge0 scaler_eq0 (negbTE H) orbF invr_eq0 pnatr_eq0.
have old (x : nat) : (x < size (t_v t))%N -> nth 0 vs x = nth 0 (t_v t) x by move=> Hx; rewrite nth_cat Hx.
move=> f; rewrite (full_FF Hc Sl Hl) => Hf.
have W i : (i < size (t_f t))%N -> [/\ outward vs (u12 t i, u23 t i, u13 t i), outward vs (u12 t i, u13 t i, f0 (fc t i)),
   outward vs (u23 t i, u12 t i, f1 (fc t i)) & outward vs (u13 t i, u23 t i, f2 (fc t i))].
  move=> Hi; have T0 := Hout _ (mem_nth f_def Hi); rewrite -/(fc t i) in T0.
  have [_ _ /(_ i Hi)/and3P[/new[p p0 Ep] /new[q q0 Eq] /new[r r0 Er]]] := Hc.
  have [d0 d1 d2] : [/\ f0 (fc t i) < size (t_v t), f1 (fc t i) < size (t_v t) & f2 (fc t i) < size (t_v t)]%N.
    by split; apply: (f_lt Hr Hi); rewrite !inE eqxx ?orbT.
  have X0 (x y z : nat) : f0 (x, y, z) = x by [].
  have X1 (x y z : nat) : f1 (x, y, z) = y by [].
  have X2 (x y z : nat) : f2 (x, y, z) = z by [].
  rewrite /outward !X0 !X1 !X2 /u12 /u23 /u13 /kk Ep Eq Er !old //.
  move: T0; rewrite /outward; set a := nth 0 (t_v t) _; set b := nth 0 (t_v t) _; set c := nth 0 (t_v t) _ => T0.
  have [t1 t2 t3 t4] := triple_mid a b c.
  have P x y z (u v w : R) : 0 < u -> 0 < v -> 0 < w -> 0 < triple x y z -> 0 < triple (u *: x) (v *: y) (w *: z).
    by move=> u0 v0 w0 z0; rewrite triple_scale !mulr_gt0.
  have P1 x y z (u v : R) : 0 < u -> 0 < v -> 0 < triple x y z -> 0 < triple (u *: x) (v *: y) z.
    by move=> u0 v0 z0; rewrite -(scale1r z); apply: P; rewrite ?ltr01 ?scale1r.
  by split; [apply: P|apply: P1|apply: P1|apply: P1]; rewrite // ?t1 ?t2 ?t3 ?t4 // mulr_gt0 ?ltr0n.
have C : forall i, i \in iota 0 (size (t_f t)) -> (i < size (t_f t))%N by move=> i; rewrite mem_iota.
by move: Hf; rewrite !mem_cat => /or4P[] /mapP[i /C/W[]] ? ? ? ? ->.
Qed.

Lemma ball_run n t : ball t -> t_len t != [::] -> exists2 t', full_run 0 (@normvert R) n t t' & ball t'.
Proof.
elim: n t => [|n IH] t Hb H0; first by exists t.
have [t1 St Hb1] := ball_step Hb; have Hl := ball_long Hb; have [Hcm _ _] := Hb.
have [Hc1 _ Ee _] := full_step normvert_size Hcm Hl St; have [_ Hm _ _ _] := Hcm; have [_ Hm1 _ _ _] := Hc1.
have L1 : t_len t1 != [::].
  move: H0; rewrite -!size_eq0 (len_size Hm1) (len_size Hm) Ee; lia.
by have [t' Hr Hb'] := IH _ Hb1 L1; exists t' => //; split=> //; exists t1.
Qed.
End Ball.
