(** The icosahedron is an antipodal fan; so are the spheres made from it. *)
From mathcomp Require Import all_ssreflect all_algebra.
From mathcomp Require Import ring.
From Verif.Model Require Import Py NP Tri Sphere.
From Verif.Spec Require Import TriSpec SphereSpec.
From Verif.Proof Require Import NPLib MatLib TriMap TriStep TriRefine TriFull TriLoop TriShrink TriTop TriDec SphereProof Icosa SphereFan SphereFan2 SphereIco.
From mathcomp.zify Require Import zify.
Set Implicit Arguments.
Unset Strict Implicit.
Unset Printing Implicit Defensive.
Import Order.Theory GRing.Theory Num.Theory.
Local Open Scope ring_scope.

Section Ico.
Variables (R : rcfType) (tr : trig R).
Hypothesis Hg : angle_ok tr (t_pi tr / 5%:R) 10.
Notation h := (t_pi tr / 5%:R).
Notation q := (Num.sqrt (5%:R : R)).
Notation C i := (Cg tr h i).
Notation S i := (Sg tr h i).
Notation iv v := (nth 0 (ico_verts tr) v).
Notation gram := (gram Hg).

Lemma dot_unit (x : 'rV[R]_3) : unit_vec x -> dotp x x = 1.
Proof. by move=> <-; rewrite /dotp; apply: eq_bigr => j _; rewrite expr2. Qed.
Lemma dotC (x y : 'rV[R]_3) : dotp x y = dotp y x. Proof. by rewrite /dotp; apply: eq_bigr => j _; rewrite mulrC. Qed.
Lemma dot_comb (I : Type) (s : seq I) (w : I -> R) (u : I -> 'rV[R]_3) x : dotp (\sum_(i <- s) w i *: u i) x = \sum_(i <- s) w i * dotp (u i) x.
Proof.
elim: s => [|i s IH]; first by rewrite !big_nil /dotp big1 // => j _; rewrite mxE mul0r.
rewrite !big_cons -IH /dotp mulr_sumr -big_split /=; apply: eq_bigr => j _.
by rewrite !mxE mulrDl mulrA.
Qed.
Lemma iv_unit v : (v < 12)%N -> dotp (iv v) (iv v) = 1.
Proof. by move=> Hv; apply: dot_unit; apply: (ico_unit Hg); apply: mem_nth. Qed.

Definition m : R := 1 + 2%:R * (q / 5%:R).
(** how far a vertex reaches in the direction of a face *)
Definition reach (f : face) (v : nat) : R := \sum_(u <- verts f) dotp (iv u) (iv v).

Lemma face_below f : f \in ico_faces -> forall v, v \in verts f -> (v < 12)%N.
Proof. by move=> ff v vf; have /allP/(_ _ ff)/allP/(_ _ vf) : all (fun f => all (fun v => v < 12)%N (verts f)) ico_faces by []. Qed.
Lemma face_uniq f : f \in ico_faces -> uniq (verts f).
Proof. by move=> ff; have /allP/(_ _ ff) : all (fun f => uniq (verts f)) ico_faces by []. Qed.
Lemma in_face f u v : f \in ico_faces -> u \in verts f -> v \in verts f -> u != v -> dotp (iv u) (iv v) = q / 5%:R.
Proof.
move=> ff uf vf uv; case: (gram (face_below ff uf) (face_below ff vf) uv) => [//|[/hasPn/(_ _ ff)]].
by rewrite uf vf.
Qed.
Lemma reach_in f v : f \in ico_faces -> v \in verts f -> reach f v = m.
Proof.
move=> ff vf; rewrite /reach (perm_big _ (perm_to_rem vf)) big_cons iv_unit ?(face_below ff) //; congr (_ + _).
rewrite big_seq (eq_bigr (fun _ => q / 5%:R)) => [|u].
  rewrite -big_seq big_const_seq count_predT size_rem // iter_addr_0 -mulr_natl /verts /=; congr (_ * _).
by rewrite mem_rem_uniq ?face_uniq // inE => /andP[uv uf]; apply: (in_face ff).
Qed.
Lemma reach_out f v : f \in ico_faces -> (v < 12)%N -> v \notin verts f -> reach f v < m.
Proof.
move=> ff Hv vf; have q5 : 0 < q / 5%:R by rewrite divr_gt0 ?ltr0n ?q0.
have q1 : q / 5%:R < 1.
  rewrite ltr_pdivr_mulr ?ltr0n // mul1r -(ltr_pexpn2r (n := 2)) // ?nnegrE ?ler0n ?(ltW (q0 _)) // q2 -natrX ltr_nat //.
have L u : u \in verts f -> dotp (iv u) (iv v) <= q / 5%:R.
  move=> uf; have uv : u != v by apply: contraNneq vf => <-.
  case: (gram (face_below ff uf) Hv uv) => [->|[_ [->|->]]]; rewrite ?lexx //; apply: (le_trans _ (ltW q5)); rewrite oppr_le0 ?ler01 ?(ltW q5) //.
apply: (le_lt_trans (y := 3%:R * (q / 5%:R))).
  rewrite /reach big_seq; apply: (le_trans (ler_sum _ L)).
  by rewrite -big_seq big_const_seq count_predT iter_addr_0 mulr_natl.
by rewrite /m (_ : 3%:R = 1 + 2%:R) ?mulrDl ?mul1r ?ltr_add2r // -natrD.
Qed.

(** three vectors with a positive triple product are independent *)
Lemma indep (x y z : 'rV[R]_3) (l mm n : R) : 0 < triple x y z -> l *: x + mm *: y + n *: z = 0 -> [/\ l = 0, mm = 0 & n = 0].
Proof.
rewrite /triple; set A := \matrix_(i, j) _ => d0 E.
have U : A \in unitmx by rewrite unitmxE unitfE lt0r_neq0.
have : \row_(i < 3) nth 0 [:: l; mm; n] i *m A = 0.
  rewrite -E; apply/rowP => j; rewrite !mxE !big_ord_recl big_ord0 !mxE /=; ring.
move/(congr1 (mulmx^~ (invmx A))); rewrite mulmxK // mul0mx => /rowP H.
by have := H 0; have := H 1; have := H 2%:R; rewrite !mxE /= => -> -> ->.
Qed.

Lemma dot_reach f v : dotp (iv v) (\sum_(u <- verts f) 1 *: iv u) = reach f v.
Proof. by rewrite dotC dot_comb; apply: eq_bigr => u _; rewrite mul1r. Qed.
Lemma reach_le f g (w : nat -> R) : f \in ico_faces -> g \in ico_faces -> (forall v, 0 <= w v) ->
  \sum_(v <- verts g) w v * reach f v <= m * \sum_(v <- verts g) w v ?= iff all (fun v => (v \in verts f) || (w v == 0)) (verts g).
Proof.
move=> ff gg w0; rewrite mulr_sumr.
have L v : v \in verts g -> w v * reach f v <= m * w v ?= iff ((v \in verts f) || (w v == 0)).
  move=> vg; rewrite mulrC; case: (boolP (v \in verts f)) => [vf|vf] /=; first by rewrite (reach_in ff vf); apply/leif_refl.
  have := reach_out ff (face_below gg vg) vf; case: (eqVneq (w v) 0) => [-> _|w1 H]; first by rewrite !mulr0; apply/leif_refl.
  have P : reach f v * w v < m * w v by rewrite ltr_pmul2r // lt_def w1 w0.
  by split; [exact: ltW|exact: lt_eqF].
elim: (verts g) L => [|v l IH] L; first by rewrite !big_nil /=; apply/leif_refl.
by rewrite !big_cons /=; apply: leif_add; [apply: L; rewrite mem_head|apply: IH => u ul; apply: L; rewrite inE ul orbT].
Qed.
Lemma on_swap (s t : seq nat) (w : nat -> R) (x : nat -> 'rV[R]_3) : uniq s -> uniq t -> \sum_(v <- s) on t w v *: x v = \sum_(v <- t) on s w v *: x v.
Proof.
move=> us ut.
have F (a b : seq nat) : \sum_(v <- a) on b w v *: x v = \sum_(v <- [seq v <- a | v \in b]) w v *: x v.
  rewrite big_filter [RHS]big_mkcond; apply: eq_bigr => v _; rewrite /on; case: ifP => // _; exact: scale0r.
rewrite !F; apply: perm_big; apply: uniq_perm; rewrite ?filter_uniq // => v; by rewrite !mem_filter andbC.
Qed.
Theorem ico_fan : fan (ico_verts tr) ico_faces.
Proof.
move=> f g w w' ff gg w0 w0' E.
have Ef (k : face) (u : nat -> R) (l : face) : dotp (\sum_(v <- verts k) u v *: iv v) (\sum_(v <- verts l) 1 *: iv v) = \sum_(v <- verts k) u v * reach l v.
  by rewrite dot_comb; apply: eq_bigr => v _; rewrite dot_reach.
have Es (k : face) (u : nat -> R) : k \in ico_faces -> \sum_(v <- verts k) u v * reach k v = m * \sum_(v <- verts k) u v.
  by move=> kk; rewrite mulr_sumr big_seq [RHS]big_seq; apply: eq_bigr => v vk; rewrite (reach_in kk vk) mulrC.
have [L1 I1] := reach_le ff gg w0'; have [L2 I2] := reach_le gg ff w0.
have A1 : m * (\sum_(v <- verts f) w v) = \sum_(v <- verts g) w' v * reach f v by rewrite -Es // -Ef E Ef.
have A2 : m * (\sum_(v <- verts g) w' v) = \sum_(v <- verts f) w v * reach g v by rewrite -Es // -Ef -E Ef.
have AE : m * (\sum_(v <- verts f) w v) = m * \sum_(v <- verts g) w' v by apply/eqP; rewrite eq_le {1}A1 L1 A2 L2.
have Z' : forall v, v \in verts g -> v \notin verts f -> w' v = 0.
  move: I1; rewrite -A1 AE eqxx => /esym/allP H v vg vf; by have := H v vg; rewrite (negbTE vf) => /eqP.
have Z : forall v, v \in verts f -> v \notin verts g -> w v = 0.
  move: I2; rewrite -A2 AE eqxx => /esym/allP H v vf vg; by have := H v vf; rewrite (negbTE vg) => /eqP.
have S0 : \sum_(v <- verts f) (w v - on (verts g) w' v) *: iv v = 0.
  rewrite (eq_bigr (fun v => w v *: iv v - on (verts g) w' v *: iv v)) => [|v _]; last by rewrite scalerBl.
  rewrite sumrB E on_swap ?face_uniq //; apply/eqP; rewrite subr_eq0; apply/eqP.
  rewrite big_seq [RHS]big_seq; apply: eq_bigr => v vg; rewrite /on; case: ifP => // /negbT vf; by rewrite (Z' _ vg vf).
have H v : v \in verts f -> w v = on (verts g) w' v.
  have := indep (ico_outward Hg ff); move: S0; rewrite /verts !big_cons big_nil addr0 !addrA => S0 /(_ _ _ _ S0)[/subr0_eq e0 /subr0_eq e1 /subr0_eq e2].
  by rewrite !inE => /or3P[]/eqP->.
move=> v; rewrite {1}/on; case: ifP => [/H //|/negbT vf]; rewrite /on; case: ifP => // vg.
by rewrite (Z' _ vg vf).
Qed.
Theorem ico_covered : covered (ico_verts tr) ico_faces.
Proof.
move=> i Hi; have /allP/(_ i) : all (fun i => has (fun f => i \in verts f) ico_faces) (iota 0 12) by [].
by rewrite mem_iota => /(_ Hi)/hasP[f ff fi]; exists f.
Qed.
Definition opp_ix : seq nat := [:: 11; 8; 9; 10; 6; 7; 4; 5; 1; 2; 3; 0]%N.
Lemma opp_pg a z i : - pg tr h a z i = pg tr h a (- z) (i + 5).
Proof.
apply/rowP => j; rewrite mxE /pg; have [e0 e1 e2] := row3E (a * C i) (a * S i) z; have [g0 g1 g2] := row3E (a * C (i + 5)) (a * S (i + 5)) (- z).
case: j => [[|[|[|//]]]] Hj.
- by rewrite (_ : Ordinal Hj = 0) ?e0 ?g0 ?(C_turn Hg) ?mulrN //; apply/val_inj.
- by rewrite (_ : Ordinal Hj = 1) ?e1 ?g1 ?(S_turn Hg) ?mulrN //; apply/val_inj.
- by rewrite (_ : Ordinal Hj = 2%:R) ?e2 ?g2 //; apply/val_inj.
Qed.
Lemma pg_per a z i : pg tr h a z (i + 10) = pg tr h a z i.
Proof. by rewrite /pg (Cg_per Hg) (Sg_per Hg). Qed.
Lemma pg0 z i j : pg tr h 0 z i = pg tr h 0 z j. Proof. by rewrite /pg !mul0r. Qed.
Lemma opp_iv v : (v < 12)%N -> iv (nth 0%N opp_ix v) = - iv v.
Proof.
have P a z i j : i = j + 10 -> pg tr h a z i = pg tr h a z j by move=> ->; exact: pg_per.
rewrite icoE; do 12 (try (case: v => [|v])); move=> // _; rewrite /ico_list /= opp_pg ?opprK.
all: try exact: pg0.
all: first [congr (pg _ _ _ _ _); done|exact: P|exact/esym/P].
Qed.
Theorem ico_antipodal : antipodal (ico_verts tr) ico_faces.
Proof.
move=> f ff; have /allP/(_ _ ff)/hasP[g gg E] : all (fun f => has (fun g => perm_eq (verts g) [seq nth 0%N opp_ix v | v <- verts f]) ico_faces) ico_faces by vm_compute.
exists g => //; apply: (perm_trans (perm_map _ E)); rewrite -map_comp.
rewrite (_ : [seq - iv v | v <- verts f] = [seq ((nth 0 (ico_verts tr)) \o (nth 0%N opp_ix)) v | v <- verts f]) //.
by apply/eq_in_map => v /(face_below ff)/opp_iv <-.
Qed.

Variable argsort : seq nat -> seq nat.
Hypothesis Harg : argsortn_ok argsort.
Theorem sphere_fan fuel d vs fs : (d <= fuel)%N -> sphere_tri tr argsort fuel (IInt d%:Z) = Some (Ok (vs, fs)) ->
  [/\ sphere_mesh d vs fs, fan vs fs, antipodal vs fs & covered vs fs].
Proof.
move=> Hd; have [t0 [Es Hb Ev Ef L0]] := ico_start Hg Harg.
have [t Hr Hbt] := ball_run d Hb L0.
have [s' El _] := loop_full (k := 0%N) (s := stats0 t0) Hd (erefl _) Hr.
rewrite /sphere_tri /= Es El => -[<- <-].
have [_ A B Cv] : [/\ ball t, fan (t_v t) (t_f t), antipodal (t_v t) (t_f t) & covered (t_v t) (t_f t)].
  apply: (full_run_inv (I := fun t => [/\ ball t, fan (t_v t) (t_f t), antipodal (t_v t) (t_f t) & covered (t_v t) (t_f t)]) _ _ Hr).
    move=> u u' [B1 F1 A1 C1] Hl St; have [u2 St2 B2] := ball_step B1.
    move: (St2); rewrite St => -[E]; rewrite -E in B2; split=> //; [exact: fan_step St F1|exact: antipodal_step St A1|exact: covered_step St C1].
  by rewrite Ev Ef; split=> //; [exact: ico_fan|exact: ico_antipodal|exact: ico_covered].
by split=> //; exact: run_mesh Hb Ev Ef Hr Hbt.
Qed.
Theorem sphere_uniq fuel d vs fs : (d <= fuel)%N -> sphere_tri tr argsort fuel (IInt d%:Z) = Some (Ok (vs, fs)) ->
  uniq vs /\ forall x, x \in vs -> - x \in vs.
Proof.
move=> Hd E; have [[_ _ Hb _ _] F A Cv] := sphere_fan Hd E; split; first exact: fan_uniq F Cv.
move=> x /(nthP 0)[i Hi <-]; have [f ff fi] := Cv _ Hi; have [g gg P] := A _ ff.
have : - nth 0 vs i \in [seq nth 0 vs v | v <- verts g] by rewrite (perm_mem P); apply/mapP; exists i.
by case/mapP => v vg ->; apply: mem_nth; move/allP/(_ _ gg)/allP/(_ _ vg): Hb.
Qed.
End Ico.
