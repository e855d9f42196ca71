(** shrink_face_tri: lengths, vertices, the loop. *)
From mathcomp Require Import all_ssreflect all_algebra.
From mathcomp Require Import ring.
From Verif.Model Require Import Py NP Tri.
From Verif.Spec Require Import TriSpec.
From Verif.Proof Require Import NPLib TriMap TriStep TriRefine TriFull.
From mathcomp.zify Require Import zify.
Set Implicit Arguments.
Unset Strict Implicit.
Unset Printing Implicit Defensive.
Import Order.Theory GRing.Theory Num.Theory.

Section Len.
Variables (R : rcfType) (d : nat).
Implicit Types (t : tri R d) (vs : seq 'rV[R]_d) (x : 'rV[R]_d).

Lemma vlen_ge0 x : (0 <= vlen x)%R. Proof. exact: sqrtr_ge0. Qed.
Lemma vlenZ (a : R) x : (0 <= a)%R -> vlen (a *: x)%R = (a * vlen x)%R.
Proof.
move=> a0; rewrite /vlen.
have -> : (\sum_j (a *: x) 0 j * (a *: x) 0 j = a ^+ 2 * \sum_j x 0 j * x 0 j)%R.
  by rewrite mulr_sumr; apply: eq_bigr => j _; rewrite !mxE mulrACA expr2.
by rewrite sqrtrM ?sqr_ge0 // sqrtr_sqr ger0_norm.
Qed.
Lemma vlenN x : vlen (- x)%R = vlen x.
Proof. by rewrite /vlen; congr (Num.sqrt _); apply: eq_bigr => j _; rewrite !mxE mulrNN. Qed.
Lemma half_left x y : (x - 2%:R^-1 *: (x + y) = 2%:R^-1 *: (x - y))%R.
Proof. by apply/rowP => j; rewrite !mxE; field. Qed.
Lemma half_right x y : (2%:R^-1 *: (x + y) - y = 2%:R^-1 *: (x - y))%R.
Proof. by apply/rowP => j; rewrite !mxE; field. Qed.
Lemma edge_len_flip vs e : edge_len vs (flip e) = edge_len vs e.
Proof. by rewrite /edge_len /flip /= -opprB vlenN. Qed.
Lemma edge_len_rec vs es k b e : records es k b e -> edge_len vs (nth e_def es k) = edge_len vs e.
Proof. by move=> /andP[_ /eqP ->]; case: b => //; rewrite edge_len_flip. Qed.
Lemma edge_len_cat vs vs' e : (e.1 < size vs)%N -> (e.2 < size vs)%N -> edge_len (vs ++ vs') e = edge_len vs e.
Proof. by move=> h1 h2; rewrite /edge_len !nth_cat h1 h2. Qed.
Lemma vlen_eq0 x : (vlen x == 0%R) = (x == 0%R).
Proof.
have S0 : (0 <= \sum_j x 0 j * x 0 j)%R by apply: sumr_ge0 => j _; exact: sqr_ge0.
rewrite /vlen sqrtr_eq0; apply/idP/eqP => [Hle|->]; last by rewrite big1 // => j _; rewrite mxE mul0r.
have /eqP : (\sum_j x 0 j * x 0 j = 0)%R by apply/eqP; rewrite eq_le Hle S0.
rewrite psumr_eq0; last by move=> j _; exact: sqr_ge0.
move=> /allP H; apply/rowP => j; have := H j (mem_index_enum j); rewrite mxE => /eqP/eqP; by rewrite mulf_eq0 orbb => /eqP.
Qed.
Lemma vlen_gt0 x : (0 < vlen x)%R = (x != 0%R).
Proof. by rewrite lt_def vlen_ge0 andbT vlen_eq0. Qed.
End Len.

(** what the edges of a mesh are worth, and that they exist *)
Definition measured (R : rcfType) d (t : tri R d) : Prop :=
  t_len t = [seq edge_len (t_v t) e | e <- t_e t] /\ in_range (size (t_v t)) (t_e t) (t_f t).

Section General.
Variables (R : rcfType) (d : nat) (m : R).
Variable t : tri R d.
Hypothesis Hs : strict_split m t.
Hypothesis Hm : measured t.
Let nv := size (t_v t).

Lemma len_size : size (t_len t) = size (t_e t). Proof. by case: Hm => -> _; rewrite size_map. Qed.
Lemma nth_len k : k < size (t_e t) -> nth 0%R (t_len t) k = edge_len (t_v t) (nth e_def (t_e t) k).
Proof. by case: Hm => -> _ Hk; rewrite (nth_map e_def). Qed.
Lemma edge_lt e : e \in t_e t -> (e.1 < nv) && (e.2 < nv).
Proof. by case: Hm => _ /andP[/allP H _] /H. Qed.
Lemma face_lt f x : f \in t_f t -> x \in verts f -> x < nv.
Proof. by case: Hm => _ /andP[_ /allP H] /H/allP; apply. Qed.

Lemma mid_vert i : nth false (split_edges m t) i ->
  nth 0%R (t_v t ++ midpoints m t) (mid m t i) =
  (2%:R^-1 *: (nth 0 (t_v t) (nth e_def (t_e t) i).1 + nth 0 (t_v t) (nth e_def (t_e t) i).2))%R.
Proof.
move=> Hi; have Hsz := size_ise m t; have Hi' := nth_true Hi; rewrite Hsz in Hi'.
rewrite nth_cat /mid ltnNge leq_addr /= addKn /midpoints (nth_map e_def) ?size_mask ?rk_lt //.
by rewrite nth_mask.
Qed.

(** the lengths after a pass *)
Lemma kept_not_long k : nth false (kept_edges m t) k -> k < size (t_e t) /\ (nth 0 (t_len t) k <= m)%R.
Proof.
move=> Hk; have Hks := nth_true Hk; rewrite size_isk in Hks; split=> //.
move: Hk; rewrite /kept_edges (nth_map 0) ?size_iota // nth_iota // add0n => /hasP[r Hr kr].
have [E1 _ _ _] := Hs; have Sf := size_isf Hs.
move: Hr => /(nthP f_def)[x]; rewrite size_mask; last by rewrite !size_map.
move=> /rk_inv[j Hj <-]; have Hjs := nth_true Hj; rewrite size_map Sf in Hjs.
rewrite nth_mask ?E1 // => Er; move: Hj; rewrite (nth_map false) ?Sf // (split_over len_size Hs Hjs) Er /over.
by rewrite !negb_or -!leNgt => /and3P[h1 h2 h3]; case/or3P: kr => /eqP ->.
Qed.

Lemma rest_len vn : mask (kept_edges m t) (t_len t) = [seq edge_len (t_v t ++ vn) e | e <- mask (kept_edges m t) (t_e t)].
Proof.
have [-> _] := Hm; rewrite -map_mask; apply/eq_in_map => e /mem_mask/edge_lt/andP[h1 h2].
by rewrite edge_len_cat.
Qed.
Lemma sLen_eq vn : sLen m t vn = [seq edge_len (t_v t ++ vn) e | e <- sE m t].
Proof. by rewrite /sLen (rest_len vn) -map_cat. Qed.

(** a new edge is half as long as an old one *)
Lemma new_half e : e \in sE1 m t ++ sE2 m t -> exists2 l, l \in t_len t & edge_len (t_v t ++ midpoints m t) e = (2%:R^-1 * l)%R.
Proof.
have [Hl _] := Hm.
have I k : nth false (split_edges m t) k -> k < size (t_e t) by move=> /nth_true; rewrite size_ise.
have inl k : nth false (split_edges m t) k -> nth 0%R (t_len t) k \in t_len t by move=> /I Hk; rewrite mem_nth // len_size.
have Rv k b x y : records (t_e t) k b (x, y) -> nth false (split_edges m t) k ->
  nth 0%R (t_v t ++ midpoints m t) (mid m t k) = (2%:R^-1 *: (nth 0 (t_v t) x + nth 0 (t_v t) y))%R.
  move=> /andP[_ /eqP Ek] Hk; rewrite mid_vert // Ek; case: b {Ek} => //=; by rewrite addrC.
rewrite mem_cat => /orP[].
  have inner j : j < count id (split_faces m t) -> let r := nth f_def (mask (split_faces m t) (t_f2e t)) j in
    exists l1 l2 l3, [/\ [/\ l1 \in t_len t, l2 \in t_len t & l3 \in t_len t],
       edge_len (t_v t ++ midpoints m t) (mid m t r.1.1, mid m t r.1.2) = (2%:R^-1 * l3)%R,
       edge_len (t_v t ++ midpoints m t) (mid m t r.1.1, mid m t r.2) = (2%:R^-1 * l2)%R &
       edge_len (t_v t ++ midpoints m t) (mid m t r.1.2, mid m t r.2) = (2%:R^-1 * l1)%R].
    move=> Hj r; have /and3P[h1 h2 h3] := part_old Hs Hj; rewrite -/r in h1 h2 h3.
    have s1 : nth false (split_edges m t) r.1.1 by apply: (part_split Hs Hj); rewrite /in3 eqxx.
    have s2 : nth false (split_edges m t) r.1.2 by apply: (part_split Hs Hj); rewrite /in3 eqxx orbT.
    have s3 : nth false (split_edges m t) r.2 by apply: (part_split Hs Hj); rewrite /in3 eqxx !orbT.
    exists (nth 0%R (t_len t) r.1.1), (nth 0%R (t_len t) r.1.2), (nth 0%R (t_len t) r.2).
    have Hh : (0 <= 2%:R^-1 :> R)%R by rewrite invr_ge0 ler0n.
    rewrite !inl // !nth_len ?I // (edge_len_rec _ h1) (edge_len_rec _ h2) (edge_len_rec _ h3); split=> //;
      rewrite /edge_len ?(Rv _ _ _ _ h1) ?(Rv _ _ _ _ h2) ?(Rv _ _ _ _ h3) // -?scalerBr ?vlenZ //; congr (_ * _)%R.
    - by rewrite opprD addrA addrK.
    - by rewrite opprD addrACA subrr add0r.
    by rewrite opprD addrACA subrr addr0 -vlenN opprB.
  have [A B C] := size_m Hs.
  have mj (s s' : seq nat) : size s = count id (split_faces m t) -> size s' = count id (split_faces m t) -> e \in zip s s' ->
    exists2 j, j < count id (split_faces m t) & e = (nth 0 s j, nth 0 s' j).
    move=> Es Es' /(nthP (0, 0))[j]; rewrite size_zip Es Es' minnn => Hj <-; exists j => //; by rewrite nth_zip // Es.
  rewrite !mem_cat => /or3P[] /mj[] // j Hj ->; have [q1 q2 q3] := m_nth Hs Hj; have [l1 [l2 [l3 [[i1 i2 i3] e1 e2 e3]]]] := inner j Hj; rewrite ?q1 ?q2 ?q3;
    by [exists l3|exists l2|exists l1].
have Hh : (0 <= 2%:R^-1 :> R)%R by rewrite invr_ge0 ler0n.
have Sm := size_me m t.
have key j : j < count id (split_edges m t) -> exists k, [/\ nth false (split_edges m t) k, nth e_def (mask (split_edges m t) (t_e t)) j = nth e_def (t_e t) k &
   nv + j = mid m t k].
  by move=> /rk_inv[k Hk <-]; exists k; split=> //; rewrite nth_mask ?I.
have L k : nth false (split_edges m t) k -> ((nth e_def (t_e t) k).1 < nv) && ((nth e_def (t_e t) k).2 < nv) by move=> /I Hk; apply: edge_lt; rewrite mem_nth.
rewrite /sE2 mem_cat => /orP[] /(nthP (0, 0))[j]; rewrite size_zip size_map Sm size_iota minnn => Hj <-;
  rewrite nth_zip ?size_map ?Sm ?size_iota // nth_iota // (nth_map e_def) ?Sm //; have [k [Hk -> Em]] := key j Hj;
  exists (nth 0%R (t_len t) k); rewrite ?inl // nth_len ?I // /edge_len Em (mid_vert Hk); have /andP[a b] := L k Hk; rewrite nth_cat /= ?a ?b -vlenZ //.
  by rewrite half_left.
by rewrite half_right.
Qed.
End General.

Section Range.
Variables (R : rcfType) (d : nat) (m : R).
Variable t : tri R d.
Hypothesis Hs : strict_split m t.
Hypothesis Hm : measured t.
Let nv := size (t_v t).
Let nn := count id (split_edges m t).

Lemma mid_lt i : nth false (split_edges m t) i -> mid m t i < nv + nn.
Proof. by move=> Hi; rewrite /mid ltn_add2l rk_lt. Qed.
Lemma edges_range e : e \in sE m t -> (e.1 < nv + nn) && (e.2 < nv + nn).
Proof.
have Ge x : x < nv -> x < nv + nn by move=> Hx; exact: leq_trans Hx (leq_addr _ _).
have GeE x : x \in t_e t -> (x.1 < nv + nn) && (x.2 < nv + nn).
  by move=> /(edge_lt Hm)/andP[a b]; rewrite !Ge.
rewrite /sE mem_cat => /orP[/mem_mask/GeE //|]; rewrite mem_cat => /orP[].
  have [A B C] := size_m Hs.
  have mj (s s' : seq nat) : size s = count id (split_faces m t) -> size s' = count id (split_faces m t) -> e \in zip s s' ->
    exists2 j, j < count id (split_faces m t) & e = (nth 0 s j, nth 0 s' j).
    move=> Es Es' /(nthP (0, 0))[j]; rewrite size_zip Es Es' minnn => Hj <-; exists j => //; by rewrite nth_zip // Es.
  rewrite !mem_cat => /or3P[] /mj[] // j Hj ->; have [q1 q2 q3] := m_nth Hs Hj; rewrite /= ?q1 ?q2 ?q3 !mid_lt //;
    apply: (part_split Hs Hj); rewrite /in3 eqxx ?orbT //.
have Sm := size_me m t.
have I j : j < nn -> (nth e_def (mask (split_edges m t) (t_e t)) j) \in t_e t.
  by move=> Hj; apply: (@mem_mask _ _ (split_edges m t)); rewrite mem_nth // Sm.
rewrite /sE2 mem_cat => /orP[] /(nthP (0, 0))[j]; rewrite size_zip size_map Sm size_iota minnn => Hj <-;
  rewrite nth_zip ?size_map ?Sm ?size_iota // nth_iota // (nth_map e_def) ?Sm //; have /andP[a b] := GeE _ (I j Hj);
  by rewrite /= ?a ?b ?ltn_add2l ?Hj.
Qed.
Lemma rec_range es k b x y n0 : (forall e, e \in es -> (e.1 < n0) && (e.2 < n0)) -> records es k b (x, y) -> (x < n0) && (y < n0).
Proof.
move=> H /andP[Hk /eqP Ek]; have := H _ (mem_nth e_def Hk); rewrite Ek; case: b {Ek} => //=; by rewrite andbC.
Qed.
Lemma consistent_range es fs f2e dir n0 : (forall e, e \in es -> (e.1 < n0) && (e.2 < n0)) -> consistent es fs f2e dir ->
  all (fun f => all (fun v => v < n0) (verts f)) fs.
Proof.
move=> H [_ _ C]; apply/(all_nthP f_def) => i Hi; have /and3P[h1 h2 _] := C i Hi.
by have /andP[a b] := rec_range H h1; have /andP[_ c] := rec_range H h2; rewrite /= a b c.
Qed.
Lemma step_range : in_range (nv + nn) (sE m t) (sF m t).
Proof.
apply/andP; split; first by apply/allP => e; exact: edges_range.
have Ge x : x < nv -> x < nv + nn by move=> Hx; exact: leq_trans Hx (leq_addr _ _).
rewrite /sF all_cat [all _ (sF1 _ _ ++ _)]all_cat [all _ (sF2 _ _ ++ _)]all_cat; apply/and4P; split.
- apply/allP => f /mem_mask Hf; apply/allP => x Hx; apply: Ge; exact: face_lt Hf Hx.
- exact: (consistent_range edges_range (group1 Hs)).
- exact: (consistent_range edges_range (group2 Hs)).
apply/(all_nthP f_def) => j; have [-> _] := size_group3 m t => Hj.
have [i [He Hk -> _ _]] := group3_row Hj; rewrite /= /f0 /f1 /f2 /= mid_lt //=.
have Hi : i < size (t_e t) by have := nth_true He; rewrite size_ise.
by have /andP[a b] := edge_lt Hm (mem_nth e_def Hi); rewrite !Ge.
Qed.
Lemma step_measured (adjust : seq 'rV[R]_d -> res (seq 'rV[R]_d)) t' :
  (forall s s', adjust s = Ok s' -> size s' = size s) -> step m adjust t = Ok t' -> measured t'.
Proof.
move=> Ha /stepI[vn Hv ->]; rewrite /measured /= (sLen_eq _ Hm); split=> //.
by rewrite size_cat (Ha _ _ Hv) size_new; exact: step_range.
Qed.
End Range.

(** ------------------------------------------------------------------ closed meshes *)
Definition closed_mesh (R : rcfType) d (t : tri R d) : Prop :=
  [/\ consistent (t_e t) (t_f t) (t_f2e t) (t_dir t), measured t, all proper (t_f t), simple (t_f t) &
      uniq (all_darts (t_f t)) /\ edges_once (t_e t) (t_f t)].

Section FullPass.
Variables (R : rcfType) (d : nat) (m : R) (adjust : seq 'rV[R]_d -> res (seq 'rV[R]_d)).
Hypothesis Hadj : forall s s', adjust s = Ok s' -> size s' = size s.
Implicit Types t : tri R d.

Lemma full_uniform t : consistent (t_e t) (t_f t) (t_f2e t) (t_dir t) -> size (t_len t) = size (t_e t) ->
  all (fun l => (m < l)%R) (t_len t) -> uniform m (t_len t) (t_f2e t).
Proof.
move=> Hc Sl Hf; have [E1 _ Hb _] := strict_of m Hc.
have W r : r \in t_f2e t -> over m (t_len t) r.
  move=> /(nthP f_def)[i Hi <-]; rewrite E1 in Hi; apply/orP; left; apply: (all_nthP 0%R Hf); rewrite Sl.
  by apply: (Hb i) => //; rewrite /in3 eqxx.
by move=> r r' k /W -> /W ->.
Qed.

Lemma full_step t t' : closed_mesh t -> all (fun l => (m < l)%R) (t_len t) -> step m adjust t = Ok t' ->
  [/\ closed_mesh t', size (t_v t') = size (t_v t) + size (t_e t), size (t_e t') = 2 * size (t_e t) + 3 * size (t_f t) &
      size (t_f t') = 4 * size (t_f t)].
Proof.
move=> [Hc Hm Hp Hsi [Hu Ho]] Hf St; have Sl := len_size Hm; have Hs := strict_of m Hc.
have [_ Hr] := Hm.
have U := full_uniform Hc Sl Hf.
have C' := (step_consistent Sl Hc Hr St).2 U.
have M' := step_measured Hs Hm Hadj St.
have [z1 z2 z3] := full_sizes Hc Sl Hf.
have [vn Hv Et] := stepI St; move: C' M'; rewrite Et /= => C' M'; split=> //; last by rewrite size_cat (Hadj Hv) z1.
split=> //.
- exact: full_proper.
- exact: full_simple.
split; [exact: full_uniq|exact: full_edges_once].
Qed.
End FullPass.

(** ------------------------------------------------------------------ the start *)
Section Init.
Variables (R : rcfType) (d : nat) (argsort : seq nat -> seq nat).
Hypothesis Harg : argsortn_ok argsort.
Implicit Types (vs : seq 'rV[R]_d) (fs : seq face).

Lemma mem_darts fs f e : f \in fs -> e \in darts f -> e \in all_darts fs.
Proof. by move=> Hf He; apply/flattenP; exists (darts f) => //; exact: map_f. Qed.
Lemma sort2_dart fs x y : closed fs -> (x, y) \in all_darts fs -> sort2 x y \in all_darts fs.
Proof. by move=> [_ Hfl] H; rewrite /sort2; case: ifP => // _; exact: (Hfl _ H). Qed.

Lemma edges_of_once fs : all proper fs -> closed fs -> edges_once (edges_of fs) fs.
Proof.
move=> Hp Hcl; have [Hu Hfl] := Hcl; apply: uniq_perm => //.
  rewrite cat_uniq edges_uniq (map_inj_uniq (can_inj flipK)) edges_uniq andbT /=.
  apply/hasPn => e /mapP[x /(edges_incr Hp) Hx ->]; apply/negP => /(edges_incr Hp) Hy; move: (ltn_trans Hx Hy); by rewrite ltnn.
have pos e : e \in edges_of fs -> e \in all_darts fs.
  rewrite mem_edges mem_pos => /hasP[f Hf /or3P[] /eqP ->]; rewrite /sorted_side /=; apply: sort2_dart => //.
  - by apply: (mem_darts Hf); rewrite !inE eqxx.
  - by apply: (Hfl (f2 f, f0 f)); apply: (mem_darts Hf); rewrite !inE eqxx !orbT.
  by apply: (mem_darts Hf); rewrite !inE eqxx !orbT.
move=> e; rewrite mem_cat; apply/idP/orP => [|[/pos //|/mapP[x /pos Hx ->]]]; last exact: Hfl.
move=> /flattenP[s /mapP[f Hf ->]] He.
have W x y : (x, y) \in darts f -> sort2 x y \in edges_of fs.
  rewrite mem_edges mem_pos !inE => H; apply/hasP; exists f => //; rewrite /sorted_side /=.
  have Sc a b : sort2 a b = sort2 b a by rewrite /sort2; case: (ltngtP a b) => // ->.
  by case/or3P: H => /eqP[-> ->]; rewrite ?(Sc (f2 f) (f0 f)) eqxx ?orbT.
move: He; case: e => x y /W; rewrite /sort2; case: ifP => _ H; first by left.
by right; rewrite -[(x, y)]/(flip (y, x)) map_f.
Qed.
End Init.
