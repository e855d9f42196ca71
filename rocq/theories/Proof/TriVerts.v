(** shrink_face_tri: the vertices and the statistics, for every adjusting function. *)
From mathcomp Require Import all_ssreflect all_algebra.
From Verif.Model Require Import Py NP Tri.
From Verif.Spec Require Import TriSpec.
From Verif.Proof Require Import NPLib TriMap TriStep TriRefine TriFull TriLoop TriShrink.
From mathcomp.zify Require Import zify.
Set Implicit Arguments.
Unset Strict Implicit.
Unset Printing Implicit Defensive.
Import Order.Theory GRing.Theory Num.Theory.

Lemma mem_zip (A B : eqType) (s : seq A) (t : seq B) x : x \in zip s t -> x.1 \in s /\ x.2 \in t.
Proof.
elim: s t => [|a s IH] [|b t] //=; rewrite !inE => /orP[/eqP -> /=|/IH[-> ->]]; rewrite ?eqxx //.
by rewrite !orbT.
Qed.

Section Verts.
Variables (R : rcfType) (d : nat) (m : R).
Implicit Types t : tri R d.

Definition row_lt n (r : nat * nat * nat) : bool := [&& r.1.1 < n, r.1.2 < n & r.2 < n].
(** the rows of the map are row numbers of the edge matrix, the edges row numbers of the vertex matrix *)
Definition valid t : Prop :=
  all (row_lt (size (t_e t))) (t_f2e t) /\ all (fun e : edge => (e.1 < size (t_v t)) && (e.2 < size (t_v t))) (t_e t).

Section One.
Variable t : tri R d.
Hypothesis Ht : valid t.
Let nv := size (t_v t).
Let ns := count id (split_faces m t).
Let nn := count id (split_edges m t).
Let ne := count id (kept_edges m t).
Let part := mask (split_faces m t) (t_f2e t).
Let idx := [seq (x + nv).-1 | x <- cumsum [seq nat_of_bool b | b <- split_edges m t]].

Lemma row_in r k : r \in t_f2e t -> in3 k r -> k < size (t_e t).
Proof. by case: Ht => /allP H _ /H/and3P[h1 h2 h3] /or3P[] /eqP ->. Qed.
Lemma v_split r k : r \in part -> in3 k r -> nth false (split_edges m t) k.
Proof.
move=> Hr Hk; have Hl := row_in (mem_mask Hr) Hk.
by rewrite (nth_map 0) ?size_iota // nth_iota //; apply/orP; right; apply/hasP; exists r.
Qed.
Lemma v_kept r k : r \in mask (negs (split_faces m t)) (t_f2e t) -> in3 k r -> nth false (kept_edges m t) k.
Proof.
move=> Hr Hk; have Hl := row_in (mem_mask Hr) Hk.
by rewrite (nth_map 0) ?size_iota // nth_iota //; apply/hasP; exists r.
Qed.
Definition new x : bool := (nv <= x) && (x < nv + nn).
Lemma v_mid k : nth false (split_edges m t) k -> new (nth 0 idx k).
Proof. by move=> Hk; rewrite ind_e_part_nth // /new /mid leq_addr ltn_add2l rk_lt. Qed.
Lemma v_m (p : nat * nat * nat -> nat) x : (forall r, in3 (p r) r) -> x \in [seq nth 0 idx (p r) | r <- part] -> new x.
Proof. by move=> Hp /mapP[r Hr ->]; apply: v_mid; exact: v_split Hr (Hp r). Qed.
Let I1 r : in3 r.1.1 r. Proof. by rewrite /in3 eqxx. Qed.
Let I2 r : in3 r.1.2 r. Proof. by rewrite /in3 eqxx orbT. Qed.
Let I3 r : in3 r.2 r. Proof. by rewrite /in3 eqxx !orbT. Qed.
Let M12 x := v_m (x := x) I1.
Let M23 x := v_m (x := x) I2.
Let M13 x := v_m (x := x) I3.

Lemma v_parts : size part = ns. Proof. by rewrite size_mask // size_map. Qed.
Lemma v_size : size (sE m t) = ne + (3 * ns + 2 * nn).
Proof.
have Sp := v_parts; have E0 := size_rest m t; have E2 := size_e2 m t.
have E1 : size (sE1 m t) = 3 * ns by rewrite !size_cat !size_zip !size_map Sp !minnn; lia.
by rewrite /sE [LHS]size_cat [size (_ ++ _)]size_cat E0 E1 E2.
Qed.
Lemma v_half b x : new x -> half m t b x < size (sE m t).
Proof. rewrite v_size /new /half -/ns -/nn -/ne -/nv => /andP[h1 h2]; case: b; lia. Qed.

Lemma v_rows : all (row_lt (size (sE m t))) (sK m t).
Proof.
have Sp := v_parts.
have corner sh (dm : seq (bool * bool)) ma mb : sh <= 2 * ns -> (forall x, x \in ma -> new x) -> (forall x, x \in mb -> new x) ->
  all (row_lt (size (sE m t))) [seq (ne + (x.1.1 + sh), half m t x.1.2.1 x.2.1, half m t x.1.2.2 x.2.2) | x <- zip3 (iota 0 ns) dm (zip ma mb)].
  move=> Hsh Ha Hb; apply/allP => r /mapP[x /mem_zip[/mem_zip[h1 _] /mem_zip[/Ha h2 /Hb h3]] ->].
  rewrite /row_lt /= !v_half // !andbT v_size; move: h1; rewrite mem_iota add0n => /andP[_].
  by move: (x.1.1 : nat) => y Hy; lia.
rewrite /sK all_cat [all _ (sK1 _ _ ++ _)]all_cat [all _ (sK2 _ _ ++ _)]all_cat; apply/and4P; split.
- apply/allP => r /mapP[r0 Hr ->]; have K k : in3 k r0 -> nth 0 [seq x.-1 | x <- cumsum [seq nat_of_bool b | b <- kept_edges m t]] k < size (sE m t).
    move=> Hk; have Hk' := v_kept Hr Hk; rewrite ind_kept_nth // v_size; have := rk_lt Hk'; rewrite -/ne; lia.
  by rewrite /row_lt /at3 /= !K.
- by apply/allP => r /mapP[i]; rewrite mem_iota add0n v_size -/ns -/ne => /andP[_ Hi] ->; rewrite /row_lt /=; apply/and3P; split; lia.
- by rewrite /sK2 !all_cat; apply/and3P; split; apply: corner => //; rewrite -/ns; lia.
apply/(all_nthP f_def) => j; have [_ ->] := size_group3 m t => Hj.
have [i [He Hk _ -> /andP[Hl _]]] := group3_row Hj.
have Hn : new (mid m t i) by rewrite /new /mid leq_addr ltn_add2l rk_lt.
by rewrite /row_lt /= !v_half.
Qed.
Lemma v_edges : all (fun e : edge => (e.1 < nv + nn) && (e.2 < nv + nn)) (sE m t).
Proof.
have N x : new x -> x < nv + nn by case/andP.
have Ge x : x < nv -> x < nv + nn by move=> Hx; exact: leq_trans Hx (leq_addr _ _).
have GeE x : x \in t_e t -> (x.1 < nv + nn) && (x.2 < nv + nn).
  by case: Ht => _ /allP H /H/andP[a b]; rewrite !Ge.
have Iv x : x \in iota nv nn -> x < nv + nn by rewrite mem_iota => /andP[].
apply/allP => e; rewrite /sE mem_cat => /orP[/mem_mask/GeE //|]; rewrite mem_cat => /orP[].
  by rewrite !mem_cat => /or3P[] /mem_zip[]; [move=> /M12/N -> /M23/N ->|move=> /M12/N -> /M13/N ->|move=> /M23/N -> /M13/N ->].
rewrite /sE2 mem_cat => /orP[] /mem_zip[].
  by move=> /mapP[x /mem_mask/GeE/andP[a _] ->] /Iv b; rewrite a b.
by move=> /Iv a /mapP[x /mem_mask/GeE/andP[_ b] ->]; rewrite a b.
Qed.
End One.

Lemma valid_step adjust t t' : (forall x y, adjust x = Ok y -> size y = size x) -> valid t -> step m adjust t = Ok t' -> valid t'.
Proof.
move=> Ha Ht /stepI[vn Hv ->]; split=> /=; first exact: v_rows.
by rewrite size_cat (Ha _ _ Hv) (size_new m t); exact: v_edges.
Qed.

Lemma mesh_valid t : consistent (t_e t) (t_f t) (t_f2e t) (t_dir t) -> measured t -> valid t.
Proof.
move=> [E1 _ H] [_ /andP[He _]]; split=> //; apply/(all_nthP f_def) => i; rewrite E1 => /H/and3P[/andP[h1 _] /andP[h2 _] /andP[h3 _]].
exact/and3P.
Qed.

Lemma grown_cat g vs ws : grown g vs ws -> forall new : seq ('rV[R]_d * 'rV[R]_d), {subset unzip1 new <= ws} -> {subset unzip2 new <= ws} ->
  grown g vs (ws ++ [seq g (2%:R^-1 *: (p.1 + p.2))%R | p <- new]).
Proof.
move=> Hw; elim/last_ind => [|new p IH] H1 H2; first by rewrite cats0.
rewrite map_rcons -rcons_cat.
have S1 : p.1 \in ws by apply: H1; rewrite /unzip1 map_rcons mem_rcons inE eqxx.
have S2 : p.2 \in ws by apply: H2; rewrite /unzip2 map_rcons mem_rcons inE eqxx.
apply: grownS; rewrite ?mem_cat ?S1 ?S2 //; apply: IH => x Hx; [apply: H1|apply: H2]; by rewrite /unzip1 /unzip2 map_rcons mem_rcons inE Hx orbT.
Qed.
Lemma grown_step g vs t t' : valid t /\ grown g vs (t_v t) -> step m (fun x => Ok [seq g v | v <- x]) t = Ok t' -> valid t' /\ grown g vs (t_v t').
Proof.
move=> [Hv Hg] St; split.
  by apply: valid_step Hv St => x y [<-]; rewrite size_map.
have [vn [<-] ->] := stepI St; rewrite /= /midpoints -map_comp.
have -> : [seq (g \o (fun e : edge => (2%:R^-1 *: (nth 0 (t_v t) e.1 + nth 0 (t_v t) e.2))%R)) i | i <- mask (split_edges m t) (t_e t)] =
  [seq g (2%:R^-1 *: (p.1 + p.2))%R | p <- [seq (nth 0 (t_v t) e.1, nth 0 (t_v t) e.2)%R | e <- mask (split_edges m t) (t_e t)]].
  by rewrite -[RHS]map_comp.
have Hin e : e \in mask (split_edges m t) (t_e t) -> (nth 0 (t_v t) e.1 \in t_v t)%R && (nth 0 (t_v t) e.2 \in t_v t)%R.
  by move=> /mem_mask He; case: Hv => _ /allP/(_ e He)/andP[a b]; rewrite !mem_nth.
by apply: grown_cat => // x; rewrite /unzip1 /unzip2 -map_comp => /mapP[e /Hin/andP[a b] ->].
Qed.

(** ------------------------------------------------------------------ statistics *)
Lemma rmax_ge (s : seq R) l : l \in s -> (l <= rmax s)%R.
Proof.
case: s => [|x s] //=; rewrite inE => /orP[/eqP ->|]; first by elim: s => //= y s IH; rewrite le_maxr IH orbT.
by elim: s => //= y s IH; rewrite inE le_maxr => /orP[/eqP ->|/IH ->]; rewrite ?lexx ?orbT.
Qed.
Lemma rmax_long t : has id (is_long m t) -> (m < rmax (t_len t))%R.
Proof. by rewrite has_map => /hasP[l Hl /= H]; exact: lt_le_trans H (rmax_ge Hl). Qed.

Lemma loop_inv2 adjust (I : tri R d -> stats R -> Prop) :
  (forall t t' s, I t s -> has id (is_long m t) -> step m adjust t = Ok t' ->
     I t' (Stats (s_steps s).+1 (rcons (s_vert s) (size (t_v t'))) (rcons (s_face s) (size (t_f t'))) (rcons (s_edge s) (size (t_e t')))
             (rcons (s_shrink s) (count id (split_edges m t))) (rcons (s_max s) (rmax (t_len t))))) ->
  forall fuel i n_max one t s t' s', s_steps s = i -> I t s -> shrink_loop m adjust fuel i.+1 n_max one t s = Some (Ok (t', s')) -> I t' s'.
Proof.
move=> HI; elim=> [|fuel IH] i n_max one t s t' s' Es It /=; first by case: ifP => // _ [<- <-].
case: ifP => [/andP[Hl _]|_ [<- <-]] //; case: one => //; case St: (step m adjust t) => [t1|e] //.
by apply: IH => //; rewrite -Es; exact: HI.
Qed.
End Verts.

Section Calls.
Variables (R : rcfType) (d : nat) (argsort : seq nat -> seq nat) (m : R).
Hypothesis Harg : argsortn_ok argsort.
Implicit Types (vs : seq 'rV[R]_d) (t : tri R d) (s : stats R).

Theorem shrink_grown g fuel vs fm n_max t s : good_faces (size vs) fm ->
  shrink_face_tri argsort m (fun x => Ok [seq g v | v <- x]) fuel vs fm n_max = Some (Ok (t, s)) -> grown g vs (t_v t).
Proof.
move=> Hg; have [t0 [-> [Ev _ _] Hc Hm]] := start m (fun x => Ok [seq g v | v <- x]) Harg Hg => Hl.
have I0 : valid t0 /\ grown g vs (t_v t0) by split; [exact: mesh_valid|rewrite Ev; exact: grown0].
by have [[_ H] _] := loop_inv (I := fun t => valid t /\ grown g vs (t_v t)) (@grown_step _ _ m g vs) (s := stats0 t0) (ltn0Sn 0) (erefl _) I0 Hl.
Qed.

Theorem shrink_stats adjust fuel vs fm n_max t s : (forall x y, adjust x = Ok y -> size y = size x) -> good_faces (size vs) fm ->
  shrink_face_tri argsort m adjust fuel vs fm n_max = Some (Ok (t, s)) -> stats_of m (size (t_v t)) (size (t_f t)) (size (t_e t)) s.
Proof.
move=> Ha Hg; have [t0 [-> [Ev _ _] Hc Hm]] := start m adjust Harg Hg => Hl.
apply: (loop_inv2 (I := fun t s => stats_of m (size (t_v t)) (size (t_f t)) (size (t_e t)) s) _ (s := stats0 t0) (erefl _) _ Hl) => //.
move=> t1 t2 s1 [[z1 z2 z3 z4 z5] [l1 l2 l3] Hk Hx] Hlong St; split=> /=.
- by rewrite !size_rcons z1 z2 z3 z4 z5.
- by rewrite !last_rcons.
- move=> k; rewrite ltnS !nth_rcons z1 z4 ltnS => Hle.
  case: (ltngtP k (s_steps s1)) Hle => [H _|//|->]; last first.
    move=> _; rewrite ?ltnn ?eqxx ltnS leqnn; have [vn Hv ->] := stepI St; rewrite /= size_cat (Ha _ _ Hv) (size_new m t1).
    by rewrite -l1 -nth_last z1.
  by rewrite ltnS (ltnW H) Hk.
by rewrite all_rcons rmax_long.
Qed.
End Calls.
