(** Hyperplane: constructor, uminus, is_parallel, dictionaries, copies. *)
From mathcomp Require Import all_ssreflect all_algebra.
Require Import Coq.Strings.String.
From mathcomp.algebra_tactics Require Import ring.
From Verif.Model Require Import Py NP NP3 Linalg La Ellipsoid Hyperplane.
From Verif.Spec Require Import MatSpec EllSpec HypSpec.
From Verif.Proof Require Import NPLib NP3Lib MatLib LaBasic OrthProof GenProof EllGeomProof EllipsoidProof EllScalEx RegProof HypProof.
From mathcomp.zify Require Import zify.
Set Implicit Arguments.
Unset Strict Implicit.
Unset Printing Implicit Defensive.
Import Order.Theory GRing.Theory Num.Theory.
Local Open Scope ring_scope.

Section HypOps.
Variable R : rcfType.
Notation X := (xnum R).
Notation A := (arr X).

Lemma eps_gt0 : 0 < (2%:R ^- 52 : R).
Proof. by rewrite invr_gt0 exprn_gt0 // ltr0n. Qed.

Lemma set_normal_run n (v : 'cV[R]_n) va : (0 < n)%N -> holds v va -> set_normal (RealArr va) = Ok (vec v).
Proof.
move=> n0 Hv; rewrite /set_normal /default_tol /eps try_real ?eps_gt0 // rbind_okE /=.
have [-> ->] := holds_max n0 Hv; rewrite rbind_okE eqxx /= -/(data (np_flatten va)).
by rewrite (holds_flat Hv) -(holds_flat Hv) /= (holds_fin Hv).
Qed.
Lemma set_shift_run (s : R) : set_shift (RealScal (Fin s)) = Ok (Fin s).
Proof. by rewrite /set_shift /default_tol /eps try_real ?eps_gt0. Qed.

Lemma hp_props_run cfg t r (k : kwargs R) a b : tols_of cfg t r -> odflt (Fin t) (k_abs k) = Fin a ->
  odflt (Fin r) (k_rel k) = Fin b -> 0 < a -> 0 < b -> hp_props cfg k = Ok (Fin a, Fin b).
Proof. by move=> [Et Er _ _] Ha Hb a0 b0; rewrite /hp_props Et Er Ha Hb /xgt /= a0 /= b0. Qed.

Lemma mk_hp_run cfg t r k a b n (v : 'cV[R]_n) va (s : R) : tols_of cfg t r -> (0 < n)%N -> holds v va ->
  odflt (Fin t) (k_abs k) = Fin a -> odflt (Fin r) (k_rel k) = Fin b -> 0 < a -> 0 < b ->
  mk_hp cfg (RealArr va) (RealScal (Fin s)) k = Ok (Hp (vec v) (Fin s) (Fin a) (Fin b)).
Proof.
move=> Hc n0 Hv Ha Hb a0 b0; rewrite /mk_hp (hp_props_run Hc Ha Hb a0 b0) rbind_okE.
by rewrite (set_normal_run n0 Hv) rbind_okE set_shift_run.
Qed.

(** ------------------------------------------------------------------ uminus *)
Definition hneg n (cfg : props R) (v : 'cV[R]_n) (s : R) : hp R := Hp (vec (- v)) (Fin (- s)) (p_abs cfg) (p_rel cfg).

Lemma uminus_run cfg t0 r0 n k sh hs (v : 'I_k -> 'cV[R]_n) s t : tols_of cfg t0 r0 -> (0 < n)%N ->
  hfamily hs v s t ->
  hp_uminus cfg (Arr sh hs) = Ok (Arr sh [seq hneg cfg (v i) (s i) | i <- enum 'I_k]).
Proof.
move=> Hc n0 [Ek H]; rewrite /hp_uminus /amapM; cbn [data shape].
rewrite (mapM_ord (g := fun i => hneg cfg (v i) (s i)) Ek) // => j h0.
have [-> -> _ _ _] := H j h0; have [Et Er t1 r1] := Hc.
by rewrite np_neg_vec (mk_hp_run _ Hc n0 (HoldsVec _) (a := t0) (b := r0)) // /hneg Et Er.
Qed.

Lemma hneg_family cfg t0 r0 n k (v : 'I_k -> 'cV[R]_n) s : tols_of cfg t0 r0 ->
  hfamily [seq hneg cfg (v i) (s i) | i <- enum 'I_k] (fun i => - v i) (fun i => - s i) (fun=> t0).
Proof.
move=> [Et Er t1 r1]; split=> [|i h0]; first by rewrite size_map size_enum_ord.
by rewrite nth_mapord; split=> //; exists r0.
Qed.

(** the two sign changes cancel *)
Lemma near_neg n (v x : 'cV[R]_n) s t : near_hp (- v) (- s) t x <-> near_hp v s t x.
Proof. by rewrite /near_hp dotvNl -opprD normrN. Qed.
Lemma on_neg n (v x : 'cV[R]_n) s : on_hp (- v) (- s) x <-> on_hp v s x.
Proof. by rewrite /on_hp dotvNl; split=> [/oppr_inj|->]. Qed.
Lemma solid_neg n (v : 'cV[R]_n) s t : solid v s t -> solid (- v) (- s) t.
Proof.
move=> H E; case: (H E) => [h|[i h]]; [left|right; exists i]; by rewrite ?mxE normrN.
Qed.

Theorem uminus_spec cfg t0 r0 n k sh hs (v : 'I_k -> 'cV[R]_n) s t : tols_of cfg t0 r0 -> (0 < n)%N ->
  hfamily hs v s t ->
  exists2 hs', hp_uminus cfg (Arr sh hs) = Ok (Arr sh hs') &
    hfamily hs' (fun i => - v i) (fun i => - s i) (fun=> t0) /\
    forall i x, on_hp (- v i) (- s i) x <-> on_hp (v i) (s i) x.
Proof.
move=> Hc n0 Hf; exists [seq hneg cfg (v i) (s i) | i <- enum 'I_k]; first exact: uminus_run Hc n0 Hf.
by split; [exact: hneg_family Hc|move=> i x; exact: on_neg].
Qed.
Theorem uminus_contains cfg t0 r0 n k sh hs (v : 'I_k -> 'cV[R]_n) s (x : 'cV[R]_n) : tols_of cfg t0 r0 -> (0 < n)%N -> (0 < k)%N ->
  hfamily hs v s (fun=> t0) -> (forall i, solid (v i) (s i) t0) ->
  exists2 hs', hp_uminus cfg (Arr sh hs) = Ok (Arr sh hs') &
    contains (Arr sh hs') (vec x) = contains (Arr sh hs) (vec x).
Proof.
move=> Hc n0 k0 Hf Hs; exists [seq hneg cfg (v i) (s i) | i <- enum 'I_k]; first exact: uminus_run Hc n0 Hf.
have Hv : vec x = Arr (n :: [::]) (data (mat x)) by rewrite -vec_data.
rewrite Hv.
have [bs -> [Eb Hb]] := contains_point (tl := [::]) sh x n0 k0 Hf Hs (erefl _).
have Hs' i : solid (- v i) (- s i) t0 by exact: solid_neg.
have [bs' -> [Eb' Hb']] := contains_point (tl := [::]) sh x n0 k0 (hneg_family v s Hc) Hs' (erefl _).
congr (Ok (Arr _ _)); apply: (@eq_from_nth _ false); first by rewrite Eb.
move=> i; rewrite Eb' => Hi; have := Hb' (Ordinal Hi); have := Hb (Ordinal Hi) => /= h1 h2.
by apply/idP/idP => h; [apply/h1/near_neg/h2|apply/h2/near_neg/h1].
Qed.
Theorem uminus_uminus cfg t0 r0 n k sh hs (v : 'I_k -> 'cV[R]_n) s t : tols_of cfg t0 r0 -> (0 < n)%N ->
  hfamily hs v s t ->
  exists hs' hs'', [/\ hp_uminus cfg (Arr sh hs) = Ok (Arr sh hs'), hp_uminus cfg (Arr sh hs') = Ok (Arr sh hs'') &
    hfamily hs'' v s (fun=> t0)].
Proof.
move=> Hc n0 Hf; exists [seq hneg cfg (v i) (s i) | i <- enum 'I_k], [seq hneg cfg (- v i) (- s i) | i <- enum 'I_k].
split; [exact: uminus_run Hc n0 Hf|exact: uminus_run Hc n0 (hneg_family v s Hc)|].
have [E H] := hneg_family (fun i => - v i) (fun i => - s i) Hc; split=> // i h0.
by have := H i h0; rewrite !opprK.
Qed.

(** ------------------------------------------------------------------ is_parallel *)
Lemma norm2_vec n (v : 'cV[R]_n) : norm2 (vec v) = Fin (len v).
Proof.
rewrite /norm2 data_ord -map_comp.
have -> : [seq ((fun x => xmul x x) \o (fun i => Fin (v i 0))) i | i <- enum 'I_n] =
          [seq Fin x | x <- [seq v i 0 * v i 0 | i <- enum 'I_n]] by rewrite -map_comp.
rewrite xsum_fin /= big_map big_enum /=.
have -> : \sum_i v i 0 * v i 0 = sqn v by [].
by rewrite /len ltNge sqn_ge0.
Qed.
Lemma len_gt0 n (v : 'cV[R]_n) : v != 0 -> 0 < len v.
Proof. by move=> v0; rewrite sqrtr_gt0 sqn_gt0. Qed.

Lemma sing_parallel_run n (u v : 'cV[R]_n) f g s1 s2 t1 t2 (t : R) : (0 < n)%N -> u != 0 -> v != 0 ->
  hrepr f u s1 t1 -> hrepr g v s2 t2 ->
  sing_parallel f g (Fin t) = Ok ([exists i, `|(unitv u - unitv v) i 0| < t] || [exists i, `|(unitv u + unitv v) i 0| < t]).
Proof.
move=> n0 u0 v0 [Eu _ _ _ _] [Ev _ _ _ _]; rewrite /sing_parallel Eu Ev eqxx [~~ true]/=; cbv zeta.
rewrite !norm2_vec !np_divs_vec ?gt_eqF ?len_gt0 // -/(unitv u) -/(unitv v) np_sub_vec rbind_okE.
have -> : (size (data (vec (unitv u - unitv v))) == 0%N) = false.
  by rewrite data_ord size_map size_enum_ord gtn_eqF.
have E (w : 'cV[R]_n) : has (fun x => xlt (xabs x) (Fin t)) (data (vec w)) = [exists i, `|w i 0| < t].
  by rewrite data_ord (has_mapord (fun i => Fin (w i 0))).
by rewrite E; case: existsP => // _; rewrite np_add_vec rbind_okE E.
Qed.

Lemma unitv_scale n (u : 'cV[R]_n) a : 0 < a -> unitv (a *: u) = unitv u.
Proof.
move=> a0; rewrite /unitv /len sqnZ sqrtrM ?sqr_ge0 // sqrtr_sqr gtr0_norm // invfM scalerA.
by rewrite mulrAC mulVf ?mul1r // gt_eqF.
Qed.
Lemma unitv_opp n (u : 'cV[R]_n) : unitv (- u) = - unitv u.
Proof. by rewrite /unitv /len /sqn dotvNl dotvNr opprK scalerN. Qed.

Lemma collinear_unit n (u v : 'cV[R]_n) : collinear u v -> unitv v = unitv u \/ unitv v = - unitv u.
Proof.
move=> [a a0 ->]; have [ap|an] := ltP 0 a; first by left; exact: unitv_scale.
right; rewrite -unitv_opp -[a]opprK scaleNr -scalerN unitv_scale // oppr_gt0 lt_neqAle a0 an //.
Qed.

Lemma collinear_parallel n (u v : 'cV[R]_n) f g s1 s2 t1 t2 (t : R) : (0 < n)%N -> 0 < t -> u != 0 -> v != 0 ->
  hrepr f u s1 t1 -> hrepr g v s2 t2 -> collinear u v -> sing_parallel f g (Fin t) = Ok true.
Proof.
move=> n0 t0 u0 v0 Hf Hg Hc; rewrite (sing_parallel_run _ n0 u0 v0 Hf Hg); congr Ok; apply/orP.
by case: (collinear_unit Hc) => ->; [left|right]; apply/existsP; exists (Ordinal n0); rewrite subrr mxE normr0.
Qed.

Lemma parallel_sizes m n (u : 'cV[R]_m) (v : 'cV[R]_n) f g s1 s2 t1 t2 t : m != n ->
  hrepr f u s1 t1 -> hrepr g v s2 t2 -> sing_parallel f g t = Ok false.
Proof. 
move=> mn [Eu _ _ _ _] [Ev _ _ _ _]; rewrite /sing_parallel Eu Ev.
by have -> : shape (vec u) != shape (vec v) by rewrite /= eqseq_cons andbT.
Qed.

(** arrays of the same shape *)
Theorem is_parallel_run n k sh hs gs (u v : 'I_k -> 'cV[R]_n) s1 s2 t1 t2 : (0 < n)%N -> prodn sh = k ->
  hfamily hs u s1 t1 -> hfamily gs v s2 t2 -> (forall i, u i != 0) -> (forall i, v i != 0) ->
  exists2 bs, is_parallel (Arr sh hs) (Arr sh gs) = Ok (Arr sh bs) &
  size bs = k /\ forall i : 'I_k,
    (nth false bs i = true <-> (exists j, `|(unitv (u i) - unitv (v i)) j 0| < t1 i) \/ (exists j, `|(unitv (u i) + unitv (v i)) j 0| < t1 i)) /\
    (collinear (u i) (v i) -> nth false bs i = true).
Proof.
move=> n0 Es [Eh Hh] [Eg Hg] u0 v0; rewrite /is_parallel eqxx [~~ true]/=; cbn [data shape].
pose b i := [exists j, `|(unitv (u i) - unitv (v i)) j 0| < t1 i] || [exists j, `|(unitv (u i) + unitv (v i)) j 0| < t1 i].
have Ez : mapM (fun p => sing_parallel p.1 p.2 (h_abs p.1)) (zip hs gs) = Ok [seq b i | i <- enum 'I_k].
  apply: mapM_ord; first by rewrite size_zip Eh Eg minnn.
  move=> j [h0 g0]; rewrite nth_zip ?Eh ?Eg //; cbn [fst snd].
  have [_ _ Et _ _] := Hh j h0; rewrite Et.
  exact: sing_parallel_run (Hh j h0) (Hg j g0).
exists [seq b i | i <- enum 'I_k].
  by rewrite Ez rbind_okE /np_reshape; cbn [data]; rewrite size_map size_enum_ord Es eqxx.
split; first by rewrite size_map size_enum_ord.
move=> i; rewrite (nth_mapord b); split.
  by split=> [/orP[/existsP H|/existsP H]|[/existsP H|/existsP H]]; [left|right|apply/orP; left|apply/orP; right].
have h0 : hp R by exact: (Hp (np_scalar x0) x0 x0 x0).
move=> Hc; have [_ _ Et t0 _] := Hh i h0.
have := collinear_parallel n0 t0 (u0 i) (v0 i) (Hh i h0) (Hg i h0) Hc.
by rewrite (sing_parallel_run _ n0 (u0 i) (v0 i) (Hh i h0) (Hg i h0)) => /Ok_inj.
Qed.

(** ------------------------------------------------------------------ dictionaries *)

Lemma hp_2_dict_run n (v : 'cV[R]_n) h s t r p : (0 < n)%N -> hrepr h v s t -> h_rel h = Fin r -> solid v s t -> v != 0 ->
  hp_2_dict h p = Ok ([:: ("normal_vec"%string, FArr (vec (canon_normal v s))); ("shift"%string, FFlt (Fin (canon_shift v s)))] ++
    (if p then [:: ("abs_tol"%string, FFlt (Fin t)); ("rel_tol"%string, FFlt (Fin r))] else [::]))%list.
Proof.
move=> n0 Hr Er Hs v0; have l0 := len_gt0 v0; rewrite /hp_2_dict (dim1_run n0 Hr Hs) rbind_okE (gtn_eqF n0).
have [-> -> -> t0 _] := Hr; rewrite Er norm2_vec; cbv zeta.
have -> : xdiv x1 (Fin (len v)) = Fin (len v)^-1 by rewrite /= gt_eqF // mul1r.
have -> : np_map (fun x => xmul x (Fin (len v)^-1)) (vec v) = vec (unitv v).
  by apply: vec_map => i; rewrite /= mxE mulrC.
have -> : xlt (xmul (Fin s) (Fin (len v)^-1)) x0 = (s < 0).
  by rewrite /= pmulr_llt0 // invr_gt0.
rewrite /canon_normal /canon_shift; case: ltP => hs; congr (Ok _).
  by rewrite np_neg_vec ltr0_norm //= mulNr.
by rewrite ger0_norm.
Qed.

Lemma canon_scale n (v : 'cV[R]_n) s a : a != 0 -> v != 0 -> (0 < a) || (s != 0) ->
  canon_normal (a *: v) (a * s) = canon_normal v s /\ canon_shift (a *: v) (a * s) = canon_shift v s.
Proof.
move=> a0 v0 H; have l0 := len_gt0 v0; split; last first.
  rewrite /canon_shift normrM /len sqnZ sqrtrM ?sqr_ge0 // sqrtr_sqr -/(len v).
  by rewrite -mulf_div divff ?normr_eq0 // mul1r.
rewrite /canon_normal; have [ap|an] := ltP 0 a; first by rewrite pmulr_rlt0 // unitv_scale.
have {}an : a < 0 by rewrite lt_neqAle a0.
have s0 : s != 0 by move: H; rewrite ltNge (ltW an).
have -> : unitv (a *: v) = - unitv v by rewrite -[a]opprK scaleNr -scalerN unitv_scale ?oppr_gt0 // unitv_opp.
by rewrite nmulr_rlt0 // opprK; case: (ltgtP s 0) => // e; rewrite e eqxx in s0.
Qed.

Lemma canon_set n (v x : 'cV[R]_n) s : v != 0 ->
  [/\ len (canon_normal v s) = 1, 0 <= canon_shift v s &
      on_hp (canon_normal v s) (canon_shift v s) x <-> on_hp v s x].
Proof.
move=> v0; have l0 := len_gt0 v0; have u1 := sqn_unitv v0; split.
- by rewrite /canon_normal /len; case: ltP => _; rewrite ?/sqn ?dotvNl ?dotvNr ?opprK -/(sqn _) u1 sqrtr1.
- by rewrite divr_ge0 // ltW.
have E : dotv (unitv v) x = dotv v x / len v by rewrite /unitv dotvZl mulrC.
have key (y : R) : y / len v = s / len v <-> y = s.
  by split=> [/(mulIf _) ->|->] //; rewrite invr_neq0 // gt_eqF.
rewrite /on_hp /canon_normal /canon_shift; case: ltP => hs.
  by rewrite dotvNl E ltr0_norm // mulNr; split=> [/oppr_inj/key|/key ->].
by rewrite E ger0_norm.
Qed.

Theorem dict_canonical n (v : 'cV[R]_n) h h' s t a p : (0 < n)%N -> hrepr h v s t -> hrepr h' (a *: v) (a * s) t ->
  h_rel h' = h_rel h -> solid v s t -> solid (a *: v) (a * s) t -> v != 0 -> a != 0 -> (0 < a) || (s != 0) ->
  hp_2_dict h' p = hp_2_dict h p /\ is_ok (hp_2_dict h p).
Proof.
move=> n0 Hr Hr' Er Hs Hs' v0 a0 Ha; have [_ _ _ _ [r Hh _]] := Hr.
have av : a *: v != 0 by rewrite scaler_eq0 negb_or a0.
rewrite (hp_2_dict_run _ n0 Hr Hh Hs v0) (hp_2_dict_run (r := r) _ n0 Hr' _ Hs' av) ?Er //.
by have [-> ->] := canon_scale a0 v0 Ha.
Qed.

Theorem dict_roundtrip cfg t0 r0 n (v : 'cV[R]_n) h s t (p : bool) : tols_of cfg t0 r0 -> (0 < n)%N -> hrepr h v s t ->
  solid v s t -> v != 0 ->
  exists d h' (v' : 'cV[R]_n) s', [/\ hp_2_dict h p = Ok d, dict_2_hp cfg d = Ok h', hrepr h' v' s' (if p then t else t0),
    p -> h_rel h' = h_rel h & forall x, on_hp v' s' x <-> on_hp v s x].
Proof.
move=> Hc n0 Hr Hs v0; have [_ _ _ tp [r Hh rp]] := Hr; have [Et0 Er0 tp0 rp0] := Hc.
eexists; exists (Hp (vec (canon_normal v s)) (Fin (canon_shift v s)) (Fin (if p then t else t0)) (Fin (if p then r else r0))).
exists (canon_normal v s), (canon_shift v s); split.
- exact: (hp_2_dict_run p n0 Hr Hh Hs v0).
- by case: p => /=; apply: (mk_hp_run _ Hc n0 (HoldsVec _)).
- by split=> //; [case: p|exists (if p then r else r0) => //; case: p].
- by case: p.
- by move=> x; have [_ _] := canon_set x s v0.
Qed.

(** an empty hyperplane has a dictionary from which nothing can be built *)
Lemma dict_empty cfg t0 r0 (v : 'cV[R]_1) h s t p : tols_of cfg t0 r0 -> hrepr h v s t -> `|v 0 0| <= t -> `|s| <= t ->
  exists2 d, hp_2_dict h p = Ok d & dict_2_hp cfg d = throw "wrongInput:shift".
Proof.
move=> Hc [Ev Es Et t1 [r Er r1]] Hv Hs; rewrite /hp_2_dict /hp_dim1 Ev Es Et Er data_vec1; cbn [size].
rewrite /xle /xlt /xeq /= ![(_ < _) || (_ == _)]orbC -!le_eqVlt Hv Hs /=.
eexists; first by reflexivity.
have E k : odflt (p_abs cfg) (k_abs k) = Fin t \/ odflt (p_abs cfg) (k_abs k) = Fin t0 ->
  odflt (p_rel cfg) (k_rel k) = Fin r \/ odflt (p_rel cfg) (k_rel k) = Fin r0 ->
  mk_hp cfg (RealArr (np_zeros R [:: 0%N])) (RealArr (np_zeros R [:: 0%N])) k = throw "wrongInput:shift".
  have [_ _ t00 r00] := Hc.
  rewrite /mk_hp /hp_props => -[] -> [] ->; rewrite /xgt /= ?t1 ?t00 /= ?r1 ?r00 /=;
  rewrite /set_normal /set_shift /default_tol /eps !try_real ?eps_gt0 //.
have [Et0 Er0 _ _] := Hc.
by case: p; rewrite /dict_2_hp /=; apply: E => /=; rewrite ?Et0 ?Er0; by [left|right].
Qed.
End HypOps.
