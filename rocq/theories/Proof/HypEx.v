(** Hyperplane: refutations and examples. *)
From mathcomp Require Import all_ssreflect all_algebra.
Require Import Coq.Strings.String.
From mathcomp.algebra_tactics Require Import ring.
From Verif.Model Require Import Py NP NP3 Linalg La Ellipsoid Hyperplane.
From Verif.Spec Require Import MatSpec EllSpec HypSpec.
From Verif.Proof Require Import NPLib NP3Lib MatLib LaBasic OrthProof GenProof EllGeomProof EllipsoidProof EllScalEx RegProof HypProof HypOps.
From mathcomp.zify Require Import zify.
Set Implicit Arguments.
Unset Strict Implicit.
Unset Printing Implicit Defensive.
Import Order.Theory GRing.Theory Num.Theory.
Local Open Scope ring_scope.

Section HypEx.
Variable R : rcfType.
Notation X := (xnum R).
Notation A := (arr X).

(** ------------------------------------------------------------------ constructor *)
Lemma hp_sound cfg t0 r0 (va : A) (s : X) k h : tols_of cfg t0 r0 -> wf_arr va ->
  mk_hp cfg (RealArr va) (RealScal s) k = Ok h ->
  exists n (v : 'cV[R]_n) s', [/\ max_shape va = Ok n, data va = data (vec v), s = Fin s', h_normal h = vec v & h_shift h = Fin s'].
Proof.
move=> Hc wv; rewrite /mk_hp; case: (hp_props cfg k) => [[a b]|] //; rewrite rbind_okE.
rewrite /set_normal /default_tol /eps try_real ?eps_gt0 // rbind_okE /=.
case Em : (max_shape va) => [m|] //=; case: eqP => //= Es; case: ifP => //= /negbFE Ef.
rewrite /set_shift /default_tol /eps try_real ?eps_gt0 //=.
case: s => [s|||] //= [<-].
have Hs : size (data va) = m by rewrite -Es; exact/eqP.
have wf : wf_arr (np_flatten va) by rewrite /wf_arr /= muln1.
have [v Ev] := @fin_vec _ (np_flatten va) m wf (congr1 (fun n => [:: n]) Hs) Ef; exists m, v, s.
by split=> //; exact: (congr1 (@data _) Ev).
Qed.

Lemma hp_bad_normal cfg t0 r0 k a b (va : A) m s : tols_of cfg t0 r0 -> 
  odflt (Fin t0) (k_abs k) = Fin a -> odflt (Fin r0) (k_rel k) = Fin b -> 0 < a -> 0 < b ->
  max_shape va = Ok m -> np_size va <> m \/ ~~ all (@xis_fin R) (data va) ->
  mk_hp cfg (RealArr va) s k = throw "wrongInput:normal_vec".
Proof.
move=> Hc Ha Hb a0 b0 Em H; rewrite /mk_hp (hp_props_run Hc Ha Hb a0 b0) rbind_okE.
rewrite /set_normal /default_tol /eps try_real ?eps_gt0 // 2!rbind_okE Em rbind_okE.
by case: eqP => [E|] //=; case: H => // H; rewrite H.
Qed.
Lemma hp_bad_shift cfg t0 r0 k a b n (v : 'cV[R]_n) va (sa : A) : tols_of cfg t0 r0 -> (0 < n)%N -> holds v va ->
  odflt (Fin t0) (k_abs k) = Fin a -> odflt (Fin r0) (k_rel k) = Fin b -> 0 < a -> 0 < b ->
  size (data sa) != 1%N \/ ~~ all (@xis_fin R) (data sa) ->
  mk_hp cfg (RealArr va) (RealArr sa) k = throw "wrongInput:shift".
Proof.
move=> Hc n0 Hv Ha Hb a0 b0 H; rewrite /mk_hp (hp_props_run Hc Ha Hb a0 b0) rbind_okE.
rewrite (set_normal_run n0 Hv) rbind_okE /set_shift /default_tol /eps try_real ?eps_gt0 // 2!rbind_okE.
by case: (data sa) H => [|x [|y d]] //= [] //; rewrite ?andbT // => ->.
Qed.
Lemma hp_bad_tol (cfg : props R) t0 r0 nv s k : tols_of cfg t0 r0 ->
  ~~ xgt (odflt (Fin t0) (k_abs k)) x0 \/ ~~ xgt (odflt (Fin r0) (k_rel k)) x0 ->
  mk_hp cfg nv s k = throw "wrongInput".
Proof.
move=> [Et Er _ _] H; rewrite /mk_hp /hp_props Et Er.
by cbv zeta; case: ifP => // E1; case: ifP => // E2; case: H; rewrite ?E1 ?E2.
Qed.

(** dimension and emptiness *)
Lemma hp_dimension_run n k sh hs (v : 'I_k -> 'cV[R]_n) s t : (0 < n)%N -> hfamily hs v s t ->
  exists2 ds, hp_dimension (Arr sh hs) = Ok (Arr sh ds) &
  size ds = k /\ forall i : 'I_k, nth 0%N ds i = if (n == 1%N) && [forall j, `|v i j 0| <= t i] && (`|s i| <= t i) then 0%N else n.
Proof.
move=> n0 [Ek H]; rewrite /hp_dimension /amapM; cbn [data shape].
pose g i := if (n == 1%N) && [forall j, `|v i j 0| <= t i] && (`|s i| <= t i) then 0%N else n.
exists [seq g i | i <- enum 'I_k]; last first.
  by split=> [|i]; [rewrite size_map size_enum_ord|rewrite (nth_mapord g)].
rewrite (mapM_ord (g := g) Ek) // => j h0.
have [Ev Es Et t0 _] := H j h0; rewrite /hp_dim1 Ev Es Et /g; clear g.
move: (v j) => w {Ev}; rewrite data_ord size_map size_enum_ord.
case: n n0 w {H v} => [//|[|n]] _ w; last by [].
rewrite enum_ordS /=; congr Ok; rewrite /xle /xlt /xeq /= ![(_ < _) || (_ == _)]orbC -!le_eqVlt.
suff -> : [forall j0, `|w j0 0| <= t j] = (`|w ord0 0| <= t j).
  by [].
by apply/forallP/idP => [h|h i]; [exact: h|rewrite (ord1 i)].
Qed.

(** ------------------------------------------------------------------ uminus *)
Lemma uminus_not_reflection cfg t0 r0 n (v : 'cV[R]_n) s h x : tols_of cfg t0 r0 -> (0 < n)%N -> hrepr h v s t0 ->
  solid v s t0 -> on_hp v s x -> t0 <= 2%:R * `|s| ->
  exists2 h', hp_uminus cfg (Arr [::] [:: h]) = Ok (Arr [::] [:: h']) &
    contains (Arr [::] [:: h]) (vec x) = Ok (Arr [::] [:: true]) /\
    contains (Arr [::] [:: h']) (vec (- x)) = Ok (Arr [::] [:: false]).
Proof.
move=> Hc n0 Hr Hs Hx Ht; exists (hneg cfg v s).
  rewrite (uminus_run [::] Hc n0 (one_family Hr)); congr (Ok (Arr _ _)).
  by rewrite enum_ordS /= (size0nil (size_enum_ord 0)).
have Hr' : hrepr (hneg cfg v s) (- v) (- s) t0.
  by have [Et Er t1 r1] := Hc; split=> //; exists r0.
have key h1 (w y : 'cV[R]_n) (a : R) (b : bool) : hrepr h1 w a t0 -> solid w a t0 -> (near_hp w a t0 y <-> b) ->
  contains (Arr [::] [:: h1]) (vec y) = Ok (Arr [::] [:: b]).
  move=> Hr1 Hs1 Hb; have -> : vec y = Arr (n :: [::]) (data (mat y)) by rewrite -vec_data.
  have [bs -> [Eb H]] := contains_point (tl := [::]) [::] y n0 (ltn0Sn 0) (one_family Hr1) (fun=> Hs1) (erefl _).
  case: bs Eb H => [|c [|? ?]] // _ /(_ 0) /= H; congr (Ok (Arr _ [:: _])).
  by apply/idP/idP => [/H/Hb|/Hb/H].
split; [apply: (key _ v _ s) => //|apply: (key _ (- v) _ (- s)) => //].
- by split=> // _; have [_ _ _ t1 _] := Hr; rewrite /near_hp Hx subrr normr0.
- exact: solid_neg.
- split=> // H; exfalso; move: H; rewrite /near_hp dotvNl dotvNr opprK Hx opprK -mulr2n -mulr_natl normrM normr_nat.
  by rewrite ltNge Ht.
Qed.

Lemma uminus_drops cfg t0 r0 n (v : 'cV[R]_n) s t h : tols_of cfg t0 r0 -> (0 < n)%N -> hrepr h v s t -> t != t0 ->
  exists2 h', hp_uminus cfg (Arr [::] [:: h]) = Ok (Arr [::] [:: h']) & h_abs h' <> h_abs h.
Proof.
move=> Hc n0 Hr tt; exists (hneg cfg v s).
  rewrite (uminus_run [::] Hc n0 (one_family Hr)); congr (Ok (Arr _ _)).
  by rewrite enum_ordS /= (size0nil (size_enum_ord 0)).
have [Et _ _ _] := Hc; have [_ _ -> _ _] := Hr; rewrite /hneg Et; cbn [h_abs] => -[E].
by rewrite E eqxx in tt.
Qed.

(** ------------------------------------------------------------------ is_parallel *)
Lemma len_delta n (i : 'I_n) : len (delta_mx i 0 : 'cV[R]_n) = 1.
Proof.
rewrite /len /sqn /dotv (bigD1 i) //= big1 ?mxE ?eqxx ?addr0 ?mulr1 ?sqrtr1 // => j ji.
by rewrite mxE (negbTE ji) mul0r.
Qed.
Lemma delta_neq0 n (i : 'I_n) : (delta_mx i 0 : 'cV[R]_n) != 0.
Proof. by apply/eqP => /(congr1 (fun M : 'cV[R]_n => M i 0)); rewrite !mxE !eqxx => /eqP; rewrite oner_eq0. Qed.
Lemma orth_parallel n (i j k : 'I_n) h1 h2 s1 s2 t1 t2 : i != j -> k != i -> k != j ->
  hrepr h1 (delta_mx i 0 : 'cV[R]_n) s1 t1 -> hrepr h2 (delta_mx j 0 : 'cV[R]_n) s2 t2 ->
  is_parallel (Arr [::] [:: h1]) (Arr [::] [:: h2]) = Ok (Arr [::] [:: true]) /\
  dotv (delta_mx i 0 : 'cV[R]_n) (delta_mx j 0) = 0 /\ ~ collinear (delta_mx i 0 : 'cV[R]_n) (delta_mx j 0).
Proof.
move=> ij ki kj H1 H2; have n0 : (0 < n)%N by case: n i {j k ij ki kj H1 H2} => [[]|].
have [_ _ Et t0 _] := H1; split; last first.
  have E : dotv (delta_mx i 0 : 'cV[R]_n) (delta_mx j 0) = 0.
    rewrite /dotv big1 // => l _; rewrite !mxE; case: (l =P i) => [->|_]; rewrite ?mul0r //.
    by rewrite (negbTE ij) mulr0.
  split=> // -[a a0 E']; move: E; rewrite E' dotvZr -/(sqn _) => /eqP; rewrite mulf_eq0 (negbTE a0) /=.
  by rewrite sqn_eq0 (negbTE (delta_neq0 i)).
rewrite /is_parallel eqxx [~~ true]/=; cbn [data shape zip mapM fst snd].
rewrite Et (sing_parallel_run _ n0 (delta_neq0 i) (delta_neq0 j) H1 H2).
have -> : [exists l, `|(unitv (delta_mx i 0 : 'cV[R]_n) - unitv (delta_mx j 0 : 'cV[R]_n)) l 0| < t1].
  apply/existsP; exists k; rewrite /unitv !len_delta invr1 !scale1r !mxE (negbTE ki) (negbTE kj) subrr normr0 //.
by [].
Qed.

(** one hyperplane against many: only the first of the many is looked at; many against one: an error *)
Lemma parallel_one_many n (u v : 'cV[R]_n) h1 h2 hs s1 s2 t1 t2 sh : (0 < n)%N -> u != 0 -> v != 0 ->
  hrepr h1 u s1 t1 -> hrepr h2 v s2 t2 ->
  is_parallel (Arr [::] [:: h1]) (Arr sh (h2 :: hs)) = is_parallel (Arr [::] [:: h1]) (Arr [::] [:: h2]) /\
  is_ok (is_parallel (Arr [::] [:: h1]) (Arr [::] [:: h2])).
Proof.
move=> n0 u0 v0 H1 H2; rewrite /is_parallel; cbn [data shape size]; rewrite !eqxx !orbT [~~ true]/=.
have Ez : zip [:: h1] (h2 :: hs) = [:: (h1, h2)] by case: hs.
rewrite Ez; cbn [zip mapM fst snd]; have [_ _ Et _ _] := H1.
by rewrite Et (sing_parallel_run _ n0 u0 v0 H1 H2).
Qed.
Lemma parallel_many_one n (u v : 'cV[R]_n) h1 h1' h2 hs s1 s2 t1 t2 sh : (0 < n)%N -> u != 0 -> v != 0 ->
  prodn sh = (size hs).+2 -> hrepr h1 u s1 t1 -> hrepr h2 v s2 t2 ->
  is_parallel (Arr sh [:: h1, h1' & hs]) (Arr [::] [:: h2]) = ValueError.
Proof.
move=> n0 u0 v0 Es H1 H2; rewrite /is_parallel; cbn [data shape size]; rewrite !eqxx !orbT [~~ true]/=.
have Ez : zip [:: h1, h1' & hs] [:: h2] = [:: (h1, h2)] by [].
rewrite Ez; cbn [zip mapM fst snd]; have [_ _ Et _ _] := H1.
by rewrite Et (sing_parallel_run _ n0 u0 v0 H1 H2) 2!rbind_okE /np_reshape; cbn [data size]; rewrite Es.
Qed.
Lemma parallel_shapes (a b : arr (hp R)) : shape a != shape b -> size (data a) != 1%N -> size (data b) != 1%N ->
  is_parallel a b = throw "wrongSizes".
Proof. by move=> h1 h2 h3; rewrite /is_parallel (negbTE h1) (negbTE h2) (negbTE h3). Qed.

(** ------------------------------------------------------------------ dictionaries *)
Lemma dict_zero_shift n (v : 'cV[R]_n) h h' t p : (1 < n)%N -> hrepr h v 0 t -> hrepr h' (- v) 0 t -> v != 0 ->
  (forall x, on_hp (- v) 0 x <-> on_hp v 0 x) /\
  exists d d', [/\ hp_2_dict h p = Ok d, hp_2_dict h' p = Ok d' & d <> d'].
Proof.
move=> n1 H H' v0; split.
  by move=> x; have := on_neg v x 0; rewrite oppr0.
have n0 := ltnW n1; have S (w : 'cV[R]_n) : solid w 0 t by move=> E; exfalso; move: n1; rewrite E.
have [_ _ _ _ [r Er _]] := H; have [_ _ _ _ [r' Er' _]] := H'.
do 2 eexists; split; [exact: hp_2_dict_run H Er (S _) v0|apply: hp_2_dict_run H' Er' (S _) _ => //; by rewrite oppr_eq0|].
move=> /(congr1 (fun d : dict (fval R) => if d is (_, FArr a) :: _ then a else vec v)) E0.
have /vec_inj : vec (canon_normal v 0) = vec (canon_normal (- v) 0) by exact: E0.
rewrite /canon_normal ltxx unitv_opp => {E0} E.
have : unitv v = 0.
  apply/eqP; rewrite -[unitv v == 0]/(_ == _); have : unitv v + unitv v = 0 by rewrite {1}E addNr.
  by rewrite -mulr2n -scaler_nat => /eqP; rewrite scaler_eq0 pnatr_eq0.
by move=> u0; have := sqn_unitv v0; rewrite u0 /sqn dotv0l => /eqP; rewrite eq_sym oner_eq0.
Qed.

Lemma zero_normal_dict cfg t0 r0 n h s t p : tols_of cfg t0 r0 -> (1 < n)%N -> hrepr h (0 : 'cV[R]_n) s t ->
  exists2 d, hp_2_dict h p = Ok d & dict_2_hp cfg d = throw "wrongInput:normal_vec".
Proof.
move=> Hc n1 Hr; have n0 := ltnW n1; have [En Es Et t1 [r Er r1]] := Hr.
have S : solid (0 : 'cV[R]_n) s t by move=> E; exfalso; move: n1; rewrite E.
rewrite /hp_2_dict (dim1_run n0 Hr S) rbind_okE (gtn_eqF n0) En Es Et Er.
have -> : xdiv x1 (norm2 (vec (0 : 'cV[R]_n))) = PInf.
  by rewrite norm2_vec /len /sqn dotv0l sqrtr0 /= eqxx oner_eq0 ltr01.
have -> : np_map (fun x => xmul x PInf) (vec (0 : 'cV[R]_n)) = Arr [:: n] (nseq n NaN).
  rewrite /np_map; cbn [shape]; congr Arr; rewrite data_ord -map_comp.
  rewrite -[n in nseq n]size_enum_ord -(@size_map _ _ (fun i : 'I_n => i)) map_id.
  elim: (enum 'I_n) => //= i l ->; by rewrite mxE eqxx.
have Eneg : np_neg (Arr [:: n] (nseq n (@NaN R))) = Arr [:: n] (nseq n NaN) by rewrite /np_neg /np_map /= map_nseq.
rewrite Eneg; cbv zeta.
set d1 := (if xlt _ _ then _ else _).
have -> : d1 = (FArr (Arr [:: n] (nseq n NaN)), if xlt (xmul (Fin s) PInf) x0 then FFlt (xopp (xmul (Fin s) PInf)) else FFlt (xmul (Fin s) PInf)).
  by rewrite /d1; case: ifP.
move: (if _ then _ else _) => sv {d1}.
eexists; first by reflexivity.
have [Et0 Er0 t00 r00] := Hc.
have Hb k a b sv' : odflt (Fin t0) (k_abs k) = Fin a -> odflt (Fin r0) (k_rel k) = Fin b -> 0 < a -> 0 < b ->
  mk_hp cfg (RealArr (Arr [:: n] (nseq n NaN))) sv' k = throw "wrongInput:normal_vec".
  move=> Ha Hb a0 b0; apply: (hp_bad_normal (m := n) sv' Hc Ha Hb a0 b0) => //; right.
  by case: n n0 {n1 Hr S En Eneg}.
by case: p; rewrite /dict_2_hp /=; apply: Hb => /=.
Qed.

(** ------------------------------------------------------------------ copies *)
Lemma hp_copy_run cfg t0 r0 n (v : 'cV[R]_n) h s t : tols_of cfg t0 r0 -> (0 < n)%N -> hrepr h v s t ->
  hp_single_copy cfg h = Ok (Hp (vec v) (Fin s) (Fin t) (Fin r0)).
Proof.
move=> Hc n0 [E1 E2 E3 t1 _]; rewrite /hp_single_copy E1 E2 E3; have [_ _ _ r1] := Hc.
exact: (mk_hp_run _ Hc n0 (HoldsVec _)).
Qed.
Lemma hp_copy_spec cfg t0 r0 n (v : 'cV[R]_n) h s t : tols_of cfg t0 r0 -> (0 < n)%N -> hrepr h v s t ->
  exists2 h', hp_single_copy cfg h = Ok h' & hrepr h' v s t /\ (h_rel h' = h_rel h <-> h_rel h = Fin r0).
Proof.
move=> Hc n0 Hr; rewrite (hp_copy_run Hc n0 Hr); eexists; first by reflexivity.
have [_ _ _ t1 _] := Hr; have [_ _ _ r1] := Hc; split; last by cbn [h_rel]; split=> ->.
by split=> //; exists r0.
Qed.

(** ------------------------------------------------------------------ examples *)
Lemma ctor_example :
  exists2 h, mk_hp (Props (Fin 1) (Fin 1) 1 1) (RealArr (mat (const_mx 2%:R : 'rV[R]_3))) (RealScal (Fin (-3%:R))) (Kw (Some (Fin 5%:R)) None None None) = Ok h &
  hrepr h (const_mx 2%:R : 'cV[R]_3) (-3%:R) 5%:R.
Proof.
have Hc : tols_of (Props (Fin 1) (Fin 1) 1 1) (1 : R) 1 by split; rewrite ?ltr01.
have -> : mat (const_mx 2%:R : 'rV[R]_3) = mat (const_mx 2%:R : 'cV[R]_3)^T.
  by congr mat; apply/matrixP => i j; rewrite !mxE.
eexists; first by apply: (mk_hp_run _ Hc _ (HoldsRow _)) => //=; rewrite ?ltr0n ?ltr01.
by split; rewrite ?ltr0n //; exists 1; rewrite ?ltr01.
Qed.
Lemma contains_example :
  let v := const_mx 1 : 'cV[R]_2 in let h := Hp (vec v) (Fin 2%:R) (Fin (1/2%:R)) (Fin 1) in
  [/\ hrepr h v 2%:R (1/2%:R), solid v 2%:R (1/2%:R), near_hp v 2%:R (1/2%:R) (const_mx 1) & ~ near_hp v 2%:R (1/2%:R) (0 : 'cV[R]_2)].
Proof.
have h0 : 0 < 1/2%:R :> R by rewrite divr_gt0 ?ltr01 ?ltr0n.
move=> v h; split=> //.
- by split=> //; exists 1; rewrite ?ltr01.
- rewrite /near_hp /dotv; under eq_bigr do rewrite !mxE mulr1.
  by rewrite sumr_const card_ord subrr normr0.
rewrite /near_hp dotv0r sub0r normrN normr_nat => /ltW; rewrite ler_pdivl_mulr ?ltr0n //.
by rewrite -natrM (ler_nat R _ 1).
Qed.
Lemma parallel_example :
  let h (i : 'I_3) := Hp (vec (delta_mx i 0 : 'cV[R]_3)) (Fin 0) (Fin 1) (Fin 1) in
  hrepr (h 0) (delta_mx 0 0 : 'cV[R]_3) 0 1 /\ hrepr (h 1) (delta_mx 1 0 : 'cV[R]_3) 0 1.
Proof. by split; split; rewrite ?ltr01 //; exists 1; rewrite ?ltr01. Qed.
End HypEx.
