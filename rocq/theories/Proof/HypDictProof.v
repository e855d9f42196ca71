(** Arrays of hyperplanes and their dictionaries; is_empty and the default hyperplane. *)
From mathcomp Require Import all_ssreflect all_algebra.
Require Import Coq.Strings.String.
From mathcomp.algebra_tactics Require Import ring.
From Verif.Model Require Import Py NP NP3 Linalg La Ellipsoid Hyperplane.
From Verif.Spec Require Import MatSpec EllSpec HypSpec.
From Verif.Proof Require Import NPLib NP3Lib MatLib LaBasic OrthProof GenProof EllGeomProof EllipsoidProof EllScalEx RegProof HypProof HypOps HypEx.
From mathcomp.zify Require Import zify.
Set Implicit Arguments.
Unset Strict Implicit.
Unset Printing Implicit Defensive.
Import Order.Theory GRing.Theory Num.Theory.
Local Open Scope ring_scope.

Section HypDict.
Variable R : rcfType.
Notation X := (xnum R).

Definition hrel (h : hp R) : R := if h_rel h is Fin r then r else 0.
Definition hdict n (v : 'cV[R]_n) s t r (p : bool) : dict (fval R) :=
  ([:: ("normal_vec"%string, FArr (vec (canon_normal v s))); ("shift"%string, FFlt (Fin (canon_shift v s)))] ++
    (if p then [:: ("abs_tol"%string, FFlt (Fin t)); ("rel_tol"%string, FFlt (Fin r))] else [::]))%list.
Definition hload n (v : 'cV[R]_n) s t r : hp R := Hp (vec (canon_normal v s)) (Fin (canon_shift v s)) (Fin t) (Fin r).

Section Family.
Variables (cfg : props R) (t0 r0 : R) (n k : nat) (sh : seq nat) (hs : seq (hp R)) (h00 : hp R).
Variables (v : 'I_k -> 'cV[R]_n) (s t : 'I_k -> R) (p : bool).
Hypotheses (Hc : tols_of cfg t0 r0) (n0 : (0 < n)%N) (Hf : hfamily hs v s t).
Hypotheses (Hs : forall i, solid (v i) (s i) (t i)) (v0 : forall i, v i != 0).

Definition hr (i : 'I_k) : R := hrel (nth h00 hs i).
Lemma hrE (i : 'I_k) h0 : h_rel (nth h0 hs i) = Fin (hr i) /\ 0 < hr i.
Proof.
have [Ek H] := Hf; have [_ _ _ _ [r Er r1]] := H i h0.
have E : nth h0 hs i = nth h00 hs i by apply: set_nth_default; rewrite Ek.
by rewrite /hr /hrel -E Er.
Qed.

Lemma to_dict_run : hp_to_dict (Arr sh hs) p = Ok (Arr sh [seq hdict (v i) (s i) (t i) (hr i) p | i <- enum 'I_k]).
Proof.
have [Ek H] := Hf; rewrite /hp_to_dict /amapM; cbn [data shape].
rewrite (mapM_ord (g := fun i => hdict (v i) (s i) (t i) (hr i) p) Ek) // => j h0.
by apply: hp_2_dict_run => //; have [] := hrE j h0.
Qed.

Definition nt i : R := if p then t i else t0.
Definition nr i : R := if p then hr i else r0.
Lemma from_dict_run : hp_from_dict cfg (Arr sh [seq hdict (v i) (s i) (t i) (hr i) p | i <- enum 'I_k]) =
  Ok (Arr sh [seq hload (v i) (s i) (nt i) (nr i) | i <- enum 'I_k]).
Proof.
have [Ek H] := Hf; rewrite /hp_from_dict /amapM; cbn [data shape].
have Es : size [seq hdict (v i) (s i) (t i) (hr i) p | i <- enum 'I_k] = k by rewrite size_map size_enum_ord.
rewrite (mapM_ord (g := fun i => hload (v i) (s i) (nt i) (nr i)) Es) // => j d0.
rewrite (nth_map j) ?size_enum_ord // nth_ord_enum.
have [_ _ _ tp _] := H j h00; have [_ rp] := hrE j h00; have [Et0 Er0 tp0 rp0] := Hc.
by rewrite /hdict /hload /nt /nr; case: (p) => /=; apply: (mk_hp_run _ Hc n0 (HoldsVec _)).
Qed.

Lemma load_family : hfamily [seq hload (v i) (s i) (nt i) (nr i) | i <- enum 'I_k]
  (fun i => canon_normal (v i) (s i)) (fun i => canon_shift (v i) (s i)) nt.
Proof.
have [Ek H] := Hf; split=> [|j h0]; first by rewrite size_map size_enum_ord.
rewrite (nth_map j) ?size_enum_ord // nth_ord_enum.
have [_ _ _ tp _] := H j h00; have [_ rp] := hrE j h00; have [Et0 Er0 tp0 rp0] := Hc.
by split=> //; rewrite /nt; [case: (p)|exists (nr j) => //; rewrite /nr; case: (p)].
Qed.
End Family.

Theorem array_roundtrip cfg t0 r0 n k sh hs (v : 'I_k -> 'cV[R]_n) s t (p : bool) : tols_of cfg t0 r0 -> (0 < n)%N ->
  hfamily hs v s t -> (forall i, solid (v i) (s i) (t i)) -> (forall i, v i != 0) ->
  exists ds hs' (v' : 'I_k -> 'cV[R]_n) s', [/\ hp_to_dict (Arr sh hs) p = Ok (Arr sh ds),
    hp_from_dict cfg (Arr sh ds) = Ok (Arr sh hs'),
    hfamily hs' v' s' (fun i => if p then t i else t0),
    p -> map (@h_rel R) hs' = map (@h_rel R) hs &
    forall i, [/\ len (v' i) = 1, 0 <= s' i & forall x, on_hp (v' i) (s' i) x <-> on_hp (v i) (s i) x]].
Proof.
move=> Hc n0 Hf Hs v0; pose h00 := Hp (np_zeros R [::]) x0 x0 x0.
exists [seq hdict (v i) (s i) (t i) (hr hs h00 i) p | i <- enum 'I_k].
exists [seq hload (v i) (s i) (nt t0 t p i) (nr r0 hs h00 p i) | i <- enum 'I_k].
exists (fun i => canon_normal (v i) (s i)), (fun i => canon_shift (v i) (s i)); split.
- exact: to_dict_run.
- exact: from_dict_run.
- exact: (load_family h00 p Hc).
- move=> Hp; have [Ek _] := Hf; rewrite -map_comp; apply: (@eq_from_nth _ x0) => [|i].
    by rewrite !size_map -enumT size_enum_ord Ek.
  rewrite size_map size_enum_ord => Hi; rewrite (nth_map (Ordinal Hi)) ?size_enum_ord //.
  rewrite (nth_map h00) ?Ek // -[i]/(nat_of_ord (Ordinal Hi)) nth_ord_enum /= /nr Hp.
  by have [] := hrE h00 Hf (Ordinal Hi) h00 => ->.
- move=> i; have [L S _] := canon_set 0 (s i) (v0 i); split=> // x.
  by have [] := canon_set x (s i) (v0 i).
Qed.

Lemma canon_normal_id n (v : 'cV[R]_n) s : v != 0 -> canon_normal (canon_normal v s) (canon_shift v s) = canon_normal v s.
Proof.
move=> v0; have [L S _] := canon_set 0 s v0; rewrite {1}/canon_normal ltNge S /=.
by rewrite /unitv L invr1 scale1r.
Qed.
Lemma canon_shift_id n (v : 'cV[R]_n) s : v != 0 -> canon_shift (canon_normal v s) (canon_shift v s) = canon_shift v s.
Proof. by move=> v0; have [L S _] := canon_set 0 s v0; rewrite {1}/canon_shift L divr1 ger0_norm. Qed.

Lemma canon_solid n (v : 'cV[R]_n) s t : v != 0 -> (1 < n)%N || (t < 1) -> solid (canon_normal v s) (canon_shift v s) t.
Proof.
move=> v0 H E; subst n; have {H} t1 : t < 1 by [].
have [L _ _] := canon_set 0 s v0; right; exists 0; move: L.
by rewrite len11 => ->.
Qed.

(** the dictionaries of the objects read back are the dictionaries they were read from *)
Theorem array_again cfg t0 r0 n k sh hs (v : 'I_k -> 'cV[R]_n) s t (p : bool) : tols_of cfg t0 r0 -> (0 < n)%N ->
  hfamily hs v s t -> (forall i, solid (v i) (s i) (t i)) -> (forall i, v i != 0) ->
  (1 < n)%N || [forall i, (if p then t i else t0) < 1] ->
  exists ds hs', [/\ hp_to_dict (Arr sh hs) p = Ok (Arr sh ds), hp_from_dict cfg (Arr sh ds) = Ok (Arr sh hs') &
    hp_to_dict (Arr sh hs') p = Ok (Arr sh ds)].
Proof.
move=> Hc n0 Hf Hs v0 Ht; pose h00 := Hp (np_zeros R [::]) x0 x0 x0.
exists [seq hdict (v i) (s i) (t i) (hr hs h00 i) p | i <- enum 'I_k].
set hs' := [seq hload (v i) (s i) (nt t0 t p i) (nr r0 hs h00 p i) | i <- enum 'I_k]; exists hs'; split.
- exact: to_dict_run.
- exact: from_dict_run.
have Hf' := load_family h00 p Hc Hf.
have H1 i : solid (canon_normal (v i) (s i)) (canon_shift (v i) (s i)) (nt t0 t p i).
  by apply: canon_solid => //; case/orP: Ht => [->//|/forallP/(_ i) h]; rewrite /nt h orbT.
have H2 i : canon_normal (v i) (s i) != 0.
  have [L _ _] := canon_set 0 (s i) (v0 i); apply/eqP => E; move: L; rewrite E len0.
  by move/esym/eqP; rewrite oner_eq0.
rewrite (to_dict_run sh h00 p n0 Hf' H1 H2); congr (Ok (Arr _ _)); apply: eq_map => i.
rewrite /hdict (canon_normal_id _ (v0 i)) (canon_shift_id _ (v0 i)) /nt; case: (p) => //.
rewrite /hr /hs' (nth_map i) ?size_enum_ord // nth_ord_enum /= /hrel /=.
by [].
Qed.

(** ------------------------------------------------------------------ is_empty *)
Theorem is_empty_run n k sh hs (v : 'I_k -> 'cV[R]_n) s t : (0 < n)%N -> hfamily hs v s t ->
  exists2 bs, hp_is_empty (Arr sh hs) = Ok (Arr sh bs) &
  size bs = k /\ forall i : 'I_k, nth false bs i <-> ~ solid (v i) (s i) (t i).
Proof.
move=> n0 Hf; have [ds Ed [Es Hd]] := hp_dimension_run sh n0 Hf.
exists [seq d == 0%N | d <- ds]; first by rewrite /hp_is_empty Ed.
rewrite size_map; split=> // i; rewrite (nth_map 0%N) ?Es // Hd.
case: (n =P 1%N) => [E|N] /=; last first.
  by rewrite (gtn_eqF n0); split=> // H; case: H => E; case: (N E).
case: forallP => H /=; last first.
  rewrite (gtn_eqF n0); split=> // K; case: K => _; right.
  have /existsP [j Hj] : [exists j, t i < `|v i j 0|].
    by apply: contra_notT H; rewrite negb_exists => /forallP K j; rewrite leNgt K.
  by exists j.
case: lerP => Ht; rewrite ?eqxx ?(gtn_eqF n0); split=> //.
  by move=> _ /(_ E) [|[j]]; rewrite ltNge ?Ht ?H.
by case=> _; left.
Qed.

(** Hyperplane(): one coordinate, normal and shift 0 *)
Theorem default_run cfg t0 r0 (k : kwargs R) a b : tols_of cfg t0 r0 ->
  odflt (Fin t0) (k_abs k) = Fin a -> odflt (Fin r0) (k_rel k) = Fin b -> 0 < a -> 0 < b ->
  exists h, [/\ mk_hp_default cfg k = Ok h, hrepr h (0 : 'cV[R]_1) 0 a & hp_is_empty (Arr [::] [:: h]) = Ok (Arr [::] [:: true])].
Proof.
move=> Hc Ha Hb a0 b0.
have E0 : Arr [:: 1%N] [:: x0] = vec (0 : 'cV[R]_1).
  by rewrite -[vec _]/(Arr [:: 1%N] (data (vec (0 : 'cV[R]_1)))) data_vec1 mxE.
exists (Hp (vec (0 : 'cV[R]_1)) (Fin 0) (Fin a) (Fin b)).
have Hr : hrepr (Hp (vec (0 : 'cV[R]_1)) (Fin 0) (Fin a) (Fin b)) (0 : 'cV[R]_1) 0 a by split=> //; exists b.
split=> //; first by rewrite /mk_hp_default E0; apply: mk_hp_run Hc _ (HoldsVec _) Ha Hb a0 b0.
have [bs -> [Es H]] := is_empty_run [::] (isT : 0 < 1)%N (one_family Hr).
case: bs Es H => [//|c [|//]] _ H; congr (Ok (Arr _ [:: _])).
by apply/(H ord0) => /(_ erefl) [|[i]]; rewrite ?mxE normr0 ltNge ltW.
Qed.

(** an array with an empty entry has dictionaries that cannot be read back *)
Lemma mapM_cat_fail (T U : Type) (f : T -> res U) s1 x s2 us e : mapM f s1 = Ok us -> f x = Err e -> mapM f (s1 ++ x :: s2) = Err e.
Proof.
elim: s1 us => [|y s1 IH] us /=; first by move=> _ ->.
case: (f y) => [z|e'] //=; case E: (mapM f s1) => [w|e'] //= _ H.
by rewrite (IH w).
Qed.
Lemma mapM_cat_ok (T U : Type) (f : T -> res U) s1 s2 u1 u2 : mapM f s1 = Ok u1 -> mapM f s2 = Ok u2 -> mapM f (s1 ++ s2) = Ok (u1 ++ u2).
Proof.
elim: s1 u1 => [|y s1 IH] u1 /=; first by move=> [<-] ->.
case: (f y) => [z|e'] //=; case E: (mapM f s1) => [w|e'] //= [<-] H.
by rewrite (IH w).
Qed.

Theorem array_empty cfg t0 r0 k1 k2 sh hs1 h hs2 (v1 : 'I_k1 -> 'cV[R]_1) s1 t1 (v : 'cV[R]_1) s t (v2 : 'I_k2 -> 'cV[R]_1) s2 t2 (p : bool) :
  tols_of cfg t0 r0 -> hfamily hs1 v1 s1 t1 -> hrepr h v s t -> hfamily hs2 v2 s2 t2 ->
  (forall i, solid (v1 i) (s1 i) (t1 i)) -> (forall i, v1 i != 0) ->
  (forall i, solid (v2 i) (s2 i) (t2 i)) -> (forall i, v2 i != 0) ->
  ~ solid v s t ->
  exists2 ds, hp_to_dict (Arr sh (hs1 ++ h :: hs2)) p = Ok (Arr sh ds) & hp_from_dict cfg (Arr sh ds) = throw "wrongInput:shift".
Proof.
move=> Hc F1 Hr F2 S1 N1 S2 N2 NS; pose h00 := Hp (np_zeros R [::]) x0 x0 x0.
have Hs : `|s| <= t by rewrite leNgt; apply/negP => H; case: NS; left.
have Hv : `|v 0 0| <= t by rewrite leNgt; apply/negP => H; case: NS; right; exists 0.
have [d Ed Fd] := dict_empty p Hc Hr Hv Hs.
have E1 := to_dict_run [::] h00 p (isT : 0 < 1)%N F1 S1 N1.
have E2 := to_dict_run [::] h00 p (isT : 0 < 1)%N F2 S2 N2.
have G1 := from_dict_run [::] h00 p Hc (isT : 0 < 1)%N F1.
move: E1 E2 G1; rewrite /hp_to_dict /hp_from_dict /amapM; cbn [data shape].
set g1 := map _ _; set g2 := map _ (enum 'I_k2).
case E1: mapM => [w1|//] /= [Ew1]; case E2: mapM => [w2|//] /= [Ew2]; case G1: mapM => [u1|//] /= _.
exists (g1 ++ d :: g2).
  rewrite (mapM_cat_ok (u1 := g1) (u2 := d :: g2)) //; first by rewrite E1 Ew1.
  by rewrite /= Ed /= E2 /= Ew2.
by rewrite (mapM_cat_fail g2 G1 Fd).
Qed.

(** in one dimension a hyperplane with abs_tol 1 or more may come back empty *)
Theorem roundtrip_vanishes cfg t0 r0 (v : 'cV[R]_1) h s t : tols_of cfg t0 r0 -> hrepr h v s t -> 1 <= t ->
  t < `|v 0 0| -> `|s| <= t * `|v 0 0| ->
  exists ds hs', [/\ hp_to_dict (Arr [::] [:: h]) true = Ok (Arr [::] ds), hp_from_dict cfg (Arr [::] ds) = Ok (Arr [::] hs'),
    hp_is_empty (Arr [::] [:: h]) = Ok (Arr [::] [:: false]) & hp_is_empty (Arr [::] hs') = Ok (Arr [::] [:: true])].
Proof.
move=> Hc Hr t1 Ht Hs; have F := one_family Hr; pose h00 := Hp (np_zeros R [::]) x0 x0 x0.
have S : solid v s t by move=> _; right; exists 0.
have a0 : 0 < `|v 0 0| by apply: le_lt_trans Ht; apply: le_trans t1; exact: ler01.
have v0 : v != 0 by apply/eqP => E; move: a0; rewrite E mxE normr0 ltxx.
have P0 : (0 < 1)%N by [].
do 2!eexists; split; first exact: (to_dict_run _ h00 true P0 F (fun _ => S) (fun _ => v0)).
- exact: (from_dict_run _ h00 true Hc P0 F).
- have [bs -> [Es H]] := is_empty_run [::] P0 F.
  case: bs Es H => [//|c [|//]] _ H; congr (Ok (Arr _ [:: _])).
  by apply/negbTE/negP => K; case: ((H ord0).1 K).
have [bs -> [Es H]] := is_empty_run [::] P0 (load_family h00 true Hc F).
case: bs Es H => [//|c [|//]] _ H; congr (Ok (Arr _ [:: _])).
apply/(H ord0) => /(_ erefl) [|[i]]; rewrite /nt.
  by rewrite /canon_shift len11 normf_div normr_id [`|(`|_|)|]normr_id ltNge ler_pdivr_mulr // Hs.
have [L _ _] := canon_set 0 s v0.
by rewrite (ord1 i) -len11 L ltNge t1.
Qed.

Lemma roundtrip_example :
  [/\ hrepr (Hp (vec (const_mx 3%:R : 'cV[R]_1)) (Fin 1) (Fin 2%:R) (Fin 1)) (const_mx 3%:R : 'cV[R]_1) 1 2%:R,
      1 <= (2%:R : R), 2%:R < `|(const_mx 3%:R : 'cV[R]_1) 0 0| & `|1| <= 2%:R * `|(const_mx 3%:R : 'cV[R]_1) 0 0| :> R].
Proof.
rewrite !mxE normr1 ger0_norm ?ler0n // -natrM !ler1n !ltr_nat; split=> //.
by split=> //; [rewrite ltr0n|exists 1 => //; exact: ltr01].
Qed.
Lemma family_example :
  let h := Hp (vec (const_mx 3%:R : 'cV[R]_2)) (Fin (-5%:R)) (Fin 1) (Fin 1) in
  [/\ hfamily [:: h; h] (fun _ : 'I_2 => const_mx 3%:R : 'cV[R]_2) (fun=> -5%:R) (fun=> 1),
      forall i : 'I_2, solid (const_mx 3%:R : 'cV[R]_2) (-5%:R) 1 & (const_mx 3%:R : 'cV[R]_2) != 0].
Proof.
move=> h; split=> //.
  split=> // i h0; have -> : nth h0 [:: h; h] i = h by case: i => [] [|[|m]].
  by split=> //; [exact: ltr01|exists 1 => //; exact: ltr01].
by apply/eqP => /matrixP/(_ 0 0)/eqP; rewrite !mxE pnatr_eq0.
Qed.
End HypDict.
