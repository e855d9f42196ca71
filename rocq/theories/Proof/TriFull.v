(** Full passes of shrink_face_tri: closed surfaces stay closed. *)
From mathcomp Require Import all_ssreflect all_algebra.
From Verif.Model Require Import Py NP Tri.
From Verif.Spec Require Import TriSpec.
From Verif.Proof Require Import NPLib TriMap TriStep TriRefine.
From mathcomp.zify Require Import zify.
Set Implicit Arguments.
Unset Strict Implicit.
Unset Printing Implicit Defensive.
Import Order.Theory GRing.Theory Num.Theory.

Ltac genlia P := repeat match goal with |- context [nat_of_bool (P ?x)] => move: (nat_of_bool (P x)) => ? end;
  repeat match goal with |- context [count P ?x] => move: (count P x) => ? end; lia.

Lemma flipK : involutive flip. Proof. by case. Qed.

Lemma uniq_flatten {S T : eqType} (g : S -> seq T) (s : seq S) : uniq s -> (forall x, x \in s -> uniq (g x)) ->
  (forall x y z, x \in s -> y \in s -> z \in g x -> z \in g y -> x = y) -> uniq (flatten [seq g x | x <- s]).
Proof.
elim: s => //= x s IH /andP[xs us] Hu Hd; rewrite cat_uniq IH //.
- rewrite andbT Hu ?inE ?eqxx //=; apply/hasPn => z /flattenP[l /mapP[y ys ->] zy]; apply/negP => zx.
  by move: xs; rewrite (Hd x y z) ?ys // inE ?eqxx ?ys ?orbT.
- by move=> y ys; apply: Hu; rewrite inE ys orbT.
by move=> y y' z ys ys'; apply: Hd; rewrite inE ?ys ?ys' orbT.
Qed.

Lemma once_closed es fs : edges_once es fs -> uniq (all_darts fs) -> closed fs.
Proof.
move=> Ho Hu; split=> // e; rewrite !(perm_mem Ho) !mem_cat => /orP[He|/mapP[x Hx ->]].
  by rewrite (map_f flip He) orbT.
by rewrite flipK Hx.
Qed.

Lemma same_vertsP f g s : uniq s -> size s = 3 -> {subset s <= verts f} -> {subset s <= verts g} -> same_verts f g.
Proof.
move=> us ss Hf Hg.
have [_ Ef] := uniq_min_size us Hf (eq_leq (esym ss)); have [_ Eg] := uniq_min_size us Hg (eq_leq (esym ss)).
have uf : uniq (verts f) by rewrite (uniq_size_uniq us) // ss.
have ug : uniq (verts g) by rewrite (uniq_size_uniq us) // ss.
by apply: uniq_perm => // x; rewrite -Ef Eg.
Qed.

Lemma has_side_verts f e : has_side f e -> proper f -> [/\ e.1 != e.2, e.1 \in verts f & e.2 \in verts f].
Proof.
move=> H /and3P[h1 h2 h3]; rewrite /verts !inE.
case/or4P: H => [/eqP->|/eqP->|/eqP->|/or3P[/eqP->|/eqP->|/eqP->]] /=; rewrite !eqxx ?orbT //; split=> //; by rewrite eq_sym.
Qed.

Lemma two_sides f g e e' : proper f -> proper g -> has_side f e -> has_side f e' -> has_side g e -> has_side g e' ->
  e != e' -> e != flip e' -> same_verts f g.
Proof.
move=> pf pg fe fe' ge ge' ne nf.
have [a1 a2 a3] := has_side_verts fe pf; have [b1 b2 b3] := has_side_verts fe' pf.
have [_ c2 c3] := has_side_verts ge pg; have [_ d2 d3] := has_side_verts ge' pg.
have [x [xf xg x1 x2]] : exists x, [/\ x \in verts f, x \in verts g, x != e.1 & x != e.2].
  case: (boolP ((e'.1 == e.1) || (e'.1 == e.2))) => H; last first.
    by move: H; rewrite negb_or => /andP[h1 h2]; exists e'.1.
  exists e'.2; split=> //; apply/negP => /eqP E2; case/orP: H => /eqP E1.
  - by move: b1; rewrite E1 E2 eqxx.
  - by move: nf; rewrite /flip E1 E2 -surjective_pairing eqxx.
  - by move: ne; case: (e) (e') E1 E2 => x y [x' y'] /= -> ->; rewrite eqxx.
  by move: b1; rewrite E1 E2 eqxx.
apply: (@same_vertsP _ _ [:: e.1; e.2; x]) => //.
- by rewrite /= !inE negb_or a1 eq_sym x1 eq_sym x2.
- by apply/allP; rewrite [all _ _]/= a2 a3 xf.
by apply/allP; rewrite [all _ _]/= c2 c3 xg.
Qed.

Section Full.
Variables (R : rcfType) (d : nat) (m : R) (t : tri R d).
Let E := t_e t.
Let F := t_f t.
Let K := t_f2e t.
Let nv := size (t_v t).
Let n := size F.
Hypothesis Hc : consistent E F K (t_dir t).
Hypothesis Hlen : size (t_len t) = size E.
Hypothesis Hfull : all (fun l => (m < l)%R) (t_len t).

Let Hs : strict_split m t := strict_of m Hc.

Lemma all_true_nseq (s : seq bool) : all id s -> s = nseq (size s) true.
Proof. by elim: s => //= b s IH /andP[-> /IH {1}->]. Qed.
Lemma mask_falseE {T} k (s : seq T) : mask (nseq k false) s = [::].
Proof. by elim: k s => [|k IH] [|x s] //=. Qed.

Lemma full_long : is_long m t = nseq (size E) true.
Proof. by rewrite [LHS]all_true_nseq ?size_map ?Hlen // all_map; apply: sub_all Hfull => l /= ->. Qed.
Lemma full_faces : split_faces m t = nseq n true.
Proof.
have [E1 _ Hb _] := Hs.
rewrite [LHS]all_true_nseq ?size_map ?E1 //; apply/(all_nthP false) => i; rewrite size_map => Hi.
have Hn : i < size (t_f t) by rewrite -E1.
rewrite (nth_map f_def) // /at3 full_long nth_nseq (Hb _ _ Hn) //; by rewrite /in3 eqxx.
Qed.
Lemma full_edges : split_edges m t = nseq (size E) true.
Proof.
rewrite [LHS]all_true_nseq ?size_map ?size_iota //; apply/(all_nthP false) => i; rewrite size_map size_iota => Hi.
by rewrite (nth_map 0) ?size_iota // nth_iota // full_long nth_nseq Hi.
Qed.
Lemma full_kept : kept_edges m t = nseq (size E) false.
Proof.
rewrite /kept_edges full_faces /negs map_nseq mask_falseE /=.
by apply: (@eq_from_nth _ false); rewrite ?size_map ?size_iota ?size_nseq // => i Hi; rewrite (nth_map 0) ?size_iota // nth_nseq Hi.
Qed.
Lemma rk_nseq k i : i <= k -> rk (nseq k true) i = i.
Proof. by move=> Hi; rewrite /rk take_nseq // count_nseq /= mul1n. Qed.
Lemma full_counts : [/\ count id (split_faces m t) = n, count id (split_edges m t) = size E,
   count id (kept_edges m t) = 0 & mixed m t = 0].
Proof.
rewrite full_faces full_edges full_kept !count_nseq /= !mul1n mul0n; split=> //.
rewrite /mixed full_edges full_kept; elim: (size E) => //= k IH.
Qed.
Lemma full_mid k : k < size E -> mid m t k = nv + k.
Proof. by move=> Hk; rewrite /mid full_edges rk_nseq // ltnW. Qed.

Lemma full_E : sE m t = sE1 m t ++ sE2 m t.
Proof. by rewrite /sE /sE0 full_kept mask_falseE. Qed.
Lemma full_F : sF m t = sF1 m t ++ sF2 m t.
Proof.
have [A _] := size_group3 m t; have [_ _ _ M0] := full_counts.
have E3 : sF3 m t = [::] by apply/eqP; rewrite -size_eq0 A M0.
by rewrite /sF /sF0 full_faces /negs map_nseq mask_falseE E3 cats0.
Qed.

(** the row of face i and the middles of its sides *)
Definition fc (i : nat) : face := nth f_def F i.
Definition kk (i : nat) : nat * nat * nat := nth f_def K i.
Definition u12 i := nv + (kk i).1.1.
Definition u23 i := nv + (kk i).1.2.
Definition u13 i := nv + (kk i).2.

Lemma kk_lt i k : i < n -> in3 k (kk i) -> k < size E.
Proof. by have [_ _ Hb _] := Hs => Hi; exact: Hb. Qed.

Lemma full_rows : [/\ [seq nth 0 [seq (x + size (t_v t)).-1 | x <- cumsum [seq nat_of_bool b | b <- split_edges m t]] r.1.1 | r <- mask (split_faces m t) (t_f2e t)] = [seq u12 i | i <- iota 0 n],
  [seq nth 0 [seq (x + size (t_v t)).-1 | x <- cumsum [seq nat_of_bool b | b <- split_edges m t]] r.1.2 | r <- mask (split_faces m t) (t_f2e t)] = [seq u23 i | i <- iota 0 n],
  [seq nth 0 [seq (x + size (t_v t)).-1 | x <- cumsum [seq nat_of_bool b | b <- split_edges m t]] r.2 | r <- mask (split_faces m t) (t_f2e t)] = [seq u13 i | i <- iota 0 n] &
  mask (split_faces m t) (t_f t) = [seq fc i | i <- iota 0 n]].
Proof.
have [E1 _ _ _] := Hs.
have EK : mask (split_faces m t) (t_f2e t) = [seq kk i | i <- iota 0 n].
  by rewrite full_faces mask_true ?E1 // /n -E1 map_nth_iota0 ?take_size.
have W i k : i \in iota 0 n -> in3 k (kk i) -> nth 0 [seq (x + size (t_v t)).-1 | x <- cumsum [seq nat_of_bool b | b <- split_edges m t]] k = nv + k.
  rewrite mem_iota => /andP[_ Hi] Hk; have Hl := kk_lt Hi Hk.
  by rewrite ind_e_part_nth ?full_mid // full_edges nth_nseq Hl.
move: W; rewrite EK; move: [seq _ | x <- _] => ix W; rewrite -!map_comp.
split; try (apply/eq_in_map => i /W Hi; rewrite /= Hi // /in3 eqxx ?orbT //).
by rewrite full_faces mask_true //; symmetry; exact: (mkseq_nth f_def (t_f t)).
Qed.

Definition inner i : seq edge := [:: (u12 i, u23 i); (u12 i, u13 i); (u23 i, u13 i)].
Definition sub i : seq face := [:: (u12 i, u23 i, u13 i); (u12 i, u13 i, f0 (fc i)); (u23 i, u12 i, f1 (fc i)); (u13 i, u23 i, f2 (fc i))].

Lemma zip_maps {A B C} (f : A -> B) (g : A -> C) s : zip (map f s) (map g s) = [seq (f x, g x) | x <- s].
Proof. by elim: s => //= x s ->. Qed.

Lemma full_E1 : sE1 m t = [seq (u12 i, u23 i) | i <- iota 0 n] ++ [seq (u12 i, u13 i) | i <- iota 0 n] ++ [seq (u23 i, u13 i) | i <- iota 0 n].
Proof. by have [A B C _] := full_rows; rewrite /sE1 A B C !zip_maps. Qed.
Lemma full_FF : sF m t = [seq (u12 i, u23 i, u13 i) | i <- iota 0 n] ++ [seq (u12 i, u13 i, f0 (fc i)) | i <- iota 0 n] ++
  [seq (u23 i, u12 i, f1 (fc i)) | i <- iota 0 n] ++ [seq (u13 i, u23 i, f2 (fc i)) | i <- iota 0 n].
Proof.
have [A B C D] := full_rows; rewrite full_F /sF1 /sF2 A B C D.
by rewrite -3!(map_comp _ fc) /zip3 !zip_maps.
Qed.
Lemma full_perm : perm_eq (sF m t) (flatten [seq sub i | i <- iota 0 n]).
Proof.
rewrite full_FF; elim: (iota 0 n) => //= i l IH; apply/permP => P; move/permP/(_ P): IH.
do !rewrite count_cat /=; genlia P.
Qed.
Lemma full_E2 : sE2 m t = [seq ((nth e_def E k).1, nv + k) | k <- iota 0 (size E)] ++ [seq (nv + k, (nth e_def E k).2) | k <- iota 0 (size E)].
Proof.
have [_ Ce _ _] := full_counts.
rewrite /sE2 Ce full_edges mask_true // -/nv.
have -> : iota nv (size E) = [seq nv + k | k <- iota 0 (size E)] by rewrite -[in LHS](addn0 nv) iotaDl.
have -> : [seq e.1 | e <- t_e t] = [seq (nth e_def E k).1 | k <- iota 0 (size E)].
  by rewrite (map_comp fst (nth e_def E)) map_nth_iota0 ?take_size.
have -> : [seq e.2 | e <- t_e t] = [seq (nth e_def E k).2 | k <- iota 0 (size E)].
  by rewrite (map_comp snd (nth e_def E)) map_nth_iota0 ?take_size.
by rewrite !zip_maps.
Qed.

Lemma full_sizes : [/\ size (midpoints m t) = size E, size (sE m t) = 2 * size E + 3 * n & size (sF m t) = 4 * n].
Proof.
have [_ Ce _ _] := full_counts; rewrite size_new Ce; split=> //.
  rewrite full_E size_cat full_E1 full_E2 !size_cat !size_map !size_iota; lia.
rewrite full_FF !size_cat !size_map !size_iota; lia.
Qed.

(** ------------------------------------------------------------------ directed edges *)
Hypothesis Hu : uniq (all_darts F).
Hypothesis Ho : edges_once E F.
Hypothesis Hr : in_range nv E F.

Lemma uE : uniq (E ++ [seq flip e | e <- E]).
Proof. by rewrite -(perm_uniq Ho). Qed.
Lemma uE1 : uniq E. Proof. by have := uE; rewrite cat_uniq => /and3P[]. Qed.
Lemma E_noflip e : e \in E -> flip e \notin E.
Proof.
move=> He; have := uE; rewrite cat_uniq => /and3P[_ /hasPn H _]; apply/negP => Hf.
by have := H e; rewrite /= -{1}(flipK e) map_f // => /(_ isT); rewrite He.
Qed.
Lemma E_pair k l : k < size E -> l < size E -> k != l -> nth e_def E k != nth e_def E l /\ nth e_def E k != flip (nth e_def E l).
Proof.
move=> Hk Hl kl; split; first by rewrite nth_uniq ?uE1.
by apply/negP => /eqP Ek; have := E_noflip (mem_nth e_def Hl); rewrite -Ek mem_nth.
Qed.

(** the middle of a directed edge *)
Definition mu (e : edge) : nat := nv + (if e \in E then index e E else index (flip e) E).
Lemma mu_rec k b e : records E k b e -> mu e = nv + k.
Proof.
move=> /andP[Hk /eqP He]; rewrite /mu; case: b He => He; first by rewrite -He mem_nth // index_uniq ?uE1.
have Ef : flip (nth e_def E k) = e by rewrite He flipK.
by rewrite -Ef (negbTE (E_noflip _)) ?mem_nth // flipK index_uniq ?uE1.
Qed.
Lemma mu_flip e : mu (flip e) = mu e \/ (e \notin E /\ flip e \notin E).
Proof.
rewrite /mu flipK; case: (boolP (e \in E)) => He; first by left; rewrite (negbTE (E_noflip He)).
by case: (boolP (flip e \in E)) => Hf; [left|right].
Qed.
Lemma row_rec i : i < n -> [/\ mu (side12 (fc i)) = u12 i, mu (side23 (fc i)) = u23 i & mu (side13 (fc i)) = u13 i].
Proof. by move=> Hi; case: Hc => _ _ /(_ i Hi)/and3P[/mu_rec h1 /mu_rec h2 /mu_rec h3]. Qed.
Lemma row_flip i : i < n -> mu (flip (side13 (fc i))) = u13 i.
Proof.
move=> Hi; case: Hc => _ _ /(_ i Hi)/and3P[_ _ /records_flip/mu_rec h3] //.
Qed.

Definition hv (e : edge) : seq edge := [:: (e.1, mu e); (mu e, e.2)].

Lemma full_darts : perm_eq (all_darts (sF m t)) (flatten [seq inner i ++ [seq flip e | e <- inner i] | i <- iota 0 n] ++ flatten [seq hv e | e <- all_darts F]).
Proof.
have E1 : perm_eq (all_darts (sF m t)) (all_darts (flatten [seq sub i | i <- iota 0 n])).
  by apply: perm_flatten; apply: perm_map; exact: full_perm.
apply: (perm_trans E1).
have EF : F = [seq fc i | i <- iota 0 n] by symmetry; exact: (mkseq_nth f_def (t_f t)).
rewrite [X in flatten [seq hv e | e <- all_darts X]]EF.
have : all (fun i => i < n) (iota 0 n) by apply/allP => i; rewrite mem_iota.
elim: (iota 0 n) => //= i l IH /andP[Hi /IH {}IH].
have [A B _] := row_rec Hi; have C := row_flip Hi.
move: A B C IH; rewrite /all_darts /= /side12 /side23 /side13 /flip /= => -> -> -> /permP IH.
by apply/permP => P; move: (IH P); rewrite /darts /f0 /f1 /f2 /=; do !rewrite count_cat /=; genlia P.
Qed.

Lemma full_edges_once : edges_once (sE m t) (sF m t).
Proof.
apply: (perm_trans full_darts).
have Ef : perm_eq (flatten [seq hv e | e <- all_darts F]) (flatten [seq hv e | e <- E ++ [seq flip e | e <- E]]).
  by apply: perm_flatten; apply: perm_map; exact: Ho.
have H1 : perm_eq (flatten [seq inner i ++ [seq flip e | e <- inner i] | i <- iota 0 n]) (sE1 m t ++ [seq flip e | e <- sE1 m t]).
  rewrite full_E1; elim: (iota 0 n) => //= i l IH; apply/permP => P; move/permP/(_ P): IH.
  do !rewrite ?map_cat count_cat /=; genlia P.
have H2 : perm_eq (flatten [seq hv e | e <- E ++ [seq flip e | e <- E]]) (sE2 m t ++ [seq flip e | e <- sE2 m t]).
  rewrite full_E2.
  have EE : E = [seq nth e_def E k | k <- iota 0 (size E)] by rewrite map_nth_iota0 ?take_size.
  rewrite [X in flatten [seq hv e | e <- X ++ [seq flip e | e <- X]]]EE.
  have : all (fun i => i < size E) (iota 0 (size E)) by apply/allP => i; rewrite mem_iota.
  elim: (iota 0 (size E)) => //= k l IH /andP[Hk /IH {}IH].
  have M1 : mu (nth e_def E k) = nv + k by apply: (@mu_rec _ true); rewrite /records Hk eqxx.
  have M2 : mu (flip (nth e_def E k)) = nv + k by apply: (@mu_rec _ false); rewrite /records Hk flipK eqxx.
  apply/permP => P; move/permP/(_ P): IH.
  do !rewrite ?map_cat ?flatten_cat count_cat /=; rewrite M1 M2.
  rewrite /flip /=; genlia P.
rewrite full_E map_cat; move: (perm_trans Ef H2) => H3.
apply: (perm_trans (perm_cat H1 H3)).
by apply/permP => P; do !rewrite count_cat /=; genlia P.
Qed.

Hypothesis Hp : all proper F.
Hypothesis Hsim : simple F.

Lemma kside i k : i < n -> in3 k (kk i) -> has_side (fc i) (nth e_def E k).
Proof.
move=> Hi; case: Hc => _ _ /(_ i Hi)/and3P[/andP[_ h1] /andP[_ h2] /andP[_ h3]].
have W b x y : x == (if b then y else flip y) -> (x == y) || (x == flip y) by case: b => ->; rewrite ?orbT.
case/or3P => /eqP ->; rewrite /has_side; [move: (W _ _ _ h1)|move: (W _ _ _ h2)|move: (W _ _ _ h3)];
  by case/orP => ->; rewrite ?orbT.
Qed.
Lemma kk_inj i j k l : i < n -> j < n -> k != l -> in3 k (kk i) -> in3 l (kk i) -> in3 k (kk j) -> in3 l (kk j) -> i = j.
Proof.
move=> Hi Hj kl ki li kj lj; have [n1 n2] := E_pair (kk_lt Hi ki) (kk_lt Hi li) kl.
have [uF sF] := Hsim.
have Sv : same_verts (fc i) (fc j) by apply: (two_sides _ _ (kside Hi ki) (kside Hi li) (kside Hj kj) (kside Hj lj) n1 n2); apply: (all_nthP f_def Hp).
have := sF _ _ (mem_nth f_def Hi) (mem_nth f_def Hj) Sv => /eqP.
by rewrite nth_uniq // => /eqP.
Qed.
Lemma side_neq f : proper f -> [/\ side12 f != side23 f, side12 f != flip (side23 f) & side12 f != side13 f] /\
  [/\ side12 f != flip (side13 f), side23 f != side13 f & side23 f != flip (side13 f)].
Proof.
move=> /and3P[h1 h2 h3]; rewrite /side12 /side23 /side13 /flip !xpair_eqE /= !eqxx (negbTE h1) (negbTE h2) (negbTE h3).
by rewrite ?andbF ?andbT //; do 2!split=> //; rewrite eq_sym ?(negbTE h1) ?(negbTE h2) ?(negbTE h3).
Qed.
Lemma kk_neq i : i < n -> [/\ (kk i).1.1 != (kk i).1.2, (kk i).1.1 != (kk i).2 & (kk i).1.2 != (kk i).2].
Proof.
move=> Hi; case: Hc => _ _ /(_ i Hi)/and3P[/andP[_ /eqP h1] /andP[_ /eqP h2] /andP[_ /eqP h3]].
have [[n1 n2 n3] [n4 n5 n6]] := side_neq (all_nthP f_def Hp i Hi).
have W k k' b b' e e' : nth e_def E k = (if b then e else flip e) -> nth e_def E k' = (if b' then e' else flip e') ->
   e != e' -> e != flip e' -> k != k'.
  move=> Ek Ek' ne nf; apply/negP => /eqP kk'; move: Ek'; rewrite -kk' Ek => Eb.
  case: b b' {Ek} Eb => -[] Eb; first by rewrite Eb eqxx in ne.
  - by rewrite Eb eqxx in nf.
  - by rewrite -Eb flipK eqxx in nf.
  by rewrite -(flipK e) Eb flipK eqxx in ne.
by split; [exact: W h1 h2 n1 n2|exact: W h1 h3 n3 n4|exact: W h2 h3 n5 n6].
Qed.

Lemma f_lt i x : i < n -> x \in verts (fc i) -> x < nv.
Proof. by move=> Hi; case/andP: Hr => _ /allP/(_ _ (mem_nth f_def Hi))/allP H /H. Qed.
Lemma e_lt e : e \in E -> e.1 < nv /\ e.2 < nv.
Proof. by case/andP: Hr => /allP H _ /H/andP[]. Qed.

(** a dart inside face i joins the middles of two of its sides *)
Lemma inner_in i e : i < n -> e \in inner i ++ [seq flip x | x <- inner i] ->
  exists k l, [/\ e = (nv + k, nv + l), k != l, in3 k (kk i) & in3 l (kk i)].
Proof.
move=> Hi; have [n1 n2 n3] := kk_neq Hi; have I1 : in3 (kk i).1.1 (kk i) by rewrite /in3 eqxx.
have I2 : in3 (kk i).1.2 (kk i) by rewrite /in3 eqxx orbT.
have I3 : in3 (kk i).2 (kk i) by rewrite /in3 eqxx !orbT.
rewrite /inner /= !inE /flip /u12 /u13 /u23 /=.
case/or4P => [/eqP->|/eqP->|/eqP->|/or3P[/eqP->|/eqP->|/eqP->]]; do 2!eexists; split; first [reflexivity|done|by rewrite eq_sym|idtac].
Qed.
Lemma D_lt e : e \in all_darts F -> [/\ e.1 < nv, e.2 < nv & nv <= mu e].
Proof.
rewrite (perm_mem Ho) mem_cat => /orP[He|/mapP[e' He ->]]; have [a b] := e_lt He; by split=> //; exact: leq_addr.
Qed.
Lemma mu_inj e e' : e \in all_darts F -> e' \in all_darts F -> mu e = mu e' -> e = e' \/ e = flip e'.
Proof.
have W x : x \in all_darts F -> exists k b, [/\ k < size E, mu x = nv + k & x = if b then nth e_def E k else flip (nth e_def E k)].
  rewrite (perm_mem Ho) mem_cat => /orP[Hx|/mapP[y Hy ->]].
    exists (seq.index x E), true; rewrite index_mem; split=> //; first by rewrite /mu Hx.
    by rewrite nth_index.
  exists (seq.index y E), false; rewrite index_mem; split=> //; last by rewrite nth_index.
  by rewrite /mu (negbTE (E_noflip Hy)) flipK.
move=> /W[k [b [Hk Mk Ek]]] /W[l [c [Hl Ml El]]]; rewrite Mk Ml => /eqP; rewrite eqn_add2l => /eqP kl.
rewrite Ek El -kl; case: b {Ek} ; case: c {El}; rewrite ?flipK; by [left|right].
Qed.

Lemma uniq_flipfree e : e \in all_darts F -> e.1 != e.2.
Proof.
move=> /flattenP[s /mapP[f Hf ->]]; have /and3P[h1 h2 h3] := allP Hp f Hf.
by rewrite /darts !inE => /or3P[] /eqP -> //=; rewrite eq_sym.
Qed.
Lemma full_uniq : uniq (all_darts (sF m t)).
Proof.
rewrite (perm_uniq full_darts) cat_uniq; apply/and3P; split.
- apply: uniq_flatten; first exact: iota_uniq.
  + move=> i; rewrite mem_iota => /andP[_ Hi]; have [n1 n2 n3] := kk_neq Hi.
    rewrite /= !inE /u12 /u23 /u13 /flip /= !xpair_eqE !eqn_add2l !eqxx !negb_or !negb_and.
    by rewrite ?(eq_sym (kk i).1.2 (kk i).1.1) ?(eq_sym (kk i).2) n1 n2 n3 ?orbT.
  move=> i j z; rewrite !mem_iota => /andP[_ Hi] /andP[_ Hj] /(inner_in Hi)[k [l [-> kl ki li]]] /(inner_in Hj)[k' [l' [[]]]].
  by move=> /eqP; rewrite eqn_add2l => /eqP <- /eqP; rewrite eqn_add2l => /eqP <- _ kj lj; exact: kk_inj ki li kj lj.
- apply/hasPn => z /flattenP[s /mapP[e He ->]]; have [a b c] := D_lt He => Hz.
  apply/negP => /flattenP[s' /mapP[i]]; rewrite mem_iota => /andP[_ Hi] -> /(inner_in Hi)[k [l [Ez _ _ _]]].
  by move: Hz a b; rewrite /hv Ez !inE !xpair_eqE => /orP[] /andP[/eqP h1 /eqP h2]; rewrite ltnNge ?(ltnNge e.2) -?h1 -?h2 !leq_addr.
apply: uniq_flatten => // [e He|e e' z He He'].
  have [a b c] := D_lt He; rewrite /= inE andbT xpair_eqE negb_and; apply/orP; left; by rewrite neq_ltn (leq_trans a c).
have [a b c] := D_lt He; have [a' b' c'] := D_lt He'; rewrite /hv !inE => /orP[] /eqP -> ; rewrite !xpair_eqE => /orP[] /andP[/eqP h1 /eqP h2].
- case: (mu_inj He He' h2) => // Ef; exfalso; move: h1; rewrite Ef /= => h1.
  have := uniq_flipfree He'; rewrite -h1 eqxx //.
- by move: a; rewrite h1 ltnNge c'.
- by move: a'; rewrite -h1 ltnNge c.
case: (mu_inj He He' h1) => // Ef; exfalso; move: h2; rewrite Ef /= => h2.
by have := uniq_flipfree He'; rewrite h2 eqxx.
Qed.

Lemma mem_sub g : g \in sF m t -> exists2 i, i < n & g \in sub i.
Proof.
rewrite (perm_mem full_perm) => /flattenP[s /mapP[i]]; rewrite mem_iota => /andP[_ Hi] -> Hg; by exists i.
Qed.
Lemma new_ge i : [/\ (u12 i < nv) = false, (u23 i < nv) = false & (u13 i < nv) = false].
Proof. by rewrite /u12 /u23 /u13 !(ltnNge _ nv) !leq_addr. Qed.
Lemma old_lt i : i < n -> [/\ f0 (fc i) < nv, f1 (fc i) < nv & f2 (fc i) < nv].
Proof. by move=> Hi; split; apply: (f_lt Hi); rewrite /verts !inE eqxx ?orbT. Qed.

Lemma sub_new i g : i < n -> g \in sub i -> exists k l, [/\ k != l, in3 k (kk i), in3 l (kk i), nv + k \in verts g & nv + l \in verts g].
Proof.
move=> Hi; have [n1 n2 n3] := kk_neq Hi.
have I1 : in3 (kk i).1.1 (kk i) by rewrite /in3 eqxx.
have I2 : in3 (kk i).1.2 (kk i) by rewrite /in3 eqxx orbT.
have I3 : in3 (kk i).2 (kk i) by rewrite /in3 eqxx !orbT.
rewrite /sub !inE => /or4P[] /eqP ->.
- by exists (kk i).1.1, (kk i).1.2; rewrite /verts !inE /f0 /f1 /f2 /u12 /u23 /u13 /= !eqxx ?orbT.
- by exists (kk i).1.1, (kk i).2; rewrite /verts !inE /f0 /f1 /f2 /u12 /u23 /u13 /= !eqxx ?orbT.
- by exists (kk i).1.1, (kk i).1.2; rewrite /verts !inE /f0 /f1 /f2 /u12 /u23 /u13 /= !eqxx ?orbT.
by exists (kk i).1.2, (kk i).2; rewrite /verts !inE /f0 /f1 /f2 /u12 /u23 /u13 /= !eqxx ?orbT.
Qed.
Lemma sub_new_inv i g k : i < n -> g \in sub i -> nv + k \in verts g -> in3 k (kk i).
Proof.
move=> Hi; have [o1 o2 o3] := old_lt Hi.
have W x : x < nv -> (nv + k == x) = false by move=> Hx; apply/negP => /eqP Ek; move: Hx; rewrite -Ek ltnNge leq_addr.
rewrite /in3 /sub !inE => /or4P[] /eqP -> /=; rewrite /u12 /u23 /u13 !eqn_add2l; rewrite ?W // ?orbF;
  do ?case/orP; move=> ->; by rewrite ?orbT.
Qed.
Lemma sub_inj i g g' : i < n -> g \in sub i -> g' \in sub i -> same_verts g g' -> g = g'.
Proof.
move=> Hi Hg Hg' /(perm_filter (fun x => x < nv)).
have [o1 o2 o3] := old_lt Hi; have [w1 w2 w3] := new_ge i; have /and3P[p1 p2 p3] := all_nthP f_def Hp i Hi.
have S x y : x != y -> perm_eq [:: x] [:: y] = false by move=> xy; apply/negP => /perm_small_eq; move=> /(_ isT)[] /eqP; rewrite (negbTE xy).
move: Hg Hg'; rewrite /sub !inE => /or4P[] /eqP -> /or4P[] /eqP -> //; rewrite /verts /f0 /f1 /f2;
  cbn [filter fst snd]; rewrite -/(f0 (fc i)) -/(f1 (fc i)) -/(f2 (fc i)) ?w1 ?w2 ?w3 ?o1 ?o2 ?o3; cbv iota;
  rewrite ?S //; first [by move=> /perm_size|by rewrite eq_sym].
Qed.
Lemma sub_proper i g : i < n -> g \in sub i -> proper g.
Proof.
move=> Hi; have [n1 n2 n3] := kk_neq Hi; have [o1 o2 o3] := old_lt Hi.
have W x y : x < nv -> nv + y != x by move=> Hx; apply/negP => /eqP Ek; move: Hx; rewrite -Ek ltnNge leq_addr.
by rewrite /sub !inE => /or4P[] /eqP ->; rewrite /proper /f0 /f1 /f2 /u12 /u23 /u13 /= !eqn_add2l ?W ?n1 ?n2 ?n3 // ?andbT // eq_sym ?n1 ?n2 ?n3.
Qed.

Lemma full_proper : all proper (sF m t).
Proof. by apply/allP => g /mem_sub[i Hi]; exact: sub_proper. Qed.

Lemma sub_same i j g g' : i < n -> j < n -> g \in sub i -> g' \in sub j -> same_verts g g' -> i = j.
Proof.
move=> Hi Hj Hg Hg' Sv; have [k [l [kl ki li kg lg]]] := sub_new Hi Hg.
by apply: (kk_inj Hi Hj kl ki li); apply: (sub_new_inv Hj Hg'); rewrite -(perm_mem Sv).
Qed.
Lemma full_simple : simple (sF m t).
Proof.
split=> [|g g' /mem_sub[i Hi Hg] /mem_sub[j Hj Hg'] Sv]; last first.
  by have Eij := sub_same Hi Hj Hg Hg' Sv; subst j; exact: sub_inj Hi Hg Hg' Sv.
rewrite (perm_uniq full_perm); apply: uniq_flatten; first exact: iota_uniq.
  move=> i; rewrite mem_iota => /andP[_ Hi]; have [n1 n2 n3] := kk_neq Hi.
  have [o1 o2 o3] := old_lt Hi; have /and3P[p1 p2 p3] := all_nthP f_def Hp i Hi.
  have W x y : x < nv -> (nv + y == x) = false by move=> Hx; apply/negP => /eqP Ek; move: Hx; rewrite -Ek ltnNge leq_addr.
  rewrite /= !inE !xpair_eqE /u12 /u23 /u13 !eqn_add2l !W //.
  by rewrite (negbTE p1) (negbTE p2) (negbTE p3) ?andbF.
move=> i j g; rewrite !mem_iota => /andP[_ Hi] /andP[_ Hj] Hg Hg'; exact: (sub_same Hi Hj Hg Hg' (perm_refl _)).
Qed.
Lemma full_range : in_range (nv + size E) (sE m t) (sF m t).
Proof.
have L k i : i < n -> in3 k (kk i) -> nv + k < nv + size E by move=> Hi Hk; rewrite ltn_add2l; exact: kk_lt Hk.
have I1 i : in3 (kk i).1.1 (kk i) by rewrite /in3 eqxx.
have I2 i : in3 (kk i).1.2 (kk i) by rewrite /in3 eqxx orbT.
have I3 i : in3 (kk i).2 (kk i) by rewrite /in3 eqxx !orbT.
have L1 i (Hi : i < n) := L _ _ Hi (I1 i); have L2 i (Hi : i < n) := L _ _ Hi (I2 i); have L3 i (Hi : i < n) := L _ _ Hi (I3 i).
have Ge x : x < nv -> x < nv + size E by move=> Hx; exact: leq_trans Hx (leq_addr _ _).
apply/andP; split; apply/allP.
  move=> e; rewrite full_E full_E1 full_E2 !mem_cat => /orP[/or3P[]|/orP[]] /mapP[i]; rewrite mem_iota => /andP[_ Hi] -> /=;
    rewrite -/(u12 i) -/(u13 i) -/(u23 i) ?L1 ?L2 ?L3 // ?ltn_add2l ?Hi ?andbT //;
    have [a b] := e_lt (mem_nth e_def Hi); exact: Ge.
move=> g /mem_sub[i Hi]; have [o1 o2 o3] := old_lt Hi.
by rewrite /sub !inE => /or4P[] /eqP ->; rewrite /= /f0 /f1 /f2 /= ?L1 ?L2 ?L3 ?Ge.
Qed.
Lemma full_closed : closed (sF m t).
Proof. exact: once_closed full_edges_once full_uniq. Qed.
End Full.
