(** Lemmas about tri.py:is_face. *)
From mathcomp Require Import all_ssreflect all_algebra.
From mathcomp.zify Require Import zify.
From Verif.Model Require Import Py NP IsMember Tri Gen TriEq.
From Verif.Spec Require Import TriSpec TriEqSpec ConfigSpec.
From Verif.Proof Require IsMemberProof.
From Verif.Proof Require Import TriMap.
Set Implicit Arguments.
Unset Strict Implicit.
Unset Printing Implicit Defensive.
Import Order.Theory GRing.Theory Num.Theory.

(** ------------------------------------------------------------------ np.split *)
Lemma split_flatten T (pre : seq T) ss : 0 < size ss ->
  np_split_from (size pre) (pre ++ flatten ss) (cumsum_from (size pre) (take (size ss).-1 (seq.shape ss))) = ss.
Proof.
elim: ss pre => // s [|s' ss] IH pre _ /=; first by rewrite cats0 drop_size_cat.
rewrite take_cat addKn ifF; last by rewrite ltnNge leq_addr.
rewrite drop_size_cat ?take_size_cat //; congr cons.
by have := IH (pre ++ s) isT; rewrite size_cat -catA /=.
Qed.

Section Group.
Variables (T : eqType) (key : T -> nat).
Implicit Types P : seq T.
Lemma sorted_halves P m : sorted (relpre key leq) P ->
  P = [seq x <- P | key x < m] ++ [seq x <- P | m <= key x].
Proof.
have tr : transitive (relpre key leq) by move=> a b c /=; exact: leq_trans.
elim: P => //= x P IH Hs; have {}IH := IH (path_sorted Hs).
have Ha := order_path_min tr Hs.
case: (ltnP (key x) m) => Hx /=; first by rewrite -IH.
have -> : [seq y <- P | key y < m] = [::].
  apply/eqP; rewrite -(negbK (_ == _)) -has_filter; apply/hasPn => y /(allP Ha) /=; lia.
congr cons; apply/esym/all_filterP/allP => y /(allP Ha) /=; lia.
Qed.

Lemma sorted_groups P n : sorted (relpre key leq) P -> all (fun x => key x < n) P ->
  P = flatten [seq [seq x <- P | key x == k] | k <- iota 0 n].
Proof.
have tr : transitive (relpre key leq) by move=> a b c /=; exact: leq_trans.
elim: n P => [|n IH] P Hs Ha; first by case: P Hs Ha => //= x P _ /andP[].
rewrite -addn1 iotaD map_cat flatten_cat /= cats0 add0n.
rewrite {1}(sorted_halves n Hs) {1}(IH [seq x <- P | key x < n]) ?sorted_filter ?filter_all //.
congr (flatten _ ++ _).
  apply/eq_in_map => k; rewrite mem_iota /= => Hk; rewrite -filter_predI; apply: eq_filter => x /=.
  by case: eqP => //= ->.
by apply/eq_in_filter => x /(allP Ha); lia.
Qed.

Lemma group_split P n T' (f : T -> T') : 0 < n -> sorted (relpre key leq) P -> all (fun x => key x < n) P ->
  let c := [seq count_mem k [seq key x | x <- P] | k <- iota 0 n] in
  np_split [seq f x | x <- P] (cumsum (take n.-1 c)) = [seq [seq f x | x <- P & key x == k] | k <- iota 0 n].
Proof.
move=> n0 Hs Ha c; set ss := RHS.
have Ec : c = seq.shape ss.
  rewrite /seq.shape -map_comp; apply/eq_map => k /=; rewrite size_map size_filter count_map; exact: eq_count.
have -> : [seq f x | x <- P] = flatten ss.
  rewrite {1}(sorted_groups Hs Ha) map_flatten -!map_comp; congr flatten.
have Sn : size ss = n by rewrite size_map size_iota.
have nz : 0 < size ss by rewrite Sn.
by rewrite Ec -{1}Sn; have := split_flatten [::] nz.
Qed.
End Group.

Lemma bincountE (s : seq nat) n : 0 < n -> s =i iota 0 n -> bincount s = [seq count_mem k s | k <- iota 0 n].
Proof.
move=> n0 Hs.
rewrite /bincount; case E : s => [|x s']; first by move: (Hs 0); rewrite E mem_iota n0.
rewrite -E; congr (map _ (iota _ _)).
have : \max_(y <- s) y <= n.-1.
  by rewrite big_seq; apply: (big_ind (fun x => x <= n.-1)) => [|a b ha hb|i]; rewrite ?geq_max ?ha //= Hs mem_iota; lia.
have : n.-1 <= \max_(y <- s) y.
  have I : n.-1 \in s by rewrite Hs mem_iota; lia.
  by rewrite (big_rem _ I) /= leq_maxl.
lia.
Qed.

(** ------------------------------------------------------------------ edges in a face list *)
Lemma ecmp_eq x y : ecmp x y = Eq <-> x = y.
Proof.
case: x y => [a b] [c d]; rewrite /ecmp /=; split.
  by case: PeanoNat.Nat.compare_spec => // -> /PeanoNat.Nat.compare_eq ->.
by case=> -> ->; rewrite !PeanoNat.Nat.compare_refl.
Qed.
Lemma ecmp_opp x y : ecmp y x = CompOpp (ecmp x y).
Proof.
case: x y => [a b] [c d]; rewrite /ecmp /= (PeanoNat.Nat.compare_antisym a c).
by case: PeanoNat.Nat.compare_spec => //= _; rewrite PeanoNat.Nat.compare_antisym.
Qed.
Lemma ecmp_trans x y z : ecmp x y = Lt -> ecmp y z = Lt -> ecmp x z = Lt.
Proof.
case: x y z => [a b] [c d] [e f]; rewrite /ecmp /=.
case: (PeanoNat.Nat.compare_spec a c) => // H1; case: (PeanoNat.Nat.compare_spec c e) => // H2;
case: (PeanoNat.Nat.compare_spec a e) => // H3; rewrite ?PeanoNat.Nat.compare_lt_iff; lia.
Qed.

Lemma sort2K e e' : (sort2 e.1 e.2 == sort2 e'.1 e'.2) = (e == e') || (e == flip e').
Proof.
case: e e' => [a b] [c d]; rewrite /sort2 /flip /=.
by do 2!case: leqP => ?; rewrite !xpair_eqE; apply/idP/idP; lia.
Qed.

Lemma attachedE fs e : attached fs e = count_mem (sort2 e.1 e.2) (pos_edges fs).
Proof.
rewrite /attached /pos_edges; elim: fs => //= f fs IH; rewrite -IH.
have E (x : edge) (a b : nat) : x = (a, b) -> (sort2 a b == sort2 e.1 e.2) = (x == e) || (x == flip e).
  by move=> ->; exact: (sort2K (a, b) e).
rewrite (E (side12 f)) // (E (side13 f)) // (E (side23 f)) //; lia.
Qed.

Lemma has_sideE f e : has_side f e = (sort2 e.1 e.2 \in pos_edges [:: f]).
Proof.
have E (x : edge) (a b : nat) : x = (a, b) -> (sort2 e.1 e.2 == sort2 a b) = (e == x) || (e == flip x).
  by move=> ->; exact: (sort2K e (a, b)).
rewrite /pos_edges /= !in_cons in_nil orbF (E (side12 f)) // (E (side13 f)) // (E (side23 f)) //.
by rewrite /has_side; do !case: (_ == _).
Qed.

Section Face.
Variable argsort : seq nat -> seq nat.
Hypothesis Harg : argsortn_ok argsort.
Variable fs : seq face.
Let n := size fs.
Let pos := pos_edges fs.
Let E := edges_of fs.
Let ind_f := flatten [seq nseq 3 i | i <- iota 0 n].
Let inv := [seq seq.index e E | e <- pos].
Let si := argsort inv.
Let P := [seq (nth 0 ind_f i, nth 0 inv i) | i <- si].
Let fnl := let sh := bincount [seq nth 0 inv i | i <- si] in
  if size sh == 1 then [:: [seq nth 0 ind_f i | i <- si]] else np_split [seq nth 0 ind_f i | i <- si] (cumsum (take (size sh).-1 sh)).

Lemma size_indf : size ind_f = size inv.
Proof.
have A (l : seq nat) : size (flatten [seq nseq 3 i | i <- l]) = 3 * size l by elim: l => //= x l ->; rewrite mulnS.
have B (l : seq face) : size (pos_edges l) = 3 * size l.
  by rewrite /pos_edges; elim: l => //= x l ->; rewrite mulnS.
by rewrite A size_map B size_iota.
Qed.
Lemma perm_P : perm_eq P (zip ind_f inv).
Proof.
have [Hp _] := Harg inv.
have -> : P = [seq nth (0, 0) (zip ind_f inv) i | i <- si].
  apply/eq_in_map => i; rewrite (perm_mem Hp) mem_iota /= => Hi; rewrite nth_zip // size_indf //.
rewrite (perm_trans (perm_map _ Hp)) //.
by rewrite -{1}size_indf -(size1_zip (t := inv)) ?size_indf // map_nth_iota0 ?take_size // size1_zip ?size_indf.
Qed.
Lemma P_keys : sorted (relpre snd leq) P.
Proof. by have [_] := Harg inv; rewrite -sorted_map /P -map_comp. Qed.

Lemma mem_inv : inv =i iota 0 (size E).
Proof.
move=> k; rewrite mem_iota /= add0n; apply/mapP/idP => [[e He ->]|Hk]; first by rewrite index_mem mem_edges.
by exists (nth e_def E k); rewrite -?mem_edges ?mem_nth // index_uniq ?edges_uniq.
Qed.

(** the faces of an edge *)
Definition faces_at (e : edge) : seq nat := [seq p.1 | p <- P & p.2 == seq.index e E].

Lemma fnlE e : e \in E -> nth [::] fnl (seq.index e E) = faces_at e.
Proof.
move=> He; have E0 : 0 < size E by case: (E) He.
have Hk : [seq nth 0 inv i | i <- si] =i iota 0 (size E).
  have [Hp _] := Harg inv.
  by move=> k; rewrite (perm_mem (perm_map _ Hp)) map_nth_iota0 ?take_size // mem_inv.
have Hb := bincountE E0 Hk.
have Hs : size (bincount [seq nth 0 inv i | i <- si]) = size E by rewrite Hb size_map size_iota.
have Hf : [seq nth 0 ind_f i | i <- si] = [seq p.1 | p <- P] by rewrite /P -map_comp.
have Hg : [seq nth 0 inv i | i <- si] = [seq p.2 | p <- P] by rewrite /P -map_comp.
have Ha : all (fun p : nat * nat => p.2 < size E) P.
  by apply/allP => p Hp; have := map_f snd Hp; rewrite -Hg Hk mem_iota.
have G := @group_split _ snd P (size E) _ fst E0 P_keys Ha.
have -> : fnl = [seq [seq p.1 | p <- P & p.2 == k] | k <- iota 0 (size E)].
  rewrite /fnl Hs; case: ifP => [/eqP E1|_]; last by rewrite Hf Hb Hg G.
  by rewrite E1 in G *; rewrite -G Hf /np_split /= drop0.
by rewrite (nth_map 0) ?size_iota ?index_mem // nth_iota ?index_mem.
Qed.

Lemma size_faces_at e : e \in E -> size (faces_at e) = count_mem e pos.
Proof.
move=> He; rewrite size_map size_filter (permP perm_P).
have -> : count (fun p : nat * nat => p.2 == seq.index e E) (zip ind_f inv) = count_mem (seq.index e E) inv.
  by rewrite -{2}(unzip2_zip (s := ind_f) (t := inv)) ?size_indf // count_map; apply: eq_count.
rewrite /inv count_map; apply: eq_in_count => e' /=; rewrite -mem_edges => He'.
by apply/eqP/eqP => [H|->//]; rewrite -(nth_index e_def He') H nth_index.
Qed.

Lemma mem_faces_at e i : e \in E -> (i \in faces_at e) = (i < n) && (e \in pos_edges [:: nth f_def fs i]).
Proof.
move=> He.
have Hz : zip ind_f inv = flatten [seq [seq (i, seq.index x E) | x <- pos_edges [:: nth f_def fs i]] | i <- iota 0 n].
  rewrite /ind_f /inv /pos /n.
  have -> : pos_edges fs = pos_edges [seq nth f_def fs i | i <- iota 0 (size fs)] by rewrite map_nth_iota0 ?take_size.
  by elim: (iota 0 _) => //= k l IH; rewrite -IH.
apply/mapP/andP => [[[j k]]|[Hi Hm]].
  rewrite mem_filter (perm_mem perm_P) Hz => /andP[/eqP Ek /flattenP[s /mapP[i']]].
  rewrite /= in Ek; rewrite {k}Ek mem_iota => Hi' -> /mapP[x Hx [-> Ex]] ->; split; first by move: Hi'.
  have Hx' : x \in E.
    rewrite mem_edges /pos_edges; apply/flattenP; exists (pos_edges [:: nth f_def fs i']) => //.
    by rewrite /pos_edges /= map_f // mem_nth.
  by rewrite -(nth_index e_def He) Ex nth_index.
exists (i, seq.index e E) => //; rewrite mem_filter eqxx (perm_mem perm_P) Hz; apply/andP; split => //.
apply/flattenP; exists [seq (i, seq.index x E) | x <- pos_edges [:: nth f_def fs i]].
  by rewrite (map_f (fun i => [seq (i, seq.index x E) | x <- pos_edges [:: nth f_def fs i]])) // mem_iota.
by apply: map_f.
Qed.

Lemma first_position_index (T : eqType) (x : T) (b : seq T) i : first_position x b i -> i = seq.index x b.
Proof.
case; elim: b i => [|y b IH] [|i] //= H1 H2; first by case: H1 => ->; rewrite eqxx.
have ne : y == x = false by apply/negP => /eqP E'; apply: (H2 0); [lia|rewrite E'].
rewrite ne; congr S; apply: IH => // j Hj; apply: (H2 j.+1); lia.
Qed.

Lemma attach_loopE (a : seq edge) mask pre idx (F := fun e => if e \in E then faces_at e else [::]) :
  List.Forall2 (fun x m => m = true <-> List.In x E) a mask ->
  List.Forall2 (fun x i => first_position x E i) (List.map fst (List.filter snd (List.combine a mask))) idx ->
  attach_loop fnl mask (pre ++ idx) (size pre) = [seq F e | e <- a].
Proof.
have I (x : edge) (l : seq edge) : List.In x l <-> x \in l.
  elim: l => [|y l IH] /=; first by rewrite in_nil.
  by rewrite in_cons IH; split => [[->|->]|/orP[/eqP ->|]]; rewrite ?eqxx ?orbT; auto.
move=> H; elim: H pre idx => {a mask} [|x m a mask Hx _ IH] pre idx //=.
case: m Hx => Hx /= H2; last first.
  have nx : x \in E = false by apply/negP => /I/Hx.
  by rewrite {1}/F nx (IH pre).
have ix : x \in E by apply/I/Hx.
inversion H2 as [|? i ? idx' Hf Hr [E1 E2] Ei]; subst; rewrite nth_cat ltnn subnn /= {1}/F ix.
rewrite (first_position_index Hf) fnlE //; congr cons.
by have := IH (rcons pre (seq.index x E)) idx' Hr; rewrite size_rcons cat_rcons.
Qed.

Lemma attachE es : get_edge_attachements fnl E es =
  Ok [seq let e' := sort2 e.1 e.2 in if e' \in E then faces_at e' else [::] | e : edge <- es].
Proof.
rewrite /get_edge_attachements.
have [mask [idx [-> [H1 H2]]]] := IsMemberProof.is_member_spec ecmp ecmp_eq ecmp_opp ecmp_trans [seq sort2 e.1 e.2 | e : edge <- es] E.
by rewrite -[idx]cat0s (attach_loopE [::] H1 H2) -map_comp.
Qed.
End Face.

(** ------------------------------------------------------------------ the rows of face numbers *)
Lemma intersect_rowP a b c : reflect (exists x, [/\ x \in [:: a.1; a.2], x \in [:: b.1; b.2] & x \in [:: c.1; c.2]]) (intersect_row a b c).
Proof.
case: a b c => [a a'] [b b'] [c c']; rewrite /intersect_row /= /flip_or_not /=.
apply: (iffP idP) => [H|[x []]].
  move: H; rewrite -!orbA => H; repeat (case/orP: H => H);
    case/andP: H => /eqP e1 /eqP e2;
    first [by exists a; rewrite !inE ?eqxx ?e1 ?e2 ?eqxx ?orbT | by exists a'; rewrite !inE ?eqxx ?e1 ?e2 ?eqxx ?orbT].
rewrite !inE => /orP[]/eqP -> /orP[]/eqP <- /orP[]/eqP <-; by rewrite ?eqxx ?orbT.
Qed.

Lemma mem_fnum_row d v (x : int) : (d.1 < 0)%R -> (d.2 < 0)%R ->
  x \in [:: (fnum_row d v).1; (fnum_row d v).2] ->
  (exists2 i, i \in v & x = i%:Z%R /\ size v <= 2) \/ x = d.1 \/ x = d.2.
Proof.
move=> d1 d2; case: v => [|i [|j [|k v]]] /=; rewrite !inE => /orP[]/eqP ->; rewrite ?inE; auto.
all: left; first [by exists i; rewrite ?inE ?eqxx|by exists j; rewrite ?inE ?eqxx ?orbT].
Qed.
Lemma fnum_row_mem d v i : size v <= 2 -> i \in v -> i%:Z%R \in [:: (fnum_row d v).1; (fnum_row d v).2].
Proof. by case: v => [|a [|b [|c v]]] //= _; rewrite !inE; try case/orP; move=> /eqP ->; rewrite eqxx ?orbT. Qed.

Lemma intersectE v12 v23 v13 :
  intersect_row (fnum_row (-121%:Z, -122%:Z)%R v12) (fnum_row (-231%:Z, -232%:Z)%R v23) (fnum_row (-131%:Z, -132%:Z)%R v13)
  = has (fun i => (i \in v23) && (i \in v13)) v12 && [&& size v12 <= 2, size v23 <= 2 & size v13 <= 2].
Proof.
apply/intersect_rowP/andP => [[x [H1 H2 H3]]|[/hasP[i i1 /andP[i2 i3]] /and3P[s1 s2 s3]]]; last first.
  by exists i%:Z%R; rewrite !fnum_row_mem.
have [[i i1 [E1 s1]]|N1] := mem_fnum_row (d := (-121%:Z, -122%:Z)%R) isT isT H1;
have [[j j1 [E2 s2]]|N2] := mem_fnum_row (d := (-231%:Z, -232%:Z)%R) isT isT H2;
have [[k k1 [E3 s3]]|N3] := mem_fnum_row (d := (-131%:Z, -132%:Z)%R) isT isT H3;
  try rewrite /= in N1; try rewrite /= in N2; try rewrite /= in N3; try lia.
have Ej : j = i by lia. have Ek : k = i by lia.
by rewrite s1 s2 s3; split => //; apply/hasP; exists i => //; rewrite -{1}Ej j1 -Ek.
Qed.

Lemma is_face_run argsort fs gs : argsortn_ok argsort ->
  is_face argsort (Rows fs) gs =
  Ok [seq has (fun f => all (has_side f) (sides g)) fs && all (fun e => attached fs e <= 2) (sides g) | g <- gs].
Proof.
move=> Ha; rewrite /is_face /= !(attachE Ha) /=.
congr Ok; rewrite /zip3 -!map_comp !zip_map -map_comp; apply/eq_map => g /=.
rewrite intersectE.
set E := edges_of fs.
have S e : size (if sort2 e.1 e.2 \in E then faces_at argsort fs (sort2 e.1 e.2) else [::]) = attached fs e.
  rewrite attachedE; case: ifP => He; first exact: size_faces_at.
  by apply/esym/count_memPn; rewrite -mem_edges He.
have M e i : (i \in (if sort2 e.1 e.2 \in E then faces_at argsort fs (sort2 e.1 e.2) else [::])) = (i < size fs) && has_side (nth f_def fs i) e.
  rewrite has_sideE; case: ifP => He; first exact: mem_faces_at.
  rewrite in_nil; apply/esym/negbTE/negP => /andP[Hi Hm]; move/negP: He; apply.
  rewrite /E mem_sort mem_undup /pos_edges; apply/flattenP; exists (pos_edges [:: nth f_def fs i]) => //.
  by rewrite /pos_edges /= map_f // mem_nth.
rewrite (S (f0 g, f1 g)) (S (f1 g, f2 g)) (S (f0 g, f2 g)) andbT; congr andb.
apply/hasP/hasP => [[i i1 /andP[i2 i3]]|[f /(nthP f_def)[i Hi <-] /and4P[s1 s2 s3 _]]].
  move: i1 i2 i3; rewrite (M (f0 g, f1 g)) (M (f1 g, f2 g)) (M (f0 g, f2 g)) => /andP[Hi s1] /andP[_ s2] /andP[_ s3].
  by exists (nth f_def fs i); rewrite ?mem_nth //= s1 s2 s3.
by exists i; rewrite ?(M (f0 g, f1 g)) ?(M (f1 g, f2 g)) ?(M (f0 g, f2 g)) Hi ?s1 ?s2 ?s3.
Qed.
