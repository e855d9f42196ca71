(** One pass of shrink_face_tri: the face/edge map. *)
From mathcomp Require Import all_ssreflect all_algebra.
Require Import Coq.Strings.String.
From Verif.Model Require Import Py NP Tri.
From Verif.Spec Require Import TriSpec.
From Verif.Proof Require Import NPLib TriMap.
From mathcomp.zify Require Import zify.
Set Implicit Arguments.
Unset Strict Implicit.
Unset Printing Implicit Defensive.
Import Order.Theory GRing.Theory Num.Theory.

(** ------------------------------------------------------------------ boolean masks *)
Definition rk (m : seq bool) (i : nat) : nat := count id (take i m).

Lemma nth_cumsum a s i : i < size s -> nth 0 (cumsum_from a s) i = a + sumn (take i.+1 s).
Proof. by elim: s a i => //= x s IH a [|i] Hi /=; rewrite ?take0 ?addn0 //= IH // addnA. Qed.
Lemma sumn_bool m : sumn [seq nat_of_bool b | b <- m] = count id m.
Proof. by elim: m => //= b m ->. Qed.
Lemma cumsum_rk m i : i < size m -> nth 0 (cumsum [seq nat_of_bool b | b <- m]) i = rk m i.+1.
Proof. by move=> Hi; rewrite /cumsum nth_cumsum ?size_map // add0n -map_take sumn_bool. Qed.
Lemma nth_true (m : seq bool) i : nth false m i -> i < size m.
Proof. by case: ltnP => // Hi; rewrite nth_default. Qed.
Lemma rkS m i : nth false m i -> rk m i.+1 = (rk m i).+1.
Proof. by move=> Hi; rewrite /rk (take_nth false (nth_true Hi)) -cats1 count_cat /= Hi addn1. Qed.
Lemma rk_lt m i : nth false m i -> rk m i < count id m.
Proof. by move=> Hi; rewrite -rkS // /rk -{2}(cat_take_drop i.+1 m) count_cat leq_addr. Qed.
Lemma nth_mask {T} (d : T) m s i : nth false m i -> i < size s -> nth d (mask m s) (rk m i) = nth d s i.
Proof.
elim: m s i => [|b m IH] [|x s] [|i] //=; first by move=> ->.
by rewrite ltnS => Hi Hs; case: b => /=; rewrite -/(rk m i) ?add1n /= IH.
Qed.
Lemma rk_inv m j : j < count id m -> exists2 i, nth false m i & rk m i = j.
Proof.
elim: m j => [|b m IH] //= j; case: b => /=; last by rewrite add0n => /IH[i Hi Er]; exists i.+1.
case: j => [|j]; first by exists 0.
by rewrite add1n ltnS => /IH[i Hi Er]; exists i.+1 => //=; rewrite /rk /= -/(rk m i) Er.
Qed.
Lemma rk_inj m i j : nth false m i -> nth false m j -> rk m i = rk m j -> i = j.
Proof.
move=> Hi Hj; have W a b : nth false m a -> a < b -> rk m a < rk m b.
  move=> Ha ab; rewrite -rkS // /rk -(subnKC ab) takeD count_cat leq_addr //.
by case: (ltngtP i j) => // /W h; [move: (h Hi)|move: (h Hj)] => + E; rewrite E ltnn.
Qed.
Lemma size_maskT {T} m (s : seq T) : size m = size s -> size (mask m s) = count id m.
Proof. exact: size_mask. Qed.

Lemma size_cumidx (f : nat -> nat) m : size [seq f x | x <- cumsum [seq nat_of_bool b | b <- m]] = size m.
Proof. by rewrite size_map size_cumsum size_map. Qed.
Lemma cumidx m nv i : nth false m i ->
  nth 0 [seq (x + nv).-1 | x <- cumsum [seq nat_of_bool b | b <- m]] i = rk m i + nv.
Proof.
by move=> Hi; have Hs := nth_true Hi; rewrite (nth_map 0) ?size_cumsum ?size_map // cumsum_rk // rkS.
Qed.
Lemma cumidx0 m i : nth false m i -> nth 0 [seq x.-1 | x <- cumsum [seq nat_of_bool b | b <- m]] i = rk m i.
Proof.
by move=> Hi; have Hs := nth_true Hi; rewrite (nth_map 0) ?size_cumsum ?size_map // cumsum_rk // rkS.
Qed.

(** ------------------------------------------------------------------ concatenation *)
Definition rec3 (es : seq edge) (f : face) (k : nat * nat * nat) (b : bool * bool * bool) : bool :=
  [&& records es k.1.1 b.1.1 (side12 f), records es k.1.2 b.1.2 (side23 f) & records es k.2 b.2 (side13 f)].

Lemma consistent_cat es fs fs' f2e f2e' dir dir' : consistent es fs f2e dir -> consistent es fs' f2e' dir' ->
  consistent es (fs ++ fs') (f2e ++ f2e') (dir ++ dir').
Proof.
move=> [E1 E2 H] [E1' E2' H']; split; rewrite ?size_cat ?E1 ?E2 ?E1' ?E2' // => i Hi /=.
rewrite !nth_cat E1 E2; case: ltnP => Hl; first exact: H.
by apply: H'; lia.
Qed.
Lemma consistent0 es : consistent es [::] [::] [::]. Proof. by []. Qed.

Lemma records_cat es es' k b e : records es k b e -> records (es ++ es') k b e.
Proof. by rewrite /records size_cat nth_cat => /andP[Hk He]; rewrite Hk He (leq_trans Hk) // leq_addr. Qed.
Lemma records_catr es es' k b e : records es' k b e -> records (es ++ es') (size es + k) b e.
Proof.
rewrite /records size_cat nth_cat ltn_add2l.
by have -> : (size es + k < size es) = false; [lia|rewrite addKn].
Qed.

(** the rows of the faces that are about to be split describe their sides *)
Definition strict_split (R : rcfType) d (max_len : R) (t : tri R d) : Prop :=
  [/\ size (t_f2e t) = size (t_f t), size (t_dir t) = size (t_f t),
      forall i k, i < size (t_f t) -> in3 k (nth f_def (t_f2e t) i) -> k < size (t_e t) &
      forall i, nth false (split_faces max_len t) i ->
        rec3 (t_e t) (nth f_def (t_f t) i) (nth f_def (t_f2e t) i) (nth d_def (t_dir t) i)].

Section Step.
Variables (R : rcfType) (d : nat).
Variable max_len : R.
Variable t : tri R d.

Let is_f := split_faces max_len t.
Let is_e := split_edges max_len t.
Let is_k := kept_edges max_len t.
Let E := t_e t.
Let nv := size (t_v t).
Let ns := count id is_f.
Let nnew := count id is_e.
Let ne := count id is_k.
Hypothesis Hc : strict_split max_len t.

Lemma size_isf : size is_f = size (t_f t).
Proof. by case: Hc => Es _ _ _; rewrite size_map Es. Qed.
Lemma size_ise : size is_e = size E. Proof. by rewrite size_map size_iota. Qed.
Lemma size_isk : size is_k = size E. Proof. by rewrite size_map size_iota. Qed.
Lemma size_new : size (midpoints max_len t) = nnew.
Proof. by rewrite size_map size_mask // size_ise. Qed.

(** the new vertex in the middle of edge i *)
Definition mid (i : nat) : nat := nv + rk is_e i.

Lemma ind_e_part_nth i : nth false is_e i ->
  nth 0 [seq (x + nv).-1 | x <- cumsum [seq nat_of_bool b | b <- is_e]] i = mid i.
Proof. by move=> Hi; rewrite cumidx // /mid addnC. Qed.
Lemma ind_kept_nth i : nth false is_k i ->
  nth 0 [seq x.-1 | x <- cumsum [seq nat_of_bool b | b <- is_k]] i = rk is_k i.
Proof. exact: cumidx0. Qed.

Lemma rec_old i : nth false is_f i -> rec3 E (nth f_def (t_f t) i) (nth f_def (t_f2e t) i) (nth d_def (t_dir t) i).
Proof. by case: Hc => _ _ _; apply. Qed.

(** the edges of a face that is split are split, those of the others are kept *)
Lemma in_mask {T : eqType} (m : seq bool) (s : seq T) x0 i : size m = size s -> nth false m i -> nth x0 s i \in mask m s.
Proof.
move=> Es Hi; have Hs := nth_true Hi; rewrite Es in Hs.
by rewrite -(nth_mask x0 Hi Hs) mem_nth // size_mask // rk_lt.
Qed.
Lemma split_of i k : nth false is_f i -> in3 k (nth f_def (t_f2e t) i) -> nth false is_e k.
Proof.
move=> Hi Hk; have Hs := nth_true Hi; rewrite size_isf in Hs; case: (Hc) => Es _ _ _.
have Hk' : k < size E by case: (Hc) => _ _ Hb _; exact: Hb Hk.
rewrite /is_e /split_edges (nth_map 0) ?size_iota // nth_iota // add0n; apply/orP; right; apply/hasP.
exists (nth f_def (t_f2e t) i) => //; apply: in_mask => //; by rewrite size_map.
Qed.
Lemma kept_of i k : nth false (negs is_f) i -> in3 k (nth f_def (t_f2e t) i) -> nth false is_k k.
Proof.
move=> Hi Hk; have Hs := nth_true Hi; rewrite size_map size_isf in Hs; case: (Hc) => Es _ _ _.
have Hk' : k < size E by case: (Hc) => _ _ Hb _; exact: Hb Hk.
rewrite /is_k /kept_edges (nth_map 0) ?size_iota // nth_iota // add0n; apply/hasP.
exists (nth f_def (t_f2e t) i) => //; apply: in_mask => //; by rewrite !size_map.
Qed.

(** ------------------------------------------------------------------ the new edges *)
Let part := mask is_f (t_f2e t).
Let dpart := mask is_f (t_dir t).
Let fpart := mask is_f (t_f t).
Let idx := [seq (x + nv).-1 | x <- cumsum [seq nat_of_bool b | b <- is_e]].
Let m12 := [seq nth 0 idx r.1.1 | r <- part].
Let m23 := [seq nth 0 idx r.1.2 | r <- part].
Let m13 := [seq nth 0 idx r.2 | r <- part].
Definition sE0 := mask is_k E.
Definition sE1 := zip m12 m23 ++ zip m12 m13 ++ zip m23 m13.
Let newv := iota nv nnew.
Definition sE2 := zip [seq e.1 | e <- mask is_e E] newv ++ zip newv [seq e.2 | e <- mask is_e E].
Definition sE := sE0 ++ sE1 ++ sE2.

Lemma size_part : [/\ size part = ns, size dpart = ns & size fpart = ns].
Proof. by case: Hc => E1 E2 _ _; split; rewrite size_mask // size_isf ?E1 ?E2. Qed.
Lemma size_rest : size sE0 = ne. Proof. by rewrite size_mask // size_isk. Qed.
Lemma size_m : [/\ size m12 = ns, size m23 = ns & size m13 = ns].
Proof. by have [E1 _ _] := size_part; split; rewrite size_map. Qed.
Lemma size_e1 : size sE1 = 3 * ns.
Proof. have [A B C] := size_m; rewrite !size_cat !size_zip A B C !minnn; lia. Qed.
Lemma size_me : size (mask is_e E) = nnew. Proof. by rewrite size_mask // size_ise. Qed.
Lemma size_e2 : size sE2 = 2 * nnew.
Proof. rewrite size_cat !size_zip !size_map size_iota size_me !minnn; lia. Qed.

(** entry j of the split faces comes from face i *)
Lemma part_nth j : j < ns -> exists i, [/\ i < size (t_f t), nth false is_f i, nth f_def fpart j = nth f_def (t_f t) i,
  nth f_def part j = nth f_def (t_f2e t) i & nth d_def dpart j = nth d_def (t_dir t) i].
Proof.
move=> /rk_inv[i Hi <-]; have Hs := nth_true Hi; rewrite size_isf in Hs; exists i; case: (Hc) => E1 E2 _ _.
by split; rewrite // nth_mask ?E1 ?E2.
Qed.
Lemma m_nth j : j < ns -> let r := nth f_def part j in
  [/\ nth 0 m12 j = mid r.1.1, nth 0 m23 j = mid r.1.2 & nth 0 m13 j = mid r.2].
Proof.
move=> Hj r; have [i [Hi Hf _ Er _]] := part_nth Hj; have [S _ _] := size_part.
rewrite !(nth_map f_def) ?S // -/r.
have {}Er : r = nth f_def (t_f2e t) i by exact: Er.
rewrite Er; split; apply: ind_e_part_nth; apply: (split_of Hf); by rewrite /in3 !eqxx ?orbT.
Qed.
Lemma part_old j : j < ns -> rec3 E (nth f_def fpart j) (nth f_def part j) (nth d_def dpart j).
Proof. by move=> /part_nth[i [_ Hf -> -> ->]]; exact: rec_old. Qed.
Lemma part_split j k : j < ns -> in3 k (nth f_def part j) -> nth false is_e k.
Proof. by move=> /part_nth[i [_ Hf _ -> _]]; exact: split_of. Qed.

Lemma nth_e1 j : j < ns -> let r := nth f_def part j in
  [/\ records sE (ne + j) true (mid r.1.1, mid r.1.2),
      records sE (ne + (j + ns)) true (mid r.1.1, mid r.2) &
      records sE (ne + (j + 2 * ns)) true (mid r.1.2, mid r.2)].
Proof.
move=> Hj r; have [A B C] := size_m; have [<- <- <-] := m_nth Hj.
have S x y : x < size sE1 -> nth e_def sE1 x = y -> records sE (ne + x) true y.
  move=> Hx Hy; rewrite -size_rest; apply: records_catr; apply: records_cat; by rewrite /records Hx Hy eqxx.
have Z a b : size a = ns -> size b = ns -> nth e_def (zip a b) j = (nth 0 a j, nth 0 b j).
  by move=> Ea Eb; rewrite nth_zip ?Ea ?Eb.
have Sz a b : size a = ns -> size b = ns -> size (zip a b) = ns.
  by move=> Ea Eb; rewrite size_zip Ea Eb minnn.
split; apply: S; rewrite ?size_e1; try lia; rewrite /sE1 !nth_cat !Sz //.
- by rewrite Hj Z.
- have -> : (j + ns < ns) = false by lia.
  by rewrite addnK Hj Z.
have -> : (j + 2 * ns < ns) = false by lia.
have -> : (j + 2 * ns - ns < ns) = false by lia.
rewrite (_ : j + 2 * ns - ns - ns = j); last by lia.
by rewrite Z.
Qed.

Definition half (b : bool) (m : nat) : nat := ne + (3 * ns + b * nnew + m - nv).

Lemma half_rec i b : nth false is_e i -> records sE (half b (mid i)) b (mid i, if b then (nth e_def E i).2 else (nth e_def E i).1).
Proof.
move=> Hi; have Hr := rk_lt Hi; have Hs : i < size E by rewrite -size_ise; exact: nth_true.
have -> : half b (mid i) = size sE0 + (size sE1 + (b * nnew + rk is_e i)).
  rewrite /half size_rest size_e1 /mid; lia.
apply: records_catr; apply: records_catr; rewrite /records size_e2.
have -> : b * nnew + rk is_e i < 2 * nnew by case: b; lia.
rewrite /= /sE2 nth_cat size_zip size_map size_me size_iota minnn.
have Ht : nth 0 newv (rk is_e i) = mid i by rewrite nth_iota.
have Em : nth e_def (mask is_e E) (rk is_e i) = nth e_def E i by rewrite nth_mask.
case: b => /=.
  rewrite mul1n ltnNge leq_addr /= addKn nth_zip ?size_map ?size_me ?size_iota //.
  by rewrite Ht (nth_map e_def) ?size_me // Em.
rewrite mul0n add0n Hr nth_zip ?size_map ?size_me ?size_iota //.
by rewrite Ht (nth_map e_def) ?size_me // Em.
Qed.
Lemma half_end i b x y : nth false is_e i -> records E i b (x, y) ->
  records sE (half (~~ b) (mid i)) (~~ b) (mid i, x) /\ records sE (half b (mid i)) b (mid i, y).
Proof.
move=> Hi /andP[_ /eqP He]; have H1 := half_rec b Hi; have H2 := half_rec (~~ b) Hi.
by move: H1 H2; rewrite He; case: b {He} => /=.
Qed.

(** ------------------------------------------------------------------ the groups of faces *)
Let ind_kept := [seq x.-1 | x <- cumsum [seq nat_of_bool b | b <- is_k]].
Definition sF0 := mask (negs is_f) (t_f t).
Definition sK0 := [seq at3 0 ind_kept r | r <- mask (negs is_f) (t_f2e t)].
Definition sD0 := mask (negs is_f) (t_dir t).

Lemma size_kept : [/\ size sF0 = count id (negs is_f), size sK0 = size sF0 & size sD0 = size sF0].
Proof.
case: (Hc) => E1 E2 _ _; have Sf : size (negs is_f) = size (t_f t) by rewrite size_map size_isf.
have Sr : size sF0 = count id (negs is_f) by rewrite size_mask.
by split; rewrite ?Sr // ?[size sK0]size_map size_mask ?E1 ?E2.
Qed.
Lemma kept_row j : j < size sF0 -> exists i, [/\ nth false (negs is_f) i, i < size (t_f t), nth f_def sF0 j = nth f_def (t_f t) i,
   nth f_def sK0 j = at3 0 ind_kept (nth f_def (t_f2e t) i) & nth d_def sD0 j = nth d_def (t_dir t) i].
Proof.
have [-> _ _] := size_kept; case: (Hc) => E1 E2 _ _ Hj; have [i Hi Er] := rk_inv Hj; exists i.
have Sf : size (negs is_f) = size (t_f t) by rewrite size_map size_isf.
have Hs := nth_true Hi; rewrite Sf in Hs.
split=> //; rewrite -Er.
- by rewrite nth_mask.
- have Hl : rk (negs is_f) i < size (mask (negs is_f) (t_f2e t)) by rewrite size_mask ?E1 // Er.
  by rewrite (nth_map f_def _ _ Hl) nth_mask ?E1.
by rewrite nth_mask ?E2.
Qed.
Lemma kept_rec i k b e : nth false (negs is_f) i -> in3 k (nth f_def (t_f2e t) i) -> records E k b e ->
  records sE (nth 0 ind_kept k) b e.
Proof.
move=> Hi /(kept_of Hi) Hk /andP[Hk1 He]; rewrite ind_kept_nth //; apply: records_cat.
by rewrite /records size_rest rk_lt //= nth_mask.
Qed.
Lemma group0 : consistent E (t_f t) (t_f2e t) (t_dir t) -> consistent sE sF0 sK0 sD0.
Proof.
move=> [_ _ Hall]; have [_ S1 S2] := size_kept; split=> // j /kept_row[i [Hi Hs -> -> ->]] /=.
have /and3P[h1 h2 h3] := Hall i Hs.
by apply/and3P; split; apply: (kept_rec Hi) => //; rewrite /in3 !eqxx ?orbT.
Qed.

Let p1 := [seq f0 f | f <- fpart].
Let p2 := [seq f1 f | f <- fpart].
Let p3 := [seq f2 f | f <- fpart].

Lemma size_zip3 {A B C} (a : seq A) (b : seq B) (c : seq C) : size a = ns -> size b = ns -> size c = ns -> size (zip3 a b c) = ns.
Proof. by move=> Ea Eb Ec; rewrite !size_zip Ea Eb Ec !minnn. Qed.
Lemma nth_zip3 {A B C} (a : seq A) (b : seq B) (c : seq C) x y z j : size a = ns -> size b = ns -> size c = ns ->
  nth (x, y, z) (zip3 a b c) j = (nth x a j, nth y b j, nth z c j).
Proof. by move=> Ea Eb Ec; rewrite /zip3 !nth_zip ?size_zip ?Ea ?Eb ?Ec ?minnn. Qed.

Definition sF1 := zip3 m12 m23 m13.
Definition sK1 := [seq (ne + i, ne + i + 2 * ns, ne + i + ns) | i <- iota 0 ns].

Lemma group1 : consistent sE sF1 sK1 (nseq ns (true, true, true)).
Proof.
have [A B C] := size_m.
have S1 : size sF1 = ns by rewrite size_zip3.
split; rewrite ?S1 ?size_map ?size_iota ?size_nseq // => j Hj /=.
rewrite nth_nseq Hj (nth_map 0) ?size_iota // nth_iota // add0n /sF1 nth_zip3 //.
have [-> -> ->] := m_nth Hj; have [h1 h2 h3] := nth_e1 Hj.
by apply/and3P; split; rewrite /side12 /side23 /side13 /Tri.f0 /Tri.f1 /Tri.f2 /= -?addnA.
Qed.

Let corner (sh : nat) (dm : seq (bool * bool)) (ma mb : seq nat) :=
  [seq (ne + (x.1.1 + sh), half x.1.2.1 x.2.1, half x.1.2.2 x.2.2) | x <- zip3 (iota 0 ns) dm (zip ma mb)].

Lemma corner_group sh (b : bool) dm ma mb mp :
  size dm = ns -> size ma = ns -> size mb = ns -> size mp = ns ->
  (forall j, j < ns -> records sE (ne + (j + sh)) b (nth 0 mb j, nth 0 ma j) /\
     records sE (half (nth (false, false) dm j).1 (nth 0 ma j)) (nth (false, false) dm j).1 (nth 0 ma j, nth 0 mp j) /\
     records sE (half (nth (false, false) dm j).2 (nth 0 mb j)) (nth (false, false) dm j).2 (nth 0 mb j, nth 0 mp j)) ->
  consistent sE (zip3 mb ma mp) (corner sh dm ma mb) [seq (b, x.1, x.2) | x <- dm].
Proof.
move=> Sd Sa Sb Sp H.
have Sab : size (zip ma mb) = ns by rewrite size_zip Sa Sb minnn.
have S1 : size (zip3 mb ma mp) = ns by rewrite size_zip3.
have S2 : size (zip3 (iota 0 ns) dm (zip ma mb)) = ns by rewrite size_zip3 // size_iota.
split; rewrite ?S1 ?size_map ?S2 // => j Hj /=.
rewrite (nth_map (0, (false, false), (0, 0))) ?S2 // (nth_map (false, false)) ?Sd //.
rewrite !nth_zip3 ?size_iota // nth_iota // nth_zip ?Sa ?Sb //= add0n.
by have [h1 [h2 h3]] := H j Hj; apply/and3P; split.
Qed.

Let dm1 := [seq (~~ x.2, ~~ x.1.1) | x <- dpart].
Let dm2 := [seq (x.1.1, ~~ x.1.2) | x <- dpart].
Let dm3 := [seq (x.1.2, x.2) | x <- dpart].
Definition sF2 := zip3 m12 m13 p1 ++ zip3 m23 m12 p2 ++ zip3 m13 m23 p3.
Definition sK2 := corner ns dm1 m13 m12 ++ corner 0 dm2 m12 m23 ++ corner (2 * ns) dm3 m23 m13.
Definition sD2 := [seq (true, x.1, x.2) | x <- dm1] ++ [seq (false, x.1, x.2) | x <- dm2] ++ [seq (false, x.1, x.2) | x <- dm3].

Lemma records_flip es k b e : records es k b e -> records es k (~~ b) (flip e).
Proof. by case: e => x y; rewrite /records /flip /=; case: b. Qed.

Lemma group2 : consistent sE sF2 sK2 sD2.
Proof.
have [A B C] := size_m; have [S1 S2 S3] := size_part.
have Hp j : j < ns -> let f := nth f_def fpart j in [/\ nth 0 p1 j = Tri.f0 f, nth 0 p2 j = Tri.f1 f & nth 0 p3 j = Tri.f2 f].
  by move=> Hj f; rewrite !(nth_map f_def) ?S3.
have Hh j (Hj : j < ns) := and3P (part_old Hj).
have Hs j k (Hj : j < ns) := @part_split j k Hj.
have I1 r : in3 r.1.1 r by rewrite /in3 eqxx.
have I2 r : in3 r.1.2 r by rewrite /in3 eqxx orbT.
have I3 r : in3 r.2 r by rewrite /in3 eqxx !orbT.
apply: consistent_cat; [|apply: consistent_cat]; apply: corner_group; rewrite ?size_map //.
- move=> j Hj; have [-> _ ->] := m_nth Hj; have [h1 h2 h3] := Hh j Hj; have [-> _ _] := Hp j Hj.
  rewrite (nth_map d_def) ?S2 //=; have [_ g2 _] := nth_e1 Hj.
  split; first by [].
  have [a1 _] := half_end (Hs _ _ Hj (I3 _)) h3; have [a2 _] := half_end (Hs _ _ Hj (I1 _)) h1; by [].
- move=> j Hj; have [-> -> _] := m_nth Hj; have [h1 h2 h3] := Hh j Hj; have [_ -> _] := Hp j Hj.
  rewrite (nth_map d_def) ?S2 //= addn0; have [g1 _ _] := nth_e1 Hj.
  split; first exact: (records_flip g1).
  have [_ a1] := half_end (Hs _ _ Hj (I1 _)) h1; have [a2 _] := half_end (Hs _ _ Hj (I2 _)) h2; by [].
move=> j Hj; have [_ -> ->] := m_nth Hj; have [h1 h2 h3] := Hh j Hj; have [_ _ ->] := Hp j Hj.
rewrite (nth_map d_def) ?S2 //=; have [_ _ g3] := nth_e1 Hj.
split; first exact: (records_flip g3).
have [_ a1] := half_end (Hs _ _ Hj (I2 _)) h2; have [_ a2] := half_end (Hs _ _ Hj (I3 _)) h3; by [].
Qed.

(** ------------------------------------------------------------------ the faces of zero area *)
Let both := [seq p.1 && p.2 | p <- zip is_e is_k].
Let ekb := mask both ind_kept.
Let midb := mask both idx.
Definition sF3 : seq face := [seq (p.1, (nth e_def sE0 p.2).1, (nth e_def sE0 p.2).2) | p <- zip midb ekb].
Definition sK3 := [seq (let i := (p.1 - nv + 3 * ns + ne)%N in (i, i + nnew, p.2)%N) | p <- zip midb ekb].
Definition mixed := count id both.

Lemma size_both : size both = size E.
Proof. by rewrite size_map size_zip size_ise size_isk minnn. Qed.
Lemma nth_both i : nth false both i = nth false is_e i && nth false is_k i.
Proof.
have Si := size_ise; have Sk := size_isk; have S2 := size_both.
case: (ltnP i (size E)) => Hi; last by rewrite [LHS]nth_default ?S2 // [nth _ is_e _]nth_default ?Si.
by rewrite (nth_map (false, false)) ?size_zip ?Si ?Sk ?minnn // nth_zip ?Si.
Qed.
Lemma size_midb : [/\ size midb = mixed & size ekb = mixed].
Proof.
have S2 := size_both; have Si := size_ise; have Sk := size_isk.
by split; rewrite size_mask // size_cumidx S2.
Qed.
Lemma size_group3 : [/\ size sF3 = mixed & size sK3 = mixed].
Proof. by have [A B] := size_midb; split; rewrite size_map size_zip A B minnn. Qed.

Lemma group3_row j : j < mixed -> exists i, [/\ nth false is_e i, nth false is_k i,
  nth f_def sF3 j = (mid i, (nth e_def E i).1, (nth e_def E i).2),
  nth f_def sK3 j = (half false (mid i), half true (mid i), rk is_k i) &
  records sE (rk is_k i) true (nth e_def E i)].
Proof.
move=> Hj; have [A B] := size_midb; have [i Hb Er] := rk_inv Hj; exists i.
have Hs := nth_true Hb; rewrite size_both in Hs.
have := Hb; rewrite nth_both => /andP[He Hk].
have Si : size idx = size E by rewrite size_cumidx size_ise.
have Sk : size ind_kept = size E by rewrite size_cumidx size_isk.
have Em : nth 0 midb j = mid i by rewrite -Er nth_mask ?Si // ind_e_part_nth.
have Ek : nth 0 ekb j = rk is_k i by rewrite -Er nth_mask ?Sk // ind_kept_nth.
have Ee : nth e_def sE0 (rk is_k i) = nth e_def E i by rewrite nth_mask.
have Sz : size (zip midb ekb) = mixed by rewrite size_zip A B minnn.
split=> //.
- by rewrite (nth_map (0, 0)) ?Sz // nth_zip ?A ?B // Em Ek /= Ee.
- by rewrite (nth_map (0, 0)) ?Sz // nth_zip ?A ?B // Em Ek /half /mid /=; congr (_, _, _); lia.
by apply: records_cat; rewrite /records size_rest rk_lt // Ee eqxx.
Qed.
End Step.

(** ------------------------------------------------------------------ the result of a pass *)
Section StepEq.
Variables (R : rcfType) (d : nat) (max_len : R) (adjust : seq 'rV[R]_d -> res (seq 'rV[R]_d)).
Implicit Types t : tri R d.

Definition sF m t := @sF0 R d m t ++ sF1 m t ++ sF2 m t ++ sF3 m t.
Definition sK m t := @sK0 R d m t ++ sK1 m t ++ sK2 m t ++ sK3 m t.
Definition sD m t := @sD0 R d m t ++ nseq (count id (split_faces m t)) (true, true, true) ++ sD2 m t ++ nseq (mixed m t) (true, true, true).
Definition sLen m t vn := mask (kept_edges m t) (t_len t) ++ [seq edge_len (t_v t ++ vn) e | e <- @sE1 R d m t ++ sE2 m t].

Lemma stepE t vn : adjust (midpoints max_len t) = Ok vn ->
  step max_len adjust t = Ok (Tri (t_v t ++ vn) (sE max_len t) (sF max_len t) (sK max_len t) (sD max_len t) (sLen max_len t vn)).
Proof.
move=> Ha; rewrite /step Ha /rbind.
have Em : size (midpoints max_len t) = count id (split_edges max_len t) by exact: size_new.
have Er : size (mask (kept_edges max_len t) (t_e t)) = count id (kept_edges max_len t) by exact: size_rest.
have [Eb _] := size_midb max_len t.
by rewrite Em Er Eb.
Qed.
Lemma stepI t t' : step max_len adjust t = Ok t' -> exists2 vn, adjust (midpoints max_len t) = Ok vn &
  t' = Tri (t_v t ++ vn) (sE max_len t) (sF max_len t) (sK max_len t) (sD max_len t) (sLen max_len t vn).
Proof.
case Ha: (adjust (midpoints max_len t)) => [vn|e]; last by rewrite /step Ha.
by rewrite (stepE Ha) => -[<-]; exists vn.
Qed.
End StepEq.
