(** map_face_2_edge. *)
From mathcomp Require Import all_ssreflect all_algebra.
Require Import Coq.Strings.String.
From Verif.Model Require Import Py NP Tri.
From Verif.Spec Require Import TriSpec.
From Verif.Proof Require Import NPLib.
From mathcomp.zify Require Import zify.
Set Implicit Arguments.
Unset Strict Implicit.
Unset Printing Implicit Defensive.
Import Order.Theory GRing.Theory Num.Theory.

Lemma size_cumsum a s : size (cumsum_from a s) = size s.
Proof. by elim: s a => //= x s IH a; rewrite IH. Qed.
Lemma cumsum_cat a s t : cumsum_from a (s ++ t) = cumsum_from a s ++ cumsum_from (a + sumn s) t.
Proof. by elim: s a => [|x s IH] a; rewrite ?addn0 //= IH addnA. Qed.
Lemma cumsum_zeros a n : cumsum_from a (nseq n 0) = nseq n a.
Proof. by elim: n => //= n IH; rewrite addn0 IH. Qed.
Lemma cumsum_ge a s x : x \in cumsum_from a s -> a <= x.
Proof.
elim: s a => //= y s IH a; rewrite inE => /orP[/eqP ->|/IH]; first exact: leq_addr.
by apply: leq_trans; exact: leq_addr.
Qed.

(** ------------------------------------------------------------------ the vector of edge numbers *)
Definition starts (c : seq nat) : seq nat := flatten [seq (1 :: nseq x.-1 0) | x <- c].
Definition runs (a : nat) (c : seq nat) : seq nat := flatten [seq nseq p.2 p.1 | p <- zip (iota a (size c)) c].

Lemma cumsum_starts a c : all (leq 1) c -> cumsum_from a (starts c) = runs a.+1 c.
Proof.
elim: c a => //= x c IH a /andP[x0 /IH Hc]; rewrite /starts /runs /= -/(starts c).
rewrite addn1 cumsum_cat cumsum_zeros.
have -> : sumn (nseq x.-1 0) = 0 by rewrite sumn_nseq.
by rewrite addn0 Hc -[in RHS](prednK x0).
Qed.

Lemma runs_sorted a c : sorted leq (runs a c) /\ all (leq a) (runs a c).
Proof.
elim: c a => //= x c IH a; rewrite /runs /= -/(runs a.+1 c); have [H1 H2] := IH a.+1.
have H3 : all (leq a) (runs a.+1 c) by apply: sub_all H2 => y /ltnW.
by elim: x => [|x [H4 H5]] //=; rewrite (path_sortedE leq_trans) H4 H5 leqnn.
Qed.

Definition marks (o : nat) (idx : seq nat) (n : nat) : seq nat := [seq nat_of_bool (i \in idx) | i <- iota o n].

Lemma marks_starts o c : all (leq 1) c ->
  marks o (o :: cumsum_from o (take (size c).-1 c)) (sumn c) = starts c.
Proof.
elim: c o => //= x c IH o /andP[x0 Hc].
rewrite /marks iotaD map_cat /starts [flatten _]/= -/(starts c) -cat_cons; congr (_ ++ _).
  rewrite -[in LHS](prednK x0) /= inE eqxx /=; congr (_ :: _).
  apply: (@eq_from_nth _ 0); rewrite ?size_map ?size_iota ?size_nseq // => i Hi.
  rewrite (nth_map 0) ?size_iota // nth_nseq Hi nth_iota // inE.
  have -> : (o.+1 + i == o) = false by lia.
  case E : (_ \in _) => //=; case: c {IH Hc} E => [|y c] //=; rewrite inE => /orP[/eqP|/cumsum_ge]; lia.
rewrite -(IH (o + x) Hc) /marks; case: c {IH Hc} => [|y c] //.
apply/eq_in_map => i; rewrite mem_iota => /andP[Hi _] /=.
by rewrite inE; have -> : (i == o) = false by lia.
Qed.

Lemma set_ones_marks idx n : set_ones idx (nseq n 0) = marks 0 idx n.
Proof.
rewrite /set_ones /marks size_nseq; apply: (@eq_from_nth _ 0); first by rewrite !size_map size1_zip ?size_iota ?size_nseq.
move=> i; rewrite size_map size1_zip ?size_iota ?size_nseq // => Hi.
rewrite (nth_map (0, 0)) ?size1_zip ?size_iota ?size_nseq // nth_zip ?size_iota ?size_nseq //=.
by rewrite (nth_map 0) ?size_iota // nth_nseq Hi nth_iota //= add0n; case: (_ \in _).
Qed.
Lemma set_ones_marks2 idx idx' n : set_ones idx (marks 0 idx' n) = marks 0 (idx' ++ idx) n.
Proof.
rewrite /set_ones /marks size_map size_iota; apply: (@eq_from_nth _ 0).
  by rewrite !size_map size1_zip ?size_map ?size_iota.
move=> i; rewrite size_map size1_zip ?size_map ?size_iota // => Hi.
rewrite (nth_map (0, 0)) ?size1_zip ?size_map ?size_iota // nth_zip ?size_map ?size_iota //=.
by rewrite !(nth_map 0) ?size_iota // nth_iota //= add0n mem_cat; case: (_ \in idx); rewrite ?orbT ?orbF.
Qed.

(** the vector built at tri.py:77-80 is the sorted vector it was counted from *)
Lemma recount s n : 0 < n -> sorted leq s -> s =i iota 0 n ->
  [seq x.-1 | x <- cumsum (set_ones (cumsum (take (size (bincount s)).-1 (bincount s)))
     (set_ones [:: 0] (nseq (sumn (bincount s)) 0)))] = s /\ sumn (bincount s) = size s.
Proof.
move=> n0 ss Hs.
have Hb : bincount s = [seq count_mem k s | k <- iota 0 n].
  rewrite /bincount; case E : s => [|x s']; first by move: (Hs 0); rewrite E mem_iota n0.
  rewrite -E; congr (map _ (iota _ _)).
  have : \max_(y <- s) y <= n.-1.
    by rewrite big_seq; apply: (big_ind (fun x => x <= n.-1)) => [|a b ha hb|i]; rewrite ?geq_max ?ha //= Hs mem_iota; lia.
  have : n.-1 <= \max_(y <- s) y.
    have I : n.-1 \in s by rewrite Hs mem_iota; lia.
    by rewrite (big_rem _ I) /= leq_maxl.
  lia.
have H1 : all (leq 1) (bincount s).
  rewrite Hb all_map; apply/allP => k; rewrite -Hs /= => Hk; by rewrite -has_count has_pred1.
rewrite set_ones_marks set_ones_marks2 cat1s /cumsum marks_starts // cumsum_starts //.
set c := bincount s in Hb H1 *.
have Er : runs 0 c = s.
  apply: (sorted_eq leq_trans anti_leq) => //; last first.
    apply/allP => /= x _; apply/eqP; rewrite /runs count_flatten -map_comp Hb.
    have -> : zip (iota 0 (size [seq count_mem k s | k <- iota 0 n])) [seq count_mem k s | k <- iota 0 n] =
        [seq (k, count_mem k s) | k <- iota 0 n].
      by rewrite size_map size_iota; elim: (iota 0 n) => //= y l ->.
    rewrite -map_comp sumnE big_map.
    case E : (x \in iota 0 n); last first.
      have -> : count_mem x s = 0 by apply/count_memPn; rewrite Hs E.
      rewrite big_seq big1 // => i Hi /=; rewrite count_nseq /=; case: eqP => // e; by rewrite -e Hi in E.
    rewrite (bigD1_seq x) ?iota_uniq //= count_nseq /= eqxx mul1n big1 ?addn0 // => i ix.
    by rewrite count_nseq /= (negbTE ix).
  exact: (runs_sorted 0 c).1.
split.
  rewrite -[RHS]Er /runs; elim: c 0 {H1 Hb Er} => //= x c IH a.
  by rewrite map_cat IH map_nseq.
rewrite -[in RHS]Er /runs; elim: c 0 {H1 Hb Er} => //= x c IH a.
by rewrite size_cat size_nseq -IH.
Qed.

(** ------------------------------------------------------------------ the order of the rows *)
Lemma elex_total : total elex.
Proof. by move=> [a b] [c d]; rewrite /elex /=; lia. Qed.
Lemma elex_trans : transitive elex.
Proof. by move=> [a b] [c d] [e f]; rewrite /elex /=; lia. Qed.
Lemma elex_anti : antisymmetric elex.
Proof. by move=> [a b] [c d]; rewrite /elex /= => H; have [-> ->] : a = c /\ b = d by lia. Qed.

Lemma sort2_lt (a b : nat) : a != b -> (sort2 a b).1 < (sort2 a b).2.
Proof. by rewrite /sort2; case: ifP => /=; lia. Qed.
Lemma sort2_side a b : sort2 a b = if a < b then (a, b) else flip (a, b).
Proof. by rewrite /sort2 /flip; case: ltngtP => //= ->. Qed.

(** side number s of a face *)
Definition side (s : nat) (f : face) : edge := match s with 0 => side12 f | 1 => side23 f | _ => side13 f end.
Definition sorted_side (s : nat) (f : face) : edge := let e := side s f in sort2 e.1 e.2.
Definition incr (e : edge) : bool := e.1 < e.2.
Lemma sorted_sideE s f : sorted_side s f = if incr (side s f) then side s f else flip (side s f).
Proof. by rewrite /sorted_side sort2_side /incr; case: (side s f). Qed.

Lemma edge_num_side f s : proper f -> s < 3 ->
  edge_num f (sorted_side s f) = if incr (side s f) then (s.+1)%:Z%R else (- (s.+1)%:Z)%R.
Proof.
case: f => [[a b] c]; rewrite /proper /f0 /f1 /f2 /= => /and3P[ab bc ac].
have [ba cb ca] : [/\ b != a, c != b & c != a] by move: ab bc ac; rewrite ![_ == a]eq_sym [c == b]eq_sym.
case: s => [|[|[|s]]] // _; rewrite sorted_sideE /side /side12 /side23 /side13 /incr /flip /f0 /f1 /f2 /=;
  case: ifP => _; rewrite /edge_num /f0 /f1 /f2 /= !xpair_eqE ?eqxx ?(negbTE ab) ?(negbTE bc) ?(negbTE ac)
    ?(negbTE ba) ?(negbTE cb) ?(negbTE ca) ?andbF ?andFb ?andbT //=.
Qed.

Section Map.
Variable argsort : seq nat -> seq nat.
Hypothesis Harg : argsortn_ok argsort.
Variable fs : seq face.
Hypothesis Hp : all proper fs.
Hypothesis H0 : fs != [::].

Let n := size fs.
Let pos := pos_edges fs.
Definition edges_of (l : seq face) : seq edge := sort elex (undup (pos_edges l)).
Notation E := (edges_of fs).

Lemma edges_uniq : uniq E. Proof. by rewrite sort_uniq undup_uniq. Qed.
Lemma edges_sorted : sorted elex E. Proof. exact: (sort_sorted elex_total). Qed.
Lemma mem_edges e : (e \in E) = (e \in pos). Proof. by rewrite mem_sort mem_undup. Qed.

Lemma mem_pos e : (e \in pos) = has (fun f => [|| e == sorted_side 0 f, e == sorted_side 2 f | e == sorted_side 1 f]) fs.
Proof.
rewrite /pos /pos_edges; elim: fs => //= f l IH; rewrite !inE IH /sorted_side /= /side12 /side13 /side23 /=.
by rewrite -!orbA.
Qed.
Lemma edges_incr e : e \in E -> e.1 < e.2.
Proof.
rewrite mem_edges mem_pos => /hasP[f Hf /or3P[] /eqP ->]; have := allP Hp f Hf => /and3P[h1 h2 h3]; exact: sort2_lt.
Qed.
Lemma side_edge s i : s < 3 -> i < n -> sorted_side s (nth f_def fs i) \in E.
Proof.
move=> Hs Hi; rewrite mem_edges mem_pos; apply/hasP; exists (nth f_def fs i); first exact: mem_nth.
by case: s Hs => [|[|[|s]]] // _; rewrite eqxx ?orbT.
Qed.

(** number of the edge on side s of face i *)
Definition eix (s i : nat) : nat := seq.index (sorted_side s (nth f_def fs i)) E.
Lemma eix_lt s i : s < 3 -> i < n -> eix s i < size E.
Proof. by move=> Hs Hi; rewrite index_mem side_edge. Qed.
Lemma nth_eix s i : s < 3 -> i < n -> nth e_def E (eix s i) = sorted_side s (nth f_def fs i).
Proof. by move=> Hs Hi; rewrite nth_index ?side_edge. Qed.

Definition raw : seq (nat * nat) := flatten [seq [:: (i, eix 0 i); (i, eix 2 i); (i, eix 1 i)] | i <- iota 0 n].
Definition can : seq (nat * nat) := [seq (i, eix 0 i) | i <- iota 0 n] ++ [seq (i, eix 1 i) | i <- iota 0 n] ++ [seq (i, eix 2 i) | i <- iota 0 n].

Lemma raw_fst : [seq p.1 | p <- raw] = flatten [seq nseq 3 i | i <- iota 0 n].
Proof. by rewrite /raw; elim: (iota 0 n) => //= i l ->. Qed.
Lemma raw_snd : [seq p.2 | p <- raw] = [seq seq.index e E | e <- pos].
Proof.
have En : [seq nth f_def fs i | i <- iota 0 n] = fs by rewrite map_nth_iota0 ?take_size.
have -> : pos = pos_edges [seq nth f_def fs i | i <- iota 0 n] by rewrite En.
by rewrite /raw /pos_edges; elim: (iota 0 n) => //= i l ->.
Qed.
Lemma can_raw : perm_eq can raw.
Proof.
rewrite /can /raw; elim: (iota 0 n) => //= i l IH.
apply/permP => P; move/permP/(_ P): IH; do !rewrite count_cat /=; lia.
Qed.

(** what the faces of an entry are *)
Definition key (p : nat * nat) : nat * nat := (`|edge_num (nth f_def fs p.1) (nth e_def E p.2)|%N, p.1).
Lemma key_can s i : s < 3 -> i < n -> key (i, eix s i) = (s.+1, i).
Proof.
move=> Hs Hi; rewrite /key /= nth_eix // edge_num_side //; last by rewrite (all_nthP f_def Hp).
by case: ifP => _; rewrite ?abszN.
Qed.
Lemma can_key p : p \in can -> exists s i, [/\ s < 3, i < n & p = (i, eix s i)].
Proof.
rewrite !mem_cat => /or3P[] /mapP[i]; rewrite mem_iota => /andP[_ Hi] ->; by [exists 0, i|exists 1, i|exists 2, i].
Qed.
Lemma can_sorted : sorted (relpre key elex) can.
Proof.
rewrite -sorted_map /can !map_cat -!map_comp.
have E1 s : s < 3 -> [seq (key \o (fun i => (i, eix s i))) i | i <- iota 0 n] = [seq (s.+1, i) | i <- iota 0 n].
  by move=> Hs; apply/eq_in_map => i; rewrite mem_iota => /andP[_ Hi] /=; rewrite key_can.
rewrite !E1 //.
have S s : sorted elex [seq (s, i) | i <- iota 0 n].
  rewrite sorted_map; apply: (sub_sorted _ (iota_sorted 0 n)) => a b /=; rewrite /elex /= ltnn eqxx /=; lia.
rewrite (sorted_pairwise elex_trans) !pairwise_cat -!(sorted_pairwise elex_trans) !S !andbT.
have L s s' : s < s' -> allrel elex [seq (s, i) | i <- iota 0 n] [seq (s', i) | i <- iota 0 n].
  by move=> ss; apply/allrelP => x y /mapP[a _ ->] /mapP[b _ ->]; rewrite /elex /= ss.
by rewrite allrel_catr !L.
Qed.

Lemma map_run : map_face_2_edge argsort (Rows fs) =
  Ok (E, [seq (eix 0 i, eix 1 i, eix 2 i) | i <- iota 0 n],
      [seq (incr (side12 f), incr (side23 f), incr (side13 f)) | f <- fs]).
Proof.
rewrite /map_face_2_edge /get_face_edge_info rbind_okE -/(edges_of fs).
rewrite -/pos -raw_snd -[size fs]/n -raw_fst.
set si := argsort _.
have [Hsi Hso] := Harg [seq p.2 | p <- raw]; rewrite -/si in Hsi Hso.
have Er : size raw = (3 * n)%N.
  rewrite /raw -[in RHS](size_iota 0 n); elim: (iota 0 n) => //= i l ->; lia.
pose P := [seq nth (0, 0) raw i | i <- si].
have isi i : i \in si -> i < size raw by rewrite (perm_mem Hsi) mem_iota size_map.
have HP : perm_eq P raw.
  rewrite -[X in perm_eq _ X](mkseq_nth (0, 0)) /mkseq; apply: perm_map.
  by move: Hsi; rewrite size_map.
have EP1 : [seq nth 0 [seq p.1 | p <- raw] i | i <- si] = [seq p.1 | p <- P].
  by rewrite /P -map_comp; apply/eq_in_map => i /isi Hi /=; rewrite (nth_map (0, 0)).
have EP2 : [seq nth 0 [seq p.2 | p <- raw] i | i <- si] = [seq p.2 | p <- P].
  by rewrite /P -map_comp; apply/eq_in_map => i /isi Hi /=; rewrite (nth_map (0, 0)).
rewrite EP1 EP2 in Hso *.
have n0 : 0 < n by rewrite /n; case: (fs) H0.
have HE : 0 < size E by apply: leq_ltn_trans (eix_lt (s := 0) (i := 0) _ n0).
have Hmem : [seq p.2 | p <- P] =i iota 0 (size E).
  move=> k; rewrite mem_iota /=; rewrite (perm_mem (perm_map _ HP)) raw_snd; apply/mapP/idP => [[e He ->]|Hk].
    by rewrite index_mem mem_edges.
  by exists (nth e_def E k); [rewrite -mem_edges mem_nth|rewrite index_uniq ?edges_uniq].
have [Hre Hsum] := recount HE Hso Hmem.
have E3 : size P = (3 * n)%N by rewrite (perm_size HP) Er.
case EN : (nseq _ 0) => [|z zs].
  by exfalso; move: EN; rewrite Hsum size_map E3; case: (n) n0.
rewrite -EN {EN z zs}; cbv zeta; rewrite Hre.
have Ez : zip [seq p.1 | p <- P] [seq p.2 | p <- P] = P by elim: (P) => //= -[a b] l ->.
rewrite Ez.
set num := [seq edge_num _ _ | p <- P].
have Q : [seq nth (0, 0) P i | i <- lexsort2 [seq p.1 | p <- P] [seq `|x|%N | x <- num]] = can.
  set idx := lexsort2 _ _.
  have Hidx : perm_eq idx (iota 0 (size P)) by rewrite /idx /lexsort2 perm_sort !size_map.
  have HLc : perm_eq [seq nth (0, 0) P i | i <- idx] can.
    rewrite (perm_trans (perm_map _ Hidx)) // -/(mkseq _ _) mkseq_nth.
    by rewrite (perm_trans HP) // perm_sym can_raw.
  apply: (@sorted_eq_in _ (relpre key elex)) => //.
  - by move=> x y z _ _ _; exact: elex_trans.
  - move=> x y; rewrite !(perm_mem HLc) => Hx Hy /elex_anti.
    have [s [i [s3 ni ->]]] := can_key Hx; have [s' [i' [s3' ni' ->]]] := can_key Hy.
    by rewrite !key_can // => -[-> ->].
  - rewrite sorted_map.
    have : sorted (fun i j => elex (nth 0 [seq `|x|%N | x <- num] i, nth 0 [seq p.1 | p <- P] i) (nth 0 [seq `|x|%N | x <- num] j, nth 0 [seq p.1 | p <- P] j)) idx.
      by apply: sort_sorted => x y; exact: elex_total.
    apply: (@sub_in_sorted _ (fun i => i < size P)); last by apply/allP => i; rewrite (perm_mem Hidx) mem_iota.
    move=> i j Hi Hj; have Sn : size num = size P by exact: size_map.
    by rewrite /= /key !(nth_map (0%R : int)) ?Sn // /num ![nth _ [seq edge_num _ _ | p <- P] _](nth_map (0, 0)) // ![nth _ [seq p.1 | p <- P] _](nth_map (0, 0)).
  exact: can_sorted.
set idx := lexsort2 _ _ in Q *.
have Hidx i : i \in idx -> i < size P by rewrite /idx mem_sort mem_iota !size_map.
have R1 : [seq nth 0 [seq p.2 | p <- P] i | i <- idx] = [seq p.2 | p <- can].
  by rewrite -Q -map_comp; apply/eq_in_map => i /Hidx Hi /=; rewrite (nth_map (0, 0)).
have R2 : [seq (0 < nth 0%R num i)%R | i <- idx] = [seq (0 < edge_num (nth f_def fs p.1) (nth e_def E p.2))%R | p <- can].
  by rewrite -Q -map_comp; apply/eq_in_map => i /Hidx Hi /=; rewrite (nth_map (0, 0)).
rewrite R1 R2; congr (Ok (_, _, _)); rewrite /rows3.
  apply/eq_in_map => i; rewrite mem_iota => /andP[_ Hi].
  rewrite /can !map_cat -!map_comp !nth_cat !size_map size_iota Hi.
  rewrite ltnNge leq_addr /= addKn Hi ltnNge -addnA leq_addr /= addKn ltnNge leq_addr /= addKn.
  by rewrite !(nth_map 0) ?size_iota ?nth_iota.
apply: (@eq_from_nth _ d_def); rewrite ?size_map ?size_iota // => i Hi.
rewrite (nth_map 0) ?size_iota // nth_iota // add0n (nth_map f_def) //.
rewrite /can !map_cat -!map_comp !nth_cat !size_map size_iota Hi.
rewrite ltnNge leq_addr /= addKn Hi ltnNge -addnA leq_addr /= addKn ltnNge leq_addr /= addKn.
have Hd s : s < 3 -> nth false [seq ((fun p => (0 < edge_num (nth f_def fs p.1) (nth e_def E p.2))%R) \o (fun i => (i, eix s i))) k | k <- iota 0 n] i = incr (side s (nth f_def fs i)).
  move=> s3; rewrite (nth_map 0) ?size_iota // nth_iota //= add0n nth_eix // edge_num_side ?(all_nthP f_def Hp) //.
  by case: incr.
by rewrite (Hd 0) // (Hd 1) // (Hd 2).
Qed.
Theorem map_spec : exists es f2e dir, [/\ map_face_2_edge argsort (Rows fs) = Ok (es, f2e, dir),
  uniq es /\ sorted elex es, (forall e, e \in es = (e.1 < e.2) && has (fun f => has_side f e) fs) & consistent es fs f2e dir].
Proof.
do 3 eexists; split; first exact: map_run.
- by split; [exact: edges_uniq|exact: edges_sorted].
- move=> e; apply/idP/andP => [He|[Hi /hasP[f Hf Hs]]].
    split; first exact: edges_incr.
    move: He; rewrite mem_edges mem_pos => /hasP[f Hf H]; apply/hasP; exists f => //.
    by move: H; rewrite !sorted_sideE /has_side /=; do 3 case: ifP => _; case/or3P => ->; rewrite ?orbT.
  rewrite mem_edges mem_pos; apply/hasP; exists f => //.
  case: e Hi Hs => a b /= ab; rewrite /has_side /sorted_side /= /sort2 /side12 /side23 /side13 /flip /=.
  by move: (f0 f) (f1 f) (f2 f) => x y z; repeat case: ifP => ?; rewrite !xpair_eqE; lia.
split; rewrite ?size_map ?size_iota // => i Hi /=.
rewrite (nth_map 0) ?size_iota // nth_iota // add0n (nth_map f_def) //=.
rewrite /records !eix_lt // !nth_eix // !sorted_sideE /=.
by rewrite !eqxx.
Qed.
End Map.

Lemma map_flat argsort f : map_face_2_edge argsort (Flat f) = map_face_2_edge argsort (Rows [:: f]).
Proof. by []. Qed.
Lemma map_bad argsort : argsortn_ok argsort -> map_face_2_edge argsort BadFaces = throw "wrongInput:f_mat"%string /\
  map_face_2_edge argsort (Rows [::]) = IndexError.
Proof.
move=> Ha; split=> //; rewrite /map_face_2_edge /get_face_edge_info rbind_okE /=.
by have [/perm_size] := Ha [::]; case: (argsort [::]).
Qed.
