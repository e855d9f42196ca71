(** Proofs about sort_rows_tol of Model/Gen.v (gras/gen/gen.py:21-49). *)
From mathcomp Require Import all_ssreflect all_fingroup all_algebra.
From mathcomp.algebra_tactics Require Import ring.
From mathcomp.zify Require Import zify.
From Verif.Model Require Import Py NP NP3 Linalg Compare La Gen.
From Verif.Spec Require Import MatSpec LinalgSpec OrthSpec GenSpec.
From Verif.Proof Require Import NPLib NP3Lib MatLib LaBasic.
Require Import Coq.Strings.String.
Set Implicit Arguments.
Unset Strict Implicit.
Unset Printing Implicit Defensive.
Import Order.TTheory GRing.Theory Num.Theory.
Local Open Scope ring_scope.

Lemma eq_sort' T (r1 r2 : rel T) (s : seq T) : r1 =2 r2 -> sort r1 s = sort r2 s.
Proof.
move=> E.
have Em s1 s2 : merge r1 s1 s2 = merge r2 s1 s2.
  elim: s1 s2 => //= x s1 IH1; elim=> //= y s2 IH2.
  by rewrite E IH1; case: ifP => // _; congr cons; apply: IH2.
have Epush ss s1 : merge_sort_push r1 s1 ss = merge_sort_push r2 s1 ss.
  by elim: ss s1 => //= -[|x s2] ss IH s1 //; rewrite Em IH.
have Epop ss s1 : merge_sort_pop r1 s1 ss = merge_sort_pop r2 s1 ss.
  by elim: ss s1 => //= s2 ss IH s1; rewrite Em IH.
rewrite /sort; have [n] := ubnP (size s); elim: n s [::] => // n IH [|x [|y s]] ss lt_n //=; rewrite ?Epop //.
by rewrite E Epush; apply: IH; move: lt_n; rewrite /= !ltnS => /ltnW.
Qed.

Section S.
Variable R : rcfType.
Notation X := (xnum R).
Notation A := (arr X).
Notation get := (getn (@NaN R)).
Variable argsort : seq X -> seq nat.
Hypothesis Harg : argsort_ok argsort.

Lemma argsort_inv (p : seq nat) m : perm_eq p (iota 0 m) ->
  argsort [seq Fin (i%:R : R) | i <- p] = [seq seq.index k p | k <- iota 0 m].
Proof.
move=> Hp.
have Sp : size p = m by rewrite (perm_size Hp) size_iota.
have [] := Harg [seq i%:R | i <- p]; rewrite -map_comp size_map Sp.
set q := argsort _ => Hq Hs.
have Sq : size q = m by rewrite (perm_size Hq) size_iota.
have lt_q k : k \in q -> (k < m)%N by rewrite (perm_mem Hq) mem_iota.
have E : [seq nth 0%N p i | i <- q] = iota 0 m.
  apply: (@sorted_eq _ leq); [exact: leq_trans | exact: anti_leq | | exact: iota_sorted | ].
    rewrite sorted_map; rewrite sorted_map in Hs.
    apply: (@sub_in_sorted _ (fun k => k < m)%N _ _ _ q) Hs; last exact/allP/lt_q.
    by move=> i j /= Hi Hj; rewrite !(nth_map 0%N) ?Sp // ler_nat.
  apply: perm_trans (perm_map (nth 0%N p) Hq) _; by rewrite map_nth_iota0 ?Sp // take_oversize ?Sp.
apply: (@eq_from_nth _ 0%N); rewrite ?size_map ?size_iota // Sq => k lt_k.
rewrite (nth_map 0%N) ?size_iota // nth_iota // add0n.
have -> : k = nth 0%N p (nth 0%N q k) by rewrite -(nth_map 0%N 0%N) ?Sq // E nth_iota.
rewrite index_uniq //; last by rewrite (perm_uniq Hp) iota_uniq.
  by congr (nth _ _ _); rewrite -(nth_map 0%N 0%N) ?Sq // E nth_iota.
by rewrite Sp lt_q // mem_nth ?Sq.
Qed.

(** ------------------------------------------------ one column *)
Section Col.
Variables (tol : R) (s : seq R).
Hypothesis tol0 : 0 <= tol.
Let m := size s.
Let p := argsort [seq Fin x | x <- s].
Let Hp : perm_eq p (iota 0 m). Proof. exact: (Harg s).1. Qed.
Let Sp : size p = m. Proof. by rewrite (perm_size Hp) size_iota. Qed.
Definition sv (k : nat) : R := nth 0 s (nth 0%N p k).
Definition jump k : R := if sv k.+1 - sv k <= tol then 0 else sv k.+1 - sv k.
Definition level k : R := sv 0 + \sum_(l < k) jump l.

Lemma sv_le i j : (i <= j)%N -> (j < m)%N -> sv i <= sv j.
Proof.
move=> le_ij lt_j; have := (Harg s).2; rewrite -/p => Hs.
have := sorted_leq_nth (@le_trans _ R) (@lexx _ R) 0 Hs; move/(_ i j).
rewrite !inE !size_map Sp lt_j (leq_ltn_trans le_ij lt_j) => /(_ isT isT le_ij).
by rewrite !(nth_map 0%N) ?Sp ?(leq_ltn_trans le_ij lt_j).
Qed.
Lemma jump_ge0 k : (k.+1 < m)%N -> 0 <= jump k.
Proof. by move=> H; rewrite /jump; case: ifP => // _; rewrite subr_ge0 sv_le. Qed.
Lemma jump_gt0 k : (k.+1 < m)%N -> (0 < jump k) = (tol < sv k.+1 - sv k).
Proof.
move=> H; rewrite /jump leNgt; case: (ltP tol) => /= [lt|]; last by rewrite ltxx.
exact: le_lt_trans lt.
Qed.
Lemma levelS k : level k.+1 = level k + jump k.
Proof. by rewrite /level big_ord_recr /= addrA. Qed.
Lemma level_le i j : (i <= j)%N -> (j < m)%N -> level i <= level j.
Proof.
elim: j => [|j IH]; first by rewrite leqn0 => /eqP->.
rewrite leq_eqVlt => /orP[/eqP-> //|]; rewrite ltnS => /IH{}IH lt_j.
by rewrite levelS; apply: le_trans (IH (ltnW lt_j)) _; rewrite ler_addl jump_ge0.
Qed.
Lemma level_lt i j : (i < m)%N -> (j < m)%N ->
  reflect (exists2 l, (i <= l < j)%N & tol < sv l.+1 - sv l) (level i < level j).
Proof.
move=> lt_i lt_j; apply: (iffP idP) => [lt_l|[l /andP[le_l lt_l] Hl]]; last first.
  have lt_m : (l.+1 < m)%N by apply: leq_ltn_trans lt_j.
  apply: le_lt_trans (level_le le_l (ltnW lt_m)) _; apply: lt_le_trans (level_le lt_l lt_j).
  by rewrite levelS ltr_addl jump_gt0.
have lt_ij : (i < j)%N by rewrite ltnNge; apply: contraL lt_l => H; rewrite -leNgt level_le.
have [/existsP[l Hl]|/existsPn Hn] := boolP [exists l : 'I_j, (i <= l)%N && (tol < sv l.+1 - sv l)].
  by case/andP: Hl => le_l Hl; exists l; rewrite // le_l /=.
suff: level i = level j by move=> E; rewrite E ltxx in lt_l.
suff: forall k, (i <= k <= j)%N -> level i = level k by apply; rewrite (ltnW lt_ij) leqnn.
elim=> [|k IH]; first by rewrite leqn0 => /andP[/eqP->].
rewrite leq_eqVlt => /andP[/orP[/eqP-> //|le_k] lt_k]; rewrite ltnS in le_k.
rewrite levelS -IH ?le_k ?(ltnW lt_k) //.
have := Hn (Ordinal lt_k); rewrite /= le_k /= -leNgt /jump => ->; by rewrite addr0.
Qed.

Lemma snap_colE : (0 < m)%N ->
  snap_col argsort (Fin tol) [seq Fin x | x <- s] = [seq Fin (level (seq.index i p)) | i <- iota 0 m].
Proof.
move=> m0; rewrite /snap_col -/p (argsort_inv Hp) -map_comp; apply/eq_in_map => i.
rewrite mem_iota /= add0n => lt_i.
have: (seq.index i p < m)%N by rewrite -Sp index_mem (perm_mem Hp) mem_iota.
move: (seq.index i p) => k {i lt_i} lt_k.
have -> : [seq nth NaN [seq Fin x | x <- s] i | i <- p] = [seq Fin (sv k) | k <- iota 0 m].
  apply: (@eq_from_nth _ NaN); rewrite !size_map ?size_iota // Sp => l lt_l.
  rewrite !(nth_map 0%N) ?size_iota ?Sp // nth_iota // (nth_map 0) //.
  have: nth 0%N p l \in p by rewrite mem_nth ?Sp.
  by rewrite (perm_mem Hp) mem_iota.
have -> : nth NaN [seq Fin (sv k) | k <- iota 0 m] 0 = Fin (level 0).
  by rewrite (nth_map 0%N) ?size_iota // nth_iota // /level big_ord0 addr0.
have -> : [seq (if xle (xabs d) (Fin tol) then x0 else d) |
    d <- [seq xsub p0.2 p0.1 | p0 <- zip [seq Fin (sv k) | k <- iota 0 m] (behead [seq Fin (sv k) | k <- iota 0 m])]]
   = [seq Fin (jump k) | k <- iota 0 m.-1].
  apply: (@eq_from_nth _ NaN); rewrite !size_map !size_zip size_behead !size_map !size_iota; first by rewrite (minn_idPr (leq_pred _)).
  move=> l; rewrite (minn_idPr (leq_pred _)) => lt_l.
  have lt_l1 : (l.+1 < m)%N by rewrite -ltn_predRL.
  have Sz : size (zip [seq Fin (sv k) | k <- iota 0 m] (behead [seq Fin (sv k) | k <- iota 0 m])) = m.-1.
    by rewrite size_zip size_behead !size_map size_iota (minn_idPr (leq_pred _)).
  rewrite (nth_map NaN) ?size_map ?Sz // (nth_map (NaN, NaN)) ?Sz //.
  rewrite nth_zip_cond Sz lt_l nth_behead !(nth_map 0%N) ?size_iota ?(ltnW lt_l1) //.
  rewrite !nth_iota ?(ltnW lt_l1) // !add0n /=.
  rewrite /xle /= orbC -le_eqVlt ger0_norm ?subr_ge0 ?sv_le // /jump.
  by case: ifP.
case: k lt_k => [|k] lt_k; first by [].
rewrite [nth _ _ _]/=.
have E l n : (l + n = m.-1)%N -> forall k, (k < n)%N ->
    nth NaN (scanl (@xadd R) (Fin (level l)) [seq Fin (jump k) | k <- iota l n]) k = Fin (level (l + k).+1).
  elim: n l => [|n IH] l // El [|k'] lt_k'; rewrite [iota _ _]/= [map _ _]/= [scanl _ _ _]/= [nth _ _ _]/=.
    by rewrite -levelS addn0.
  by rewrite -levelS IH ?addSnnS // -addSnnS.
by rewrite (E 0%N) // ltn_predRL.
Qed.

Definition gaps i j : Prop := exists u v, [/\ (u < m)%N, (v < m)%N, nth 0 s i <= nth 0 s u,
  nth 0 s u + tol < nth 0 s v & nth 0 s v <= nth 0 s j /\
  forall w, (w < m)%N -> ~~ (nth 0 s u < nth 0 s w < nth 0 s v)].

Lemma level_gap i j : (i < m)%N -> (j < m)%N ->
  gaps i j <-> level (seq.index i p) < level (seq.index j p).
Proof.
have lt_ix k : (k < m)%N -> (seq.index k p < m)%N by move=> H; rewrite -Sp index_mem (perm_mem Hp) mem_iota.
have sv_ix k : (k < m)%N -> sv (seq.index k p) = nth 0 s k.
  by move=> H; rewrite /sv nth_index // (perm_mem Hp) mem_iota.
have lt_p k : (k < m)%N -> (nth 0%N p k < m)%N.
  by move=> H; have: nth 0%N p k \in p; [rewrite mem_nth ?Sp | rewrite (perm_mem Hp) mem_iota].
move=> lt_i lt_j; split=> [[u [v [lt_u lt_v le_iu lt_uv [le_vj Hno]]]]|].
  apply/(level_lt (lt_ix _ lt_i) (lt_ix _ lt_j)).
  pose P k := (k < m)%N && (sv k <= nth 0 s u).
  have exP : exists k, P k by exists (seq.index u p); rewrite /P lt_ix // sv_ix /=.
  have ubP k : P k -> (k <= m)%N by case/andP => /ltnW.
  case: (ex_maxnP exP ubP) => l /andP[lt_l le_l] Hmax.
  have lt_uv' : nth 0 s u < nth 0 s v by apply: le_lt_trans lt_uv; rewrite ler_addl.
  have lt_lj : (l < seq.index j p)%N.
    rewrite ltnNge; apply/negP => le_jl.
    have := sv_le le_jl lt_l; rewrite sv_ix // => H.
    by have := lt_le_trans lt_uv' (le_trans le_vj (le_trans H le_l)); rewrite ltxx.
  have lt_l1 : (l.+1 < m)%N by apply: leq_ltn_trans (lt_ix _ lt_j).
  exists l; first by rewrite Hmax /P ?lt_ix // sv_ix.
  have up : nth 0 s u < sv l.+1.
    by rewrite ltNge; apply/negP => H; have := Hmax l.+1; rewrite /P lt_l1 H ltnn => /(_ isT).
  have up2 : nth 0 s v <= sv l.+1.
    by have := Hno _ (lt_p _ lt_l1); rewrite -/(sv l.+1) up /= -leNgt.
  rewrite ltr_subr_addl; apply: lt_le_trans up2; apply: le_lt_trans lt_uv.
  by rewrite ler_add2r.
case/(level_lt (lt_ix _ lt_i) (lt_ix _ lt_j)) => l /andP[le_l lt_l] Hl.
have lt_l1 : (l.+1 < m)%N by apply: leq_ltn_trans (lt_ix _ lt_j).
exists (nth 0%N p l), (nth 0%N p l.+1); rewrite -/(sv l) -/(sv l.+1).
split; rewrite ?lt_p ?(ltnW lt_l1) //.
- by rewrite -sv_ix // sv_le // ltnW.
- by rewrite addrC -ltr_subr_addr.
split=> [|w lt_w]; first by rewrite -[nth 0 s j]sv_ix // sv_le // lt_ix.
rewrite -[nth 0 s w]sv_ix // negb_and -!leNgt.
have [le|lt] := leqP (seq.index w p) l; first by rewrite sv_le // ltnW.
by rewrite [X in _ || X]sv_le ?orbT // lt_ix.
Qed.
End Col.

(** ------------------------------------------------ lexicographic order on key functions *)
Section Lex.
Variable K : nat -> nat -> R.
Fixpoint lexk (cs : seq nat) (i j : nat) : bool :=
  match cs with
  | [::] => true
  | c :: cs' => if K c i < K c j then true else if K c j < K c i then false else lexk cs' i j
  end.
Lemma lex_leE cs i j : lex_le [seq Fin (K c i) | c <- cs] [seq Fin (K c j) | c <- cs] = lexk cs i j.
Proof. by elim: cs => //= c cs ->. Qed.
Lemma lexk_total cs : total (lexk cs).
Proof. by elim: cs => //= c cs IH i j; case: ltgtP. Qed.
Lemma lexk_trans cs : transitive (lexk cs).
Proof.
elim: cs => //= c cs IH j i k.
case: (ltgtP (K c i)) => [lt_ij _|//|Eij].
  case: (ltgtP (K c j)) => [lt_jk _|//|<- _]; last by rewrite lt_ij.
  by rewrite (lt_trans lt_ij lt_jk).
by rewrite Eij; case: ltgtP => // _; apply: IH.
Qed.
Lemma lexk_strict cs i j : lexk cs i j -> ~~ lexk cs j i ->
  exists2 k, (k < size cs)%N /\ K (nth 0%N cs k) i < K (nth 0%N cs k) j &
    forall l, (l < k)%N -> K (nth 0%N cs l) i = K (nth 0%N cs l) j.
Proof.
elim: cs => //= c cs IH; case: (ltgtP (K c i)) => // [lt _ _|E Hij Hji]; first by exists 0%N.
by have [k [Hk Hlt] Heq] := IH Hij Hji; exists k.+1 => // -[|l] //; apply: Heq.
Qed.
Lemma lexk_eq cs i j : lexk cs i j -> lexk cs j i -> {in cs, forall c, K c i = K c j}.
Proof.
elim: cs => //= c cs IH; case: (ltgtP (K c i)) => // E Hij Hji d.
by rewrite inE => /predU1P[-> //|]; apply: IH.
Qed.
Definition lexs cs i j := lexk cs i j && (lexk cs j i ==> (i < j)%N).
Lemma lexs_trans cs : transitive (lexs cs).
Proof.
move=> j i k /andP[Hij Sij] /andP[Hjk Sjk]; rewrite /lexs (lexk_trans Hij Hjk) /=.
apply/implyP => Hki; apply: (@ltn_trans j).
  by apply: (implyP Sij); apply: lexk_trans Hki.
by apply: (implyP Sjk); apply: lexk_trans Hij.
Qed.
Lemma sort_lexk cs m k l : (k < l < m)%N ->
  lexs cs (nth 0%N (sort (lexk cs) (iota 0 m)) k) (nth 0%N (sort (lexk cs) (iota 0 m)) l).
Proof.
case/andP=> lt_kl lt_l.
have Hs := sort_stable (lexk_total cs) ltn_trans (iota_ltn_sorted 0 m).
have := sorted_ltn_nth (@lexs_trans cs) 0%N Hs; move/(_ k l); rewrite !inE size_sort size_iota.
by apply=> //; apply: ltn_trans lt_l.
Qed.
End Lex.

(** ------------------------------------------------ the whole function *)
Lemma sort_rows_tol_run m n (M : 'M[R]_(m, n)) (tol : R) : 0 <= tol -> (0 < n)%N ->
  exists s : 'S_m, sort_rows_tol argsort (mat M) (Fin tol) =
      Ok (mat (row_perm s M), [seq val (s i) | i <- enum 'I_m], [seq val (s^-1%g i) | i <- enum 'I_m]) /\
    forall k l : 'I_m, (k < l)%N -> precedes tol M (s k) (s l).
Proof.
move=> t0 n0; case: m M => [|m] M.
  exists 1%g; split=> [|[]//]; rewrite /sort_rows_tol [xlt _ _]/= ltNge t0 [shape _]/= row_perm1 /=.
  have [] := Harg [::]; rewrite /= => /perm_size; case: (argsort [::]) => // _ _.
  by rewrite !enum_ord0.
rewrite /sort_rows_tol [xlt _ _]/= ltNge t0 [shape _]/=.
cbv beta iota zeta; rewrite [~~ true]/= ltn0Sn (gtn_eqF n0); cbv iota.
set M' := m.+1.
pose cseq (c : nat) : seq R := [seq mxget M i c | i <- iota 0 M'].
pose K c i := level tol (cseq c) (seq.index i (argsort [seq Fin x | x <- cseq c])).
have Sc c : size (cseq c) = M' by rewrite size_map size_iota.
have Hc c (i : 'I_M') (j : 'I_n) : val j = c -> nth 0 (cseq c) i = M i j.
  by move=> <-; rewrite (nth_map 0%N) ?size_iota // nth_iota // mxgetE.
have HK (c : 'I_n) (i j : 'I_M') : gap tol M c i j = (K c i < K c j).
  have H := @level_gap tol (cseq c) t0 i j; rewrite Sc !ltn_ord in H; have {H} := H isT isT.
  rewrite -/(K c i) -/(K c j) => H; apply/idP/idP => [/existsP[u /existsP[v]]|/H [u [v]]].
    case/and4P=> Hu Huv Hv /forallP Hw; apply/H; exists u, v; rewrite !Sc !(Hc c _ c erefl) !ltn_ord; split=> //.
    by split=> // w lt_w; have := Hw (Ordinal lt_w); rewrite -(Hc c (Ordinal lt_w) c erefl).
  rewrite !Sc !(Hc c _ c erefl) => -[lt_u lt_v].
  rewrite -[u]/(val (Ordinal lt_u)) -[v]/(val (Ordinal lt_v)) !(Hc c _ c erefl) => Hu Huv [Hv Hw].
  apply/existsP; exists (Ordinal lt_u); apply/existsP; exists (Ordinal lt_v); apply/and4P; split=> //.
  by apply/forallP => w; have := Hw w (ltn_ord w); rewrite (Hc c _ c erefl).
set keys := rows_of _ _.
have Hkeys i : (i < M')%N -> nth [::] keys i = [seq Fin (K c i) | c <- iota 0 n].
  move=> lt_i; rewrite (nth_map 0%N) ?size_iota // nth_iota // add0n -map_comp.
  apply/eq_in_map => c; rewrite mem_iota add0n => /andP[_ lt_c].
  rewrite [LHS]/comp; have -> : [seq get (mat M) [:: i; c] | i <- iota 0 M'] = [seq Fin x | x <- cseq c].
    rewrite -map_comp; apply/eq_in_map => k; rewrite mem_iota /= add0n => lt_k.
    by rewrite (get_mat M (Ordinal lt_k) (Ordinal lt_c)) -[k]/(val (Ordinal lt_k)) -[c]/(val (Ordinal lt_c)) mxgetE.
  by rewrite snap_colE ?Sc // (nth_map 0%N) ?size_iota // nth_iota.
have -> : sort (fun i j => lex_le (nth [::] keys i) (nth [::] keys j)) (iota 0 M') = sort (lexk K (iota 0 n)) (iota 0 M').
  rewrite -(val_enum_ord M') (sort_map (enum 'I_M')) [RHS](sort_map (enum 'I_M')); congr map.
  apply: eq_sort' => i j; rewrite /relpre /=.
  by rewrite !Hkeys // lex_leE.
set ind := sort _ _.
have Hind : perm_eq ind (iota 0 M') by rewrite perm_sort.
have Si : size ind = M' by rewrite (perm_size Hind) size_iota.
have lt_ind (k : 'I_M') : (nth 0%N ind k < M')%N.
  by have: nth 0%N ind k \in ind; [rewrite mem_nth ?Si | rewrite (perm_mem Hind) mem_iota].
have inj : injective (fun k : 'I_M' => Ordinal (lt_ind k)).
  move=> k l [] /eqP; rewrite nth_uniq ?Si // ?(perm_uniq Hind) ?iota_uniq //.
  by move/eqP/val_inj.
exists (perm inj); split.
  have Ei : ind = [seq val (perm inj i) | i <- enum 'I_M'].
    apply: (@eq_from_nth _ 0%N); rewrite Si 1?size_map ?size_enum_ord // => i lt_i.
    rewrite (nth_map (Ordinal lt_i)) ?size_enum_ord // permE.
    by congr (nth _ _ _); rewrite nth_enum_ord.
  rewrite (argsort_inv Hind); congr (Ok (_, _, _)) => //.
    apply: matE => i j; rewrite [nth 0%N _ 0]/= [nth 0%N _ 1]/= (get_mat M (Ordinal (lt_ind i))).
    by rewrite mxE permE.
  rewrite -val_enum_ord -map_comp; apply/eq_map => i /=.
  rewrite -{1}[i](permKV (perm inj)) permE /= index_uniq ?Si //.
  by rewrite (perm_uniq Hind) iota_uniq.
move=> k l lt_kl; have := @sort_lexk K (iota 0 n) M' k l; rewrite -/ind lt_kl ltn_ord => /(_ isT).
rewrite !permE; set i := Ordinal (lt_ind k); set j := Ordinal (lt_ind l).
rewrite -[nth _ _ k]/(val i) -[nth _ _ l]/(val j) => /andP[Hij /implyP Sij].
have [Hji|Hji] := boolP (lexk K (iota 0 n) j i).
  right; split; last exact: Sij.
  by move=> c; rewrite /tied !HK (lexk_eq Hij Hji) ?mem_iota //= ltxx.
left; have [c [lt_c Hlt] Heq] := lexk_strict Hij Hji.
rewrite size_iota in lt_c; rewrite nth_iota // in Hlt.
exists (Ordinal lt_c); first by rewrite HK.
move=> c' lt_c'; have := Heq c' lt_c'; rewrite nth_iota ?(ltn_trans lt_c' lt_c) // add0n => E.
by rewrite /tied !HK E ltxx.
Qed.

(** the order determines the permutation *)
Lemma gap0E m n (M : 'M[R]_(m, n)) c i j : gap 0 M c i j = (M i c < M j c).
Proof.
apply/existsP/idP => [[u /existsP[v /and4P[H1 H2 H3 _]]]|lt].
  by apply: le_lt_trans H1 _; rewrite addr0 in H2; apply: lt_le_trans H3.
case: (@arg_maxP _ _ _ i (fun u => M u c < M j c) (fun u => M u c) lt) => u lt_u Hu.
exists u; apply/existsP; exists j; apply/and4P; split; rewrite ?addr0 ?lexx //; first exact: Hu.
apply/forallP => w; apply/negP => /andP[H1 H2]; have := Hu w H2.
by rewrite /= leNgt H1.
Qed.
Lemma precedes_asym m n tol (M : 'M[R]_(m, n)) i j : 0 <= tol -> precedes tol M i j -> ~ precedes tol M j i.
Proof.
move=> t0.
have G c i' j' : gap tol M c i' j' -> M i' c < M j' c.
  case/existsP=> u /existsP[v /and4P[H1 H2 H3 _]]; apply: le_lt_trans H1 _; apply: lt_le_trans H3.
  by apply: le_lt_trans H2; rewrite ler_addl.
case=> [[c Hc Hb]|[Ht lt_ij]] [[d Hd Hb']|[Ht' lt_ji]].
- case: (ltngtP c d) => [/Hb'|/Hb|/val_inj E]; rewrite /tied ?Hc ?Hd ?andbF //.
  by rewrite -E in Hd; have := lt_trans (G _ _ _ Hc) (G _ _ _ Hd); rewrite ltxx.
- by have := Ht' c; rewrite /tied Hc andbF.
- by have := Ht d; rewrite /tied Hd andbF.
by have := ltn_trans lt_ij lt_ji; rewrite ltnn.
Qed.
End S.

Section S2.
Variable R : rcfType.
Notation X := (xnum R).

Lemma precedes0 m n (M : 'M[R]_(m, n)) i j : precedes 0 M i j ->
  (exists2 c, M i c < M j c & forall c' : 'I_n, (c' < c)%N -> M i c' = M j c') \/
  ((forall c, M i c = M j c) /\ (i < j)%N).
Proof.
have T c : tied 0 M c i j -> M i c = M j c by rewrite /tied !gap0E; case: ltgtP.
case=> [[c Hc Hb]|[Ht lt]]; [left | right]; last by split=> // c; apply: T.
by exists c; rewrite -?gap0E // => c' /Hb/T.
Qed.

(** two increasing enumerations of the same strict order *)
Lemma precedes_unique m n (M : 'M[R]_(m, n)) (tol : R) (s t : 'S_m) : 0 <= tol ->
  (forall k l : 'I_m, (k < l)%N -> precedes tol M (s k) (s l)) ->
  (forall k l : 'I_m, (k < l)%N -> precedes tol M (t k) (t l)) -> s = t.
Proof.
move=> t0 Hs Ht.
have mono (a b : 'S_m) : (forall k l : 'I_m, (k < l)%N -> precedes tol M (a k) (a l)) ->
  (forall k l : 'I_m, (k < l)%N -> precedes tol M (b k) (b l)) ->
  forall k l : 'I_m, (k < l)%N -> ((b^-1 (a k))%g < (b^-1 (a l))%g)%N.
  move=> Ha Hb k l lt; rewrite ltnNge; apply/negP; rewrite leq_eqVlt => /orP[/eqP/val_inj/perm_inj/perm_inj E|H].
    by rewrite E ltnn in lt.
  by have := Hb _ _ H; rewrite !permKV; apply: precedes_asym t0 (Ha _ _ lt).
have id_of (a : 'S_m) : (forall k l : 'I_m, (k < l)%N -> (a k < a l)%N) -> a = 1%g.
  move=> H; apply/permP => k; rewrite perm1.
  have ge (k' : 'I_m) : (k' <= a k')%N.
    have [q] := ubnP (val k'); elim: q k' => // q IH [[|k'] lt] //= ltq.
    by apply: leq_ltn_trans (IH (Ordinal (ltnW lt)) ltq) _; apply: H; rewrite /=.
  have le (q : nat) : forall k' : 'I_m, (m - k' <= q)%N -> (a k' <= k')%N.
    elim: q => [|q IH] k' Hq; first by move: Hq; rewrite leqn0 subn_eq0 leqNgt ltn_ord.
    have [e|lt] := leqP (a k') k' => //.
    have le_q : (m - a k' <= q)%N by rewrite -ltnS; apply: leq_trans Hq; rewrite ltn_sub2l ?ltn_ord.
    by have := IH (a k') le_q; rewrite leqNgt (H _ _ lt).
  by apply/val_inj/eqP; rewrite eqn_leq ge (le _ k (leqnn _)).
have /id_of E : forall k l : 'I_m, (k < l)%N -> ((s * t^-1)%g k < (s * t^-1)%g l)%N.
  by move=> k l lt; rewrite !permM; apply: mono.
by rewrite -(mulgKV t s) E mul1g.
Qed.

Lemma sort_rows_tol_unique (f g : seq X -> seq nat) : argsort_ok f -> argsort_ok g ->
  forall m n (M : 'M[R]_(m, n)) (tol : R), 0 <= tol -> (0 < n)%N ->
  sort_rows_tol f (mat M) (Fin tol) = sort_rows_tol g (mat M) (Fin tol).
Proof.
move=> Hf Hg m n M tol t0 n0.
have [s [-> Hs]] := sort_rows_tol_run Hf M t0 n0.
have [t [-> Ht]] := sort_rows_tol_run Hg M t0 n0.
by rewrite (precedes_unique t0 Hs Ht).
Qed.

Lemma sort_rows_tol_rejects (f : seq X -> seq nat) (a : arr X) (tol : R) :
  (tol < 0 -> sort_rows_tol f a (Fin tol) = throw "wrongInput:tol") /\
  (0 <= tol -> ndim a != 2%N -> sort_rows_tol f a (Fin tol) = throw "wrongInput:inp_mat").
Proof.
rewrite /sort_rows_tol [xlt _ _]/=; split=> [-> //|t0]; rewrite ltNge t0 /ndim /=.
by case: (shape a) => [|? [|? [|? ?]]].
Qed.

(** an implementation of argsort that meets the contract *)
Definition stable_argsort (s : seq X) : seq nat :=
  sort (fun i j => xle (nth NaN s i) (nth NaN s j)) (iota 0 (size s)).
Lemma stable_argsort_ok : argsort_ok stable_argsort.
Proof.
move=> s; rewrite /stable_argsort size_map; split; first by rewrite perm_sort.
set srt := sort _ _.
have Hm i : i \in srt -> (i < size s)%N by rewrite mem_sort mem_iota.
rewrite sorted_map.
have: sorted (fun i j => xle (nth NaN [seq Fin x | x <- s] i) (nth NaN [seq Fin x | x <- s] j)) srt.
  apply: (@sort_sorted_in _ (fun i => i < size s)%N); last by apply/allP => i; rewrite mem_iota.
  by move=> i j Hi Hj; rewrite !(nth_map 0) // /xle /= !(orbC (_ < _)) -!le_eqVlt le_total.
apply: (@sub_in_sorted _ (fun i => i < size s)%N); last exact/allP/Hm.
by move=> i j Hi Hj /=; rewrite !(nth_map 0) // /xle /= orbC -le_eqVlt.
Qed.

Lemma gap_example : gap (1 : R) (\col_(i < 2) (3%:R * i%:R)) 0 0 1 /\
  ~~ gap (4%:R : R) (\col_(i < 2) (3%:R * i%:R)) 0 0 1.
Proof.
split.
  apply/existsP; exists 0; apply/existsP; exists 1; rewrite !mxE !lexx /= mulr0 add0r mulr1 ltr1n /=.
  apply/forallP => -[[|[|//]] ?]; rewrite !mxE /= ?mulr0 ?mulr1 ?ltxx ?andbF //.
apply/negP => /existsP[u /existsP[v /and4P[_ H _ _]]]; move: H; rewrite !mxE.
case: u => [[|[|//]] ?]; case: v => [[|[|//]] ?] /=; rewrite ?mulr0 ?mulr1 ?add0r ltNge ?ler0n //.
- by rewrite ler_nat.
- by rewrite addr_ge0 ?ler0n.
by rewrite ler_addl ler0n.
Qed.
End S2.
