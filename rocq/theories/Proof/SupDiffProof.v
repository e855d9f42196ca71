(** Proofs about sup_geom_diff_2d and sup_geom_diff_3d. *)
From mathcomp Require Import all_ssreflect all_algebra ring.
Require Import Coq.Strings.String.
From Verif.Model Require Import Py NP NP3 Linalg SupDiff.
From Verif.Spec Require Import MatSpec LinalgSpec SupDiffSpec.
From Verif.Proof Require Import NPLib NP3Lib MatLib LaBasic EllGeomProof.
From mathcomp.zify Require Import zify.
Set Implicit Arguments.
Unset Strict Implicit.
Unset Printing Implicit Defensive.
Import Order.Theory GRing.Theory Num.Theory.
Local Open Scope ring_scope.

Section SupDiffProof.
Variables (R : rcfType) (la : linalg R).
Notation X := (xnum R).
Notation A := (arr X).
Notation get := (getn (@NaN R)).

Lemma check_vec_ok tag n (v : 'cV[R]_n) : check_vec tag (vec v) = Ok tt.
Proof. by rewrite /check_vec /= /np_size /= muln1 maxn0 eqxx. Qed.

Lemma checks_ok t1 t2 m n (r1 r2 : 'cV[R]_n) (L : 'M[R]_(m, n)) : n != 1%N -> (forall k, r2 k 0 < r1 k 0) ->
  geom_checks t1 t2 m (vec r1) (vec r2) (mat L) = Ok (vec (r1 - r2)).
Proof.
move=> n1 Hd; rewrite /geom_checks.
have -> : ndim (mat L) = 2%N by [].
rewrite !check_vec_ok !rbind_okE !np_squeeze_vec //.
have -> (v : 'cV[R]_n) : SupDiff.len0 (vec v) = Ok n by [].
rewrite rbind_okE.
have -> (v : 'cV[R]_n) : SupDiff.len0 (vec v) = Ok n by [].
rewrite rbind_okE eqxx.
have -> : dim (mat L) 1 = n by [].
have -> : dim (mat L) 0 = m by [].
rewrite !eqxx np_sub_vec rbind_okE.
suff -> : has (fun x => xle x x0) (data (vec (r1 - r2))) = false by [].
rewrite data_vals has_map; apply/negbTE; rewrite -all_predC; apply/allP => x /mem_vals[k ->] /=.
by rewrite !mxE /xle /= !subr_lt0 ltNge ltW //= subr_eq0 gt_eqF.
Qed.

Lemma scaled_ok m n (L : 'M[R]_(m, n)) (d : 'cV[R]_n) : (forall k, d k 0 != 0) ->
  np_div (mat L) (np_tile_rows (vec d) m) = Ok (mat (scaled L d)).
Proof.
move=> Hd; rewrite np_tile_rows_vec np_div_mat; congr Ok; apply: matE => i j /=.
by rewrite !mxgetE !mxE /= (negbTE (Hd j)).
Qed.

(** ------------------------------------------------------------ the plane *)
Definition edge_mx n (S : 'M[R]_(2, n)) (i j k : 'I_n) : 'M[R]_2 :=
  \matrix_(r < 2, c < 2) (if val c == 0%N then S r i - S r j else S r k).

Lemma edge_matE n (S : 'M[R]_(2, n)) (i j k : 'I_n) : edge_mat (mat S) i j k = mat (edge_mx S i j k).
Proof. by apply: matE => r c /=; rewrite !get_mat mxE; case: (val c == 0%N). Qed.
Lemma edge_rhsE n (S : 'M[R]_(2, n)) (i : 'I_n) : edge_rhs (mat S) i = mat (col i S).
Proof. by apply: matE => r c /=; rewrite !get_mat mxE. Qed.

Lemma plane_zero (w0 w1 u0 u1 x0 x1 s0 s1 : R) : (u0 != 0) || (u1 != 0) -> w0 * u0 + w1 * u1 = 0 -> x0 * u0 + x1 * u1 = 0 ->
  w0 * s0 + w1 * s1 = 0 -> x0 * s0 + x1 * s1 != 0 -> w0 = 0 /\ w1 = 0.
Proof.
move=> Hu Hw Hx Hs Hq.
have D : w0 * x1 - w1 * x0 = 0.
  have E0 : u0 * (w0 * x1 - w1 * x0) = 0.
    have -> : u0 * (w0 * x1 - w1 * x0) = x1 * (w0 * u0 + w1 * u1) - w1 * (x0 * u0 + x1 * u1) by ring.
    by rewrite Hw Hx !mulr0 subr0.
  have E1 : u1 * (w0 * x1 - w1 * x0) = 0.
    have -> : u1 * (w0 * x1 - w1 * x0) = w0 * (x0 * u0 + x1 * u1) - x0 * (w0 * u0 + w1 * u1) by ring.
    by rewrite Hw Hx !mulr0 subr0.
  case/orP: Hu => [/negbTE h|/negbTE h]; [move/eqP: E0|move/eqP: E1]; by rewrite mulf_eq0 h => /eqP.
split; apply/eqP; rewrite -[_ == 0]orbF -(negbTE Hq) -mulf_eq0; apply/eqP.
  have -> : w0 * (x0 * s0 + x1 * s1) = x0 * (w0 * s0 + w1 * s1) + s1 * (w0 * x1 - w1 * x0) by ring.
  by rewrite Hs D !mulr0 addr0.
have -> : w1 * (x0 * s0 + x1 * s1) = x1 * (w0 * s0 + w1 * s1) - s0 * (w0 * x1 - w1 * x0) by ring.
by rewrite Hs D !mulr0 subr0.
Qed.

Lemma sum2 (f : 'I_2 -> R) : \sum_i f i = f 0 + f 1.
Proof. by rewrite !big_ord_recl big_ord0 addr0; congr (_ + f _); apply: val_inj. Qed.

(** the second component of the least-squares solution *)
Lemma edge_sol n (L : 'M[R]_(2, n)) (d : 'cV[R]_n) (i j k : 'I_n) x : lstsq_ok la -> (forall k, 0 < d k 0) ->
  facet2 L d i j x -> dotv (col k L) x != 0 ->
  exists z, la_lstsq la (edge_mat (mat (scaled L d)) i j k) (edge_rhs (mat (scaled L d)) i) = Ok z /\
    get z [:: 1; 0]%N = Fin (d k 0 / dotv (col k L) x).
Proof.
move=> [Hla _] Hd [_ _ [_ Hv] Hn] Hk; set S := scaled L d.
have [Z [EZ HZ]] := Hla 2%N 2%N 1%N (edge_mx S i j k) (col i S) isT isT.
exists (mat Z); rewrite edge_matE edge_rhsE EZ; split=> //.
have dn (a : 'I_n) : d a 0 != 0 by rewrite gt_eqF.
have HS (a : 'I_n) : x 0 0 * S 0 a + x 1 0 * S 1 a = dotv (col a L) x / d a 0.
  by rewrite /dotv sum2 !mxE mulrDl; congr (_ + _); rewrite mulrA; congr (_ / _); rewrite mulrC.
have Hi : x 0 0 * S 0 i + x 1 0 * S 1 i = 1 by rewrite HS Hv ?inE ?eqxx // divff.
have Hj : x 0 0 * S 0 j + x 1 0 * S 1 j = 1 by rewrite HS Hv ?inE ?eqxx ?orbT // divff.
have Hu : (S 0 i - S 0 j != 0) || (S 1 i - S 1 j != 0).
  move: (Hn i j erefl erefl); apply: contraNT; rewrite negb_or !negbK !subr_eq0 => /andP[/eqP h0 /eqP h1].
  apply/eqP/colP => r; rewrite !mxE -/S.
  have [->|->] : r = 0 \/ r = 1 by case: r => [[|[|]]] //= h; [left|right]; apply: val_inj.
    by move: h0; rewrite !mxE.
  by move: h1; rewrite !mxE.
set w := edge_mx S i j k *m Z - col i S.
have Hw0 : (edge_mx S i j k)^T *m w = 0 by rewrite mulmxBr mulmxA HZ subrr.
have Hw c : edge_mx S i j k 0 c * w 0 0 + edge_mx S i j k 1 c * w 1 0 = 0.
  by have /matrixP/(_ c 0) := Hw0; rewrite mxE sum2 [RHS]mxE ![_^T _ _]mxE.
have e0 r : edge_mx S i j k r 0 = S r i - S r j by rewrite mxE.
have e1 r : edge_mx S i j k r 1 = S r k by rewrite mxE.
have Hq : x 0 0 * S 0 k + x 1 0 * S 1 k != 0 by rewrite HS mulf_neq0 // invr_eq0.
have [w0 w1] : w 0 0 = 0 /\ w 1 0 = 0.
  apply: (plane_zero Hu (x0 := x 0 0) (x1 := x 1 0) (s0 := S 0 k) (s1 := S 1 k)) => //.
  - by have := Hw 0; rewrite !e0 ![_ * w _ _]mulrC.
  - by rewrite !mulrBr addrACA -opprD Hi Hj subrr.
  - by have := Hw 1; rewrite !e1 ![_ * w _ _]mulrC.
have HE r : w r 0 = edge_mx S i j k r 0 * Z 0 0 + edge_mx S i j k r 1 * Z 1 0 - S r i.
  by rewrite /w 3!mxE sum2; congr (_ - _); rewrite mxE.
rewrite HE !e0 !e1 in w0; rewrite HE !e0 !e1 in w1.
have H : Z 1 0 * (x 0 0 * S 0 k + x 1 0 * S 1 k) = 1.
  have -> : Z 1 0 * (x 0 0 * S 0 k + x 1 0 * S 1 k) =
    x 0 0 * ((S 0 i - S 0 j) * Z 0 0 + S 0 k * Z 1 0 - S 0 i) + x 1 0 * ((S 1 i - S 1 j) * Z 0 0 + S 1 k * Z 1 0 - S 1 i) +
    (x 0 0 * S 0 i + x 1 0 * S 1 i) * (1 - Z 0 0) + (x 0 0 * S 0 j + x 1 0 * S 1 j) * Z 0 0.
    move: (x 0 0) (x 1 0) (Z 0 0) (Z 1 0) (S 0 i) (S 1 i) (S 0 j) (S 1 j) (S 0 k) (S 1 k) => *; ring.
  by rewrite w0 w1 Hi Hj !mulr0 !mul1r !add0r subrK.
have -> : get (mat Z) [:: 1; 0]%N = Fin (Z 1 0) by exact: (@get_mat _ _ _ Z 1 0).
congr Fin; move: H; rewrite HS mulrA => H.
by apply: (canRL (mulfK Hk)); rewrite -[RHS]mul1r -H divfK.
Qed.

(** ------------------------------------------------------------ visiting the directions *)
Section Visit.
Variables (n : nat) (L : 'M[R]_(2, n)) (d : 'cV[R]_n).
Hypotheses (Hla : lstsq_ok la) (Hd : forall k, 0 < d k 0).
Let S := mat (scaled L d).

(** <l_k, x>, d_k *)
Definition lv (x : 'cV[R]_2) (k : nat) : R := if insub k is Some k' then dotv (col k' L) x else 0.
Definition dv (k : nat) : R := if insub k is Some k' then d k' 0 else 0.
Lemma lvE x (k : 'I_n) : lv x k = dotv (col k L) x. Proof. by rewrite /lv valK. Qed.
Lemma dvE (k : 'I_n) : dv k = d k 0. Proof. by rewrite /dv valK. Qed.

Lemma visit_dir_val i j x i0 s : facet2 L d i j x -> (i0.+1 < n)%N -> lv x i0.+1 != 0 ->
  visit_dir la n S i j (i0, s) =
  if dv i0.+1 / lv x i0.+1 < 0 then throw "wrongState:s_val"
  else Ok (i0.+1, set_nth x0 s i0.+1 (Fin (dv i0.+1 / lv x i0.+1))).
Proof.
move=> Hf Hk H; have [Hi Hj _ _] := Hf; rewrite /visit_dir ltnNge (ltnW Hk) /= leqNgt Hk /=.
rewrite -[i]/(val (Ordinal Hi)) -[j]/(val (Ordinal Hj)) -[i0.+1]/(val (Ordinal Hk)) lvE dvE.
rewrite -[i0.+1]/(val (Ordinal Hk)) lvE in H.
have [z [Ez Gz]] := @edge_sol n L d (Ordinal Hi) (Ordinal Hj) (Ordinal Hk) x Hla Hd Hf H.
by rewrite Ez rbind_okE Gz.
Qed.

Definition tab (g : nat -> R) : seq X := [seq Fin (g k) | k <- iota 0 n].
Lemma set_tab g k v : (k < n)%N -> set_nth x0 (tab g) k (Fin v) = tab (fun a => if a == k then v else g a).
Proof.
move=> Hk; apply: (@eq_from_nth _ x0); first by rewrite size_set_nth !size_map size_iota (maxn_idPr Hk).
move=> a; rewrite size_set_nth size_map size_iota (maxn_idPr Hk) => Ha.
by rewrite nth_set_nth /= !(nth_map 0%N) ?size_iota // !nth_iota // !add0n; case: eqP.
Qed.
Lemma eq_tab g h : (forall k, (k < n)%N -> g k = h k) -> tab g = tab h.
Proof. by move=> E; apply/eq_in_map => k; rewrite mem_iota add0n => /andP[_ Hk]; rewrite E. Qed.

Lemma dv_gt0 k : (k < n)%N -> 0 < dv k.
Proof. by move=> Hk; rewrite -[k]/(val (Ordinal Hk)) dvE. Qed.

Lemma visit_dirsS i j c st : visit_dirs la n S i j c.+1 st = let* st' := visit_dir la n S i j st in visit_dirs la n S i j c st'.
Proof. by []. Qed.

Lemma visit_dirs_val i j x c : facet2 L d i j x -> forall i0 g, (i0 + c < n)%N ->
  (forall k, (i0 < k <= i0 + c)%N -> 0 < lv x k) ->
  visit_dirs la n S i j c (i0, tab g) =
  Ok ((i0 + c)%N, tab (fun k => if (i0 < k <= i0 + c)%N then dv k / lv x k else g k)).
Proof.
move=> Hf; elim: c => [|c IH] i0 g Hn Hp.
  rewrite /= addn0; congr (Ok (_, _)); apply: eq_tab => k _.
  by case: ltnP => //= h; rewrite leqNgt h.
have H1 : (i0.+1 < n)%N by apply: leq_trans Hn; rewrite addnS !ltnS leq_addr.
have P1 : 0 < lv x i0.+1 by apply: Hp; rewrite ltnSn addnS ltnS leq_addr.
rewrite visit_dirsS (visit_dir_val _ Hf H1) ?gt_eqF // ltNge divr_ge0 ?ltW ?dv_gt0 //=.
rewrite set_tab // IH ?addSnnS //; last first.
  by move=> k /andP[h1 h2]; apply: Hp; rewrite (ltn_trans _ h1) // -addSnnS.
congr (Ok (_, _)); apply: eq_tab => k _; rewrite -addSnnS.
have [->|ne] := eqVneq k i0.+1; first by rewrite ltnn ltnSn /= leq_addr.
have -> : (i0 < k)%N = (i0.+1 < k)%N by rewrite [RHS]ltn_neqAle eq_sym ne.
by [].
Qed.

(** past the last direction there is only the exception *)
Lemma visit_wrap i j c : forall i0 s, (i0 < n)%N -> (n <= i0 + c)%N -> exists e, visit_dirs la n S i j c (i0, s) = Err e.
Proof.
elim: c => [|c IH] i0 s Hi Hc; first by rewrite addn0 leqNgt Hi in Hc.
rewrite visit_dirsS /visit_dir ltnNge Hi /=.
case: leqP => Hi1; first by eexists.
case: (la_lstsq _ _ _) => [z|e]; last by eexists.
rewrite rbind_okE; case: ifP => _; first by eexists.
by rewrite rbind_okE; apply: IH; rewrite // addSnnS.
Qed.

(** a direction on the other side of the origin *)
Lemma visit_neg i j x k c : facet2 L d i j x -> lv x k < 0 -> forall i0 s, (i0 + c < n)%N -> (i0 < k <= i0 + c)%N ->
  exists e, visit_dirs la n S i j c (i0, s) = Err e.
Proof.
move=> Hf Hk; elim: c => [|c IH] i0 s Hn; first by rewrite addn0; case: ltnP => //= h; rewrite leqNgt h.
case/andP=> h1 h2; have H1 : (i0.+1 < n)%N by apply: leq_trans Hn; rewrite addnS !ltnS leq_addr.
rewrite visit_dirsS; have [E|ne] := eqVneq k i0.+1.
  rewrite (visit_dir_val _ Hf H1) -E ?lt_eqF //.
  by rewrite pmulr_rlt0 ?invr_lt0 ?Hk ?dv_gt0 ?E //; eexists.
rewrite /visit_dir ltnNge (ltnW H1) /= leqNgt H1 /=.
case: (la_lstsq _ _ _) => [z|e]; last by eexists.
rewrite rbind_okE; case: ifP => _; first by eexists.
by rewrite rbind_okE; apply: IH; rewrite ?addSnnS // h2 andbT ltn_neqAle eq_sym ne.
Qed.


Lemma face_len_up i j : (i <= j)%N -> face_length n (i, j) = (j - i)%N%:Z.
Proof. by move=> h; rewrite /face_length /= -subzn //; case: ifP => //; lia. Qed.
Lemma face_len_back i : face_length n (i.+1, i) = -1.
Proof. by rewrite /face_length /=; case: ifP; lia. Qed.
Lemma face_len_down i j : (j.+1 < i)%N -> (i < n)%N -> face_length n (i, j) = (n + j - i)%N%:Z.
Proof. by move=> h hn; rewrite /face_length /=; case: ifP; lia. Qed.

Lemma visit_face_val i j x g : (i < n)%N -> (j < n)%N -> no_wrap i j ->
  (forall k, (k < n)%N -> between i j k -> facet2 L d i j x /\ 0 < lv x k) ->
  visit_face la n S (tab g) (i, j) = Ok (tab (fun k => if between i j k then dv k / lv x k else g k)).
Proof.
move=> Hi Hj Hw Hx; rewrite /visit_face.
have none : (forall k, (k < n)%N -> ~~ between i j k) -> tab g = tab (fun k => if between i j k then dv k / lv x k else g k).
  by move=> H; apply: eq_tab => k Hk; rewrite (negbTE (H k Hk)).
have run c : (0 < c)%N -> (i + c < n)%N -> (forall k, (k < n)%N -> between i j k = (i < k <= i + c)%N) ->
   (let* (_, s') := visit_dirs la n S i j c (i, tab g) in Ok s') = Ok (tab (fun k => if between i j k then dv k / lv x k else g k)).
  move=> c0 Hc Hb.
  have B1 : between i j i.+1 by rewrite Hb; lia.
  have [Hf _] := Hx i.+1 ltac:(lia) B1.
  rewrite (visit_dirs_val Hf) // => [|k Hk]; last by apply: (Hx k _ _).2; rewrite ?Hb //; lia.
  by rewrite rbind_okE; congr Ok; apply: eq_tab => k Hk; rewrite Hb.
have [h|h] := leqP i j.
  rewrite face_len_up //; case: ifP => Hl.
    by rewrite -none // => k Hk; rewrite /between; lia.
  rewrite leqNgt Hi leqNgt Hj /=; apply: run; [lia|lia|].
  by move=> k Hk; rewrite /between; lia.
have [h1|h1] := eqVneq i j.+1.
  by rewrite h1 face_len_back /= -h1 -none // => k Hk; rewrite /between; lia.
have j0 : j = 0%N by move: Hw; rewrite /no_wrap; lia.
rewrite face_len_down //; last by lia.
case: ifP => Hl.
  by rewrite -none // => k Hk; rewrite /between; lia.
rewrite leqNgt Hi leqNgt Hj /=; apply: run; [lia|lia|].
by move=> k Hk; rewrite /between; lia.
Qed.

Lemma visit_face_wrap i j s : (0 < j)%N -> (j.+1 < i)%N -> (i < n)%N -> exists e, visit_face la n S s (i, j) = Err e.
Proof.
move=> j0 h hn; rewrite /visit_face face_len_down //; case: ifP => Hl; first by lia.
rewrite leqNgt hn leqNgt (_ : (j < n)%N) /=; last by lia.
have [e ->] := @visit_wrap i j (`|(n + j - i)%N%:Z|%N).-1 i s hn ltac:(lia); by eexists.
Qed.

Lemma visit_face_neg i j x k s : facet2 L d i j x -> (i < k < j)%N -> lv x k < 0 -> exists e, visit_face la n S s (i, j) = Err e.
Proof.
move=> Hf Hk Hn; have [Hi Hj _ _] := Hf; rewrite /visit_face face_len_up; last by lia.
case: ifP => Hl; first by lia.
rewrite leqNgt Hi leqNgt Hj /=.
have [e ->] := @visit_neg i j x k (j - i).-1 Hf Hn i s ltac:(lia) ltac:(lia); by eexists.
Qed.

Lemma faces_val (P : nat -> nat -> 'cV[R]_2) fs g :
  (forall i j, (i, j) \in fs -> [/\ (i < n)%N, (j < n)%N, no_wrap i j &
     forall k, (k < n)%N -> between i j k -> facet2 L d i j (P i j) /\ 0 < lv (P i j) k]) ->
  exists g', foldM (visit_face la n S) (tab g) fs = Ok (tab g') /\ forall k, (k < n)%N ->
    (exists i j, [/\ (i, j) \in fs, between i j k & g' k = dv k / lv (P i j) k]) \/
    ((forall i j, (i, j) \in fs -> ~~ between i j k) /\ g' k = g k).
Proof.
elim: fs g => [|[i j] fs IH] g H; first by exists g; split=> // k _; right.
have [Hi Hj Hw Hx] := H i j (mem_head _ _).
have [|g' [E Hg]] := IH (fun k => if between i j k then dv k / lv (P i j) k else g k).
  by move=> a b Hab; apply: H; rewrite inE Hab orbT.
exists g'; split=> [|k Hk].
  have -> : foldM (visit_face la n S) (tab g) ((i, j) :: fs) = let* s' := visit_face la n S (tab g) (i, j) in foldM (visit_face la n S) s' fs by [].
  by rewrite (visit_face_val g Hi Hj Hw Hx) rbind_okE.
case: (Hg k Hk) => [[a [b [h1 h2 h3]]]|[h1 h2]].
  by left; exists a, b; rewrite inE h1 orbT.
case: ifP h2 => hb h2; first by left; exists i, j; rewrite mem_head.
right; split=> // a b; rewrite inE => /orP[/eqP[-> ->]|]; [by rewrite hb|exact: h1].
Qed.
End Visit.

Lemma foldM_err T St (F : St -> T -> res St) (f : T) fs (Hin : List.In f fs) : (forall s, exists e, F s f = Err e) ->
  forall s, exists e, foldM F s fs = Err e.
Proof.
move=> HF; elim: fs Hin => [//|a fs IH] /= [->|Hin] s.
  by have [e ->] := HF s; exists e.
by case: (F s a) => [s'|e]; [rewrite rbind_okE; exact: IH|exists e].
Qed.

Lemma get_arr1 n (t : seq X) k : (k < n)%N -> get (Arr [:: n] t) [:: k] = nth NaN t k.
Proof. by move=> Hk; rewrite /getn /= ?muln1 ?addn0. Qed.

Lemma div_tab n (d : 'cV[R]_n) (g : nat -> R) : (forall k, (k < n)%N -> g k != 0) ->
  np_div (vec d) (Arr [:: n] (tab n g)) = Ok (vec (\col_k (d k 0 / g k))).
Proof.
move=> Hg; rewrite /np_div np_bin_same //; congr Ok; apply: vecE => k.
have kn := ltn_ord k; rewrite get_vec get_arr1 ?kn // /tab (nth_map 0%N) ?size_iota ?kn // nth_iota ?kn // add0n mxE /=.
by rewrite (negbTE (Hg k _)).
Qed.

Lemma tab_one n : tab n (fun _ => 1) = nseq n x1.
Proof.
by apply: (@eq_from_nth _ x0); rewrite /tab size_map size_iota ?size_nseq // => k Hk; rewrite (nth_map 0%N) ?size_iota // nth_nseq Hk.
Qed.

Section Plane.
Variables (hull : A -> res (seq (nat * nat))) (n : nat) (L : 'M[R]_(2, n)) (r1 r2 : 'cV[R]_n) (fs : seq (nat * nat)).
Let d := r1 - r2.
Hypotheses (Hla : lstsq_ok la) (n1 : n != 1%N) (Hr : forall k, r2 k 0 < r1 k 0) (Hh : hull (mat (scaled L d)^T) = Ok fs).

Let Hd k : 0 < d k 0. Proof. by rewrite !mxE subr_gt0. Qed.

Lemma run_2d : sup_geom_diff_2d la hull (vec r1) (vec r2) (mat L) =
  let* s_norm := foldM (visit_face la n (mat (scaled L d))) (tab n (fun _ => 1)) fs in
  np_div (vec d) (Arr [:: n] s_norm).
Proof.
rewrite /sup_geom_diff_2d checks_ok // rbind_okE scaled_ok; last by move=> k; rewrite gt_eqF.
by rewrite rbind_okE np_T_mat Hh rbind_okE tab_one.
Qed.

Theorem diff_2d_values (P : nat -> nat -> 'cV[R]_2) :
  (forall i j, (i, j) \in fs -> [/\ (i < n)%N, (j < n)%N & no_wrap i j]) ->
  (forall i j (k : 'I_n), (i, j) \in fs -> between i j k -> facet2 L d i j (P i j) /\ 0 < dotv (col k L) (P i j)) ->
  exists out : 'cV[R]_n, sup_geom_diff_2d la hull (vec r1) (vec r2) (mat L) = Ok (vec out) /\
    forall k, 0 < out k 0 <= r1 k 0 - r2 k 0 /\
    ((exists i j, [/\ (i, j) \in fs, between i j k & out k 0 = dotv (col k L) (P i j)]) \/
     ((forall i j, (i, j) \in fs -> ~~ between i j k) /\ out k 0 = r1 k 0 - r2 k 0)).
Proof.
move=> H1 H2; have [|g [E Hg]] := @faces_val n L d Hla Hd P fs (fun _ => 1).
  move=> i j Hij; have [h1 h2 h3] := H1 i j Hij; split=> // k Hk Hb.
  by have := H2 i j (Ordinal Hk) Hij Hb; rewrite -lvE.
have dE (k : 'I_n) : d k 0 = r1 k 0 - r2 k 0 by rewrite !mxE.
have G (k : 'I_n) : g k != 0 /\ let o := d k 0 / g k in 0 < o <= r1 k 0 - r2 k 0 /\
    ((exists i j, [/\ (i, j) \in fs, between i j k & o = dotv (col k L) (P i j)]) \/
     ((forall i j, (i, j) \in fs -> ~~ between i j k) /\ o = r1 k 0 - r2 k 0)).
  case: (Hg k (ltn_ord k)) => [[i [j [Hij Hb]]]|[Hb ->]]; last first.
    by split; [exact: oner_neq0|rewrite /= divr1 -dE Hd lexx; split=> //; right].
  have [[_ _ [Hv _] _] Hp] := H2 i j k Hij Hb; rewrite lvE dvE => ->.
  have E0 : d k 0 / (d k 0 / dotv (col k L) (P i j)) = dotv (col k L) (P i j).
    by rewrite invf_div mulrC divfK // gt_eqF.
  split; first by rewrite mulf_neq0 ?invr_eq0 ?gt_eqF.
  by rewrite /= E0 Hp -dE Hv; split=> //; left; exists i, j.
exists (\col_k (d k 0 / g k)); split; last by move=> k; rewrite mxE; exact: (G k).2.
by rewrite run_2d E rbind_okE div_tab // => k Hk; exact: (G (Ordinal Hk)).1.
Qed.

Lemma fs_err f : f \in fs -> (forall s, exists e, visit_face la n (mat (scaled L d)) s f = Err e) ->
  exists e, sup_geom_diff_2d la hull (vec r1) (vec r2) (mat L) = Err e.
Proof.
move=> Hf He; have Hin : List.In f fs.
  by elim: (fs) Hf => //= a l IH; rewrite inE => /orP[/eqP->|/IH]; [left|right].
by rewrite run_2d; have [e ->] := foldM_err Hin He (tab n (fun _ => 1)); exists e.
Qed.

(** a facet over the direction 0, in either orientation *)
Theorem diff_2d_span i j k x : (0 < i)%N -> facet2 L d i j x -> (i < val k < j)%N -> dotv (col k L) x < 0 ->
  (i, j) \in fs \/ (j, i) \in fs -> exists e, sup_geom_diff_2d la hull (vec r1) (vec r2) (mat L) = Err e.
Proof.
move=> i0 Hf Hk Hn [Hin|Hin]; apply: (fs_err Hin) => s.
  by apply: (visit_face_neg Hla Hd s Hf Hk); rewrite lvE.
by have [Hi Hj _ _] := Hf; apply: visit_face_wrap => //; lia.
Qed.

(** ... and in the orientation that follows the directions, with the last of them, the exception is IndexError *)
Theorem diff_2d_index j : (0 < j)%N -> (j.+2 < n)%N ->
  (forall a b, (a, b) \in fs -> (a, b) = (n.-1, j) \/ (b <= a.+1)%N && (a <= b.+1)%N) -> (n.-1, j) \in fs ->
  sup_geom_diff_2d la hull (vec r1) (vec r2) (mat L) = IndexError.
Proof.
move=> j0 jn Hs Hin; rewrite run_2d.
suff -> : foldM (visit_face la n (mat (scaled L d))) (tab n (fun _ => 1)) fs = IndexError by [].
elim: (fs) Hs Hin => //= [[a b] l IH] Hs; rewrite inE.
have last0 s : visit_face la n (mat (scaled L d)) s (n.-1, j) = IndexError.
  rewrite /visit_face face_len_down; [|lia|lia]; case: ifP => Hl; first by lia.
  have -> : (n <= n.-1)%N || (n <= j)%N = false by lia.
  have -> : (`|(n + j - n.-1)%N%:Z|%N).-1 = j.-1.+1 by lia.
  by rewrite visit_dirsS /visit_dir (_ : n.-1.+1 = n) ?ltnn ?leqnn //; lia.
case: (Hs a b (mem_head _ _)) => [->|Hab]; first by rewrite last0.
have -> : visit_face la n (mat (scaled L d)) (tab n (fun _ => 1)) (a, b) = Ok (tab n (fun _ => 1)).
  rewrite /visit_face; suff -> : face_length n (a, b) <= 1 by [].
  have [h|h] := leqP a b; first by rewrite face_len_up //; lia.
  have -> : a = b.+1 by lia.
  by rewrite face_len_back.
case/orP=> [/eqP[En Ej]|Hin]; first by lia.
by rewrite rbind_okE; apply: IH => // a' b' H'; apply: Hs; rewrite inE H' orbT.
Qed.
End Plane.
End SupDiffProof.
