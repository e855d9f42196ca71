(** sphere_part. *)
From mathcomp Require Import all_ssreflect all_algebra.
From mathcomp Require Import ring.
Require Import Coq.Strings.String.
From Verif.Model Require Import Py NP Tri Sphere SpherePart.
From Verif.Spec Require Import TriSpec SphereSpec PartSpec.
From Verif.Proof Require Import NPLib MatLib TriDec SphereProof Icosa.
From mathcomp.zify Require Import zify.
Set Implicit Arguments.
Unset Strict Implicit.
Unset Printing Implicit Defensive.
Import Order.Theory GRing.Theory Num.Theory.
Local Open Scope ring_scope.

Section Pick.
Variables (R : rcfType) (tr : trig R).
Notation pt := 'rV[R]_3.
Notation T := (2%:R * t_pi tr).

Lemma foldl_min (x : R) s : foldl (fun a b : R => Num.min a b) x s \in x :: s /\ (forall y, y \in x :: s -> foldl (fun a b : R => Num.min a b) x s <= y).
Proof.
elim: s x => [|y s IH] x /=; first by split=> [|z]; rewrite !inE // => /eqP ->.
have [H1 H2] := IH (Num.min x y); have M : Num.min x y <= x /\ Num.min x y <= y by rewrite !le_minl !lexx orbT.
split.
  move: H1; rewrite !inE => /orP[/eqP->|->]; rewrite ?orbT //.
  by rewrite minEle; case: ifP => _; rewrite eqxx ?orbT.
have H0 := H2 _ (mem_head _ _).
move=> z; rewrite !inE => /or3P[/eqP->|/eqP->|Hz]; [exact: le_trans H0 M.1|exact: le_trans H0 M.2|by apply: H2; rewrite inE Hz orbT].
Qed.

Lemma argmin_ok (s : seq R) : s != [::] -> exists i, [/\ np_argmin s = Ok i, (i < size s)%N & forall j, (j < size s)%N -> nth 0 s i <= nth 0 s j].
Proof.
case: s => // x s _; have [H1 H2] := foldl_min x s; eexists; split; [by []| |].
  by rewrite index_mem.
by move=> j Hj; rewrite nth_index //; apply: H2; rewrite mem_nth.
Qed.

(** the indices picked from one list of distances *)
Fixpoint picks (s : seq R) (n : nat) : seq nat :=
  if n is k.+1 then if pick tr s is Ok m then m.1 :: picks m.2 k else [::] else [::].

Lemma pick_ok s : s != [::] -> exists i, [/\ pick tr s = Ok (i, set_nth 0 s i T), (i < size s)%N & forall j, (j < size s)%N -> nth 0 s i <= nth 0 s j].
Proof. by move=> /argmin_ok[i [E H1 H2]]; exists i; rewrite /pick E. Qed.
Lemma set_size (s : seq R) i x : (i < size s)%N -> size (set_nth 0 s i x) = size s.
Proof. by move=> H; rewrite size_set_nth; apply/maxn_idPr. Qed.

Lemma picks_ok n : forall s, s != [::] -> size (picks s n) = n /\ all (fun i => i < size s)%N (picks s n).
Proof.
elim: n => [|n IH] s H0 //=; have [i [-> Hi _]] := pick_ok H0 => /=.
have S1 := set_size T Hi; have [|E A] := IH (set_nth 0 s i T); first by rewrite -size_eq0 S1 size_eq0.
by rewrite E Hi -S1.
Qed.

(** among values below T: no index twice, increasing values, the others are at least as large *)
Lemma picks_sorted n : forall s (A : pred nat), s != [::] ->
  (forall j, (j < size s)%N -> A j -> nth 0 s j < T) -> (forall j, (j < size s)%N -> ~~ A j -> nth 0 s j = T) ->
  (n <= count A (iota 0 (size s)))%N ->
  [/\ uniq (picks s n), all A (picks s n),
     forall k l, (k < l < n)%N -> nth 0 s (nth 0%N (picks s n) k) <= nth 0 s (nth 0%N (picks s n) l) &
     forall k i, (k < n)%N -> (i < size s)%N -> A i -> i \notin picks s n -> nth 0 s (nth 0%N (picks s n) k) <= nth 0 s i].
Proof.
elim: n => [|n IH] s A H0 HA HN Hn /=; first by split=> // k l; rewrite ltn0 ?andbF.
have [i [Ep Hi Hmin]] := pick_ok H0; rewrite Ep /=.
set s' := set_nth 0 s i T; have S1 : size s' = size s by exact: set_size.
have s0 : s' != [::] by rewrite -size_eq0 S1 size_eq0.
have Ai : A i.
  apply/negPn/negP => Hni; have : has A (iota 0 (size s)) by rewrite has_count; lia.
  case/hasP => j; rewrite mem_iota add0n => /= Hj Aj; have := Hmin _ Hj.
  by rewrite (HN _ Hi Hni) leNgt (HA _ Hj Aj).
pose A' j := A j && (j != i).
have G j : nth 0 s' j = if j == i then T else nth 0 s j by rewrite nth_set_nth.
have HA' j : (j < size s')%N -> A' j -> nth 0 s' j < T.
  by rewrite S1 G => Hj /andP[Aj /negbTE ->]; exact: HA.
have HN' j : (j < size s')%N -> ~~ A' j -> nth 0 s' j = T.
  by rewrite S1 G => Hj; rewrite negb_and negbK; case: eqP => //= _; rewrite orbF => ?; exact: HN.
have C : (n <= count A' (iota 0 (size s')))%N.
  have : count A (iota 0 (size s)) = (count A' (iota 0 (size s)) + count (pred1 i) (iota 0 (size s)))%N.
    elim: (iota 0 (size s)) => //= j l ->; rewrite /A' /=; case: (eqVneq j i) => [->|_]; rewrite ?Ai ?andbT //=; lia.
  rewrite S1 count_uniq_mem ?iota_uniq // mem_iota Hi /=.
  move: Hn; move: (count _ _) (count _ _) => a b; lia.
have [U A1 Srt Oth] := IH s' A' s0 HA' HN' C.
have [Sz Rg] := picks_ok n s0.
have NI : i \notin picks s' n by apply/negP => /(allP A1); rewrite /A' eqxx andbF.
have V k : (k < n)%N -> nth 0 s' (nth 0%N (picks s' n) k) = nth 0 s (nth 0%N (picks s' n) k).
  move=> Hk; rewrite G; case: eqP => // E; case/negP: NI; by rewrite -E mem_nth ?Sz.
have R' k : (k < n)%N -> (nth 0%N (picks s' n) k < size s)%N.
  by move=> Hk; rewrite -S1; apply: (allP Rg); rewrite mem_nth ?Sz.
split=> /=.
- by rewrite NI.
- by rewrite Ai /=; apply/allP => j /(allP A1)/andP[].
- move=> [|k] [|l] //; rewrite ?andbF // !ltnS => /andP[Hk Hl] /=; first by apply: Hmin; exact: R'.
  by rewrite -!V ?(ltn_trans Hk Hl) //; [apply: Srt; rewrite Hk Hl].
- move=> [|k] j Hk Hj Aj; rewrite inE negb_or => /andP[nij nj] /=; first exact: Hmin.
  rewrite -V //; have -> : nth 0 s j = nth 0 s' j by rewrite G (negbTE nij).
  by apply: Oth; rewrite ?S1 // /A' Aj nij.
Qed.

(** the loop takes from the three lists in turn *)
Definition after (s : seq R) : seq R := if pick tr s is Ok m then m.2 else s.
Definition picked (s : seq R) (k : nat) : nat := if pick tr (iter k after s) is Ok m then m.1 else 0%N.

Lemma after0 s k : s != [::] -> iter k after s != [::].
Proof.
move=> H; elim: k => //= k IH; rewrite /after; have [i [-> Hi _]] := pick_ok IH => /=.
by rewrite -size_eq0 set_size // -lt0n (leq_ltn_trans _ Hi).
Qed.
Lemma picksE n : forall s, s != [::] -> picks s n = [seq picked s k | k <- iota 0 n].
Proof.
elim: n => //= n IH s H0; have [i [E Hi _]] := pick_ok H0; rewrite {1}/picked /= E /=; congr (_ :: _).
have Es : set_nth 0 s i T = after s by rewrite /after E.
rewrite Es IH; last exact: (@after0 s 1).
by rewrite (iotaDl 1 0) -map_comp; apply: eq_map => k; rewrite /= /picked add1n iterSr.
Qed.

Definition turn (p : seq pt) (zs xs ys : nat -> nat) (i : nat) : pt :=
  nth 0 p ((if i %% 3 == 1 then xs else if i %% 3 == 2 then ys else zs) (i %/ 3))%N.

Lemma loop_ok (p : seq pt) zs xs ys n : zs != [::] -> xs != [::] -> ys != [::] -> forall i,
  pick_loop tr p (iter ((i + 2) %/ 3) after zs) (iter ((i + 1) %/ 3) after xs) (iter (i %/ 3) after ys) i n =
  Ok [seq turn p (picked zs) (picked xs) (picked ys) j | j <- iota i n].
Proof.
move=> z0 x0 y0; elim: n => //= n IH i.
have step s k : s != [::] -> pick tr (iter k after s) = Ok (picked s k, iter k.+1 after s).
  by move=> s0; rewrite /picked /= {3}/after; have [j [-> _ _]] := pick_ok (after0 k s0).
have L : (i %% 3 < 3)%N by rewrite ltn_pmod.
have Hi := divn_eq i 3; have IHi := IH i.+1.
case: eqP => [E1|N1]; last case: eqP => [E2|N2].
- rewrite (_ : (i + 1) %/ 3 = i %/ 3)%N; last lia.
  rewrite step //=; rewrite (_ : (i.+1 + 2) %/ 3 = (i + 2) %/ 3)%N in IHi; last lia.
  rewrite (_ : (i.+1 + 1) %/ 3 = (i %/ 3).+1)%N in IHi; last lia.
  rewrite (_ : i.+1 %/ 3 = i %/ 3)%N in IHi; last lia.
  by rewrite IHi /= /turn E1.
- rewrite step //=; rewrite (_ : (i.+1 + 2) %/ 3 = (i + 2) %/ 3)%N in IHi; last lia.
  rewrite (_ : (i.+1 + 1) %/ 3 = (i + 1) %/ 3)%N in IHi; last lia.
  rewrite (_ : i.+1 %/ 3 = (i %/ 3).+1)%N in IHi; last lia.
  by rewrite IHi /= /turn E2.
- rewrite (_ : (i + 2) %/ 3 = i %/ 3)%N; last lia.
  rewrite step //=; rewrite (_ : (i.+1 + 2) %/ 3 = (i %/ 3).+1)%N in IHi; last lia.
  rewrite (_ : (i.+1 + 1) %/ 3 = (i + 1) %/ 3)%N in IHi; last lia.
  rewrite (_ : i.+1 %/ 3 = i %/ 3)%N in IHi; last lia.
  by rewrite IHi /= /turn; move/eqP/negbTE: N1 => ->; move/eqP/negbTE: N2 => ->.
Qed.

Lemma picked_lt s k : s != [::] -> (picked s k < size s)%N.
Proof.
move=> H; have [_ /allP A] := picks_ok k.+1 H; apply: A; rewrite (picksE _ H); apply: map_f; by rewrite mem_iota /= ltnSn.
Qed.
End Pick.

Section Dirs.
Variables (R : rcfType) (a : seq 'rV[R]_3) (tol : R).
Notation pt := 'rV[R]_3.
Notation at_ := (nth (0 : pt) a).

(** the row flagged in pass i *)
Definition target (i : nat) : option nat :=
  let near := [seq d < tol | d <- sum_norms a i] in
  if has id near then Some (if \sum_j (at_ i) 0 j < 0 then (i + find id near + 1)%N else i) else None.
Lemma flag_rowE flags i : flag_row a tol flags i = if target i is Some m then set_nth false flags m true else flags.
Proof. by rewrite /flag_row /target; case: ifP => // _; case: ifP. Qed.
Lemma target_lt i m : target i = Some m -> (m < size a)%N.
Proof.
rewrite /target; case: ifP => // H [<-]; move: (H); rewrite has_find !size_map size_drop; move: (find _ _) (size a) => x y; case: ifP => _; lia.
Qed.
Definition flags (l : seq nat) : seq bool := foldl (flag_row a tol) (nseq (size a) false) l.
Lemma flagsE l : size (flags l) = size a /\ forall m, nth false (flags l) m = has (fun i => target i == Some m) l.
Proof.
elim/last_ind: l => [|l i [S IH]]; first by split=> [|m]; rewrite /flags /= ?size_nseq // nth_nseq if_same.
rewrite /flags -cats1 foldl_cat /= -/(flags l) flag_rowE.
case E: (target i) => [k|]; last by split=> // m; rewrite has_cat -IH /= E /= orbF.
split; first by rewrite size_set_nth S; apply/maxn_idPr; exact: (target_lt E).
move=> m; rewrite nth_set_nth has_cat /= E orbF -IH -[Some k == Some m]/(k == m) (eq_sym k); case: (m == k); by rewrite ?orbT ?orbF.
Qed.
Lemma flagged x : (x \in unique_directions a tol) -> x \in a.
Proof. exact: mem_mask. Qed.
Lemma directions_some i k : 0 < tol -> (i < k < size a)%N -> at_ k = - at_ i -> unique_directions a tol != [::].
Proof.
move=> t0 /andP[ik ks] E; rewrite /unique_directions -/(flags _).
have [S F] := flagsE (iota 0 (size a).-1).
suff [m Tm] : exists m, target i = Some m.
  have Hm := target_lt Tm; have : nth false (flags (iota 0 (size a).-1)) m.
    by rewrite F; apply/hasP; exists i; rewrite ?Tm // mem_iota; lia.
  move=> Hn; rewrite -size_eq0 size_mask // -lt0n -has_count.
  by apply/(has_nthP false); exists m => //; rewrite S.
rewrite /target; case: ifP; first by eexists.
move/negbT/hasPn => /(_ true); move=> H; suff /H : true \in [seq d < tol | d <- sum_norms a i] by []; apply/mapP; exists (vlen (at_ k + at_ i)); last first.
  by rewrite E addNr (_ : vlen 0 = 0) ?t0 //; apply/eqP; rewrite vlen_eq0.
apply/mapP; exists (at_ k) => //; have -> : at_ k = nth 0 (drop i.+1 a) (k - i.+1) by rewrite nth_drop subnKC.
by apply: mem_nth; rewrite size_drop ltn_sub2r // (leq_ltn_trans ik).
Qed.
End Dirs.

(** ------------------------------------------------------------------ one of each pair *)
Section Half.
Variables (R : rcfType) (a : seq 'rV[R]_3) (tol : R).
Notation pt := 'rV[R]_3.
Notation at_ := (nth (0 : pt) a).
Hypotheses (Ua : uniq a) (Na : forall x, x \in a -> - x \in a) (Za : 0 \notin a) (t0 : 0 < tol)
  (Sep : forall x y, x \in a -> y \in a -> x != y -> tol <= vlen (x - y)).

Lemma near_opp i k : (i < k < size a)%N -> (vlen (at_ k + at_ i) < tol) = (at_ k == - at_ i).
Proof.
move=> /andP[ik ks]; have Ik : at_ k \in a by exact: mem_nth.
have Ii : - at_ i \in a by apply/Na/mem_nth/(ltn_trans ik).
case: eqVneq => [->|N]; first by rewrite addNr (_ : vlen 0 = 0) ?t0 //; apply/eqP; rewrite vlen_eq0.
by have := Sep Ik Ii N; rewrite opprK leNgt => /negbTE.
Qed.
Lemma opp_index i : (i < size a)%N -> exists2 k, (k < size a)%N & at_ k = - at_ i /\ k != i.
Proof.
move=> Hi; have H := Na (mem_nth 0 Hi); exists (seq.index (- at_ i) a); first by rewrite index_mem.
split; first by rewrite nth_index.
apply/eqP => E; have : at_ i = - at_ i by rewrite -{1}E nth_index.
move=> /eqP; rewrite -addr_eq0 -mulr2n -scaler_nat scaler_eq0 pnatr_eq0 /= => /eqP Z.
by case/negP: Za; rewrite -Z mem_nth.
Qed.
Lemma targetE i k : (i < size a)%N -> (k < size a)%N -> at_ k = - at_ i -> k != i ->
  target a tol i = if (i < k)%N then Some (if \sum_j (at_ i) 0 j < 0 then k else i) else None.
Proof.
move=> Hi Hk E ki; rewrite /target.
set nr := map _ _; have Sz : size nr = (size a - i.+1)%N by rewrite !size_map size_drop.
have G m : (m < size a - i.+1)%N -> nth false nr m = (m == k - i.+1)%N && (i < k)%N.
  move=> Hm; have Hm1 : (m < size (drop i.+1 a))%N by rewrite size_drop.
  rewrite (nth_map 0) ?size_map // (nth_map 0) // nth_drop near_opp; last lia.
  rewrite -E; apply/eqP/andP => [/eqP|[/eqP-> ik]]; last by rewrite subnKC.
  rewrite nth_uniq //; first by move/eqP <-; split; [apply/eqP|]; lia.
  by move: Hm; move: (size a) => ?; lia.
case: ltnP => ik; last first.
  rewrite ifF //; apply/negbTE/(has_nthP false) => -[m]; rewrite Sz => Hm; by rewrite G // andbC ltnNge ik.
have F : find id nr = (k - i.+1)%N.
  apply/eqP; rewrite eqn_leq; apply/andP; split.
    rewrite leqNgt; apply/negP => /(before_find false); rewrite /= G ?eqxx ?ik //; lia.
  rewrite leqNgt; apply/negP => Hf; have Hs : (find id nr < size nr)%N by rewrite Sz; lia.
  have : has id nr by rewrite has_find.
  move/(nth_find false); rewrite /= G; last by rewrite -Sz.
  by case/andP => /eqP; lia.
rewrite ifT; last by rewrite has_find F Sz; lia.
by rewrite F; congr (Some (if _ then _ else _)); lia.
Qed.

Lemma flagged_iff i k : (i < size a)%N -> (k < size a)%N -> at_ k = - at_ i -> k != i ->
  nth false (flags a tol (iota 0 (size a).-1)) i = if (i < k)%N then 0 <= \sum_j (at_ i) 0 j else \sum_j (at_ k) 0 j < 0.
Proof.
move=> Hi Hk E ki; have [_ ->] := flagsE a tol (iota 0 (size a).-1).
apply/hasP/idP => [[m]|H].
  rewrite mem_iota add0n => /= Hm /eqP T; have Hm1 : (m < size a)%N by lia.
  have [m' Hm' [E' N']] := opp_index Hm1; rewrite (targetE Hm1 Hm' E' N') in T.
  case: ifP T => // mm'; case: ifP => Hs [Emi].
    have Emk : m = k by apply/eqP; rewrite -(nth_uniq 0 _ _ Ua) // E -Emi E' opprK.
    by subst m' m; case: ltnP => // ik; lia.
  have Emk : m' = k by apply/eqP; rewrite -(nth_uniq 0 _ _ Ua) // E' E Emi.
  by subst m' m; rewrite mm' leNgt Hs.
case: ltnP H => ik H.
  exists i; first by rewrite mem_iota; lia.
  by rewrite (targetE Hi Hk E ki) ik ltNge H.
have Ei : at_ i = - at_ k by rewrite E opprK.
exists k; first by rewrite mem_iota; lia.
by rewrite (targetE Hk Hi Ei) 1?eq_sym // ifT ?H //; lia.
Qed.

Theorem directions_half : half_of a (unique_directions a tol).
Proof.
have [S _] := flagsE a tol (iota 0 (size a).-1).
have M i : (i < size a)%N -> (at_ i \in unique_directions a tol) = nth false (flags a tol (iota 0 (size a).-1)) i.
  by move=> Hi; rewrite /unique_directions in_mask ?S // mem_nth // index_uniq.
split; [exact: mask_uniq|by move=> x /mem_mask|].
move=> x Hx; rewrite -(nth_index 0 Hx); set i := seq.index x a; have Hi : (i < size a)%N by rewrite index_mem.
have [k Hk [E N]] := opp_index Hi; rewrite -E !M // (flagged_iff Hi Hk E N).
have Ei : at_ i = - at_ k by rewrite E opprK.
rewrite (flagged_iff Hk Hi Ei) 1?eq_sym //.
have Es : \sum_j (at_ k) 0 j = - \sum_j (at_ i) 0 j by rewrite E -sumrN; apply: eq_bigr => j _; rewrite mxE.
case: (ltngtP i k) => ik; [by rewrite -leNgt|by rewrite -ltNge|by rewrite ik eqxx in N].
Qed.
End Half.
