(** Lemmas about tri.py:ell_tube_2_tri and ell_tube_discr_tri. *)
From mathcomp Require Import all_ssreflect all_fingroup all_algebra.
From mathcomp.zify Require Import zify.
From Verif.Model Require Import Py NP Tri Gen TriEq.
From Verif.Spec Require Import TriSpec TriEqSpec.
Set Implicit Arguments.
Unset Strict Implicit.
Unset Printing Implicit Defensive.
Import Order.Theory GRing.Theory Num.Theory.

Section Tube.
Variables ne np : nat.
Hypotheses (e0 : 0 < ne) (p0 : 0 < np).
Notation v := (tube_vertex ne).
Definition tri1 (j i : nat) : face := (v j i, v j i.+1, v j.+1 i.+1).
Definition tri2 (j i : nat) : face := (v j.+1 i.+1, v j.+1 i, v j i).
Definition tube_list : seq face :=
  flatten [seq [seq tri1 j i | i <- iota 0 ne.-1] | j <- iota 0 np.-1] ++
  flatten [seq [seq tri2 j i | i <- iota 0 ne.-1] | j <- iota 0 np.-1] ++
  [seq tri1 j ne.-1 | j <- iota 0 np.-1] ++ [seq tri2 j ne.-1 | j <- iota 0 np.-1].

Lemma vE j i : i < ne -> v j i = j * ne + i. Proof. by move=> H; rewrite /tube_vertex modn_small. Qed.
Lemma vn j : v j ne = j * ne. Proof. by rewrite /tube_vertex modnn addn0. Qed.

Lemma tube_run : ell_tube_2_tri ne%:Z np%:Z = Ok [seq int_face f | f <- tube_list].
Proof.
rewrite /ell_tube_2_tri ifF; last by lia.
congr Ok; rewrite /tube_ie; cbv zeta; rewrite !map_cat.
have -> : `|(np%:Z - 1)%R|%N = np.-1 by lia.
have -> : `|(ne%:Z - 1)%R|%N = ne.-1 by lia.
rewrite !map_flatten -!map_comp.
have I k : iota 1 k = [seq x.+1 | x <- iota 0 k] by rewrite (iotaDl 1 0).
congr (_ ++ (_ ++ (_ ++ _))).
- congr flatten; rewrite (I np.-1) -map_comp; apply/eq_map => j /=; rewrite I -!map_comp; apply/eq_in_map => i.
  rewrite mem_iota => Hi; rewrite /= /int_face /f0 /f1 /f2 /= !vE; try lia.
  by congr (_, _, _); lia.
- congr flatten; rewrite (I np.-1) -map_comp; apply/eq_map => j /=; rewrite I -!map_comp; apply/eq_in_map => i.
  rewrite mem_iota => Hi; rewrite /= /int_face /f0 /f1 /f2 /= !vE; try lia.
  by congr (_, _, _); lia.
- rewrite (I np.-1) -map_comp; apply/eq_map => j; rewrite /= /int_face /f0 /f1 /f2 /= prednK // !vn vE; try lia.
  by congr (_, _, _); lia.
- rewrite (I np.-1) -map_comp; apply/eq_map => j; rewrite /= /int_face /f0 /f1 /f2 /= prednK // !vn !vE; try lia.
  by congr (_, _, _); lia.
Qed.

Lemma tube_perm : perm_eq tube_list (tube_cells ne np).
Proof.
have C (P : pred face) j (l : seq nat) : count P (flatten [seq tube_cell ne j i | i <- l]) =
    count P [seq tri1 j i | i <- l] + count P [seq tri2 j i | i <- l].
  elim: l => //= i l ->; rewrite /tri1 /tri2; lia.
apply/seq.permP => P; rewrite /tube_list /tube_cells; elim: (iota 0 np.-1) => //= j l IH.
rewrite [RHS]count_cat -IH !count_cat /= !count_cat C.
have -> : iota 0 ne = iota 0 ne.-1 ++ [:: ne.-1] by rewrite -{1}(prednK e0) -addn1 iotaD.
rewrite !map_cat !count_cat /=; repeat (move: (count _ _) => ?); case: (P _); case: (P _); lia.
Qed.

Lemma size_tube : size tube_list = 2 * ne * np.-1.
Proof.
rewrite (perm_size tube_perm) /tube_cells size_flatten /seq.shape -map_comp.
have -> : [seq (size \o (fun j => flatten [seq tube_cell ne j i | i <- iota 0 ne])) j | j <- iota 0 np.-1] = nseq np.-1 (2 * ne).
  rewrite (@eq_map _ _ _ (fun _ => 2 * ne)); first by rewrite -[in RHS](size_iota 0 np.-1); elim: (iota 0 _) => //= x l ->.
  move=> j; rewrite /comp size_flatten /seq.shape -map_comp -[in RHS](size_iota 0 ne).
  by elim: (iota 0 ne) => //= x l ->; lia.
by rewrite sumn_nseq.
Qed.

(** ------------------------------------------------------------------ the oriented surface *)
Definition dart (k j i : nat) : edge :=
  let a := v j i in let b := v j i.+1 in let c := v j.+1 i in let d := v j.+1 i.+1 in
  match k with 0 => (a, b) | 1 => (b, d) | 2 => (d, a) | 3 => (d, c) | 4 => (c, a) | _ => (a, d) end.

Lemma darts_cells : all_darts (tube_cells ne np) =
  flatten [seq flatten [seq [seq dart k j i | k <- iota 0 6] | i <- iota 0 ne] | j <- iota 0 np.-1].
Proof.
have H j (l : seq nat) : all_darts (flatten [seq tube_cell ne j i | i <- l]) = flatten [seq [seq dart k j i | k <- iota 0 6] | i <- l].
  by elim: l => //= i l <-.
have A f g : all_darts (f ++ g) = all_darts f ++ all_darts g by rewrite /all_darts map_cat flatten_cat.
by rewrite /tube_cells; elim: (iota 0 np.-1) => //= j l IH; rewrite A H IH.
Qed.

Lemma mem_darts e : reflect (exists k j i, [/\ k < 6, j < np.-1, i < ne & e = dart k j i]) (e \in all_darts (tube_cells ne np)).
Proof.
rewrite darts_cells; apply: (iffP flattenP) => [[s /mapP[j Hj ->] /flattenP[s' /mapP[i Hi ->] /mapP[k Hk ->]]]|[k [j [i [Hk Hj Hi ->]]]]].
  by exists k, j, i; split=> //; [move: Hk|move: Hj|move: Hi]; rewrite mem_iota.
exists (flatten [seq [seq dart k j i | k <- iota 0 6] | i <- iota 0 ne]).
  by apply/mapP; exists j; rewrite ?mem_iota.
by apply/flattenP; exists [seq dart k j i | k <- iota 0 6]; apply/mapP; [exists i|exists k]; rewrite ?mem_iota.
Qed.

Lemma v_inj j i j' i' : v j i = v j' i' -> j = j' /\ i %% ne = i' %% ne.
Proof.
rewrite /tube_vertex => E; have Hi := ltn_pmod i e0; have Hi' := ltn_pmod i' e0.
have /(congr1 (divn^~ ne)) := E; rewrite /= !divnMDl // !divn_small // !addn0 => Ej.
by split=> //; move: E; rewrite Ej => /addnI.
Qed.
Lemma succ_mod i : i < ne -> i.+1 %% ne = if i.+1 == ne then 0 else i.+1.
Proof. by move=> Hi; case: eqP => [->|ne']; [rewrite modnn|rewrite modn_small //; lia]. Qed.

Hypothesis e3 : 3 <= ne.
Lemma dart_inj k j i k' j' i' : k < 6 -> k' < 6 -> i < ne -> i' < ne ->
  dart k j i = dart k' j' i' -> [/\ k = k', j = j' & i = i'].
Proof.
move=> Hk Hk' Hi Hi'.
have Mi := modn_small Hi; have Mi' := modn_small Hi'; have Si := succ_mod Hi; have Si' := succ_mod Hi'.
by case: k Hk => [|[|[|[|[|[|k]]]]]] // _; case: k' Hk' => [|[|[|[|[|[|k']]]]]] // _;
  rewrite /dart => -[] /v_inj[E1 E2] /v_inj[E3 E4]; rewrite ?Mi ?Mi' ?Si ?Si' in E2 E4;
  move: E2 E4; do ?case: eqP => ?; move=> *; split; lia.
Qed.

Lemma flatten_uniq (T : eqType) (f : nat -> seq T) (s : seq nat) : uniq s -> (forall j, j \in s -> uniq (f j)) ->
  (forall x j j', j \in s -> j' \in s -> x \in f j -> x \in f j' -> j = j') -> uniq (flatten [seq f j | j <- s]).
Proof.
elim: s => //= j s IH /andP[nj us] Hu Hd; rewrite cat_uniq Hu ?mem_head //= IH //; last first.
- by move=> x k k' Hk Hk'; apply: Hd; rewrite inE ?Hk ?Hk' orbT.
- by move=> k Hk; apply: Hu; rewrite inE Hk orbT.
rewrite andbT; apply/hasPn => x /flattenP[l /mapP[k Hk ->] xk]; apply/negP => xj.
by move: nj; rewrite (Hd x j k) ?mem_head ?inE ?Hk ?orbT.
Qed.

Lemma tube_uniq : uniq (all_darts (tube_cells ne np)).
Proof.
have I n k : (k \in iota 0 n) = (k < n) by rewrite mem_iota.
rewrite darts_cells; apply: flatten_uniq => [|j _|x j j' _ _]; first exact: iota_uniq.
  apply: flatten_uniq => [|i|x i i']; rewrite ?I ?iota_uniq // => Hi.
    by rewrite map_inj_in_uniq ?iota_uniq // => k k'; rewrite !I => Hk Hk' /dart_inj; case.
  by move=> Hi' /mapP[k Hk ->] /mapP[k' Hk']; rewrite !I in Hk Hk' => /dart_inj; case.
move=> /flattenP[s /mapP[i Hi ->] /mapP[k Hk ->]] /flattenP[s' /mapP[i' Hi' ->] /mapP[k' Hk']].
by rewrite !I in Hi Hk Hi' Hk' => /dart_inj; case.
Qed.

Lemma tube_flip e : e \in all_darts (tube_cells ne np) ->
  (flip e \in all_darts (tube_cells ne np)) = ~~ end_ring ne np e.
Proof.
case/mem_darts=> k [j [i [Hk Hj Hi ->]]].
have S1 : v j i.+1 = v j (i.+1 %% ne) by rewrite /tube_vertex modn_mod.
have S2 : v j.+1 i.+1 = v j.+1 (i.+1 %% ne) by rewrite /tube_vertex modn_mod.
have Hi' : i.+1 %% ne < ne by rewrite ltn_pmod.
have B l x : l * ne <= v l x < l.+1 * ne by rewrite /tube_vertex mulSn; have := ltn_pmod x e0; lia.
have F l x : (v l x < ne) = (l == 0) by have := B l x; case: l => [|l]; [rewrite mul0n; lia|rewrite mulSn; lia].
have G l x : (np.-1 * ne <= v l x) = (np.-1 <= l).
  case: (leqP np.-1 l) => H; have := B l x; last by (have : l.+1 * ne <= np.-1 * ne by rewrite leq_mul2r H orbT); lia.
  by (have : np.-1 * ne <= l * ne by rewrite leq_mul2r H orbT); lia.
have yes k' j' i' e' : k' < 6 -> j' < np.-1 -> i' < ne -> e' = dart k' j' i' -> (e' \in all_darts (tube_cells ne np)) = true.
  by move=> *; apply/mem_darts; exists k', j', i'.
have Mi := modn_small Hi; have Si := succ_mod Hi.
have no e' : (forall k' j' i', k' < 6 -> j' < np.-1 -> i' < ne -> e' <> dart k' j' i') -> (e' \in all_darts (tube_cells ne np)) = false.
  by move=> H; apply/negP => /mem_darts[k' [j' [i' [? ? ? /H]]]]; exact.
case: k Hk => [|[|[|[|[|[|k]]]]]] // _; rewrite /flip /dart /end_ring [fst _]/= [snd _]/= !F !G.
- case: (posnP j) => [j0|jp].
    rewrite j0 /=; apply: no => k' j' i' Hk' Hj' Hi1; have Mi1 := modn_small Hi1; have Si1 := succ_mod Hi1.
    by case: k' Hk' => [|[|[|[|[|[|k']]]]]] // _; rewrite /dart => -[] /v_inj[E1 E2] /v_inj[E3 E4]; try lia;
      rewrite ?Mi ?Mi1 ?Si ?Si1 in E2 E4; move: E2 E4; do ?case: eqP => ?; lia.
  rewrite (yes 3 j.-1 i) /dart ?prednK //; lia.
- by rewrite (yes 4 j (i.+1 %% ne)) /dart -?S1 -?S2 //; lia.
- by rewrite (yes 5 j i) //; lia.
- case: (ltnP j.+1 np.-1) => Hj1; first by rewrite (yes 0 j.+1 i) //; lia.
  rewrite (no (v j.+1 i, v j.+1 i.+1)) ?orbT // => k' j' i' Hk' Hj' Hi1; have Mi1 := modn_small Hi1; have Si1 := succ_mod Hi1.
  by case: k' Hk' => [|[|[|[|[|[|k']]]]]] // _; rewrite /dart => -[] /v_inj[E1 E2] /v_inj[E3 E4]; try lia;
    rewrite ?Mi ?Mi1 ?Si ?Si1 in E2 E4; move: E2 E4; do ?case: eqP => ?; lia.
- pose i' := if i == 0 then ne.-1 else i.-1.
  have Ei : i'.+1 %% ne = i by rewrite /i'; case: eqP => [->|H]; rewrite prednK ?modnn ?modn_small //; lia.
  have V l : v l i = v l i'.+1 by rewrite /tube_vertex Ei modn_small.
  rewrite (yes 1 j i') /dart -?V //; [lia|rewrite /i'; case: eqP; lia].
- by rewrite (yes 2 j i) //; lia.
Qed.
End Tube.

Lemma discr_run n m : ell_tube_discr_tri n m = [seq [seq tube_vertex n k i | i <- iota 0 n.+1] | k <- iota 0 m].
Proof.
rewrite /ell_tube_discr_tri -map_comp; apply/eq_map => k; rewrite /comp.
rewrite -(addn1 n) iotaD map_cat /= -cats1 map_cat /= add0n; congr (_ ++ [:: _]).
  by apply/eq_in_map => i; rewrite mem_iota => Hi; rewrite /tube_vertex modn_small // mulnC.
by rewrite /tube_vertex modnn mulnC.
Qed.

Lemma tube_below ne np : 0 < ne -> faces_below (ne * np) (tube_cells ne np).
Proof.
move=> e0; apply/allP => f /flattenP[s /mapP[j Hj ->] /flattenP[s' /mapP[i _ ->]]].
rewrite mem_iota in Hj.
have V l x : l < np -> tube_vertex ne l x < ne * np.
  move=> H; rewrite /tube_vertex; have := ltn_pmod x e0.
  (have : l.+1 * ne <= np * ne by rewrite leq_mul2r H orbT); rewrite mulSn (mulnC ne np); lia.
by rewrite !inE => /orP[]/eqP -> /=; rewrite /f0 /f1 /f2 /= !V //; lia.
Qed.

Theorem tube_ok ne np : 0 < ne -> 0 < np ->
  exists fs, [/\ ell_tube_2_tri ne%:Z np%:Z = Ok [seq int_face f | f <- fs], perm_eq fs (tube_cells ne np),
    size fs = 2 * ne * np.-1 & faces_below (ne * np) fs].
Proof.
move=> e0 p0; exists (tube_list ne np); split; [exact: tube_run|exact: tube_perm|exact: size_tube|].
by rewrite /faces_below (perm_all _ (tube_perm e0 p0)); exact: tube_below.
Qed.
Theorem tube_surface ne np fs : 3 <= ne -> 0 < np -> perm_eq fs (tube_cells ne np) ->
  uniq (all_darts fs) /\ forall e, e \in all_darts fs -> (flip e \in all_darts fs) = ~~ end_ring ne np e.
Proof.
move=> e3 p0 Hp; have e0 : 0 < ne by lia.
have P : perm_eq (all_darts fs) (all_darts (tube_cells ne np)) by apply/perm_flatten/perm_map.
split; first by rewrite (perm_uniq P); exact: tube_uniq.
by move=> e; rewrite !(perm_mem P); exact: tube_flip.
Qed.
Theorem tube_rejects (ne np : int) : (ne < 1)%R || (np < 1)%R -> ell_tube_2_tri ne np = ValueError.
Proof. by rewrite /ell_tube_2_tri => ->. Qed.
Lemma tube_example : ell_tube_2_tri 3 2 = Ok [:: (0, 1, 4); (1, 2, 5); (4, 3, 0); (5, 4, 1); (2, 0, 3); (3, 5, 2)]%R.
Proof. by vm_compute. Qed.
