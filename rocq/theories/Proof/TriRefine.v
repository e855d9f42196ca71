(** shrink_face_tri: consistency of a pass, full passes. *)
From mathcomp Require Import all_ssreflect all_algebra.
Require Import Coq.Strings.String.
From Verif.Model Require Import Py NP Tri.
From Verif.Spec Require Import TriSpec.
From Verif.Proof Require Import NPLib TriMap TriStep.
From mathcomp.zify Require Import zify.
Set Implicit Arguments.
Unset Strict Implicit.
Unset Printing Implicit Defensive.
Import Order.Theory GRing.Theory Num.Theory.

Lemma consistent_cat_inv es fs fs' f2e f2e' dir dir' : size f2e = size fs -> size dir = size fs ->
  consistent es (fs ++ fs') (f2e ++ f2e') (dir ++ dir') -> consistent es fs' f2e' dir'.
Proof.
move=> E1 E2 [A B C]; rewrite !size_cat E1 E2 in A B C; split; first by lia.
  by lia.
move=> i Hi; have Hl : size fs + i < size fs + size fs' by lia.
have := C _ Hl; rewrite !nth_cat E1 E2.
by have -> : (size fs + i < size fs) = false; [lia|rewrite addKn].
Qed.

Section Consist.
Variables (R : rcfType) (d : nat) (max_len : R) (t : tri R d).
Hypothesis Hsz : size (t_len t) = size (t_e t).

Lemma strict_of : consistent (t_e t) (t_f t) (t_f2e t) (t_dir t) -> strict_split max_len t.
Proof.
move=> [E1 E2 H]; split=> // [i k Hi Hk|i Hi].
  have /and3P[/andP[h1 _] /andP[h2 _] /andP[h3 _]] := H i Hi.
  by case/or3P: Hk => /eqP->.
by apply: H; have := nth_true Hi; rewrite size_map E1.
Qed.

Lemma is_long_nth k : k < size (t_e t) -> nth false (is_long max_len t) k = (max_len < nth 0 (t_len t) k)%R.
Proof. by move=> Hk; rewrite (nth_map 0%R) ?Hsz. Qed.
Lemma split_over i : strict_split max_len t -> i < size (t_f t) ->
  nth false (split_faces max_len t) i = over max_len (t_len t) (nth f_def (t_f2e t) i).
Proof.
move=> [E1 _ Hb _] Hi; rewrite (nth_map f_def) ?E1 // /over /at3 !is_long_nth //;
by apply: (Hb _ _ Hi); rewrite /in3 eqxx ?orbT.
Qed.

Lemma mixed_uniform : strict_split max_len t -> mixed max_len t = 0 <-> uniform max_len (t_len t) (t_f2e t).
Proof.
move=> Hs; have [E1 E2 Hb _] := Hs.
have Sf := size_isf Hs.
have Hsp i : i < size (t_f t) -> nth false (split_faces max_len t) i = over max_len (t_len t) (nth f_def (t_f2e t) i) by move=> ?; exact: split_over.
have Hng i : i < size (t_f t) -> nth false (negs (split_faces max_len t)) i = ~~ over max_len (t_len t) (nth f_def (t_f2e t) i).
  by move=> Hi; rewrite (nth_map false) ?Sf // Hsp.
split=> [M0 r r' k Hr Hr' kr kr'|U].
  have W a b : a \in t_f2e t -> b \in t_f2e t -> in3 k a -> in3 k b -> over max_len (t_len t) a -> ~~ over max_len (t_len t) b -> False.
    move=> /(nthP f_def)[i Hi <-] /(nthP f_def)[j Hj <-] ka kb Oa Ob; rewrite E1 in Hi Hj.
    have He : nth false (split_edges max_len t) k by apply: (split_of Hs _ ka); rewrite Hsp.
    have Hk : nth false (kept_edges max_len t) k by apply: (kept_of Hs _ kb); rewrite Hng.
    have Hbo : nth false [seq p.1 && p.2 | p <- zip (split_edges max_len t) (kept_edges max_len t)] k by rewrite nth_both He Hk.
    by have := rk_lt Hbo; move: M0; rewrite /mixed => ->.
  case Oa: (over _ _ r); case Ob: (over _ _ r') => //; exfalso; [apply: (W r r')|apply: (W r' r)]; by rewrite // ?Oa ?Ob.
rewrite /mixed; apply/eqP; rewrite -leqn0 leqNgt -has_count; apply/(has_nthP false) => -[k Hk].
rewrite nth_both => /andP[He Hkk].
have Hks : k < size (t_e t) by move: Hk; rewrite size_both.
move: He Hkk; rewrite /split_edges /kept_edges ![nth false [seq _ | i <- iota _ _] k](nth_map 0) ?size_iota // nth_iota // add0n.
move=> H1 /hasP[r' Hr' kr'].
have [j [Hj Ej]] : exists j, j < size (t_f t) /\ (r' = nth f_def (t_f2e t) j /\ ~~ over max_len (t_len t) r').
  move: Hr' => /(nthP f_def)[x]; rewrite size_mask; last by rewrite !size_map.
  move=> /rk_inv[j Hj <-]; have Hjs := nth_true Hj; rewrite size_map Sf in Hjs.
  rewrite nth_mask ?E1 // => <-; exists j; split=> //; split=> //; by rewrite -Hng.
case: Ej => Er Nr; case/orP: H1 => [Hl|/hasP[r Hr kr]].
  move: Nr; rewrite /over; rewrite is_long_nth // in Hl.
  by case/or3P: kr' => /eqP <-; rewrite Hl ?orbT.
have [i [Hi Or]] : exists i, i < size (t_f t) /\ (r = nth f_def (t_f2e t) i /\ over max_len (t_len t) r).
  move: Hr => /(nthP f_def)[x]; rewrite size_mask; last by rewrite !size_map.
  move=> /rk_inv[i Hi <-]; have His := nth_true Hi; rewrite Sf in His.
  rewrite nth_mask ?E1 // => <-; exists i; split=> //; split=> //; by rewrite -Hsp.
have Hr1 : r \in t_f2e t by case: Or => -> _; rewrite mem_nth ?E1.
have Hr2 : r' \in t_f2e t by rewrite Er mem_nth ?E1.
by move: (U r r' k Hr1 Hr2 kr kr') Nr; case: Or => _ -> <-.
Qed.

Lemma step_consistent adjust t' : consistent (t_e t) (t_f t) (t_f2e t) (t_dir t) ->
  in_range (size (t_v t)) (t_e t) (t_f t) -> step max_len adjust t = Ok t' ->
  consistent (t_e t') (t_f t') (t_f2e t') (t_dir t') <-> uniform max_len (t_len t) (t_f2e t).
Proof.
move=> Hc /andP[Hr _] /stepI[vn Ha ->] /=; have Hs := strict_of Hc.
rewrite -(mixed_uniform Hs).
have C0 := group0 Hs Hc; have C1 := group1 Hs; have C2 := group2 Hs.
have [A B] := size_group3 max_len t.
split=> [C|M0].
  have C3 : consistent (sE max_len t) (sF3 max_len t) (sK3 max_len t) (nseq (mixed max_len t) (true, true, true)).
    have [s0 s0' _] := C0; have [s1 s1' _] := C1; have [s2 s2' _] := C2.
    move: C => /(consistent_cat_inv s0 s0')/(consistent_cat_inv s1 s1').
    exact: consistent_cat_inv s2 s2'.
  case: (posnP (mixed max_len t)) => // M0; exfalso.
  have [i [He Hk Ef Ek _]] := group3_row M0.
  case: C3 => _ _ /(_ 0); rewrite A => /(_ M0); rewrite Ef Ek nth_nseq M0 => /and3P[/andP[_ /eqP h] _ _].
  have /andP[_ /eqP] := half_rec Hs false He; rewrite h /= /side12 /f0 /f1 /flip /= => -[Em _].
  have Hi : i < size (t_e t) by have := nth_true He; rewrite size_map size_iota.
  have := all_nthP e_def Hr i Hi; rewrite -Em /mid => /andP[h1 _]; lia.
have E3 : sF3 max_len t = [::] by apply/eqP; rewrite -size_eq0 A M0.
have K3 : sK3 max_len t = [::] by apply/eqP; rewrite -size_eq0 B M0.
rewrite /sF /sK /sD E3 K3 M0 /= !cats0.
by do 2!(apply: consistent_cat => //).
Qed.
End Consist.
