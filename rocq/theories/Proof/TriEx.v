(** Examples and counterexamples for map_face_2_edge and shrink_face_tri. *)
From mathcomp Require Import all_ssreflect all_algebra.
From mathcomp Require Import ring.
From Verif.Model Require Import Py NP Tri.
From Verif.Spec Require Import TriSpec.
From Verif.Proof Require Import NPLib TriMap TriStep TriRefine TriFull TriLoop TriShrink TriTop TriVerts TriRun TriDec.
From mathcomp.zify Require Import zify.
Set Implicit Arguments.
Unset Strict Implicit.
Unset Printing Implicit Defensive.
Import Order.Theory GRing.Theory Num.Theory.

(** points with integer coordinates *)
Section Int.
Variables (R : rcfType).
Definition pt (l : seq int) : 'rV[R]_3 := (\row_j (nth 0 l j)%:~R)%R.
Definition sq (a b : seq int) : int :=
  let x i := (nth 0 a i - nth 0 b i)%R in (x 0%N * x 0%N + x 1%N * x 1%N + x 2%N * x 2%N)%R.
Lemma vlen_pt a b : vlen (pt a - pt b)%R = Num.sqrt ((sq a b)%:~R : R)%R.
Proof.
rewrite /vlen; congr Num.sqrt; rewrite !big_ord_recl big_ord0 !mxE /sq /bump /= /bump /= !intrD !intrM !intrD !mulrNz.
by rewrite ?addn0 ?add1n addr0 addrA.
Qed.
Lemma sq_ge0 a b : (0 <= (sq a b)%:~R :> R)%R.
Proof. by rewrite ler0z /sq !addr_ge0 // -expr2 sqr_ge0. Qed.
Lemma long_pt n a b : ((n%:R : R) < vlen (pt a - pt b))%R = ((n * n)%:Z < sq a b)%R.
Proof.
have -> : (n%:R : R)%R = Num.sqrt ((n * n)%:Z%:~R)%R.
  by rewrite -[RHS]/(Num.sqrt (((n * n)%N%:R : R)))%R natrM -expr2 sqrtr_sqr ger0_norm ?ler0n.
rewrite vlen_pt; case: (ltrP (n * n)%:Z (sq a b)) => H.
  rewrite ltr_sqrt ?ltr_int //; apply: le_lt_trans (_ : ((n * n)%:Z%:~R < _)%R); last by rewrite ltr_int.
  by rewrite ler0z.
by apply/negbTE; rewrite -leNgt; apply: ler_wsqrtr; rewrite ler_int.
Qed.
Lemma nth_pt vs i : nth 0%R (map pt vs) i = pt (nth [::] vs i).
Proof.
case: (ltnP i (size vs)) => H; first by rewrite (nth_map [::]).
rewrite !nth_default ?size_map //; by apply/rowP => j; rewrite !mxE nth_nil.
Qed.
Definition ilong (n : nat) (vs : seq (seq int)) (es : seq edge) : seq bool :=
  [seq ((n * n)%:Z < sq (nth [::] vs e.1) (nth [::] vs e.2))%R | e <- es].
Lemma is_longE n vs es fs ks bs ls : ls = [seq edge_len (map pt vs) e | e <- es] ->
  is_long n%:R%R (Tri (map pt vs) es fs ks bs ls) = ilong n vs es.
Proof.
move=> ->; rewrite /is_long /= /ilong -map_comp; apply: eq_map => e.
by rewrite /= /edge_len !nth_pt long_pt.
Qed.
End Int.

(** ------------------------------------------------------------------ a tetrahedron *)
Definition tetra_v : seq (seq int) := [:: [:: 1; 1; 1]; [:: 1; -1; -1]; [:: -1; 1; -1]; [:: -1; -1; 1]]%R.
Definition tetra_f : seq face := [:: (0, 1, 2); (0, 2, 3); (0, 3, 1); (1, 3, 2)].

Lemma tetra_closed : closed tetra_f. Proof. exact/closedP. Qed.
Lemma tetra_simple : simple tetra_f. Proof. exact/simpleP. Qed.

Example tetra_full (R : rcfType) : exists t s,
  [/\ shrink_face_tri sargsort (1%:R : R)%R (@Ok _) 2 (map (pt R) tetra_v) (Rows tetra_f) (Some 2) = Some (Ok (t, s)),
      s_steps s = 2, closed (t_f t), size (t_f t) = 64 & size (t_v t) = 34].
Proof.
have [||//|||t [s [E Es _ H]]] := @shrink_full R 3 sargsort 1%:R%R sargsort_ok 2 (map (pt R) tetra_v) (Rows tetra_f) 2.
- by [].
- by [].
- by rewrite ler0n.
- move=> f e Hf He; rewrite /edge_len !nth_pt.
  have Hl : (2%:R < vlen (pt R (nth [::] tetra_v e.1) - pt R (nth [::] tetra_v e.2)))%R.
    rewrite long_pt.
    have /allP/(_ f Hf)/allP/(_ e He) : all (fun f => all (fun e : edge => ((2 * 2)%:Z < sq (nth [::] tetra_v e.1) (nth [::] tetra_v e.2))%R) (sides f)) tetra_f by vm_compute.
    by [].
  rewrite mul1r expr2 ltr_pmul2l // ?ltr0n //.
- by [].
exists t, s; have [h1 _ h3 _ h5] := H tetra_closed tetra_simple; split=> //.
by apply/eqP; rewrite -(eqn_pmul2l (m := 2)) // h5.
Qed.


(** ------------------------------------------------------------------ running passes on concrete meshes *)
Section Runs.
Variable R : rcfType.
Definition t_int vs es fs ks bs : tri R 3 := Tri (map (pt R) vs) es fs ks bs [seq edge_len (map (pt R) vs) e | e <- es].

Lemma run_start n adjust fuel vs fs es ks bs n_max : map_face_2_edge sargsort (Rows fs) = Ok (es, ks, bs) ->
  has (fun e : edge => size vs <= maxn e.1 e.2) es = false -> 1 < size fs ->
  shrink_face_tri sargsort (n%:R : R)%R adjust fuel (map (pt R) vs) (Rows fs) n_max =
  shrink_loop n%:R%R adjust fuel 1 n_max false (t_int vs es fs ks bs) (stats0 (t_int vs es fs ks bs)).
Proof.
move=> E Hh H1; rewrite /shrink_face_tri E size_map Hh.
by rewrite /stats0 /= size_map; case: fs H1 {E} => [|f [|g l]].
Qed.
Lemma run_pass n adjust vs ws es fs ks bs es' fs' ks' bs' :
  let t := t_int vs es fs ks bs in
  adjust (midpoints n%:R%R t) = Ok (map (pt R) ws) ->
  sE n%:R%R t = es' -> sF n%:R%R t = fs' -> sK n%:R%R t = ks' -> sD n%:R%R t = bs' ->
  all (fun e : edge => (e.1 < size vs) && (e.2 < size vs)) es ->
  step n%:R%R adjust t = Ok (t_int (vs ++ ws) es' fs' ks' bs').
Proof.
move=> t Ha E1 E2 E3 E4 Hr; rewrite (stepE Ha) E2 E3 E4 -E1 /t_int /= map_cat; congr (Ok (Tri _ _ _ _ _ _)).
have Sv : size (t_v t) = size vs by rewrite /= size_map.
rewrite /sLen /sE /= map_cat map_mask; congr (_ ++ _).
rewrite -!map_mask; apply/eq_in_map => e /mem_mask/(allP Hr)/andP[a b].
by rewrite edge_len_cat ?size_map.
Qed.
Lemma run_stop n adjust fuel i n_max s vs es fs ks bs : has id (ilong n vs es) = false ->
  shrink_loop (n%:R : R)%R adjust fuel i n_max false (t_int vs es fs ks bs) s = Some (Ok (t_int vs es fs ks bs, s)).
Proof. by move=> H; case: fuel => [|fuel] /=; rewrite is_longE // H. Qed.
End Runs.

Ltac got E e n := pose proof e as E;
  rewrite /sE /sF /sK /sD /sF0 /sF1 /sF2 /sF3 /sE0 /sE1 /sE2 /sK0 /sK1 /sK2 /sK3 /sD0 /sD2 /mixed /half
    /split_edges /kept_edges /split_faces /t_int ?(@is_longE _ n _ _ _ _ _ _ (erefl _)) in E;
  match type of E with context [ilong ?k ?v ?e] => let b := eval vm_compute in (ilong k v e) in
    let H := fresh "H" in assert (H : ilong k v e = b) by (vm_compute; reflexivity); rewrite ?H in E; clear H end;
  match type of E with ?l = ?r => let r' := eval lazy in r in change (l = r') in E end.

Lemma bincountE s : bincount s = [seq count_mem k s | k <- iota 0 (if s is [::] then 0 else (foldr maxn 0 s).+1)].
Proof. by rewrite /bincount; case: s => [|x s] //; rewrite foldrE. Qed.
Ltac crunch_map := rewrite /map_face_2_edge /get_face_edge_info bincountE; vm_compute; reflexivity.

(** ------------------------------------------------------------------ refinement of one of two faces *)
Definition two_v : seq (seq int) := [:: [:: 0; 0; 0]; [:: 24; 0; 0]; [:: 0; 32; 0]; [:: 12; -16; 0]]%R.
Definition two_f : seq face := [:: (0, 1, 2); (0, 3, 1)].
Lemma two_map : map_face_2_edge sargsort (Rows two_f) =
  Ok ([:: (0, 1); (0, 2); (0, 3); (1, 2); (1, 3)], [:: (0, 3, 1); (2, 4, 0)], [:: (true, true, true); (true, false, true)]).
Proof. crunch_map. Qed.

Lemma consistent_row es fs ks bs i : consistent es fs ks bs -> i < size fs ->
  records es (nth f_def ks i).1.2 (nth d_def bs i).1.2 (side23 (nth f_def fs i)).
Proof. by move=> [_ _ H] Hi; have /and3P[] := H i Hi. Qed.

Lemma mid_int (R : rcfType) (a b c : seq int) : [&& (nth 0 c 0 + nth 0 c 0 == nth 0 a 0 + nth 0 b 0)%R, (nth 0 c 1 + nth 0 c 1 == nth 0 a 1 + nth 0 b 1)%R &
  (nth 0 c 2 + nth 0 c 2 == nth 0 a 2 + nth 0 b 2)%R] -> (2%:R^-1 *: (pt R a + pt R b))%R = pt R c.
Proof.
move=> /and3P[/eqP h0 /eqP h1 /eqP h2]; apply/rowP => j; rewrite !mxE -intrD.
have -> : (nth 0 a j + nth 0 b j = nth 0 c j + nth 0 c j)%R by case: j => [[|[|[|]]]] //= _; rewrite ?h0 ?h1 ?h2.
by rewrite intrD -mulr2n -[X in (_ * X)%R]mulr_natl mulKf // pnatr_eq0.
Qed.

Lemma run_one (R : rcfType) n vs es fs ks bs : map_face_2_edge sargsort (Rows fs) = Ok (es, ks, bs) ->
  has (fun e : edge => size vs <= maxn e.1 e.2) es = false -> 1 < size fs -> has id (ilong n vs es) ->
  exists t s, [/\ shrink_face_tri sargsort (n%:R : R)%R (@Ok _) 1 (map (pt R) vs) (Rows fs) (Some 1) = Some (Ok (t, s)), s_steps s = 1 &
    let t0 := t_int R vs es fs ks bs in
    [/\ t_e t = sE n%:R%R t0, t_f t = sF n%:R%R t0, t_f2e t = sK n%:R%R t0 & t_dir t = sD n%:R%R t0]].
Proof.
move=> E Hh H1 Hl; rewrite (run_start _ _ _ _ E) //; set t0 := t_int R vs es fs ks bs.
have St := @stepE R 3 n%:R%R (@Ok _) t0 _ (erefl _).
rewrite (loopS _ _ _ _ St) /t0 is_longE // Hl /=.
by rewrite andbF; eexists; eexists; split; first by [].
Qed.

Lemma two_partial (R : rcfType) : exists t s,
  [/\ shrink_face_tri sargsort (24%:R : R)%R (@Ok _) 1 (map (pt R) two_v) (Rows two_f) (Some 1) = Some (Ok (t, s)),
      s_steps s = 1 & ~ consistent (t_e t) (t_f t) (t_f2e t) (t_dir t)].
Proof.
have [//|//|//|t [s [E Es [e1 e2 e3 e4]]]] := @run_one R 24 two_v _ _ _ _ two_map.
got E1 e1 24; got E2 e2 24; got E3 e3 24; got E4 e4 24.
exists t, s; split=> // Hc; have := consistent_row (i := 5) Hc; rewrite E1 E2 E3 E4 => /(_ isT).
by rewrite /records /=.
Qed.

(** ------------------------------------------------------------------ two faces on the same three vertices *)
Definition pillow_f : seq face := [:: (0, 1, 2); (0, 2, 1)].
Lemma pillow_map : map_face_2_edge sargsort (Rows pillow_f) =
  Ok ([:: (0, 1); (0, 2); (1, 2)], [:: (0, 2, 1); (1, 2, 0)], [:: (true, true, true); (true, false, true)]).
Proof. crunch_map. Qed.
Lemma pillow_closed : closed pillow_f. Proof. exact/closedP. Qed.
Lemma pillow_open (R : rcfType) : exists t s,
  [/\ shrink_face_tri sargsort (1%:R : R)%R (@Ok _) 1 (map (pt R) two_v) (Rows pillow_f) (Some 1) = Some (Ok (t, s)),
      s_steps s = 1, all (fun l => (1 < l)%R) [seq edge_len (map (pt R) two_v) e | e <- flatten (map sides pillow_f)] & ~ closed (t_f t)].
Proof.
have [//|//|//|t [s [E Es [_ e2 _ _]]]] := @run_one R 1 two_v _ _ _ _ pillow_map.
got E2 e2 1; exists t, s; split=> //; last by rewrite E2 => /closedP.
apply/allP => l /mapP[e He ->]; rewrite /edge_len !nth_pt -[1%R]/(1%:R : R)%R long_pt.
have /allP/(_ e He) : all (fun e : edge => ((1 * 1)%:Z < sq (nth [::] two_v e.1) (nth [::] two_v e.2))%R) (flatten (map sides pillow_f)) by vm_compute.
by [].
Qed.

(** ------------------------------------------------------------------ refinement of two faces of a tetrahedron *)
Definition flat_v : seq (seq int) := [:: [:: 0; 0; 0]; [:: 10; 0; 0]; [:: 5; 3; 0]; [:: 5; 0; 3]]%R.
Lemma tetra_map : map_face_2_edge sargsort (Rows tetra_f) =
  Ok ([:: (0, 1); (0, 2); (0, 3); (1, 2); (1, 3); (2, 3)], [:: (0, 3, 1); (1, 5, 2); (2, 4, 0); (4, 5, 3)],
      [:: (true, true, true); (true, true, true); (true, false, true); (true, false, true)]).
Proof. crunch_map. Qed.
Lemma tetra_partial (R : rcfType) : exists t s,
  [/\ shrink_face_tri sargsort (6%:R : R)%R (@Ok _) 1 (map (pt R) flat_v) (Rows tetra_f) (Some 1) = Some (Ok (t, s)),
      s_steps s = 1 & ~ closed (t_f t)].
Proof.
have [//|//|//|t [s [E Es [_ e2 _ _]]]] := @run_one R 6 flat_v _ _ _ _ tetra_map.
got E2 e2 6; exists t, s; split=> //; by rewrite E2 => /closedP.
Qed.

(** ------------------------------------------------------------------ an adjusting function and a partial refinement *)
(** moves the first of three new vertices, and leaves the others alone *)
Definition bump_first (R : rcfType) (x : seq 'rV[R]_3) : res (seq 'rV[R]_3) :=
  if size x == 3 then Ok (pt R [:: 12; 32; 0]%R :: behead x) else Ok x.

Lemma bump_size (R : rcfType) (x y : seq 'rV[R]_3) : bump_first x = Ok y -> size y = size x.
Proof. by rewrite /bump_first; case: eqP => [E|_] [<-] //; case: x E. Qed.

Lemma midpointsE (R : rcfType) n vs es fs ks bs ms ws : split_edges (n%:R : R)%R (t_int R vs es fs ks bs) = ms ->
  all2 (fun (e : edge) c => let a := nth [::] vs e.1 in let b := nth [::] vs e.2 in
    [&& (nth 0 c 0 + nth 0 c 0 == nth 0 a 0 + nth 0 b 0)%R, (nth 0 c 1 + nth 0 c 1 == nth 0 a 1 + nth 0 b 1)%R &
        (nth 0 c 2 + nth 0 c 2 == nth 0 a 2 + nth 0 b 2)%R]) (mask ms es) ws ->
  midpoints (n%:R : R)%R (t_int R vs es fs ks bs) = map (pt R) ws.
Proof.
move=> Es; rewrite /midpoints Es [t_e _]/=; elim: (mask ms es) ws => [|e l IH] [|w ws] //= /andP[Hm /IH <-].
by rewrite !nth_pt (mid_int R Hm).
Qed.

Lemma run_more (R : rcfType) n adjust fuel i s vs es fs ks bs t' : step (n%:R : R)%R adjust (t_int R vs es fs ks bs) = Ok t' ->
  has id (ilong n vs es) ->
  exists s', s_steps s' = i /\ shrink_loop (n%:R : R)%R adjust fuel.+1 i None false (t_int R vs es fs ks bs) s =
                               shrink_loop n%:R%R adjust fuel i.+1 None false t' s'.
Proof. by move=> St Hl; rewrite (loopS _ _ _ _ St) is_longE // Hl; eexists; split; last by []. Qed.

Definition bump_v : seq (seq int) :=
  [:: [:: 0; 0; 0]; [:: 24; 0; 0]; [:: 0; 32; 0]; [:: 12; -16; 0]; [:: 12; 32; 0]; [:: 0; 16; 0]; [:: 12; 16; 0]]%R.
Definition bump_e : seq edge := [:: (0, 1); (0, 3); (1, 3); (4, 6); (4, 5); (6, 5); (0, 4); (0, 5); (1, 6); (4, 1); (5, 2); (6, 2)].
Definition bump_f : seq face := [:: (0, 3, 1); (4, 6, 5); (4, 5, 0); (6, 4, 1); (5, 6, 2); (4, 0, 1)].
Definition bump_k := [:: (1, 2, 0); (3, 5, 4); (4, 7, 6); (3, 9, 8); (5, 11, 10); (6, 9, 0)].
Definition bump_d := [:: (true, false, true); (true, true, true); (true, false, false); (false, true, false); (false, true, true); (true, true, true)].
Lemma bump_pass1 (R : rcfType) : step (24%:R : R)%R (@bump_first R)
  (t_int R two_v [:: (0, 1); (0, 2); (0, 3); (1, 2); (1, 3)] two_f [:: (0, 3, 1); (2, 4, 0)] [:: (true, true, true); (true, false, true)]) =
  Ok (t_int R bump_v bump_e bump_f bump_k bump_d).
Proof.
set t0 := t_int _ _ _ _ _ _.
have [es1 e1] : exists x, x = sE 24%:R%R t0 by eexists.
have [fs1 e2] : exists x, x = sF 24%:R%R t0 by eexists.
have [ks1 e3] : exists x, x = sK 24%:R%R t0 by eexists.
have [bs1 e4] : exists x, x = sD 24%:R%R t0 by eexists.
have [ms1 e5] : exists x, x = split_edges 24%:R%R t0 by eexists.
have Ha : bump_first (midpoints (24%:R : R)%R t0) = Ok (map (pt R) [:: [:: 12; 32; 0]; [:: 0; 16; 0]; [:: 12; 16; 0]]%R).
  rewrite (midpointsE (ms := [:: true; true; false; true; false]) (ws := [:: [:: 12; 0; 0]; [:: 0; 16; 0]; [:: 12; 16; 0]]%R)) //.
  by rewrite -e5; got E5 e5 24.
have St1 := run_pass Ha (esym e1) (esym e2) (esym e3) (esym e4) isT.
got E1 e1 24; got E2 e2 24; got E3 e3 24; got E4 e4 24.
by rewrite St1 {}E1 {}E2 {}E3 {}E4.
Qed.

Definition bump_new : seq (seq int) :=
  [:: [:: 12; 0; 0]; [:: 12; 24; 0]; [:: 6; 24; 0]; [:: 6; 16; 0]; [:: 0; 8; 0]; [:: 18; 8; 0]; [:: 18; 16; 0]]%R.
Lemma bump_pass2 (R : rcfType) : exists es fs ks bs,
  [/\ step (24%:R : R)%R (@bump_first R) (t_int R bump_v bump_e bump_f bump_k bump_d) = Ok (t_int R (bump_v ++ bump_new) es fs ks bs),
      has id (ilong 24 (bump_v ++ bump_new) es) = false & has (fun f => has (fun e : edge => (24 * 24)%:Z < sq (nth [::] (bump_v ++ bump_new) e.1) (nth [::] (bump_v ++ bump_new) e.2))%R (sides f)) fs].
Proof.
set t0 := t_int _ _ _ _ _ _.
have [es1 e1] : exists x, x = sE 24%:R%R t0 by eexists.
have [fs1 e2] : exists x, x = sF 24%:R%R t0 by eexists.
have [ks1 e3] : exists x, x = sK 24%:R%R t0 by eexists.
have [bs1 e4] : exists x, x = sD 24%:R%R t0 by eexists.
have [ms1 e5] : exists x, x = split_edges 24%:R%R t0 by eexists.
have Ha : bump_first (midpoints (24%:R : R)%R t0) = Ok (map (pt R) bump_new).
  rewrite (midpointsE (ms := [:: true; false; false; true; true; false; true; true; true; true; false; false]) (ws := bump_new)) //.
  by rewrite -e5; got E5 e5 24.
have St1 := run_pass Ha (esym e1) (esym e2) (esym e3) (esym e4) isT.
exists es1, fs1, ks1, bs1; got E1 e1 24; got E2 e2 24; split; first by rewrite /bump_v /bump_e St1.
  by rewrite E1; vm_compute.
by rewrite E2; vm_compute.
Qed.

Lemma bump_long (R : rcfType) : exists t s,
  [/\ shrink_face_tri sargsort (24%:R : R)%R (@bump_first R) 2 (map (pt R) two_v) (Rows two_f) None = Some (Ok (t, s)),
      s_steps s = 2 & exists f e, [/\ f \in t_f t, e \in sides f & (24%:R < edge_len (t_v t) e)%R]].
Proof.
rewrite (run_start _ _ _ _ two_map) //.
have [s1 [Es1 ->]] := run_more (n := 24) 1 1 (stats0 (t_int R two_v [:: (0, 1); (0, 2); (0, 3); (1, 2); (1, 3)] two_f [:: (0, 3, 1); (2, 4, 0)] [:: (true, true, true); (true, false, true)])) (bump_pass1 R) isT.
have [es [fs [ks [bs [St2 H2 /hasP[f Hf /hasP[e He Hl]]]]]]] := bump_pass2 R.
have [s2 [Es2 ->]] := run_more (n := 24) 0 2 s1 St2 isT; rewrite run_stop //; do 2!eexists; split; [by []|by []|].
by exists f, e; split=> //; rewrite /edge_len !nth_pt long_pt.
Qed.
