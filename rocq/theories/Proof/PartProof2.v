(** sphere_part, put together. *)
From mathcomp Require Import all_ssreflect all_algebra.
From mathcomp Require Import ring.
Require Import Coq.Strings.String.
From Verif.Model Require Import Py NP Tri Sphere SpherePart.
From Verif.Spec Require Import TriSpec SphereSpec PartSpec.
From Verif.Proof Require Import NPLib MatLib TriDec SphereProof Icosa SphereFan2 SphereIco2 PartProof.
From mathcomp.zify Require Import zify.
Set Implicit Arguments.
Unset Strict Implicit.
Unset Printing Implicit Defensive.
Import Order.Theory GRing.Theory Num.Theory.
Local Open Scope ring_scope.

Section Depth.
Variables (R : rcfType) (log2 : R -> R) (ceil : R -> int).
Hypotheses (Hl : log2_ok log2) (Hc : ceil_ok ceil).

Lemma ceil_le x (z : int) : (ceil x <= z) = (x <= z%:~R).
Proof.
have /andP[A B] := Hc x; apply/idP/idP => [H|H]; first by apply: (le_trans B); rewrite ler_int.
rewrite leNgt; apply/negP; rewrite -lez_addr1 -(ler_int R) rmorphD /= => H1.
by move: (lt_le_trans A H); rewrite ltNge ler_subr_addr H1.
Qed.
Theorem depth_ok n : (0 < n)%N -> exists d, [/\ part_depth log2 ceil n = d%:Z, (0 < d)%N, (n <= 5 * 4 ^ d + 1)%N &
  forall k, (0 < k < d)%N -> (5 * 4 ^ k + 1 < n)%N].
Proof.
move=> n0; rewrite /part_depth; case: ltnP => Hn.
  by exists 1%N; split=> //; [lia|move=> k; lia].
set x := _ / 5%:R; have x0 : 0 < x by rewrite divr_gt0 ?ltr0n // subr_gt0 ltr1n; lia.
have K (k : nat) : (ceil (log2 x / 2%:R) <= k%:Z) = (n <= 5 * 4 ^ k + 1)%N.
  rewrite ceil_le ler_pdivr_mulr ?ltr0n // -[k%:Z%:~R]/(k%:R : R) -natrM Hl // ler_pdivr_mulr ?ltr0n //.
  by rewrite -!natrX -natrM ler_subl_addr -[1]/(1%:R) -natrD ler_nat mulnC (mulnC k) expnM.
have N0 : 0 < ceil (log2 x / 2%:R) by rewrite ltNge (K 0%N) -ltnNge; lia.
case E : (ceil _) K N0 => [d|//] K N0; exists d; split=> //; first by rewrite -K.
by move=> k /andP[_ kd]; rewrite ltnNge -K; move: kd; rewrite -ltnNge.
Qed.
End Depth.

Section Half.
Variables (R : rcfType) (vs p : seq 'rV[R]_3).
Lemma half_size : half_of vs p -> uniq vs -> (forall x, x \in vs -> - x \in vs) -> 0 \notin vs -> size vs = (2 * size p)%N.
Proof.
move=> [Up Hp Hh] Uv Nv Zv; rewrite mul2n -addnn -{2}(size_map -%R p) -size_cat; apply/perm_size/uniq_perm => //.
  rewrite cat_uniq Up map_inj_uniq ?Up; last exact: oppr_inj.
  rewrite andbT; apply/hasPn => _ /mapP[x xp ->]; rewrite -Hh ?xp //; exact: Hp.
move=> x; rewrite mem_cat (_ : (x \in [seq - y | y <- p]) = (- x \in p)); last first.
  by apply/mapP/idP => [[y yp ->]|H]; [rewrite opprK|exists (- x) => //; rewrite opprK].
case: (boolP (x \in vs)) => [/Hh ->|xv]; first by rewrite orNb.
apply/esym/negbTE; rewrite negb_or; apply/andP; split; first by apply: contra xv => /Hp.
by apply: contra xv => /Hp/Nv; rewrite opprK.
Qed.
End Half.

Section Part.
Variables (R : rcfType) (tr : trig R) (arccos log2 : R -> R) (ceil : R -> int) (argsort : seq nat -> seq nat).
Hypotheses (Hg : angle_ok tr (t_pi tr / 5%:R) 10) (Harg : argsortn_ok argsort) (Hl : log2_ok log2) (Hc : ceil_ok ceil).
Notation pt := 'rV[R]_3.
Notation part := (sphere_part tr arccos log2 ceil argsort).
Notation T := (2%:R * t_pi tr).

Lemma tol0 : 0 < dir_tol R. Proof. by rewrite invr_gt0 exprn_gt0 // ltr0n. Qed.
Lemma grid d fuel : (d <= fuel)%N -> exists vs fs, [/\ sphere_tri tr argsort fuel (IInt d%:Z) = Some (Ok (vs, fs)), size vs = sphere_size d,
  forall x, x \in vs -> unit_vec x, uniq vs & [/\ forall x, x \in vs -> - x \in vs, 0 \notin vs & unique_directions vs (dir_tol R) != [::]]].
Proof.
move=> Hd; have [vs [fs [E [[S1 _ _] _ _ U _]]]] := sphere_tri_ok Hg Harg Hd; exists vs, fs.
have [Uv Nv] := sphere_uniq Hg Harg Hd E.
have Z : 0 \notin vs by apply/negP => /U; rewrite /unit_vec big1 => [/eqP|j _]; rewrite ?mxE ?expr0n // eq_sym oner_eq0.
split=> //; split=> //.
have s0 : (0 < size vs)%N by rewrite S1 /sphere_size addn2.
have Hn := Nv _ (mem_nth 0 s0); pose k := seq.index (- nth 0 vs 0) vs.
have ks : (k < size vs)%N by rewrite index_mem.
have Ek : nth 0 vs k = - nth 0 vs 0 by rewrite nth_index.
apply: (directions_some tol0 (i := 0%N) (k := k)) => //; rewrite ks andbT lt0n; apply/negP => /eqP k0.
move: Ek; rewrite k0 => /eqP; rewrite -addr_eq0 -mulr2n -scaler_nat scaler_eq0 pnatr_eq0 /= => /eqP E0.
by move: Z; rewrite -E0 mem_nth.
Qed.

Lemma dist0 (p : seq pt) b : p != [::] -> sphere_distance arccos p b != [::].
Proof. by rewrite -!size_eq0 size_map. Qed.

Lemma partE fuel n d vs fs : part_depth log2 ceil n.+1 = d%:Z -> sphere_tri tr argsort fuel (IInt d%:Z) = Some (Ok (vs, fs)) ->
  unique_directions vs (dir_tol R) != [::] -> let p := unique_directions vs (dir_tol R) in
  let dist b := picked tr (sphere_distance arccos p b) in
  part fuel n.+1%:Z = Some (Ok [seq turn p (dist (row3 0 0 1)) (dist (row3 1 0 0)) (dist (row3 0 1 0)) j | j <- iota 0 n.+1]).
Proof.
move=> Ed Es H0 p dist; rewrite /sphere_part Ed Es -/p.
by congr Some; exact: (loop_ok tr p n.+1 (dist0 (row3 0 0 1) H0) (dist0 (row3 1 0 0) H0) (dist0 (row3 0 1 0) H0) 0%N).
Qed.

Theorem part_rows fuel n : (0 < n <= fuel)%N -> exists d vs fs rows,
  [/\ sphere_tri tr argsort fuel (IInt d%:Z) = Some (Ok (vs, fs)),
      [/\ (0 < d)%N, (2 * n <= size vs)%N & forall k, (0 < k < d)%N -> (sphere_size k < 2 * n)%N],
      part fuel n%:Z = Some (Ok rows), size rows = n & forall x, x \in rows -> x \in vs /\ unit_vec x].
Proof.
case: n => // n Hn; have [d [Ed d0 dn dk]] := depth_ok Hl Hc (ltn0Sn n).
have dS : (d <= n.+1)%N.
  case: d {Ed} d0 dn dk => // -[|d] _ dn dk //; have := dk d.+1; have := ltn_expl d.+1 (isT : (1 < 4)%N); lia.
have [vs [fs [E S1 U Uv [Nv Z H0]]]] := grid (leq_trans dS Hn).
exists d, vs, fs; eexists; split; [exact: E| |exact: partE Ed E H0|by rewrite size_map size_iota|].
  by rewrite S1 /sphere_size; split=> //; [lia|move=> k /dk; lia].
move=> x /mapP[j _ ->]; set y := turn _ _ _ _ _; suff yv : y \in vs by split=> //; exact: U.
apply: (@flagged _ _ (dir_tol R)); rewrite /y /turn; apply: mem_nth.
have L b k : (picked tr (sphere_distance arccos (unique_directions vs (dir_tol R)) b) k < size (unique_directions vs (dir_tol R)))%N.
  by have := picked_lt tr k (dist0 b H0); rewrite size_map.
by case: ifP => _ //; case: ifP.
Qed.

Section Near.
Hypothesis Ha : arccos_ok tr arccos.
Lemma near (p : seq pt) (b : pt) (j : 'I_3) n : p != [::] -> (forall x, x \in p -> unit_vec x) -> (forall x : pt, \sum_k x 0 k * b 0 k = x 0 j) -> (n <= size p)%N ->
  nearest_first p j (picks tr (sphere_distance arccos p b) n) /\ size (picks tr (sphere_distance arccos p b) n) = n.
Proof.
move=> H0 U Hb Hn; have [Hm Ht] := Ha; set s := sphere_distance _ _ _.
have Es : size s = size p by rewrite size_map.
have En i : (i < size p)%N -> nth 0 s i = arccos (nth 0 p i 0 j) by move=> Hi; rewrite (nth_map 0) // Hb.
have Rg i : (i < size p)%N -> -1 <= nth 0 p i 0 j <= 1.
  move=> Hi; have := U _ (mem_nth 0 Hi); rewrite /unit_vec (bigD1 j) //= => Q.
  have : nth 0 p i 0 j ^+ 2 <= 1 by rewrite -Q ler_addl sumr_ge0 // => k _; exact: sqr_ge0.
  by rewrite -(@ler_norml R) -{1}(expr1n R 2) -[X in X <= _](real_normK (num_real _)) ler_pexpn2r ?nnegrE ?ler01 //.
have [] := picks_sorted (tr := tr) (n := n) (A := predT) (dist0 b H0).
- by move=> i; rewrite size_map => Hi _; rewrite -/s En // Ht // Rg.
- by [].
- by rewrite count_predT size_iota size_map.
rewrite -/s => P1 _ P3 P4; have [S1 /allP A1] := picks_ok tr n (dist0 b H0); rewrite -/s in S1 A1.
have L k : (k < n)%N -> (nth 0%N (picks tr s n) k < size p)%N by move=> kn; rewrite -Es; apply: A1; apply: mem_nth; rewrite S1.
split=> //; split=> //.
- by apply/allP => i /A1; rewrite Es.
- move=> k l; rewrite S1 => /andP[kl ln]; have kn := ltn_trans kl ln.
  by have := P3 k l; rewrite kl ln !En ?L // Hm ?Rg ?L // => ->.
- move=> k i; rewrite S1 => kn ip Hi; have := P4 k i kn; rewrite Es => /(_ ip isT Hi).
  by rewrite !En ?L // Hm ?Rg ?L.
Qed.

Lemma axis (j : 'I_3) : let b := [:: row3 1 0 0; row3 0 1 0; row3 (0 : R) 0 1] in forall x : pt, \sum_k x 0 k * (nth 0 b j) 0 k = x 0 j.
Proof.
move=> b x; rewrite !big_ord_recl big_ord0.
case: j => [[|[|[|//]]]] Hj; rewrite /b /= !mxE /= ?mulr0 ?mulr1 ?addr0 ?add0r; congr (x 0 _); exact/val_inj.
Qed.

Theorem part_near fuel n d vs fs rows : (0 < n <= fuel)%N -> part_depth log2 ceil n = d%:Z ->
  sphere_tri tr argsort fuel (IInt d%:Z) = Some (Ok (vs, fs)) -> part fuel n%:Z = Some (Ok rows) ->
  (forall x y, x \in vs -> y \in vs -> x != y -> dir_tol R <= vlen (x - y)) ->
  exists p zi xi yi, [/\ half_of vs p /\ size vs = (2 * size p)%N, 
    [/\ nearest_first p 2%:R zi, nearest_first p 0 xi & nearest_first p 1 yi],
    [/\ size zi = (n + 2) %/ 3, size xi = (n + 1) %/ 3 & size yi = n %/ 3]%N &
    forall j, (j < n)%N -> nth 0 rows j = nth 0 p (nth 0 (nth [::] [:: zi; xi; yi] (j %% 3)) (j %/ 3))%N].
Proof.
case: n => // n Hn Ed E Ep Sep; have [d' [Ed' d0 dn dk]] := depth_ok Hl Hc (ltn0Sn n).
have ? : d' = d by move: Ed'; rewrite Ed => -[->].
subst d'; have dS : (d <= fuel)%N.
  apply: leq_trans Hn; case: d {Ed Ed' E} d0 dn dk => // -[|d] _ dn dk //; have := dk d.+1; have := ltn_expl d.+1 (isT : (1 < 4)%N); lia.
have [vs' [fs' [E' S1 U Uv [Nv Z H0]]]] := grid dS.
move: E' S1 U Uv Nv Z H0; rewrite E => -[<- _] S1 U Uv Nv Z H0 {vs' fs'}.
set p := unique_directions vs (dir_tol R) in H0.
have Hp : half_of vs p := directions_half Uv Nv Z tol0 Sep.
have Sp := half_size Hp Uv Nv Z; have Np : (n < size p)%N by move: Sp; rewrite S1 /sphere_size; move: (size p) => m; lia.
have Up x : x \in p -> unit_vec x by case: Hp => _ H _ /H/U.
have NR (j : 'I_3) m : (m <= size p)%N -> _ := @near p _ j m H0 Up (axis j).
pose dist b := sphere_distance arccos p b.
exists p, (picks tr (dist (row3 0 0 1)) ((n.+1 + 2) %/ 3)), (picks tr (dist (row3 1 0 0)) ((n.+1 + 1) %/ 3)), (picks tr (dist (row3 0 1 0)) (n.+1 %/ 3)).
have [|N2 Z2] := NR 2%:R ((n.+1 + 2) %/ 3)%N; first lia.
have [|N0 Z0] := NR 0 ((n.+1 + 1) %/ 3)%N; first lia.
have [|N1 Z1] := NR 1 (n.+1 %/ 3)%N; first lia.
split=> //.
move=> j Hj; move: Ep; rewrite (partE Ed E H0) => -[<-].
have Q (F : nat -> pt) : nth 0 [seq F i | i <- iota 0 n.+1] j = F j by rewrite (nth_map 0%N) ?size_iota // nth_iota.
rewrite Q /turn -/p /dist !(picksE tr _ (dist0 _ H0)).
have L : (j %% 3 < 3)%N by rewrite ltn_pmod.
have Dj := divn_eq j 3.
case: (j %% 3)%N L Dj => [|[|[|//]]] _ Dj /=; rewrite (nth_map 0%N) ?size_iota ?nth_iota ?add0n //; lia.
Qed.
End Near.
Theorem part_reject fuel (z : int) : z <= 0 -> part fuel z = Some (throw "wrongInput:n_points"%string).
Proof. by case: z => [[|n]|n]. Qed.
End Part.
