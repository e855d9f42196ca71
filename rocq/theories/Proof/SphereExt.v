(** circle_part and sphere_tri_ext. *)
From mathcomp Require Import all_ssreflect all_algebra.
From mathcomp Require Import ring.
Require Import Coq.Strings.String.
From Verif.Model Require Import Py NP Tri Sphere.
From Verif.Spec Require Import TriSpec SphereSpec.
From Verif.Proof Require Import NPLib MatLib SphereProof Icosa.
From mathcomp.zify Require Import zify.
Set Implicit Arguments.
Unset Strict Implicit.
Unset Printing Implicit Defensive.
Import Order.Theory GRing.Theory Num.Theory.
Local Open Scope ring_scope.

Section Circle.
Variables (R : rcfType) (tr : trig R).
Implicit Types (n k : nat).

Lemma row2E (x y : R) : row2 x y 0 0 = x /\ row2 x y 0 1 = y. Proof. by rewrite !mxE. Qed.
Lemma sum2 (F : 'I_2 -> R) : \sum_j F j = F 0 + F 1.
Proof. by rewrite !big_ord_recl big_ord0 addr0; congr (_ + F _); apply: val_inj. Qed.

Definition circle_pt (x : R) : 'rV[R]_2 := row2 (t_cos tr x) (t_sin tr x).

Lemma circle_partE n rng : circle_part tr (IInt n%:Z) rng =
  Ok [seq circle_pt x | x <- let: (a, b) := odflt (0, 2%:R * t_pi tr) rng in linspace_open a b n].
Proof. by rewrite /circle_part /circle_angles; case: (odflt _ _). Qed.

(** any range of angles *)
Theorem circle_arc n a b : arc_ok tr a ((b - a) / n%:R) -> exists vs, [/\ circle_part tr (IInt n%:Z) (Some (a, b)) = Ok vs, size vs = n,
  forall x, x \in vs -> unit_vec x,
  (0 < n)%N -> nth 0 vs 0 = row2 (t_cos tr a) (t_sin tr a) &
  forall k, (k.+1 < n)%N -> turned (t_cos tr ((b - a) / n%:R)) (t_sin tr ((b - a) / n%:R)) (nth 0 vs k) (nth 0 vs k.+1)].
Proof.
set h := (b - a) / n%:R => Ha; rewrite circle_partE; eexists; split; first by [].
- by rewrite !size_map size_iota.
- move=> x /mapP[y /mapP[k _ ->] ->]; have [P _ _] := Ha k.
  by rewrite /unit_vec sum2; have [-> ->] := row2E (t_cos tr (k%:R * h + a)) (t_sin tr (k%:R * h + a)).
- by case: n @h Ha => // m h Ha _; rewrite /= mul0r add0r.
move=> k Hk; have Hk' := ltnW Hk.
rewrite !(nth_map 0) ?size_map ?size_iota // !(nth_map 0%N) ?size_iota // !nth_iota // !add0n -/h.
have [_ Ec Es] := Ha k; rewrite /turned /circle_pt.
by have [-> ->] := row2E (t_cos tr (k%:R * h + a)) (t_sin tr (k%:R * h + a));
   have [-> ->] := row2E (t_cos tr (k.+1%:R * h + a)) (t_sin tr (k.+1%:R * h + a)); rewrite Ec Es.
Qed.

Section Full.
Variable n : nat.
Hypothesis n0 : (0 < n)%N.
Notation h := (2%:R * t_pi tr / n%:R).
Hypothesis Hg : angle_ok tr h n.
Notation C := (Cg tr h).
Notation S := (Sg tr h).

Definition circle_pts : seq 'rV[R]_2 := [seq row2 (C k%:Z) (S k%:Z) | k <- iota 0 n].
Lemma circle_fullE : circle_part tr (IInt n%:Z) None = Ok circle_pts.
Proof.
rewrite circle_partE /= /linspace_open -map_comp; congr Ok; apply: eq_map => k; by rewrite /= subr0 addr0.
Qed.
Lemma nth_circle k : (k < n)%N -> nth 0 circle_pts k = row2 (C k%:Z) (S k%:Z).
Proof. by move=> Hk; rewrite (nth_map 0%N) ?size_iota // nth_iota. Qed.

Lemma not_full (k : nat) : (0 < k < n)%N -> C k <> 1.
Proof.
move=> /andP[k0 kn] Ck.
have S0 : S k = 0 by have := pyth Hg k; rewrite Ck expr1n => /(canRL (addKr _)); rewrite addNr => /eqP; rewrite sqrf_eq0 => /eqP.
case: (ltngtP (2 * k) n) => H.
- by have := Sg_pos Hg k0 H; rewrite S0 ltxx.
- have := @Sg_pos _ _ _ _ Hg (n - k)%N; rewrite -[(n - k)%N%:Z]subzn ?(ltnW kn) // (SgD Hg) (CgN Hg) (SgN Hg) S0 (Sgn Hg) oppr0 mulr0 mul0r addr0 ltxx.
  by move=> W; have : false by apply: W; lia.
- by have := ang_half Hg k0 H; rewrite -/(Cg tr h k%:Z) Ck => /eqP; rewrite -addr_eq0 -mulr2n mulrn_eq0 oner_eq0.
Qed.

Theorem circle_full : exists vs, [/\ circle_part tr (IInt n%:Z) None = Ok vs, size vs = n /\ uniq vs,
  forall x, x \in vs -> unit_vec x, nth 0 vs 0 = row2 1 0 &
  forall k, (k < n)%N -> turned (t_cos tr h) (t_sin tr h) (nth 0 vs k) (nth 0 vs (k.+1 %% n))].
Proof.
exists circle_pts; split; first exact: circle_fullE.
- split; first by rewrite size_map size_iota.
  rewrite map_inj_in_uniq ?iota_uniq // => i j; rewrite !mem_iota !add0n /= => Hi Hj E.
  have [Ec Es] : C i = C j /\ S i = S j.
    by have [e1 e2] := row2E (C i) (S i); have [e3 e4] := row2E (C j) (S j); split; [move: e1; rewrite E e3|move: e2; rewrite E e4].
  have W (k l : nat) : (k < l < n)%N -> C k = C l -> S k = S l -> False.
    move=> Hkl e1 e2; apply: (@not_full (l - k)%N); first lia.
    by rewrite -subzn ?(CgD Hg) ?(CgN Hg) ?(SgN Hg) //; [rewrite e1 e2 mulrN opprK -!expr2 (pyth Hg)|lia].
  case: (ltngtP i j) => // Hij; first by case: (W i j); rewrite ?Hij.
  by case: (W j i); rewrite ?Hij.
- move=> x /mapP[k _ ->]; rewrite /unit_vec sum2; have [-> ->] := row2E (C k) (S k); exact: (pyth Hg).
- by rewrite nth_circle // (Cg0 Hg) (Sg0 Hg).
move=> k Hk; have En : C 1%N = t_cos tr h /\ S 1%N = t_sin tr h by rewrite /Cg /Sg mul1r.
case: En => <- <-; rewrite nth_circle //.
have [Ec Es] : C (k.+1 %% n)%N = C (k%:Z + 1%N%:Z) /\ S (k.+1 %% n)%N = S (k%:Z + 1%N%:Z).
  case: (ltnP k.+1 n) => H; first by rewrite modn_small // -PoszD addn1.
  have En : k.+1 = n by lia.
  by rewrite -PoszD addn1 En modnn (Cgn Hg) (Sgn Hg) (Cg0 Hg) (Sg0 Hg).
rewrite nth_circle ?ltn_mod // /turned; have [-> ->] := row2E (C k) (S k).
have [-> ->] := row2E (C (k.+1 %% n)%N) (S (k.+1 %% n)%N).
by rewrite Ec Es (CgD Hg) (SgD Hg).
Qed.
End Full.

Theorem circle_apart n rng vs : circle_part tr (IInt n%:Z) rng = Ok vs ->
  circle_part_apart tr (IInt n%:Z) rng = Ok ([seq x 0 0 | x : 'rV[R]_2 <- vs], [seq x 0 1 | x : 'rV[R]_2 <- vs]).
Proof.
rewrite /circle_part /circle_part_apart; case: (circle_angles _ _ _) => //= phi [<-].
by rewrite -!map_comp; congr (Ok (_, _)); apply: eq_map => x /=; have [e1 e2] := row2E (t_cos tr x) (t_sin tr x).
Qed.
End Circle.

Section Ext.
Variables (R : rcfType) (tr : trig R) (argsort : seq nat -> seq nat).
Implicit Types (n k : nat).

Lemma no_zerosP d (x : 'rV[R]_d) : patched (eps R) x (no_zeros x).
Proof. by move=> j; rewrite mxE; case: eqP => [->|/eqP H]; [right|left]. Qed.
Lemma eps_gt0 : 0 < eps R. Proof. by rewrite invr_gt0 exprn_gt0 ?ltr0n. Qed.
Lemma patched_norm d (e : R) (x y : 'rV[R]_d) : unit_vec x -> patched e x y ->
  1 <= \sum_j y 0 j ^+ 2 <= 1 + d%:R * e ^+ 2.
Proof.
move=> Hx Hp; have S : \sum_j x 0 j ^+ 2 = 1 by exact: Hx.
rewrite -[X in X <= _]S -[X in _ <= X + _]S; apply/andP; split.
  apply: ler_sum => j _; case: (Hp j) => -[-> //] ->; by rewrite expr0n sqr_ge0.
have -> : d%:R * e ^+ 2 = \sum_(j < d) e ^+ 2 by rewrite sumr_const card_ord mulr_natl.
rewrite -big_split; apply: ler_sum => j _ /=; case: (Hp j) => -[-> E].
  by rewrite ler_addl sqr_ge0.
by rewrite E expr0n add0r.
Qed.
Lemma patched_nonzero d (e : R) (x y : 'rV[R]_d) j : e != 0 -> patched e x y -> y 0 j != 0.
Proof. by move=> e0 /(_ j)[[-> //]|[-> _]]. Qed.

Lemma ring_cycle n : one_cycle n (ring_edges n).
Proof.
split=> [|k Hk]; first by rewrite size_map size_iota.
rewrite (nth_map 0%N) ?size_iota // nth_iota // add0n; congr pair.
case: eqP => [->|H]; last by rewrite modn_small //; lia.
by rewrite prednK ?modnn //; lia.
Qed.

Theorem ext_circle fuel n rf vs : (0 < n)%N -> circle_part tr (IInt n%:Z) None = Ok vs ->
  exists ws, [/\ sphere_tri_ext tr argsort fuel 2 (IInt n%:Z) rf = Some (Ok (if rf then Grid2 ws (ring_edges n) else Points2 ws)),
    size ws = size vs & forall k, (k < size vs)%N -> patched (eps R) (nth 0 vs k) (nth 0 ws k)].
Proof.
move=> n0 Ev; exists [seq no_zeros x | x <- vs]; rewrite /sphere_tri_ext n0 eqxx Ev /= size_map; split=> // k Hk.
by rewrite (nth_map 0) //; exact: no_zerosP.
Qed.

Theorem ext_sphere fuel n_dim n rf : angle_ok tr (t_pi tr / 5%:R) 10 -> argsortn_ok argsort -> (0 < n)%N -> (n <= fuel)%N -> n_dim != 2%:Z ->
  exists d vs ws fs, [/\ [/\ (0 < d)%N, (n <= sphere_size d)%N & forall k, (0 < k < d)%N -> (sphere_size k < n)%N],
    sphere_tri tr argsort fuel (IInt d%:Z) = Some (Ok (vs, fs)), sphere_tri_ext tr argsort fuel n_dim (IInt n%:Z) rf = Some (Ok (Grid3 ws fs)),
    size ws = sphere_size d & size vs = sphere_size d /\ forall k, (k < size vs)%N -> patched (eps R) (nth 0 vs k) (nth 0 ws k)].
Proof.
move=> Hg Ha n0 nf nd; have [D ED [/andP[D0 Df] Dn Dl]] := calc_depth_ok nf (leq_trans n0 nf).
have [vs [fs [Es [[Hv _ _] _ _ _ _]]]] := sphere_tri_ok Hg Ha Df.
exists D, vs, [seq no_zeros x | x <- vs], fs; rewrite /sphere_tri_ext n0 (negbTE nd) ED Es size_map; split=> //; split=> // k Hk.
by rewrite (nth_map 0) //; exact: no_zerosP.
Qed.

Theorem ext_reject fuel n_dim np rf : (match np with IInt z => z <= 0 | IInf neg => neg | IOther => true end) ->
  sphere_tri_ext tr argsort fuel n_dim np rf = Some (throw "wrong_input"%string).
Proof. by case: np => [[[|n]|n]|[]|]. Qed.

(** no returned grid lies on the unit circle *)
Theorem ext_not_unit fuel n rf ws : (0 < n)%N -> t_sin tr 0 = 0 -> t_cos tr 0 = 1 ->
  (sphere_tri_ext tr argsort fuel 2 (IInt n%:Z) rf = Some (Ok (Points2 ws)) \/
   sphere_tri_ext tr argsort fuel 2 (IInt n%:Z) rf = Some (Ok (Grid2 ws (ring_edges n)))) -> ~ unit_vec (nth 0 ws 0).
Proof.
move=> n0 S0 C0; rewrite /sphere_tri_ext n0 eqxx circle_partE /=.
have W vs : ws = [seq no_zeros x | x <- [seq circle_pt tr x | x <- linspace_open 0 (2%:R * t_pi tr) n]] -> vs = nth 0 ws 0 -> ~ unit_vec vs.
  move=> -> ->; case: n n0 => // m _; rewrite /= mul0r add0r /circle_pt S0 C0.
  rewrite /unit_vec sum2 !mxE /= oner_eq0 expr1n eqxx => /(canRL (addKr _)); rewrite addNr => /eqP.
  by rewrite sqrf_eq0 (negbTE (lt0r_neq0 eps_gt0)).
by case: rf => -[] // [E]; apply: (W _ (esym E) (erefl _)).
Qed.
End Ext.
