(** Laws of Hyperplane.contains. *)
From mathcomp Require Import all_ssreflect all_algebra.
Require Import Coq.Strings.String.
From mathcomp.algebra_tactics Require Import ring.
From Verif.Model Require Import Py NP NP3 Linalg La Ellipsoid Hyperplane.
From Verif.Spec Require Import MatSpec EllSpec HypSpec.
From Verif.Proof Require Import NPLib NP3Lib MatLib LaBasic OrthProof GenProof EllGeomProof EllipsoidProof EllScalEx RegProof HypProof HypOps.
From mathcomp.zify Require Import zify.
Set Implicit Arguments.
Unset Strict Implicit.
Unset Printing Implicit Defensive.
Import Order.Theory GRing.Theory Num.Theory.
Local Open Scope ring_scope.

Section ContainsLaws.
Variable R : rcfType.

Let run n k sh hs (v : 'I_k -> 'cV[R]_n) s t (x : 'cV[R]_n) : (0 < n)%N -> (0 < k)%N -> hfamily hs v s t -> (forall i, solid (v i) (s i) (t i)) ->
  exists2 bs, contains (Arr sh hs) (vec x) = Ok (Arr sh bs) & size bs = k /\ forall i : 'I_k, nth false bs i = true <-> near_hp (v i) (s i) (t i) x.
Proof.
move=> n0 k0 Hf Hs; have -> : vec x = Arr (n :: [::]) (data (mat x)) by rewrite -vec_data.
exact: (contains_point (tl := [::]) sh x n0 k0 Hf Hs (erefl _)).
Qed.

Let same (u v : seq bool) k : size u = k -> size v = k -> (forall i : 'I_k, nth false u i = true <-> nth false v i = true) -> u = v.
Proof.
move=> Eu Ev H; apply: (@eq_from_nth _ false); rewrite Eu ?Ev // => i Hi.
by apply/idP/idP => h; [apply/(H (Ordinal Hi))|apply/(H (Ordinal Hi))].
Qed.

Let dot_lin n (v x y : 'cV[R]_n) a b : dotv v (a *: x + b *: y) = a * dotv v x + b * dotv v y.
Proof. by rewrite dotvDr !dotvZr. Qed.
Let dot_scal n (v x : 'cV[R]_n) a : dotv (a *: v) x = a * dotv v x.
Proof. by rewrite dotvZl. Qed.

Theorem con_convex n k sh hs (v : 'I_k -> 'cV[R]_n) s t (x y : 'cV[R]_n) a : (0 < n)%N -> (0 < k)%N ->
  hfamily hs v s t -> (forall i, solid (v i) (s i) (t i)) -> 0 <= a <= 1 ->
  exists bx yb bz, [/\ contains (Arr sh hs) (vec x) = Ok (Arr sh bx), contains (Arr sh hs) (vec y) = Ok (Arr sh yb),
    contains (Arr sh hs) (vec (a *: x + (1 - a) *: y)) = Ok (Arr sh bz) &
    [/\ size bx = k, size yb = k, size bz = k & forall i : 'I_k, nth false bx i -> nth false yb i -> nth false bz i]].
Proof.
move=> n0 k0 Hf Hs /andP[a0 a1]; have [bx Ex [Sx Hx]] := run sh x n0 k0 Hf Hs; have [yb Ey [Sy Hy]] := run sh y n0 k0 Hf Hs.
have [bz Ez [Sz Hz]] := run sh (a *: x + (1 - a) *: y) n0 k0 Hf Hs.
exists bx, yb, bz; split=> //; split=> // i /Hx h1 /Hy h2; apply/Hz; move: h1 h2; rewrite /near_hp dot_lin.
move: (dotv _ x) (dotv _ y) (s i) (t i) => p q c e h1 h2.
have -> : a * p + (1 - a) * q - c = a * (p - c) + (1 - a) * (q - c) by ring.
apply: le_lt_trans (ler_norm_add _ _) _; rewrite !normrM (ger0_norm a0) (@ger0_norm _ (1 - a)) ?subr_ge0 //.
have [->|an] := eqVneq a 1; first by rewrite subrr mul0r addr0 mul1r.
have E : e = a * e + (1 - a) * e by ring.
rewrite E; apply: ler_lt_add; first by rewrite ler_wpmul2l // ltW.
by rewrite ltr_pmul2l // subr_gt0 lt_neqAle an.
Qed.

Theorem con_shift n k sh hs (v : 'I_k -> 'cV[R]_n) s t (x d : 'cV[R]_n) : (0 < n)%N -> (0 < k)%N ->
  hfamily hs v s t -> (forall i, solid (v i) (s i) (t i)) -> (forall i, dotv (v i) d = 0) ->
  contains (Arr sh hs) (vec (x + d)) = contains (Arr sh hs) (vec x).
Proof.
move=> n0 k0 Hf Hs H0; have [bx -> [Sx Hx]] := run sh x n0 k0 Hf Hs; have [bd -> [Sd Hd]] := run sh (x + d) n0 k0 Hf Hs.
congr (Ok (Arr _ _)); apply: (same Sd Sx) => i; apply: (iff_trans (Hd i)); apply: iff_trans (iff_sym (Hx i)).
by rewrite /near_hp dotvDr H0 addr0.
Qed.

(** normal, shift and tolerance times the same number *)
Theorem con_scale n k sh hs gs (v : 'I_k -> 'cV[R]_n) s t (a : 'I_k -> R) (x : 'cV[R]_n) : (0 < n)%N -> (0 < k)%N ->
  hfamily hs v s t -> (forall i, solid (v i) (s i) (t i)) -> (forall i, a i != 0) ->
  hfamily gs (fun i => a i *: v i) (fun i => a i * s i) (fun i => `|a i| * t i) ->
  contains (Arr sh gs) (vec x) = contains (Arr sh hs) (vec x).
Proof.
move=> n0 k0 Hf Hs a0 Hg; have Hs' i : solid (a i *: v i) (a i * s i) (`|a i| * t i).
  have A : 0 < `|a i| by rewrite normr_gt0.
  by move=> /(Hs i)[h|[j h]]; [left; rewrite normrM ltr_pmul2l|right; exists j; rewrite mxE normrM ltr_pmul2l].
have [bx -> [Sx Hx]] := run sh x n0 k0 Hf Hs; have [bd -> [Sd Hd]] := run sh x n0 k0 Hg Hs'.
congr (Ok (Arr _ _)); apply: (same Sd Sx) => i; apply: (iff_trans (Hd i)); apply: iff_trans (iff_sym (Hx i)).
by rewrite /near_hp dot_scal -mulrBr normrM ltr_pmul2l // normr_gt0.
Qed.

(** same normals, shifts further apart than the tolerances: no common point *)
Theorem con_disjoint n k sh hs gs (v : 'I_k -> 'cV[R]_n) s1 s2 t1 t2 (x : 'cV[R]_n) : (0 < n)%N -> (0 < k)%N ->
  hfamily hs v s1 t1 -> hfamily gs v s2 t2 -> (forall i, solid (v i) (s1 i) (t1 i)) -> (forall i, solid (v i) (s2 i) (t2 i)) ->
  (forall i, t1 i + t2 i <= `|s1 i - s2 i|) ->
  exists b1 b2, [/\ contains (Arr sh hs) (vec x) = Ok (Arr sh b1), contains (Arr sh gs) (vec x) = Ok (Arr sh b2) &
    [/\ size b1 = k, size b2 = k & forall i : 'I_k, ~~ (nth false b1 i && nth false b2 i)]].
Proof.
move=> n0 k0 Hf Hg Hs1 Hs2 H; have [b1 E1 [S1 H1]] := run sh x n0 k0 Hf Hs1; have [b2 E2 [S2 H2]] := run sh x n0 k0 Hg Hs2.
exists b1, b2; split=> //; split=> // i; apply/negP => /andP[/H1 h1 /H2 h2]; move: h1 h2 (H i); rewrite /near_hp.
move: (dotv _ x) (s1 i) (s2 i) (t1 i) (t2 i) => p a b e f h1 h2; rewrite leNgt => /negP; apply.
have -> : a - b = (a - p) + (p - b) by ring.
by apply: le_lt_trans (ler_norm_add _ _) _; rewrite (distrC a p) ltr_add.
Qed.

Let foot n (v : 'cV[R]_n) c : v != 0 -> dotv v ((c / sqn v) *: v) = c.
Proof.
move=> v0; have P : sqn v != 0 by rewrite sqn_eq0.
by rewrite dotvZr -/(sqn v) divfK.
Qed.

Let one n (v : 'cV[R]_n) h s t x : (0 < n)%N -> hrepr h v s t -> solid v s t ->
  exists2 b, contains (Arr [::] [:: h]) (vec x) = Ok (Arr [::] [:: b]) & b = true <-> near_hp v s t x.
Proof.
move=> n0 Hh Hs; have F : hfamily [:: h] (fun _ : 'I_1 => v) (fun=> s) (fun=> t) by split=> // -[[|] // i] h0.
have [bs E [S Hb]] := run [::] x n0 (ltnSn 0) F (fun=> Hs).
by case: bs E S Hb => [|b [|? ?]] // E _ Hb; exists b; [exact: E|exact: (Hb 0)].
Qed.

(** the foot of the perpendicular from the origin is on the hyperplane *)
Theorem con_foot n (v : 'cV[R]_n) h s t : (0 < n)%N -> hrepr h v s t -> solid v s t -> v != 0 ->
  contains (Arr [::] [:: h]) (vec ((s / sqn v) *: v)) = Ok (Arr [::] [:: true]).
Proof.
move=> n0 Hh Hs v0; have [b -> Hb] := one ((s / sqn v) *: v) n0 Hh Hs; rewrite (Hb.2 _) // /near_hp foot // subrr normr0.
by case: Hh.
Qed.

(** the same hyperplane with the normal and the shift doubled: different answers *)
Theorem con_not_scale n (v : 'cV[R]_n) h g s t : (0 < n)%N -> v != 0 -> hrepr h v s t -> solid v s t -> hrepr g (2%:R *: v) (2%:R * s) t ->
  (forall y, on_hp (2%:R *: v) (2%:R * s) y <-> on_hp v s y) /\
  exists x : 'cV[R]_n, contains (Arr [::] [:: h]) (vec x) = Ok (Arr [::] [:: true]) /\ contains (Arr [::] [:: g]) (vec x) = Ok (Arr [::] [:: false]).
Proof.
move=> n0 v0 Hh Hs Hg; have t0 : 0 < t by case: Hh.
have two : 2%:R != 0 :> R by rewrite pnatr_eq0.
have big (p : R) : t < `|p| -> t < `|2%:R * p|.
  by move=> L; apply: (lt_le_trans L); rewrite normrM normr_nat ler_pemull // ler1n.
have Hs' : solid (2%:R *: v) (2%:R * s) t.
  by move=> /Hs[L|[j L]]; [left; exact: big|right; exists j; rewrite mxE; exact: big].
split; first by move=> y; rewrite /on_hp dot_scal; split=> [/(mulfI two)|->].
exists (((s + t / 2%:R) / sqn v) *: v).
have [b1 -> H1] := one (((s + t / 2%:R) / sqn v) *: v) n0 Hh Hs; have [b2 -> H2] := one (((s + t / 2%:R) / sqn v) *: v) n0 Hg Hs'.
have E : s + t / 2%:R - s = t / 2%:R by ring.
split; last first.
  case: b2 H2 => // -[/(_ erefl) + _]; rewrite /near_hp dot_scal foot // -mulrBr E mulrC divfK // gtr0_norm //.
  by rewrite ltxx.
rewrite (H1.2 _) // /near_hp foot // E gtr0_norm ?divr_gt0 ?ltr0n //.
by rewrite ltr_pdivr_mulr ?ltr0n // ltr_pmulr // ltr1n.
Qed.
End ContainsLaws.
