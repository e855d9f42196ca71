(** The faces of a sphere triangulation meet only in common vertices and edges; the vertices are different. *)
From mathcomp Require Import all_ssreflect all_algebra.
From mathcomp Require Import ring.
From Verif.Model Require Import Py NP Tri Sphere.
From Verif.Spec Require Import TriSpec SphereSpec.
From mathcomp.zify Require Import zify.
Set Implicit Arguments.
Unset Strict Implicit.
Unset Printing Implicit Defensive.
Import Order.Theory GRing.Theory Num.Theory.
Local Open Scope ring_scope.

Section Sub.
Variables (R : rcfType) (vs vs' : seq 'rV[R]_3) (es : seq edge) (c : nat -> R).
Notation N := (size vs).
Notation e_ k := (nth e_def es k).
Hypotheses (c0 : forall k, 0 < c k) (Hold : forall i, (i < N)%N -> nth 0 vs' i = nth 0 vs i)
  (Hnew : forall k, (k < size es)%N -> nth 0 vs' (N + k) = c k *: (nth 0 vs (e_ k).1 + nth 0 vs (e_ k).2)).

(** the weights after subdivision, from the weights before *)
Definition wv (A T : R) : R := Num.max 0 (A + A - T).
Definition we (A B T : R) : R := Num.max 0 (Num.min (Num.min (A + A) (B + B)) (A + A + (B + B) - T)).

Lemma weC A B T : we A B T = we B A T.
Proof. by rewrite /we minC (_ : A + A + (B + B) = B + B + (A + A)) 1?addrC //; congr (Num.max 0 _); rewrite minC; congr Num.min; rewrite minC. Qed.

Definition ends (k x y : nat) : bool := (e_ k == (x, y)) || (e_ k == (y, x)).

Section Triangle.
Variables (p q r a b d : nat).
Hypotheses (Hpq : p != q) (Hpr : p != r) (Hqr : q != r) (Hp : (p < N)%N) (Hq : (q < N)%N) (Hr : (r < N)%N)
  (Ha : ends a p q) (Hb : ends b p r) (Hd : ends d q r) (Hab : a != b) (Had : a != d) (Hbd : b != d)
  (La : (a < size es)%N) (Lb : (b < size es)%N) (Ld : (d < size es)%N)
  (Ho : forall k, (k < size es)%N -> k \notin [:: a; b; d] -> ~~ (((e_ k).1 \in [:: p; q; r]) && ((e_ k).2 \in [:: p; q; r]))).

Definition tri3 (A B C : R) (v : nat) : R := if v == p then A else if v == q then B else C.
Lemma tri3p A B C : tri3 A B C p = A. Proof. by rewrite /tri3 eqxx. Qed.
Lemma tri3q A B C : tri3 A B C q = B. Proof. by rewrite /tri3 eqxx eq_sym (negbTE Hpq). Qed.
Lemma tri3r A B C : tri3 A B C r = C. Proof. by rewrite /tri3 eq_sym (negbTE Hpr) eq_sym (negbTE Hqr). Qed.
Lemma sum3s (s : nat -> 'rV[R]_3) x y z : \sum_(v <- [:: x; y; z]) s v = s x + s y + s z.
Proof. by rewrite !big_cons big_nil addr0 addrA. Qed.
Lemma sum3r (s : nat -> R) x y z : \sum_(v <- [:: x; y; z]) s v = s x + s y + s z.
Proof. by rewrite !big_cons big_nil addr0 addrA. Qed.

Lemma newE k x y : (k < size es)%N -> ends k x y -> nth 0 vs' (N + k) = c k *: (nth 0 vs x + nth 0 vs y).
Proof. by move=> Hk /orP[]/eqP E; rewrite Hnew // E //= addrC. Qed.

(** what a subface's weights are determined by *)
Definition determined (s : seq nat) (w : nat -> R) (D : nat -> R) : Prop :=
  let T := \sum_(v <- [:: p; q; r]) D v in
  [/\ forall v, 0 <= D v, \sum_(v <- s) w v *: nth 0 vs' v = \sum_(v <- [:: p; q; r]) D v *: nth 0 vs v,
      forall v, (v < N)%N -> on s w v = wv (on [:: p; q; r] D v) T &
      forall k, (k < size es)%N -> 2%:R * (c k * on s w (N + k)) = we (on [:: p; q; r] D (e_ k).1) (on [:: p; q; r] D (e_ k).2) T].

Lemma we0 A B T : A = 0 \/ B = 0 -> we A B T = 0.
Proof.
rewrite /we => -[->|->]; apply/max_idPl; rewrite !le_minl addr0 lexx ?orbT //.
Qed.
Lemma we_neg A B T : A + A + (B + B) - T <= 0 -> we A B T = 0.
Proof. by move=> H; rewrite /we; apply/max_idPl; rewrite le_minl H orbT. Qed.
Lemma we_val A B T x : 0 <= x -> x <= A + A -> x <= B + B -> x <= A + A + (B + B) - T ->
  x = A + A \/ x = B + B \/ x = A + A + (B + B) - T -> we A B T = x.
Proof.
move=> x0 xA xB xC E; rewrite /we.
have -> : Num.min (Num.min (A + A) (B + B)) (A + A + (B + B) - T) = x; last by apply/max_idPr.
apply/eqP; rewrite eq_le; apply/andP; split; last by rewrite !le_minr xA xB xC.
by rewrite !le_minl; case: E => [->|[->|->]]; rewrite lexx ?orbT.
Qed.
Lemma wv_val A T x : 0 <= x -> A + A - T = x -> wv A T = x.
Proof. by move=> x0 E; rewrite /wv E; apply/max_idPr. Qed.
Lemma wv_neg A T : A + A - T <= 0 -> wv A T = 0.
Proof. by move=> E; rewrite /wv; apply/max_idPl. Qed.

Lemma le0_by (x y : R) : 0 <= y -> - x = y -> x <= 0. Proof. by move=> H E; rewrite -oppr_ge0 E. Qed.
Lemma le_by (x y z : R) : 0 <= z -> y - x = z -> x <= y. Proof. by move=> H E; rewrite -subr_ge0 E. Qed.
Lemma off (s : seq nat) (w : nat -> R) v : v \notin s -> on s w v = 0. Proof. by rewrite /on => /negbTE ->. Qed.
Lemma mem3 (x y z v : nat) : (v \in [:: x; y; z]) = [|| v == x, v == y | v == z]. Proof. by rewrite !inE. Qed.

Lemma other (D : nat -> R) k T : (k < size es)%N -> k \notin [:: a; b; d] -> we (on [:: p; q; r] D (e_ k).1) (on [:: p; q; r] D (e_ k).2) T = 0.
Proof. by move=> Hk /(Ho Hk); rewrite negb_and => /orP[] /off E; apply: we0; rewrite E; [left|right]. Qed.
Lemma endsE (D : nat -> R) k x y T : ends k x y -> we (on [:: p; q; r] D (e_ k).1) (on [:: p; q; r] D (e_ k).2) T =
  we (on [:: p; q; r] D x) (on [:: p; q; r] D y) T.
Proof. by move=> /orP[]/eqP -> //=; rewrite weC. Qed.
Lemma onp (D : nat -> R) : on [:: p; q; r] D p = D p. Proof. by rewrite /on mem3 eqxx. Qed.
Lemma onq (D : nat -> R) : on [:: p; q; r] D q = D q. Proof. by rewrite /on mem3 eqxx orbT. Qed.
Lemma onr (D : nat -> R) : on [:: p; q; r] D r = D r. Proof. by rewrite /on mem3 eqxx !orbT. Qed.
Lemma newne k v : (v < N)%N -> (N + k == v)%N = false. Proof. by lia. Qed.
Lemma oldne k v : (v < N)%N -> (v == N + k)%N = false. Proof. by lia. Qed.

Lemma two_pos (x : R) : 0 <= x -> 0 <= x + x. Proof. by move=> H; rewrite addr_ge0. Qed.

Lemma corner w : (forall v, 0 <= w v) -> exists D, determined [:: (N + a)%N; (N + b)%N; p] w D.
Proof.
move=> w0; pose B := c a * w (N + a)%N; pose C := c b * w (N + b)%N; pose A : R := w p + B + C.
have B0 : 0 <= B by rewrite mulr_ge0 ?w0 // ltW.
have C0 : 0 <= C by rewrite mulr_ge0 ?w0 // ltW.
have p0 := w0 p; have A0 : 0 <= A by rewrite !addr_ge0.
exists (tri3 A B C); rewrite /determined sum3r tri3p tri3q tri3r; split.
- by move=> v; rewrite /tri3; case: eqP => // _; case: eqP.
- rewrite !sum3s tri3p tri3q tri3r (newE La Ha) (newE Lb Hb) Hold // !scalerA !(mulrC (w _)) -/B -/C /A.
  by rewrite !scalerDr !scalerDl; move: (_ *: _) (_ *: _) (_ *: _) (_ *: _) (_ *: _) => u1 u2 u3 u4 u5; rewrite addrC !addrA; congr (_ + _); rewrite -!addrA; congr (_ + (_ + _)); rewrite addrC.
- move=> v Hv; rewrite {1}/on mem3 !oldne //=.
  case: (eqVneq v p) => [->|vp]; first by rewrite onp tri3p; symmetry; apply: wv_val => //; rewrite /A; ring.
  symmetry; apply: wv_neg.
  case: (eqVneq v q) => [->|vq]; first by rewrite onq tri3q; apply: (@le0_by _ (w p + C + C)); [rewrite !addr_ge0|rewrite /A; ring].
  case: (eqVneq v r) => [->|vr]; first by rewrite onr tri3r; apply: (@le0_by _ (w p + B + B)); [rewrite !addr_ge0|rewrite /A; ring].
  by rewrite off ?mem3 ?(negbTE vp) ?(negbTE vq) ?(negbTE vr) // !add0r oppr_le0 !addr_ge0.
- move=> k Hk; have O x : on [:: (N + a)%N; (N + b)%N; p] w (N + x) = if (x == a) || (x == b) then w (N + x)%N else 0.
    by rewrite /on mem3 !eqn_add2l newne // orbF.
  rewrite O; case: (eqVneq k a) => [->|ka].
    rewrite (endsE _ _ Ha) onp onq tri3p tri3q -/B; symmetry; apply: we_val.
    + by rewrite mulr_ge0 ?ler0n.
    + by apply: (@le_by _ _ ((w p + C) + (w p + C))); [rewrite two_pos ?addr_ge0|rewrite /A; ring].
    + by rewrite (_ : 2%:R * B = B + B) //; ring.
    + by apply: (@le_by _ _ (w p)); [|rewrite /A; ring].
    + by right; left; ring.
  case: (eqVneq k b) => [->|kb].
    rewrite (endsE _ _ Hb) onp onr tri3p tri3r -/C; symmetry; apply: we_val.
    + by rewrite mulr_ge0 ?ler0n.
    + by apply: (@le_by _ _ ((w p + B) + (w p + B))); [rewrite two_pos ?addr_ge0|rewrite /A; ring].
    + by rewrite (_ : 2%:R * C = C + C) //; ring.
    + by apply: (@le_by _ _ (w p)); [|rewrite /A; ring].
    + by right; left; ring.
  rewrite /= mulr0 mulr0; symmetry; case: (eqVneq k d) => [->|kd]; last by rewrite other // mem3 (negbTE ka) (negbTE kb) (negbTE kd).
  rewrite (endsE _ _ Hd) onq onr tri3q tri3r; apply: we_neg.
  by apply: (@le0_by _ (w p)); [|rewrite /A; ring].
Qed.

Lemma centre w : (forall v, 0 <= w v) -> exists D, determined [:: (N + a)%N; (N + d)%N; (N + b)%N] w D.
Proof.
move=> w0; pose A := c a * w (N + a)%N; pose B := c b * w (N + b)%N; pose C := c d * w (N + d)%N.
have A0 : 0 <= A by rewrite mulr_ge0 ?w0 // ltW.
have B0 : 0 <= B by rewrite mulr_ge0 ?w0 // ltW.
have C0 : 0 <= C by rewrite mulr_ge0 ?w0 // ltW.
exists (tri3 (A + B) (A + C) (B + C)); rewrite /determined sum3r tri3p tri3q tri3r; split.
- by move=> v; rewrite /tri3; case: eqP => // _; [|case: eqP => // _]; rewrite addr_ge0.
- rewrite !sum3s tri3p tri3q tri3r (newE La Ha) (newE Lb Hb) (newE Ld Hd) !scalerA !(mulrC (w _)) -/A -/B -/C.
  rewrite !scalerDr !scalerDl; move: (A *: _) (A *: _) (B *: _) (B *: _) (C *: _) (C *: _) => u1 u2 u3 u4 u5 u6.
  by apply/matrixP => i j; rewrite !mxE; ring.
- move=> v Hv; rewrite {1}/on mem3 !oldne //=; symmetry; apply: wv_neg.
  case: (eqVneq v p) => [->|vp]; first by rewrite onp tri3p; apply: (@le0_by _ (C + C)); [rewrite two_pos|ring].
  case: (eqVneq v q) => [->|vq]; first by rewrite onq tri3q; apply: (@le0_by _ (B + B)); [rewrite two_pos|ring].
  case: (eqVneq v r) => [->|vr]; first by rewrite onr tri3r; apply: (@le0_by _ (A + A)); [rewrite two_pos|ring].
  by rewrite off ?mem3 ?(negbTE vp) ?(negbTE vq) ?(negbTE vr) // !add0r oppr_le0 !addr_ge0.
- move=> k Hk; have O x : on [:: (N + a)%N; (N + d)%N; (N + b)%N] w (N + x) = if [|| x == a, x == d | x == b] then w (N + x)%N else 0.
    by rewrite /on mem3 !eqn_add2l.
  rewrite O; case: (eqVneq k a) => [->|ka].
    rewrite (endsE _ _ Ha) onp onq tri3p tri3q -/A; symmetry; apply: we_val.
    + by rewrite mulr_ge0 ?ler0n.
    + by apply: (@le_by _ _ (B + B)); [rewrite two_pos|ring].
    + by apply: (@le_by _ _ (C + C)); [rewrite two_pos|ring].
    + by apply: (@le_by _ _ (0)); [|ring].
    + by right; right; ring.
  case: (eqVneq k d) => [->|kd].
    rewrite (endsE _ _ Hd) onq onr tri3q tri3r -/C; symmetry; apply: we_val.
    + by rewrite mulr_ge0 ?ler0n.
    + by apply: (@le_by _ _ (A + A)); [rewrite two_pos|ring].
    + by apply: (@le_by _ _ (B + B)); [rewrite two_pos|ring].
    + by apply: (@le_by _ _ (0)); [|ring].
    + by right; right; ring.
  case: (eqVneq k b) => [->|kb].
    rewrite (endsE _ _ Hb) onp onr tri3p tri3r -/B; symmetry; apply: we_val.
    + by rewrite mulr_ge0 ?ler0n.
    + by apply: (@le_by _ _ (A + A)); [rewrite two_pos|ring].
    + by apply: (@le_by _ _ (C + C)); [rewrite two_pos|ring].
    + by apply: (@le_by _ _ (0)); [|ring].
    + by right; right; ring.
  by rewrite /= mulr0 mulr0 other // mem3 (negbTE ka) (negbTE kb) (negbTE kd).
Qed.
End Triangle.
End Sub.
