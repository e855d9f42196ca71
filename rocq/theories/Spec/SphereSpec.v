(** Specification of sphere triangulations and circle partitions. *)
From mathcomp Require Import all_ssreflect all_algebra.
From Verif.Model Require Import Py NP Tri Sphere.
From Verif.Spec Require Import TriSpec.
Set Implicit Arguments.
Unset Strict Implicit.
Unset Printing Implicit Defensive.
Import Order.Theory GRing.Theory Num.Theory.
Local Open Scope ring_scope.

(** the number of vertices of the sphere at depth d *)
Definition sphere_size (d : nat) : nat := (10 * 4 ^ d + 2)%N.

Section Spec.
Variable R : rcfType.
Implicit Types (tr : trig R) (h : R) (n : nat).

(** np.cos and np.sin on the multiples of an angle h, n of which make a full turn: addition theorems,
    parity, a positive sine in the open upper half-plane, -1 at half a turn *)
Record angle_ok tr h n : Prop := AngleOk {
  ang_turn : n%:R * h = 2%:R * t_pi tr;
  ang_cos0 : t_cos tr 0 = 1;
  ang_cosN : forall i : int, t_cos tr (- (i%:~R * h)) = t_cos tr (i%:~R * h);
  ang_sinN : forall i : int, t_sin tr (- (i%:~R * h)) = - t_sin tr (i%:~R * h);
  ang_cosD : forall i j : int, t_cos tr ((i + j)%:~R * h) = t_cos tr (i%:~R * h) * t_cos tr (j%:~R * h) - t_sin tr (i%:~R * h) * t_sin tr (j%:~R * h);
  ang_sinD : forall i j : int, t_sin tr ((i + j)%:~R * h) = t_sin tr (i%:~R * h) * t_cos tr (j%:~R * h) + t_cos tr (i%:~R * h) * t_sin tr (j%:~R * h);
  ang_full : t_cos tr (n%:R * h) = 1;
  ang_pos : forall i : nat, (0 < i)%N -> (2 * i < n)%N -> 0 < t_sin tr (i%:R * h);
  ang_half : forall i : nat, (0 < i)%N -> (2 * i)%N = n -> t_cos tr (i%:R * h) = -1 }.

(** the angles a, a + h, a + 2h, ...: Pythagoras and the addition theorems *)
Definition arc_ok tr (a h : R) : Prop := forall k : nat, let x := k%:R * h + a in let y := k.+1%:R * h + a in
  [/\ t_cos tr x ^+ 2 + t_sin tr x ^+ 2 = 1,
      t_cos tr y = t_cos tr x * t_cos tr h - t_sin tr x * t_sin tr h &
      t_sin tr y = t_sin tr x * t_cos tr h + t_cos tr x * t_sin tr h].

(** on the unit sphere *)
Definition unit_vec d (x : 'rV[R]_d) : Prop := \sum_j x 0 j ^+ 2 = 1.
(** the triple product of three points of space *)
Definition triple (a b c : 'rV[R]_3) : R :=
  \det (\matrix_(i < 3, j < 3) nth 0 [:: a; b; c] i 0 j).
(** seen from outside, the vertices of the face go round counterclockwise: the origin lies on the negative side
    of the oriented plane through the face *)
Definition outward (vs : seq 'rV[R]_3) (f : face) : Prop :=
  0 < triple (nth 0 vs (f0 f)) (nth 0 vs (f1 f)) (nth 0 vs (f2 f)).

(** y is x turned by an angle with cosine c and sine s *)
Definition turned (c s : R) (x y : 'rV[R]_2) : Prop :=
  y 0 0 = x 0 0 * c - x 0 1 * s /\ y 0 1 = x 0 1 * c + x 0 0 * s.

(** x and y agree but for zero coordinates of x, which became e *)
Definition patched d (e : R) (x y : 'rV[R]_d) : Prop :=
  forall j, y 0 j = x 0 j /\ x 0 j != 0 \/ y 0 j = e /\ x 0 j = 0.
(** a closed outward oriented triangulation of the unit sphere with the counts of depth d, Euler
    characteristic 2, edges being pairs of opposite darts *)
Definition sphere_mesh (d : nat) (vs : seq 'rV[R]_3) (fs : seq face) : Prop :=
  [/\ [/\ size vs = sphere_size d, size fs = (20 * 4 ^ d)%N & (2 * (size vs + size fs) = size (all_darts fs) + 4)%N],
      closed fs /\ simple fs, all (fun f => all (fun v => v < size vs)%N (verts f)) fs,
      forall x, x \in vs -> unit_vec x & forall f, f \in fs -> outward vs f].

(** the faces meet only in common vertices and edges: a point of the cones over two faces has the same weights
    (none outside the common vertices) in both *)
Definition on (s : seq nat) (w : nat -> R) (v : nat) : R := if v \in s then w v else 0.
Definition fan (vs : seq 'rV[R]_3) (fs : seq face) : Prop :=
  forall f g (w w' : nat -> R), f \in fs -> g \in fs -> (forall v, 0 <= w v) -> (forall v, 0 <= w' v) ->
    \sum_(v <- verts f) w v *: nth 0 vs v = \sum_(v <- verts g) w' v *: nth 0 vs v ->
    forall v, on (verts f) w v = on (verts g) w' v.
(** with every face, the opposite one *)
Definition antipodal (vs : seq 'rV[R]_3) (fs : seq face) : Prop :=
  forall f, f \in fs -> exists2 g, g \in fs & perm_eq [seq nth 0 vs v | v <- verts g] [seq - nth 0 vs v | v <- verts f].

End Spec.

(** the edges visit 0, 1, ..., n-1 and return to 0 *)
Definition one_cycle (n : nat) (es : seq edge) : Prop :=
  size es = n /\ forall k, (k < n)%N -> nth e_def es k = (k, (k.+1 %% n)%N).
