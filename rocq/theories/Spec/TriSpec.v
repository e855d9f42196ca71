(** Specification of triangulations: sides, orientation, consistency of face/edge maps, closed surfaces. *)
From mathcomp Require Import all_ssreflect all_algebra.
From Verif.Model Require Import Py NP Tri.
Set Implicit Arguments.
Unset Strict Implicit.
Unset Printing Implicit Defensive.
Import Order.Theory GRing.Theory Num.Theory.

(** three different vertices *)
Definition proper (f : face) : bool := [&& f0 f != f1 f, f1 f != f2 f & f0 f != f2 f].

(** the three sides, in the order and direction in which a face/edge map records them *)
Definition side12 (f : face) : edge := (f0 f, f1 f).
Definition side23 (f : face) : edge := (f1 f, f2 f).
Definition side13 (f : face) : edge := (f0 f, f2 f).
Definition flip (e : edge) : edge := (e.2, e.1).

(** np.argsort on integers, as documented: a permutation that sorts *)
Definition argsortn_ok (argsort : seq nat -> seq nat) : Prop :=
  forall s, perm_eq (argsort s) (iota 0 (size s)) /\ sorted leq [seq nth 0 s i | i <- argsort s].

(** entry k of a face/edge map describes the side e: the recorded edge, read in the recorded direction *)
Definition records (es : seq edge) (k : nat) (b : bool) (e : edge) : bool :=
  (k < size es) && (nth e_def es k == if b then e else flip e).

(** a face/edge map with its direction flags describes the faces *)
Definition consistent (es : seq edge) (fs : seq face) (f2e : seq (nat * nat * nat)) (dir : seq (bool * bool * bool)) : Prop :=
  [/\ size f2e = size fs, size dir = size fs &
    forall i, i < size fs ->
      let f := nth f_def fs i in let k := nth f_def f2e i in let b := nth d_def dir i in
      [&& records es k.1.1 b.1.1 (side12 f), records es k.1.2 b.1.2 (side23 f) & records es k.2 b.2 (side13 f)]].

(** e, as an unordered pair, is a side of f *)
Definition has_side (f : face) (e : edge) : bool :=
  [|| e == side12 f, e == flip (side12 f), e == side23 f, e == flip (side23 f), e == side13 f | e == flip (side13 f)].

(** the boundary of an oriented face, and of all the faces *)
Definition darts (f : face) : seq edge := [:: (f0 f, f1 f); (f1 f, f2 f); (f2 f, f0 f)].
Definition all_darts (fs : seq face) : seq edge := flatten [seq darts f | f <- fs].
(** closed and consistently oriented: every directed edge occurs once, and so does its reverse *)
Definition closed (fs : seq face) : Prop :=
  uniq (all_darts fs) /\ forall e, e \in all_darts fs -> flip e \in all_darts fs.

(** the vertices of a face; two faces on the same three vertices *)
Definition verts (f : face) : seq nat := [:: f0 f; f1 f; f2 f].
Definition same_verts (f g : face) : bool := perm_eq (verts f) (verts g).
(** no two faces on the same three vertices *)
Definition simple (fs : seq face) : Prop :=
  uniq fs /\ forall f g, f \in fs -> g \in fs -> same_verts f g -> f = g.

(** the vertex numbers are row numbers of the vertex matrix *)
Definition in_range (n : nat) (es : seq edge) (fs : seq face) : bool :=
  all (fun e : edge => (e.1 < n) && (e.2 < n)) es && all (fun f => all (fun v => v < n) (verts f)) fs.

(** the edges are the unordered sides of a closed surface, each once *)
Definition edges_once (es : seq edge) (fs : seq face) : Prop :=
  perm_eq (all_darts fs) (es ++ [seq flip e | e <- es]).

Section Uniform.
Variables (R : rcfType).
Implicit Types (lim : R) (len : seq R).
(** a face with a side longer than the limit *)
Definition over lim len (r : nat * nat * nat) : bool :=
  [|| (lim < nth 0 len r.1.1)%R, (lim < nth 0 len r.1.2)%R | (lim < nth 0 len r.2)%R].
(** no edge lies between a face with a side longer than the limit and a face without *)
Definition uniform lim len (f2e : seq (nat * nat * nat)) : Prop :=
  forall r r' k, r \in f2e -> r' \in f2e -> in3 k r -> in3 k r' -> over lim len r = over lim len r'.
End Uniform.

(** the faces in an argument f_mat *)
Definition faces_of (fm : fmat) : seq face :=
  match fm with Flat f => [:: f] | Rows fs => fs | BadFaces => [::] end.
Definition one_row (fm : fmat) : bool := if fm is Rows [:: _] then true else false.
(** an argument shrink_face_tri is meant for: at least one face, three different existing vertices each *)
Definition good_faces (n : nat) (fm : fmat) : bool :=
  [&& (if fm is BadFaces then false else true), faces_of fm != [::], all proper (faces_of fm) &
      all (fun f => all (fun v => v < n) (verts f)) (faces_of fm)].
(** the sides of a face *)
Definition sides (f : face) : seq edge := [:: side12 f; side23 f; side13 f].

Section Grow.
Variables (R : rcfType) (d : nat).
(** ws arises from vs by appending adjusted midpoints of two vertices already present *)
Inductive grown (g : 'rV[R]_d -> 'rV[R]_d) (vs : seq 'rV[R]_d) : seq 'rV[R]_d -> Prop :=
| grown0 : grown g vs vs
| grownS ws a b : grown g vs ws -> a \in ws -> b \in ws -> grown g vs (rcons ws (g (2%:R^-1 *: (a + b))%R)).

(** the statistics agree with the returned mesh: one entry per pass and the initial one; every split edge
    gives a vertex; every pass found an edge longer than the limit *)
Definition stats_of (lim : R) (nv nf ne : nat) (s : stats R) : Prop :=
  [/\ [/\ size (s_vert s) = (s_steps s).+1, size (s_face s) = (s_steps s).+1, size (s_edge s) = (s_steps s).+1,
          size (s_shrink s) = s_steps s & size (s_max s) = s_steps s],
      [/\ last 0 (s_vert s) = nv, last 0 (s_face s) = nf & last 0 (s_edge s) = ne],
      forall k, k < s_steps s -> nth 0 (s_vert s) k.+1 = nth 0 (s_vert s) k + nth 0 (s_shrink s) k &
      all (fun l => (lim < l)%R) (s_max s)].
End Grow.
