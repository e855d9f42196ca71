(** is_face up to the order of the vertices; consequences and counterexamples. *)
From mathcomp Require Import all_ssreflect all_algebra.
Require Import Coq.Strings.String.
From mathcomp.zify Require Import zify.
From Verif.Model Require Import Py NP IsMember Tri Gen TriEq.
From Verif.Spec Require Import TriSpec TriEqSpec.
From Verif.Proof Require Import TriMap TriFace TriDec.
Set Implicit Arguments.
Unset Strict Implicit.
Unset Printing Implicit Defensive.
Import Order.Theory GRing.Theory Num.Theory.

Lemma perm2 (b c e f : nat) : perm_eq [:: b; c] [:: e; f] = ((b == e) && (c == f)) || ((b == f) && (c == e)).
Proof.
apply/idP/orP => [H|[]/andP[/eqP -> /eqP ->] //]; last by apply/permP => p /=; lia.
have := perm_mem H b; rewrite !inE eqxx /= => /esym/orP[]/eqP E; move: H; rewrite E.
  rewrite perm_cons => /perm_mem/(_ c); rewrite !inE eqxx => /esym/eqP ->; left; by rewrite !eqxx.
rewrite perm_sym (perm_catC [:: e] [:: f]) perm_cons => /perm_mem/(_ c); rewrite !inE eqxx => /eqP ->; right; by rewrite !eqxx.
Qed.
Lemma perm3 (a b c d e f : nat) : perm_eq [:: a; b; c] [:: d; e; f] =
  [|| [&& a == d, b == e & c == f], [&& a == d, b == f & c == e], [&& a == e, b == d & c == f],
      [&& a == e, b == f & c == d], [&& a == f, b == d & c == e] | [&& a == f, b == e & c == d]].
Proof.
have Q2 : perm_eql [:: d; e; f] [:: e; d; f] by exact: (perm_catCA [:: d] [:: e] [:: f]).
have Q3 : perm_eql [:: d; e; f] [:: f; d; e] by exact: (perm_catC [:: d; e] [:: f]).
apply/idP/idP; last first.
  move=> H; repeat (case/orP: H => H); case/and3P: H => /eqP -> /eqP -> /eqP ->; apply/permP => p /=; lia.
move=> H; have := perm_mem H a; rewrite !inE eqxx /= => /esym/or3P[]/eqP Ea; move: H; rewrite perm_sym Ea.
- by rewrite perm_cons perm2 => /orP[]/andP[/eqP -> /eqP ->]; rewrite !eqxx ?orbT.
- by rewrite Q2 perm_cons perm2 => /orP[]/andP[/eqP -> /eqP ->]; rewrite !eqxx ?orbT.
- by rewrite Q3 perm_cons perm2 => /orP[]/andP[/eqP -> /eqP ->]; rewrite !eqxx ?orbT.
Qed.

Lemma has_sideP f e : has_side f e ->
  [\/ (e = (f0 f, f1 f) \/ e = (f1 f, f0 f)), (e = (f1 f, f2 f) \/ e = (f2 f, f1 f)) | (e = (f0 f, f2 f) \/ e = (f2 f, f0 f))].
Proof.
by rewrite /has_side /side12 /side23 /side13 /flip /=; do 5?(case/orP); move=> /eqP ->;
  first [by apply: Or31; auto | by apply: Or32; auto | by apply: Or33; auto].
Qed.

Lemma sides_same f g : ~~ constant g -> all (has_side f) (sides g) = same_verts g f.
Proof.
case: f g => [[d e] h] [[a b] c]; rewrite /same_verts /verts /constant perm3 /f0 /f1 /f2 /= => nc; apply/idP/idP.
  case/and4P=> /has_sideP H1 /has_sideP H2 /has_sideP H3 _; move: H1 H2 H3 nc.
  rewrite /side12 /side23 /side13 /f0 /f1 /f2 /=.
  by case=> [[]|[]|[]] [A1 A2] [[]|[]|[]] [B1 B2] [[]|[]|[]] [C1 C2]; subst; rewrite ?eqxx ?orbT.
by move=> H; repeat (case/orP: H => H); case/and3P: H => /eqP -> /eqP -> /eqP ->;
  rewrite /has_side /side12 /side23 /side13 /flip /f0 /f1 /f2 /= !xpair_eqE !eqxx ?orbT.
Qed.
Lemma sides_self f : all (has_side f) (sides f).
Proof. by rewrite /= /has_side !eqxx ?orbT. Qed.

Theorem is_face_exact argsort fs gs : argsortn_ok argsort -> all (fun g => ~~ constant g) gs ->
  is_face argsort (Rows fs) gs = Ok [seq is_face_of fs g && all (fun e => attached fs e <= 2) (sides g) | g <- gs].
Proof.
move=> Ha Hc; rewrite is_face_run //; congr Ok; apply/eq_in_map => g /(allP Hc) nc; congr andb.
by apply: eq_has => f; exact: sides_same.
Qed.

Lemma same_sides f g e : same_verts g f -> e \in sides g -> has_side f e.
Proof.
move=> S; have [c|nc] := boolP (constant g); last by move: S; rewrite -sides_same // => /allP H /H.
case: f g S c => [[d k] h] [[a b] c]; rewrite /same_verts /verts /constant perm3 /f0 /f1 /f2 /= => H /andP[/eqP E1 /eqP E2]; subst.
have [E1 E2 E3] : [/\ d = c, k = c & h = c] by repeat (case/orP: H => H); case/and3P: H => /eqP E1 /eqP E2 /eqP E3.
by subst; rewrite !inE /side12 /side23 /side13 /= => /or3P[]/eqP ->; rewrite /has_side /side12 /= eqxx.
Qed.

(** a side of a face has as many attachments however it is read *)
Lemma attached_flip fs e : attached fs (flip e) = attached fs e.
Proof. by rewrite /attached; apply: eq_count => s; rewrite /flip -surjective_pairing orbC. Qed.
Lemma attached_same fs f g : same_verts g f -> all (fun e => attached fs e <= 2) (sides f) -> all (fun e => attached fs e <= 2) (sides g).
Proof.
move=> S /and4P[H1 H2 H3 _]; apply/allP => e /(same_sides S).
by rewrite /has_side => H; repeat (case/orP: H => H); move/eqP: H => ->; rewrite ?attached_flip.
Qed.

Theorem is_face_manifold argsort fs gs : argsortn_ok argsort -> manifold fs -> all (fun g => ~~ constant g) gs ->
  is_face argsort (Rows fs) gs = Ok [seq is_face_of fs g | g <- gs].
Proof.
move=> Ha Hm Hc; rewrite is_face_exact //; congr Ok; apply/eq_map => g.
case E : (is_face_of fs g) => //=; case/hasP: E => f fi S; exact: attached_same S (allP Hm f fi).
Qed.

Lemma is_face_flat argsort f gs : is_face argsort (Flat f) gs = is_face argsort (Rows [:: f]) gs.
Proof. by []. Qed.
Lemma is_face_bad argsort gs : is_face argsort BadFaces gs = throw "wrongInput:f_mat"%string.
Proof. by []. Qed.

(** three triangles on one edge *)
Definition book : seq face := [:: (0, 1, 2); (0, 1, 3); (0, 1, 4)].
Lemma book_no_face argsort : argsortn_ok argsort -> is_face argsort (Rows book) book = Ok [:: false; false; false].
Proof. by move=> Ha; rewrite is_face_exact. Qed.
(** three times one vertex *)
Lemma point_is_face argsort : argsortn_ok argsort ->
  is_face argsort (Rows [:: (0, 0, 1)]) [:: (0, 0, 0)] = Ok [:: true] /\ ~~ is_face_of [:: (0, 0, 1)] (0, 0, 0).
Proof. by move=> Ha; rewrite is_face_run. Qed.

Lemma tetra_face : manifold [:: (0, 1, 2); (0, 2, 3); (0, 3, 1); (1, 3, 2)] /\
  is_face sargsort (Rows [:: (0, 1, 2); (0, 2, 3); (0, 3, 1); (1, 3, 2)]) [:: (2, 1, 0); (0, 1, 4); (3, 2, 1)] = Ok [:: true; false; true].
Proof. by split=> //; rewrite is_face_manifold //; exact: sargsort_ok. Qed.
