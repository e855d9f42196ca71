(** Inner products of the vertices of the icosahedron. *)
From mathcomp Require Import all_ssreflect all_algebra.
From mathcomp Require Import ring.
From Verif.Model Require Import Py NP Tri Sphere.
From Verif.Spec Require Import TriSpec SphereSpec.
From Verif.Proof Require Import NPLib MatLib TriMap TriStep TriRefine TriFull TriLoop TriShrink TriTop TriDec SphereProof Icosa SphereFan SphereFan2.
From mathcomp.zify Require Import zify.
Set Implicit Arguments.
Unset Strict Implicit.
Unset Printing Implicit Defensive.
Import Order.Theory GRing.Theory Num.Theory.
Local Open Scope ring_scope.

Section Ico.
Variables (R : rcfType) (tr : trig R).
Hypothesis Hg : angle_ok tr (t_pi tr / 5%:R) 10.
Notation h := (t_pi tr / 5%:R).
Notation q := (Num.sqrt (5%:R : R)).
Notation C i := (Cg tr h i).
Notation S i := (Sg tr h i).

Lemma C5 : C 5 = -1. Proof. exact: (ang_half Hg (i := 5%N)). Qed.
Lemma S5 : S 5 = 0.
Proof. by have := pyth Hg 5; rewrite C5 sqrrN expr1n => /(canRL (addKr _)); rewrite addNr => /eqP; rewrite sqrf_eq0 => /eqP. Qed.
Lemma C_turn i : C (i + 5) = - C i. Proof. by rewrite (CgD Hg) C5 S5 mulr0 subr0 mulrN1. Qed.
Lemma S_turn i : S (i + 5) = - S i. Proof. by rewrite (SgD Hg) C5 S5 mulr0 addr0 mulrN1. Qed.

Lemma sq i : S i * S i = 1 - C i ^+ 2.
Proof. by apply: (addrI (C i ^+ 2)); rewrite -expr2 (pyth Hg); move: (C i ^+ 2) => x; ring. Qed.
Lemma C1 : C 1 = (1 + q) / 4%:R.
Proof.
have s1 : 0 < S 1 by exact: (Sg_pos Hg (i := 1%N)).
have s3 : 0 < S 3 by exact: (Sg_pos Hg (i := 3%N)).
have P := pyth Hg 1; move: s1 s3 P; set c := C 1; set s := S 1 => s1 s3 P.
have C2 : C 2 = 2%:R * c ^+ 2 - 1.
  rewrite -[2]/(1 + 1 : int) (CgD Hg) -/c -/s; have -> : s * s = 1 - c ^+ 2 by rewrite -P; ring.
  by ring.
have S2 : S 2 = 2%:R * s * c by rewrite -[2]/(1 + 1 : int) (SgD Hg) -/c -/s; ring.
have C4 : C 4 = 2%:R * C 2 ^+ 2 - 1.
  rewrite -[4]/(2 + 2 : int) (CgD Hg); have -> : S 2 * S 2 = 1 - C 2 ^+ 2 by exact: sq.
  ring.
have C4' : C 4 = - c.
  have : C (-1 + 5) = - C (-1) by exact: C_turn.
  by rewrite (CgN Hg 1).
have S3 : S 3 = s * (4%:R * c ^+ 2 - 1).
  rewrite -[3]/(2 + 1 : int) (SgD Hg) S2 C2 -/c -/s; ring.
have E : (c + 1) * ((2%:R * c - 1) * (4%:R * c ^+ 2 - 2%:R * c - 1)) = 0.
  have := C4'; rewrite C4 C2 => /eqP; rewrite -subr_eq0 => /eqP H; rewrite -H; ring.
have n1 : c + 1 != 0.
  apply/eqP => H; have Hc : c = -1 by rewrite -(addrK 1 c) H sub0r.
  by move: P; rewrite Hc sqrrN expr1n => /(canRL (addKr _)); rewrite addNr => /eqP; rewrite sqrf_eq0 (gt_eqF s1).
have p : 0 < 4%:R * c ^+ 2 - 1 by move: s3; rewrite S3 pmulr_rgt0.
have n2 : 2%:R * c - 1 != 0.
  apply/eqP => H; move: p; have -> : 4%:R * c ^+ 2 - 1 = (2%:R * c - 1) * (2%:R * c + 1) by ring.
  by rewrite H mul0r ltxx.
move/eqP: E; rewrite mulf_eq0 (negbTE n1) mulf_eq0 (negbTE n2) /= => /eqP E.
have c0 : 0 < c.
  have : 0 < 2%:R * c.
    have X : 2%:R * c = 4%:R * c ^+ 2 - 1 - (4%:R * c ^+ 2 - 2%:R * c - 1) by ring.
    by rewrite X E subr0.
  by rewrite pmulr_rgt0 ?ltr0n.
have E2 : (4%:R * c - 1) ^+ 2 = q ^+ 2.
  have X : (4%:R * c - 1) ^+ 2 = 4%:R * (4%:R * c ^+ 2 - 2%:R * c - 1) + 5%:R by ring.
  by rewrite X E q2; ring.
have q1 : 1 < q by rewrite -(ltr_pexpn2r (n := 2)) // ?nnegrE ?ler01 ?(ltW (q0 _)) // q2 expr1n ltr1n.
move/eqP: E2; rewrite eqf_sqr => /orP[]/eqP H.
  by rewrite -H; field.
have : 4%:R * c < 0 by rewrite -(subrK 1 (4%:R * c)) H addrC subr_lt0.
by rewrite ltNge mulr_ge0 ?ler0n ?ltW.
Qed.
Lemma C2 : C 2 = (q - 1) / 4%:R.
Proof.
rewrite -[2]/(1 + 1 : int) (CgD Hg); have -> : S 1 * S 1 = 1 - C 1 ^+ 2 by exact: sq.
rewrite C1 (_ : (1 + q) / 4%:R * ((1 + q) / 4%:R) - (1 - ((1 + q) / 4%:R) ^+ 2) = (q ^+ 2 + 2%:R * q - 7%:R) / 8%:R); last by field.
by rewrite q2; field.
Qed.
Lemma C3 : C 3 = - ((q - 1) / 4%:R).
Proof. by have := C_turn (-2); rewrite (CgN Hg 2) C2. Qed.
Lemma C4 : C 4 = - ((1 + q) / 4%:R).
Proof. by have := C_turn (-1); rewrite (CgN Hg 1) C1. Qed.
Lemma C0 : C 0 = 1. Proof. exact: Cg0 Hg. Qed.
Lemma C6 : C 6 = C 4. Proof. by rewrite -[6]/(1 + 5 : int) C_turn C1 C4. Qed.
Lemma C7 : C 7 = C 3. Proof. by rewrite -[7]/(2 + 5 : int) C_turn C2 C3. Qed.
Lemma C8 : C 8 = C 2. Proof. by rewrite -[8]/(3 + 5 : int) C_turn C3 C2 opprK. Qed.
Lemma C9 : C 9 = C 1. Proof. by rewrite -[9]/(4 + 5 : int) C_turn C4 C1 opprK. Qed.

Definition dotp (x y : 'rV[R]_3) : R := \sum_j x 0 j * y 0 j.
Lemma dot_pg a z i a' z' j : dotp (pg tr h a z i) (pg tr h a' z' j) = a * a' * C (i - j) + z * z'.
Proof.
rewrite /dotp sum3; have [-> -> ->] := row3E (a * C i) (a * S i) z; have [-> -> ->] := row3E (a' * C j) (a' * S j) z'.
by rewrite (CgD Hg) (CgN Hg) (SgN Hg); ring.
Qed.
Lemma qi : q^-1 = q / 5%:R. Proof. by have := lt0r_neq0 (q0 R); have := q2 R; move: q => x <- x0; field. Qed.
Lemma aa : 2%:R / q * (2%:R / q) = 4%:R / 5%:R.
Proof. by have := lt0r_neq0 (q0 R); have := q2 R; move: q => x <- x0; field. Qed.
Lemma zz : q^-1 * q^-1 = 5%:R^-1. Proof. by have := q2 R; move: q => x <-; rewrite expr2 invfM. Qed.

Notation iv v := (nth 0 (ico_verts tr) v).
Definition adj (v w : nat) : bool := has (fun f => (v \in verts f) && (w \in verts f)) ico_faces.


Lemma Cneg k : C (Negz k) = C k.+1. Proof. by rewrite NegzE (CgN Hg). Qed.
(** inner products of the vertices *)
Lemma gram v w : (v < 12)%N -> (w < 12)%N -> v != w ->
  dotp (iv v) (iv w) = q / 5%:R \/ ~~ adj v w /\ (dotp (iv v) (iv w) = - (q / 5%:R) \/ dotp (iv v) (iv w) = -1).
Proof.
rewrite icoE.
do 12 (try (case: v => [|v])); move=> // _; (do 12 (try (case: w => [|w]))); move=> //; move=> _ //; move=> _.
all: match goal with |- context[adj ?x ?y] => let b := eval vm_compute in (adj x y) in change (adj x y) with b end.
all: rewrite /ico_list /= dot_pg.
all: repeat match goal with |- context[Cg tr h (@GRing.add ?V ?x ?y)] => let w := eval vm_compute in (@GRing.add V x y) in change (@GRing.add V x y) with w end.
all: rewrite ?Cneg.
all: rewrite ?C9 ?C8 ?C7 ?C6 ?C5 ?C4 ?C3 ?C2 ?C1 ?C0 ?aa ?mulrNN ?(mulrN (q^-1)) ?(mulNr (q^-1)) ?zz ?mul0r ?mulr0 ?qi.
all: by first [left; field|right; split=> //; left; field|right; split=> //; right; field].
Qed.
End Ico.
