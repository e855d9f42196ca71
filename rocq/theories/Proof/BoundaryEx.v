(** Concrete cases of the boundary points. *)
From mathcomp Require Import all_ssreflect all_algebra.
Require Import Coq.Strings.String.
From Verif.Model Require Import Py NP Linalg Ellipsoid Tri Sphere Boundary.
From Verif.Spec Require Import MatSpec LinalgSpec EllSpec EllipsoidSpec TriSpec SphereSpec PartSpec BoundarySpec.
From Verif.Proof Require Import NPLib MatLib LinalgSat EllLib EllScalProof OpsEx TriDec SphereProof Icosa SphereExt SphereEx PartEx BoundaryProof.
Set Implicit Arguments.
Unset Strict Implicit.
Unset Printing Implicit Defensive.
Import Order.Theory GRing.Theory Num.Theory.
Local Open Scope ring_scope.

Lemma scal_posdef n (a : ralg) : 0 < a -> posdef (a%:M : 'M[ralg]_n).
Proof. by move=> a0 x x0; rewrite qf_scal mulr_gt0 ?sqn_gt0. Qed.

Lemma boundary_ex_2 : exists (B : 'M[ralg]_(4, 2)) es, [/\
  get_boundary (the_linalg ralg) quarter sargsort 0 (ball_at (const_mx 3%:R : 'cV[ralg]_2) 4%:R) (Some (IInt 4%:Z)) false = Some (Ok (mat B, None)),
  one_cycle 4 es & level (const_mx 3%:R) (4%:R)%:M (row ord0 B) = 1 + eps ralg ^+ 2].
Proof.
have Hla : eigh_ok (the_linalg ralg) by have [] := the_linalg_ok ralg.
have He := @ball_repr ralg 2 (const_mx 3%:R) 4%:R (ler0n _ 4).
have Hp : posdef ((4%:R)%:M : 'M[ralg]_2) by apply: scal_posdef; rewrite ltr0n.
have [B [es [E H1 _]]] := boundary_2 sargsort 0 false Hla He Hp (isT : (0 < 4)%N) quarter_ok.
by exists B, es; split; [exact: E | exact: H1 | exact: (boundary_2_first Hla He Hp (isT : (0 < 4)%N) quarter_ok E)].
Qed.

Lemma boundary_ex_3 : exists (B L : 'M[ralg]_(43, 3)) (s : 'cV[ralg]_43) fs, [/\
  get_rho_boundary tenth sargsort 13 (ball_at (0 : 'cV[ralg]_3) 1) (Some (IInt 13%:Z)) = Some (Ok (mat B, Faces fs, mat s, mat L)) &
  forall i, level 0 1%:M (row i B) = 1].
Proof.
have He := @ball_repr ralg 3 0 1 ler01.
have Hp : posdef (1%:M : 'M[ralg]_3) by apply: scal_posdef; rewrite ltr01.
have [d [B [L [s [vs [fs [[[d0 Hd Hl] _] E _ _ H]]]]]]] := rho_3 He tenth_ok sargsort_ok (isT : (0 < 13)%N) (leqnn 13).
have d1 : d = 1%N.
  by case: d d0 Hl {Hd B L s E H} => [//|[//|d]] _ /(_ 1%N isT).
by subst d; exists B, L, s, fs; split; [exact: E | exact: H].
Qed.

Lemma floor_ex : exists fl : ralg -> int, is_floor fl.
Proof.
exists (fun x => - wceil up_nat (- x)) => x; have := wceil_ok up_nat (- x).
rewrite intrD !rmorphN /=; move: (_%:~R) => z /andP[H1 H2]; rewrite ler_oppl H2 /=.
by rewrite -ltr_opp2 opprD opprK.
Qed.
