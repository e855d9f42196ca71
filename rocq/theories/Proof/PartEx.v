(** A concrete case for sphere_part. *)
From mathcomp Require Import all_ssreflect all_algebra.
From mathcomp Require Import realalg.
From Verif.Model Require Import Py NP Tri Sphere SpherePart.
From Verif.Spec Require Import TriSpec SphereSpec PartSpec.
From Verif.Proof Require Import TriDec SphereProof Icosa SphereEx SphereIco2 PartProof PartProof2 PartSep.
From mathcomp.zify Require Import zify.
Set Implicit Arguments.
Unset Strict Implicit.
Unset Printing Implicit Defensive.
Import Order.Theory GRing.Theory Num.Theory.
Local Open Scope ring_scope.

Section Arch.
Variable R : rcfType.
Hypothesis up_nat : forall x : R, exists n : nat, x < n%:R.
Lemma up_nat_le (x : R) : exists n : nat, x <= n%:R. Proof. by have [n H] := up_nat x; exists n; exact: ltW. Qed.
Definition wceil (x : R) : int :=
  if 0 < x then Posz (ex_minn (up_nat_le x)) else 1 - Posz (ex_minn (up_nat (- x))).
Lemma wceil_ok : ceil_ok wceil.
Proof.
have Z (n : nat) : (n%:Z)%:~R = n%:R :> R by [].
move=> x; rewrite /wceil; case: (ltrP 0 x) => x0.
  case: ex_minnP => n Hn Hm; rewrite Z Hn andbT ltNge; apply/negP => H.
  case: n Hn Hm H => [|n] Hn Hm H; first by move: (lt_le_trans x0 Hn); rewrite ltxx.
  by have := Hm n; rewrite ltnn (le_trans H) // => [/(_ isT)//|]; rewrite mulrSr addrK.
case: ex_minnP => n Hn Hm; rewrite rmorphB /= Z addrAC subrr add0r ltr_oppl Hn /=.
case: n Hn Hm => [|n] Hn Hm; first by move: Hn; rewrite oppr_lt0 ltNge x0.
have -> : 1 - (n.+1%:Z)%:~R = - n%:R :> R by rewrite Z (mulrSr _ n) opprD addrC subrK.
rewrite ler_oppr leNgt; apply/negP => H; by have := Hm n H; rewrite ltnn.
Qed.
Lemma up_pow (x : R) : exists n : nat, x <= 2%:R ^+ n.
Proof. by have [n H] := up_nat x; exists n; apply: (le_trans (ltW H)); rewrite -natrX ler_nat ltnW // ltn_expl. Qed.
Definition wlog2 (x : R) : R := (ex_minn (up_pow x))%:R.
Lemma wlog2_ok : log2_ok wlog2.
Proof.
move=> x k x0; rewrite /wlog2; case: ex_minnP => n Hn Hm; rewrite ler_nat; apply/idP/idP => [nk|/Hm //].
by apply: (le_trans Hn); rewrite -!natrX ler_nat leq_exp2l.
Qed.
End Arch.
Lemma up_nat (x : ralg) : exists n : nat, x < n%:R.
Proof.
case: (lerP 0 x) => [x0|x0]; last by exists 0%N.
by exists (Num.bound x); exact: (@archi_boundP [archiFieldType of realalg] x x0).
Qed.
Definition warccos (x : ralg) : ralg := 1 - x.
Lemma warccos_ok : arccos_ok tenth warccos.
Proof.
split=> [x y _ _|x /andP[H _]]; rewrite /warccos; first by rewrite ler_add2l ler_opp2.
apply: (@le_lt_trans _ _ (1 + 1)); first by rewrite ler_add2l ler_oppl.
by rewrite -natrM -(natrD _ 1 1) ltr_nat.
Qed.
Example part_example : exists vs fs rows, [/\ sphere_tri tenth sargsort 13 (IInt 1) = Some (Ok (vs, fs)), sphere_part tenth warccos (wlog2 up_nat) (wceil up_nat) sargsort 13 13 = Some (Ok rows),
  size rows = 13%N & forall x y, x \in vs -> y \in vs -> x != y -> dir_tol ralg <= vlen (x - y)].
Proof.
have [vs [fs [E _ _ _ [_ _ H0]]]] := grid tenth_ok sargsort_ok (isT : (1 <= 13)%N).
have P : part_depth (wlog2 up_nat) (wceil up_nat) 13 = 1%N by [].
exists vs, fs; eexists; split; [exact: E|exact: (partE warccos P E H0)|by []|exact: (depth1_sep tenth_ok sargsort_ok _ E)].
Qed.
