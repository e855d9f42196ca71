(** Sines and cosines that meet their contract, over the real algebraic numbers. *)
From mathcomp Require Import all_ssreflect all_algebra.
From mathcomp Require Import ring.
From mathcomp Require Import complex realalg.
From Verif.Model Require Import Py NP Tri Sphere.
From Verif.Spec Require Import TriSpec SphereSpec.
From Verif.Proof Require Import TriDec Icosa SphereExt.
From mathcomp.zify Require Import zify.
Set Implicit Arguments.
Unset Strict Implicit.
Unset Printing Implicit Defensive.
Import Order.Theory GRing.Theory Num.Theory.
Local Open Scope ring_scope.

Notation ralg := realalg_rcfType.

(** the integer equal to x, if there is one *)
Definition ints (B : nat) : seq int := [seq k%:Z | k <- iota 0 B] ++ [seq - k%:Z | k <- iota 0 B].
Definition to_int (x : ralg) : int :=
  let l := ints (Num.bound (`|x| : realalg_archiFieldType)) in nth 0 l (find (fun k : int => k%:~R == x) l).
Lemma to_intK (i : int) : to_int i%:~R = i.
Proof.
rewrite /to_int; set B := Num.bound _.
have HB : (`|i| < B)%N.
  have := archi_boundP (normr_ge0 (i%:~R : realalg_archiFieldType)); rewrite -/B -intr_norm -[B%:R]/(B%:Z%:~R) ltr_int; lia.
have Hi : i \in ints B.
  move: HB; move: B => B HB; rewrite mem_cat; case: i HB => k HB; apply/orP; [left|right]; apply/mapP.
    by exists k; rewrite ?mem_iota.
  by exists k.+1; rewrite ?mem_iota ?NegzE.
have Hh : has (fun k : int => k%:~R == (i%:~R : ralg)) (ints B) by apply/hasP; exists i.
by have /eqP := nth_find 0 Hh; move/intr_inj.
Qed.

Section Mk.
Variables (p : ralg) (w : complex ralg).
Definition ReP (i : int) : ralg := complex.Re (w ^ i).
Definition ImP (i : int) : ralg := complex.Im (w ^ i).
Definition mk_trig : trig ralg := Trig (fun x => ReP (to_int x)) (fun x => ImP (to_int x)) p.

Hypothesis w1 : complex.Re w ^+ 2 + complex.Im w ^+ 2 = 1.
Lemma w0 : w != 0.
Proof. by apply/eqP => w0; move: w1; rewrite w0 /= expr0n addr0 => /eqP; rewrite eq_sym oner_eq0. Qed.
Lemma ReM (x y : complex ralg) : complex.Re (x * y) = complex.Re x * complex.Re y - complex.Im x * complex.Im y.
Proof. by case: x y => a b [c d]. Qed.
Lemma ImM (x y : complex ralg) : complex.Im (x * y) = complex.Im x * complex.Re y + complex.Re x * complex.Im y.
Proof. by case: x y => a b [c d]; rewrite addrC. Qed.
Lemma RePD i j : ReP (i + j) = ReP i * ReP j - ImP i * ImP j. Proof. by rewrite /ReP expfzDr ?w0 // ReM. Qed.
Lemma ImPD i j : ImP (i + j) = ImP i * ReP j + ReP i * ImP j. Proof. by rewrite /ImP expfzDr ?w0 // ImM. Qed.
Lemma modP (k : nat) : ReP k ^+ 2 + ImP k ^+ 2 = 1.
Proof.
elim: k => [|k IH]; first by rewrite /ReP /ImP expr0z /= expr1n expr0n addr0.
have E1 : ReP 1%N = complex.Re w by rewrite /ReP expr1z.
have E2 : ImP 1%N = complex.Im w by rewrite /ImP expr1z.
rewrite -addn1 PoszD RePD ImPD E1 E2.
transitivity ((ReP k ^+ 2 + ImP k ^+ 2) * (complex.Re w ^+ 2 + complex.Im w ^+ 2)); last by rewrite IH w1 mulr1.
ring.
Qed.
Lemma inv_conj (x : complex ralg) : complex.Re x ^+ 2 + complex.Im x ^+ 2 = 1 ->
  complex.Re x^-1 = complex.Re x /\ complex.Im x^-1 = - complex.Im x.
Proof. by case: x => a b /= H; rewrite /= H !divr1. Qed.
Lemma RePN i : ReP (- i) = ReP i /\ ImP (- i) = - ImP i.
Proof.
have P (k : nat) : ReP (- k%:Z) = ReP k /\ ImP (- k%:Z) = - ImP k.
  by rewrite /ReP /ImP -exprnN; apply: inv_conj; exact: modP.
case: i => k; first exact: P.
by rewrite NegzE opprK; have [-> ->] := P k.+1; rewrite opprK.
Qed.

Lemma mk_ok n h : h = 1 -> n%:R * h = 2%:R * p -> w ^+ n = 1 -> (forall i : nat, (0 < i)%N -> (2 * i < n)%N -> 0 < ImP i) ->
  (forall i : nat, (0 < i)%N -> (2 * i)%N = n -> ReP i = -1) -> angle_ok mk_trig h n.
Proof.
move=> -> Hn Hw Hp Hh.
have T (i : int) : to_int (i%:~R * 1) = i by rewrite mulr1 to_intK.
have TN (i : int) : to_int (- (i%:~R * 1)) = - i by rewrite mulr1 -rmorphN to_intK.
have T' (i : nat) : to_int (i%:R * 1) = i by exact: (T i%:Z).
split=> //= [|i|i|i j|i j||i|i]; rewrite ?T ?TN ?T' //; try by case: (RePN i).
- by have -> : to_int 0 = 0 by exact: (to_intK 0); rewrite /ReP expr0z.
- exact: RePD.
- exact: ImPD.
- by rewrite /ReP -exprnP Hw.
- exact: Hp.
- exact: Hh.
Qed.
End Mk.

(** four points *)
Definition quarter : trig ralg := mk_trig 2%:R (0 +i* 1)%C.
Lemma quarter_ok : angle_ok quarter (2%:R * t_pi quarter / 4%:R) 4.
Proof.
have I2 : (0 +i* 1 : complex ralg)%C ^+ 2 = -1 by rewrite expr2; apply/eqP; rewrite eq_complex /= !mul0r !mulr1 !mulr0 addr0 sub0r eqxx oppr0 eqxx.
apply: mk_ok => //=.
- by rewrite expr0n expr1n add0r.
- by rewrite -natrM divff ?pnatr_eq0.
- by rewrite -natrM divff ?pnatr_eq0 // mulr1.
- by rewrite (exprM _ 2 2) I2 sqrrN expr1n.
- by move=> i H1 H2; (have -> : i = 1%N by lia); rewrite /ImP expr1z; exact: ltr01.
by move=> i H1 H2; (have -> : i = 2%N by lia); rewrite /ReP -exprnP I2.
Qed.

(** the tenth part of a turn *)
Definition cos36 : ralg := (1 + Num.sqrt 5%:R) / 4%:R.
Definition sin36 : ralg := Num.sqrt (1 - cos36 ^+ 2).
Definition tenth : trig ralg := mk_trig 5%:R (cos36 +i* sin36)%C.
Lemma tenth_ok : angle_ok tenth (t_pi tenth / 5%:R) 10.
Proof.
set q := Num.sqrt (5%:R : ralg); have q2 : q ^+ 2 = 5%:R by rewrite sqr_sqrtr ?ler0n.
have q0 : 2%:R < q.
  rewrite -[2%:R]ger0_norm ?ler0n // -sqrtr_sqr ltr_sqrt ?ltr0n // -natrX ltr_nat //.
have q3 : q < 3%:R.
  by rewrite -[3%:R]ger0_norm ?ler0n // -sqrtr_sqr ltr_sqrt ?exprn_gt0 ?ltr0n // -natrX ltr_nat.
set c := cos36; set s := sin36.
have c2 : 4%:R * c ^+ 2 = 2%:R * c + 1.
  have -> : 4%:R * c ^+ 2 = (1 + 2%:R * q + q ^+ 2) / 4%:R by rewrite /c /cos36 -/q; field.
  by rewrite q2 /c /cos36 -/q; field.
have c_lo : 2%:R^-1 < c.
  rewrite /c /cos36 -/q -subr_gt0; have -> : (1 + q) / 4%:R - 2%:R^-1 = (q - 1) / 4%:R by field.
  by rewrite divr_gt0 ?ltr0n // subr_gt0 (lt_trans _ q0) // ltr1n.
have c_hi : c < 1.
  by rewrite /c /cos36 -/q ltr_pdivr_mulr ?ltr0n // mul1r -[4%:R]/((1 + 3)%N%:R) natrD ltr_add2l.
have c0 : 0 < c by apply: lt_trans c_lo; rewrite invr_gt0 ltr0n.
have s2 : s ^+ 2 = 1 - c ^+ 2.
  rewrite sqr_sqrtr // subr_ge0 -(expr1n _ 2) ler_pexpn2r ?nnegrE ?ltW ?ltr01 //.
have s0 : 0 < s.
  by rewrite sqrtr_gt0 subr_gt0 -(expr1n _ 2) ltr_pexpn2r // ?nnegrE ?ltW ?ltr01.
have cc : c ^+ 2 = c / 2%:R + 4%:R^-1.
  have -> : c ^+ 2 = (4%:R * c ^+ 2) / 4%:R by field.
  by rewrite c2; field.
have e1 : c ^+ 2 - (c / 2%:R + 4%:R^-1) = 0 by rewrite cc subrr.
have e2 : s ^+ 2 - (1 - c ^+ 2) = 0 by rewrite s2 subrr.
have Z (x y A B : ralg) : x - y = A * (c ^+ 2 - (c / 2%:R + 4%:R^-1)) + B * (s ^+ 2 - (1 - c ^+ 2)) -> x = y.
  by rewrite e1 e2 !mulr0 addr0 => /eqP; rewrite subr_eq0 => /eqP.
pose w : complex ralg := (c +i* s)%C.
have W2 : w ^+ 2 = ((c - 2%:R^-1) +i* (2%:R * c * s))%C.
  by rewrite expr2; congr Complex; [apply: (Z _ _ 2%:R (-1)); field|ring].
have W3 : w ^+ 3 = ((2%:R^-1 - c) +i* (2%:R * c * s))%C.
  by rewrite exprS W2; congr Complex; [apply: (Z _ _ (2%:R * c + 2%:R) (- (2%:R * c))); field|apply: (Z _ _ (2%:R * s) 0); field].
have W4 : w ^+ 4 = (- c +i* s)%C.
  rewrite (exprM w 2 2) W2 expr2; congr Complex; [apply: (Z _ _ (4%:R * c ^+ 2 + 2%:R * c - 1) (- (4%:R * c ^+ 2)))|apply: (Z _ _ (4%:R * s) 0)]; by field.
have W5 : w ^+ 5 = -1.
  rewrite exprSr W4; apply/eqP; rewrite eq_complex /=; apply/andP; split; apply/eqP; last by ring.
  by apply: (Z _ _ 0 (-1)); ring.
have S2 : 0 < 2%:R * c * s by rewrite pmulr_rgt0 // pmulr_rgt0 // ltr0n.
apply: mk_ok.
- by rewrite /= -/c -/s s2 addrC subrK.
- by rewrite /= divff ?pnatr_eq0.
- by rewrite /= divff ?pnatr_eq0 // mulr1 -natrM.
- by rewrite -/w (exprM w 5 2) W5 sqrrN expr1n.
- move=> i i0 Hi; rewrite /ImP -exprnP -/w.
  have : i \in [:: 1; 2; 3; 4]%N by rewrite !inE; lia.
  by rewrite !inE => /or4P[] /eqP ->; rewrite ?expr1 ?W2 ?W3 ?W4.
by move=> i i0 Hi; (have -> : i = 5%N by lia); rewrite /ReP -exprnP -/w W5.
Qed.

Example circle4 : exists vs, [/\ circle_part quarter (IInt 4%:Z) None = Ok vs, size vs = 4%N & vs = [:: row2 1 0; row2 0 1; row2 (-1) 0; row2 0 (-1)]].
Proof.
have [vs [E [Sv _] _ H0 H]] := circle_full (isT : (0 < 4)%N) quarter_ok; exists vs; split=> //.
have [c s] : t_cos quarter (2%:R * t_pi quarter / 4%:R) = 0 /\ t_sin quarter (2%:R * t_pi quarter / 4%:R) = 1.
  have -> : 2%:R * t_pi quarter / 4%:R = 1%:~R by rewrite /= -natrM divff ?pnatr_eq0.
  by rewrite /= to_intK /ReP /ImP expr1z.
have T (x y : ralg) (v : 'rV[ralg]_2) : turned 0 1 (row2 x y) v -> v = row2 (- y) x.
  have [e1 e2] := row2E x y; rewrite /turned e1 e2 !mulr0 !mulr1 !add0r => -[h0 h1].
  apply/rowP => j; rewrite mxE; case: eqP => [->//|/eqP Hj]; rewrite -h1; congr (v 0 _); apply/val_inj; case: j Hj => -[|[|[]]] //.
rewrite c s in H; case: vs Sv E H0 H => [|a [|b [|d [|e [|]]]]] //= _ _ -> H.
have /T Eb := H 0%N isT; rewrite /= in Eb; rewrite Eb in H *.
have /T Ed := H 1%N isT; rewrite /= in Ed; rewrite Ed in H *.
have /T Ee := H 2%N isT; rewrite /= in Ee; by rewrite Ee !oppr0.
Qed.
Example tenth_sphere : exists vs fs, sphere_tri tenth sargsort 3 (IInt 3%:Z) = Some (Ok (vs, fs)) /\ size vs = 642%N.
Proof.
have [vs [fs [E [[H _ _] _ _ _ _]]]] := sphere_tri_ok tenth_ok sargsort_ok (leqnn 3); by exists vs, fs.
Qed.
Lemma quarter_arc : arc_ok quarter 0 ((2%:R * t_pi quarter - 0) / 4%:R).
Proof.
have G := quarter_ok; rewrite subr0; set h := 2%:R * t_pi quarter / 4%:R => k x y.
have Ex : x = k%:Z%:~R * h by rewrite /x addr0.
have Ey : y = (k%:Z + 1)%:~R * h by rewrite /y addr0 intrD rmorph1 -[k.+1]addn1 natrD.
rewrite Ex Ey; split; first exact: (pyth G k).
  by have := CgD G k 1; rewrite /Cg /Sg mul1r.
by have := SgD G k 1; rewrite /Cg /Sg mul1r.
Qed.
