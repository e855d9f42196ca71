(** Equality of ellipsoids and hyperplanes: refutations and examples. *)
Require Import Coq.Lists.List.
From mathcomp Require Import all_ssreflect all_algebra.
From mathcomp.algebra_tactics Require Import ring.
Require Import Coq.Strings.String.
From Verif.Model Require Import Py NP NP3 Linalg La Core EllGeom Ellipsoid Hyperplane Compare Dict EllEq.
From Verif.Spec Require Import MatSpec LinalgSpec CompareSpec DictSpec EllSpec EllipsoidSpec HypSpec EllEqSpec.
From Verif.Proof Require Import MatLib NPLib LaBasic LinalgSat EllLib CompareProof CoreProof EllScalEx OpsEx HypOps DictProof EllEqProof.
Set Implicit Arguments.
Unset Strict Implicit.
Unset Printing Implicit Defensive.
Import Order.Theory GRing.Theory Num.Theory.
Local Open Scope ring_scope.

Section Raises.
Variables (R : rcfType) (T : Type) (c : cls R T).

Lemma eq_empty (a b : arr T) p : data a = [::] -> data b = [::] -> is_equal c a b p = Ok (Arr [:: 1%N] [:: true], R0 R).
Proof. by move=> Ea Eb; rewrite /is_equal /is_equal_internal Ea Eb. Qed.
Lemma eq_one_empty (a b : arr T) p : (size (data a) == 0%N) != (size (data b) == 0%N) -> is_equal c a b p = throw "wrongInput".
Proof. by rewrite /is_equal /is_equal_internal; case: (size _ == _); case: (size _ == _). Qed.
Lemma eq_sizes (a b : arr T) p : (1 < size (data a))%N -> (1 < size (data b))%N -> shape a <> shape b -> is_equal c a b p = throw "wrongSizes".
Proof.
by move=> Ha Hb Hs; rewrite /is_equal /is_equal_internal !gtn_eqF ?(ltnW Ha) ?(ltnW Hb) //= Ha Hb (introN eqP Hs).
Qed.
End Raises.

Section Ex.
Variable R : rcfType.

(** one object in a list and the same object alone are not equal *)
Lemma ell_single_shape la (e : ell R) : eigh_ok la -> valid e ->
  is_equal (ell_cls la) (Arr [:: 1%N] [:: e]) (Arr [::] [:: e]) false = Ok (Arr [::] [:: false], RDictSizes R).
Proof.
move=> Hla He; have [[t Et t0] [r Er _]] := valid_tol la He; have [d [a1 [a2 [E1 E2 _ _ _]]]] := ell_run Hla t0 He.
rewrite /is_equal /is_equal_internal /=; rewrite /= in Et Er E1.
by rewrite Et xminE minxx /=; case: E1 => E1; subst d; rewrite /= in E2; rewrite E2.
Qed.

(** the properties have no transforms *)
Lemma ell_prop la (e : ell R) : eigh_ok la -> valid e -> is_equal (ell_cls la) (Arr [:: 1%N] [:: e]) (Arr [:: 1%N] [:: e]) true = KeyError.
Proof.
move=> Hla He; have [[t Et t0] [r Er _]] := valid_tol la He; have [d [a1 [a2 [[E1] E2 _ _ _]]]] := ell_run Hla t0 He.
rewrite /is_equal /is_equal_internal /=; rewrite /= in Et Er.
rewrite Et xminE minxx /=; subst d; move: E2 => /=.
case: ifP => _ /=; first by case: ifP => _.
by case: (sqrtm_pos _ _ _) => [s|x] //=; case: ifP => _.
Qed.

(** the operator == *)
Lemma one_comparable T (x y : T) : comparable (Arr [:: 1%N] [:: x]) (Arr [:: 1%N] [:: y]).
Proof. by split=> //; apply: Or31. Qed.
Lemma ell_op la (x y : ell R) : eigh_ok la -> valid x -> valid y ->
  exists at_ rt b, [/\ eq_op (ell_cls la) x y = Ok b, least [:: p_abs (e_props x); p_abs (e_props y)] at_,
    least [:: p_rel (e_props x); p_rel (e_props y)] rt & b <-> same_ell at_ rt x y].
Proof.
move=> Hla Hx Hy; have Hc := one_comparable x y.
have P1 : forall z, In z [:: x] -> valid z by move=> z [<-|//].
have P2 : forall z, In z [:: y] -> valid z by move=> z [<-|//].
have [at_ [rt [bs [rp [E Sb _ [La Lr _ _ H]]]]]] := ell_verdict Hla Hc P1 P2.
rewrite /common_shape /= in E Sb H; case: bs Sb E H => [|b [|? ?]] // _ E H.
by exists at_, rt, b; rewrite /eq_op -/(is_equal _ _ _ _) E; split=> //; exact: (H 0%N x isT).
Qed.
Lemma hp_op (x y : hp R) : proper_hp x -> proper_hp y ->
  exists at_ rt b, [/\ eq_op (hp_cls R) x y = Ok b, least [:: h_abs x; h_abs y] at_,
    least [:: h_rel x; h_rel y] rt & b <-> same_hp at_ rt x y].
Proof.
move=> Hx Hy; have Hc := one_comparable x y.
have P1 : forall z, In z [:: x] -> proper_hp z by move=> z [<-|//].
have P2 : forall z, In z [:: y] -> proper_hp z by move=> z [<-|//].
have [at_ [rt [bs [rp [E Sb _ [La Lr _ _ H]]]]]] := hp_verdict Hc P1 P2.
rewrite /common_shape /= in E Sb H; case: bs Sb E H => [|b [|? ?]] // _ E H.
by exists at_, rt, b; rewrite /eq_op -/(is_equal _ _ _ _) E; split=> //; exact: (H 0%N x isT).
Qed.

(** one hyperplane under two descriptions *)
Lemma same_set n (v w : 'cV[R]_n) s r : v != 0 -> w != 0 -> (forall x, on_hp v s x <-> on_hp w r x) ->
  exists2 k : R, k != 0 & w = k *: v /\ r = k * s.
Proof.
move=> v0 w0 H; have q0 : sqn v != 0 by rewrite sqn_eq0.
pose x0 := (s / sqn v) *: v.
have H0 : dotv v x0 = s by rewrite /x0 dotvZr -/(sqn v) divfK.
have H0' : dotv w x0 = r by apply/H.
pose k := dotv v w / sqn v; pose u := w - k *: v.
have Hu : dotv v u = 0 by rewrite /u dotvBr dotvZr -/(sqn v) /k divfK // subrr.
have Hwu : dotv w u = 0.
  have : dotv w (x0 + u) = r by apply/H; rewrite /on_hp dotvDr H0 Hu addr0.
  by rewrite dotvDr H0' => /(canRL (addKr _)); rewrite addNr.
have /eqP : sqn u = 0 by rewrite /sqn {1}/u dotvBl dotvZl Hwu Hu mulr0 subrr.
rewrite sqn_eq0 /u subr_eq0 => /eqP Ew.
exists k; first by apply: contraNneq w0 => k0; rewrite Ew k0 scale0r.
by split=> //; rewrite -H0' Ew dotvZl H0.
Qed.

Lemma hp_same_set (h1 h2 : hp R) n (v w : 'cV[R]_n) s r t t' : hrepr h1 v s t -> hrepr h2 w r t' -> solid v s t -> solid w r t' -> v != 0 -> w != 0 -> s != 0 ->
  (forall x, on_hp v s x <-> on_hp w r x) ->
  exists2 rp, is_equal (hp_cls R) (Arr [:: 1%N] [:: h1]) (Arr [:: 1%N] [:: h2]) false = Ok (Arr [:: 1%N] [:: true], rp) & no_report rp.
Proof.
move=> H1 H2 S1 S2 v0 w0 s0 Hx; have [k k0 [Ew Er]] := same_set v0 w0 Hx.
have Hc : comparable (Arr [:: 1%N] [:: h1]) (Arr [:: 1%N] [:: h2]) by split=> //; apply: Or31.
have P1 : forall x, In x [:: h1] -> proper_hp x by move=> x [<-|//]; exists n, v, s, t.
have P2 : forall x, In x [:: h2] -> proper_hp x by move=> x [<-|//]; exists n, w, r, t'.
have [at_ [rt [bs [rp [E Sb Hr [_ _ a0 _ H]]]]]] := hp_verdict Hc P1 P2.
rewrite /common_shape /= in E Sb H; case: bs Sb E Hr H => [|b [|? ?]] // _ E Hr H.
have Eb : b.
  apply/(H 0%N h1 isT); rewrite /elt /=; case: H1 => E1 E1' _ _ _; case: H2 => E2 E2' _ _ _.
  exists n, v, w, s, r; split=> //; have [C1 C2] := canon_scale k0 v0 (introT orP (or_intror s0)).
  rewrite Ew Er C1 C2; split; first exact/close_mx_refl/ltW.
  by left; rewrite subrr normr0; apply: ltW.
by exists rp; [rewrite E Eb|rewrite Hr /= Eb].
Qed.

(** a hyperplane through the origin and the one with the opposite normal: the same set, not equal *)
Definition hp_at n (v : 'cV[R]_n) (s : R) : hp R := Hp (vec v) (Fin s) (Fin (10%:R ^- 7)) (Fin (10%:R ^- 5)).
Lemma hp_at_repr n (v : 'cV[R]_n) s : hrepr (hp_at v s) v s (10%:R ^- 7).
Proof. by split=> //; [exact: ten7|exists (10%:R ^- 5) => //; exact: ten5]. Qed.
Definition e1 : 'cV[R]_2 := delta_mx 0 0.
Lemma e1_n0 : e1 != 0.
Proof. by apply/eqP => /matrixP/(_ 0 0); rewrite !mxE eqxx; apply/eqP/oner_neq0. Qed.
Lemma e1_len : len e1 = 1.
Proof. by rewrite /len /sqn /dotv big_ord_recl big_ord1 !mxE /= mulr1 mulr0 addr0 sqrtr1. Qed.
Lemma solid2 (v : 'cV[R]_2) s t : solid v s t. Proof. by []. Qed.
Lemma proper2 (v : 'cV[R]_2) s : v != 0 -> proper_hp (hp_at v s).
Proof. by move=> v0; exists 2%N, v, s, (10%:R ^- 7); split=> //; exact: hp_at_repr. Qed.
Lemma ten_lt1 k : (0 < k)%N -> (10%:R ^- k : R) < 1.
Proof.
move=> k0; rewrite -[10%:R ^- k]div1r ltr_pdivr_mulr ?exprn_gt0 ?ltr0n // mul1r exprn_egt1 ?(ltr_nat R 1 10) //.
by case: k k0.
Qed.

Lemma hp_zero_shift : (forall x, on_hp e1 0 x <-> on_hp (- e1) 0 x) /\
  exists rp, is_equal (hp_cls R) (Arr [:: 1%N] [:: hp_at e1 0]) (Arr [:: 1%N] [:: hp_at (- e1) 0]) false = Ok (Arr [:: 1%N] [:: false], rp).
Proof.
split; first by move=> x; rewrite /on_hp dotvNl; split=> [->|/eqP]; [rewrite oppr0|rewrite oppr_eq0 => /eqP].
have n0 : - e1 != 0 by rewrite oppr_eq0 e1_n0.
have P1 : forall x, In x [:: hp_at e1 0] -> proper_hp x by move=> x [<-|//]; apply: proper2 e1_n0.
have P2 : forall x, In x [:: hp_at (- e1) 0] -> proper_hp x by move=> x [<-|//]; apply: proper2 n0.
have Hc : comparable (Arr [:: 1%N] [:: hp_at e1 0]) (Arr [:: 1%N] [:: hp_at (- e1) 0]) by split=> //; apply: Or31.
have [at_ [rt [bs [rp [E Sb _ [La Lr a0 r0 H]]]]]] := hp_verdict Hc P1 P2.
exists rp; rewrite /common_shape /= in E Sb H; case: bs Sb E H => [|b [|? ?]] // _ E H; rewrite E; congr (Ok (Arr _ [:: _], _)).
apply/negbTE/negP => /(H 0%N (hp_at e1 0) isT) [n [v1 [v2 [s1 [s2 [[/= D1 D2 [D3] [D4]] [C _]]]]]]].
have En := shape_vec_inj D1; subst n; move: C; rewrite -(vec_inj D1) -(vec_inj D2) -D3 -D4 /canon_normal ltxx => /(_ 0 0).
have U1 : unitv e1 = e1 by rewrite /unitv e1_len invr1 scale1r.
have U2 : unitv (- e1) = - e1.
  by rewrite /unitv (_ : len (- e1) = 1) ?invr1 ?scale1r // /len /sqn dotvNl dotvNr opprK -/(sqn e1) -/(len e1) e1_len.
have A1 : at_ < 1 by case: La => _ /(_ 0%N isT) [x [<-]] /le_lt_trans; apply; exact: ten_lt1.
have A2 : rt < 1 by case: Lr => _ /(_ 0%N isT) [x [<-]] /le_lt_trans; apply; exact: ten_lt1.
rewrite U1 U2 !mxE /= opprK normrN normr1.
have -> : `|1 + 1 : R| = 2%:R by rewrite ger0_norm // ?addr_ge0 ?ler01.
have L2 : (1 : R) < 2%:R by rewrite (ltr_nat R 1 2).
have T0 : (2%:R : R) != 0 by rewrite pnatr_eq0.
case=> [/=|[x [<-]] /=]; first by rewrite leNgt (lt_trans A1 L2).
by rewrite -[1 + 1]/(2%:R) divff // divr1 leNgt (lt_trans A2 L2).
Qed.

Lemma ball_valid n (c : 'cV[R]_n) (a : R) : 0 <= a -> valid (ball_at c a).
Proof. by move=> a0; exists n, c, a%:M, (10%:R ^- 7); exact: ball_repr. Qed.
Lemma two_valid x : In x (two_balls R) -> valid x.
Proof. by move=> [<-|[<-|//]]; apply: ball_valid; [exact: ler01|exact: ler0n]. Qed.
End Ex.
