(** The operators of ellipsoids and hyperplanes. *)
Require Import Coq.Lists.List.
From mathcomp Require Import all_ssreflect all_algebra ring.
Require Import Coq.Strings.String.
From Verif.Model Require Import Py NP NP3 Linalg La EllGeom Ellipsoid Hyperplane Compare Dict EllEq Operators.
From Verif.Spec Require Import MatSpec LinalgSpec CompareSpec DictSpec EllSpec EllipsoidSpec HypSpec EllEqSpec.
From Verif.Proof Require Import NPLib MatLib LaBasic LinalgSat EllLib EllScalProof EllScalEx OpsEx EllEqProof EllEqEx HypOps.
Set Implicit Arguments.
Unset Strict Implicit.
Unset Printing Implicit Defensive.
Import Order.Theory GRing.Theory Num.Theory.
Local Open Scope ring_scope.

Section OP.
Variable R : rcfType.

Lemma neg_run (la : linalg R) cfg p t (e : ell R) : eigvalsh_ok la -> props_of cfg (no_kw R) p t -> valid e ->
  neg_op la cfg e = Ok (Ell (np_neg (e_center e)) (e_shape e) p) /\ valid (Ell (np_neg (e_center e)) (e_shape e) p).
Proof.
move=> Hla Hp He; have HF : List.Forall (@valid R) [:: e] by constructor.
have [rs E [Hr Hv Hq]] := EllScalProof.uminus_run [:: 1%N] Hla Hp HF.
case: rs E Hr Hv Hq => [|r [|? ?]] E Hr Hv Hq; try by inversion Hr as [|? ? ? ? ? Hr']; inversion Hr'.
have {Hv}Vr : valid r by inversion Hv.
have {Hq}Pr : e_props r = p by inversion Hq.
have {}Hr : forall n (c : 'cV[R]_n) (Q : 'M[R]_n) t', repr e c Q t' -> repr r (- c) Q t.
  by inversion Hr as [|? ? ? ? H1 H2].
have Er : r = Ell (np_neg (e_center e)) (e_shape e) p.
  have [n [c [Q [t' He']]]] := He; have [[C1 C2 _ _] _] := Hr _ _ _ _ He'.
  have [[D1 D2 _ _] _] := He'; rewrite D1 D2 np_neg_vec -C1 -C2 -Pr; by case: (r).
by rewrite -Er; split=> //; rewrite /neg_op /one E.
Qed.

Lemma close_refl (a r x : R) : 0 <= a -> close (Fin a) (Some (Fin r)) (Fin x) (Fin x).
Proof. by move=> a0; left; rewrite /within subrr normr0. Qed.
Lemma close_opp (a r x y : R) : close (Fin a) (Some (Fin r)) (Fin x) (Fin y) ->
  close (Fin a) (Some (Fin r)) (Fin (- x)) (Fin (- y)).
Proof.
have E : `|- x - - y| = `|x - y| by rewrite opprK addrC distrC.
by rewrite /close E !normrN.
Qed.

Lemma least_pos (s : seq (xnum R)) m : least s m -> (forall i, (i < size s)%N -> exists2 x, nth NaN s i = Fin x & 0 < x) -> 0 < m.
Proof. by move=> [[i Hi Em] _] H; have [x] := H i Hi; rewrite Em => -[->]. Qed.
Lemma valid_pos (e : ell R) : valid e -> (exists2 t, p_abs (e_props e) = Fin t & 0 < t) /\ (exists2 t, p_rel (e_props e) = Fin t & 0 < t).
Proof. by move=> [n [c [Q [t [[_ _ E t0] [_ _ [r Er r0]]]]]]]; split; [exists t | exists r]. Qed.

(** same centre and shape: equal, whatever the tolerances *)
Lemma same_data_eq (la : linalg R) (e f : ell R) : eigh_ok la -> valid e -> valid f ->
  e_center e = e_center f -> e_shape e = e_shape f -> eq_op (ell_cls la) e f = Ok true.
Proof.
move=> Hla He Hf Ec Es; have [at_ [rt [b [-> La _ Hb]]]] := ell_op Hla He Hf; congr Ok.
have a0 : 0 < at_.
  apply: least_pos La _ => -[|[|//]] _ /=; [by have [] := valid_pos He | by have [] := valid_pos Hf].
apply/Hb; have [n [c [Q [t [[C1 C2 _ _] [HQ PQ _]]]]]] := He.
have [S [HS PS ES]] := psd_root HQ PQ.
exists n, c, c, S, S; rewrite -Ec -Es ES; split=> //; split=> // i j; exact: close_refl (ltW a0).
Qed.

Theorem neg_twice (la : linalg R) cfg p t (e : ell R) : eigh_ok la -> eigvalsh_ok la ->
  props_of cfg (no_kw R) p t -> valid e ->
  exists f g, [/\ neg_op la cfg e = Ok f, neg_op la cfg f = Ok g, eq_op (ell_cls la) g e = Ok true,
    eq_op (ell_cls la) e g = Ok true &
    forall n (c : 'cV[R]_n) (Q : 'M[R]_n) t', repr e c Q t' -> repr f (- c) Q t /\ repr g c Q t].
Proof.
move=> Hla Hlv Hp He; have [E1 V1] := neg_run Hlv Hp He; have [E2 V2] := neg_run Hlv Hp V1.
have NN : np_neg (np_neg (e_center e)) = e_center e.
  by have [n [c [Q [t' [[-> _ _ _] _]]]]] := He; rewrite !np_neg_vec opprK.
have [_ Pt t0 Pr] := Hp.
do 2!eexists; split; [exact: E1 | exact: E2 | | |].
- by apply: same_data_eq.
- by apply: same_data_eq.
move=> n c Q t' [[C1 C2 _ _] [HQ PQ _]]; rewrite /= C1 C2 !np_neg_vec opprK.
by split; split.
Qed.

Theorem neg_cong (la : linalg R) cfg p t (e f : ell R) : eigh_ok la -> eigvalsh_ok la ->
  props_of cfg (no_kw R) p t -> valid e -> valid f -> e_props e = p -> e_props f = p ->
  exists e' f', [/\ neg_op la cfg e = Ok e', neg_op la cfg f = Ok f' &
    eq_op (ell_cls la) e' f' = eq_op (ell_cls la) e f].
Proof.
move=> Hla Hlv Hp He Hf Pe Pf; have [E1 V1] := neg_run Hlv Hp He; have [E2 V2] := neg_run Hlv Hp Hf.
do 2!eexists; split; [exact: E1 | exact: E2 |].
have [at_ [rt [b [-> La Lr Hb]]]] := ell_op Hla He Hf.
have [at' [rt' [b' [-> La' Lr' Hb']]]] := ell_op Hla V1 V2.
rewrite Pe Pf in La Lr; rewrite /= in La' Lr'.
have LU (x : xnum R) m m' : least [:: x; x] m -> least [:: x; x] m' -> m = m'.
  by move=> [[[|[|//]] _ /= E] _] [[[|[|//]] _ /= E'] _]; move: E'; rewrite E => -[].
rewrite -(LU _ _ _ La La') -(LU _ _ _ Lr Lr') in Hb'; congr Ok.
have NN (x : ell R) : valid x -> np_neg (np_neg (e_center x)) = e_center x.
  by move=> [n [c [Q [t' [[-> _ _ _] _]]]]]; rewrite !np_neg_vec opprK.
apply/idP/idP.
- move/Hb' => [n [c1 [c2 [S1 [S2 [[C1 C2 D1 D2] [H1 H2 H3 H4]]]]]]]; apply/Hb.
  exists n, (- c1), (- c2), S1, S2; split; split=> //.
  + by rewrite -np_neg_vec -C1 /= NN.
  + by rewrite -np_neg_vec -C2 /= NN.
  + by move=> i j; rewrite !mxE; apply: close_opp; exact: H3.
move/Hb => [n [c1 [c2 [S1 [S2 [[C1 C2 D1 D2] [H1 H2 H3 H4]]]]]]]; apply/Hb'.
exists n, (- c1), (- c2), S1, S2; rewrite /= C1 C2 !np_neg_vec; split; split=> //.
by move=> i j; rewrite !mxE; apply: close_opp; exact: H3.
Qed.

(** an ellipsoid equals its reflection exactly when its centre is within the tolerance of the origin *)
Theorem neg_self (la : linalg R) cfg p t r n (e : ell R) (c : 'cV[R]_n) Q : eigh_ok la -> eigvalsh_ok la ->
  props_of cfg (no_kw R) p t -> p_rel p = Fin r -> r < 2%:R -> repr e c Q t -> e_props e = p ->
  exists f b, [/\ neg_op la cfg e = Ok f, eq_op (ell_cls la) f e = Ok b & b <-> forall i, 2%:R * `|c i 0| <= t].
Proof.
move=> Hla Hlv Hp Er r2 Hr Pe; have He : valid e by exists n, c, Q, t.
have [E1 V1] := neg_run Hlv Hp He.
have [at_ [rt [b [Eb La Lr Hb]]]] := ell_op Hla V1 He.
have [[C1 C2 C3 t0] [HQ PQ _]] := Hr; have [_ Pt _ _] := Hp.
rewrite Pe /= Pt Er in La Lr.
have Ea : at_ = t by case: La => [[[|[|//]] _ /= [<-]] _].
have Et : rt = r by case: Lr => [[[|[|//]] _ /= [<-]] _].
subst at_ rt; do 2!eexists; split; [exact: E1 | exact: Eb |].
have K (x : R) : close (Fin t) (Some (Fin r)) (Fin (- x)) (Fin x) <-> 2%:R * `|x| <= t.
  have Ed : `|- x - x| = 2%:R * `|x|.
    by rewrite -opprD normrN -mulr2n normrMn mulr_natl.
  split; last by move=> h; left; rewrite /within Ed.
  case; rewrite /within Ed // normrN => -[_ [<-]].
  have [->|x0] := eqVneq x 0; first by rewrite normr0 mulr0 (ltW t0).
  have n0 : `|x| != 0 by rewrite normr_eq0.
  have -> : (`|x| + `|x|) / 2%:R = `|x| by field.
  by rewrite mulfK // leNgt r2.
rewrite Hb; split.
  move=> [m [c1 [c2 [S1 [S2 [[D1 D2 D3 D4] [H1 H2 H3 H4]]]]]]] i.
  have D5 := D2; rewrite C1 in D5; rewrite /= C1 np_neg_vec in D1.
  have En : n = m by have := congr1 (fun a : arr (xnum R) => head 0%N (shape a)) D5; rewrite /vec /= .
  subst m; have E2 := vec_inj D5; have E3 := vec_inj D1; subst c1 c2.
  by have := H3 i 0; rewrite mxE => /K.
move=> H; have [S [HS PS ES]] := psd_root HQ PQ.
exists n, (- c), c, S, S; rewrite /= C1 C2 np_neg_vec ES; split=> //; split=> // i j.
  by rewrite mxE; apply/K; rewrite (ord1 j).
exact: close_refl (ltW t0).
Qed.

(** == is not transitive *)
Theorem eq_not_transitive (la : linalg R) : eigh_ok la ->
  exists e f g : ell R, [/\ valid e, valid f, valid g &
    [/\ eq_op (ell_cls la) e f = Ok true, eq_op (ell_cls la) f g = Ok true & eq_op (ell_cls la) e g = Ok false]].
Proof.
move=> Hla; pose t : R := 10%:R ^- 7; pose r : R := 10%:R ^- 5.
have t0 : 0 < t by rewrite invr_gt0 exprn_gt0 // ltr0n.
have r2 : r < 2%:R.
  apply: (@lt_le_trans _ _ 1); last by rewrite ler1n.
  by rewrite invf_lt1 ?exprn_gt0 ?ltr0n // exprn_egt1 // ltr1n.
pose B (k : nat) := ball_at (const_mx (t *+ k) : 'cV[R]_1) 1.
have V k : valid (B k) by apply: ball_valid; exact: ler01.
have Op k l : exists2 b, eq_op (ell_cls la) (B k) (B l) = Ok b & b <-> close (Fin t) (Some (Fin r)) (Fin (t *+ k)) (Fin (t *+ l)).
  have [at_ [rt [b [Eb La Lr Hb]]]] := ell_op Hla (V k) (V l); exists b => //.
  have Ea : at_ = t by case: La => [[[|[|//]] _ /= [<-]] _].
  have Et : rt = r by case: Lr => [[[|[|//]] _ /= [<-]] _].
  subst at_ rt; rewrite Hb; split.
    move=> [m [c1 [c2 [S1 [S2 [[D1 D2 D3 D4] [H1 H2 H3 H4]]]]]]].
    have En : 1%N = m by have := congr1 (fun a : arr (xnum R) => head 0%N (shape a)) D1; rewrite /vec /= .
    subst m; have E2 := vec_inj D1; have E3 := vec_inj D2; subst c1 c2.
    by have := H3 0 0; rewrite !mxE.
  move=> H; exists 1%N, (const_mx (t *+ k)), (const_mx (t *+ l)), 1%:M, 1%:M; rewrite mulmx1; split=> //.
  split=> //; try by split; [rewrite /symm trmx1 | move=> x; rewrite qf_scal mul1r sqn_ge0].
    by move=> i j; rewrite !mxE.
  by move=> i j; exact: close_refl (ltW t0).
exists (B 0%N), (B 1%N), (B 2%N); split=> //; split.
- have [b -> [_ H]] := Op 0%N 1%N; rewrite H //; left.
  by rewrite /within mulr0n mulr1n sub0r normrN gtr0_norm.
- have [b -> [_ H]] := Op 1%N 2%N; rewrite H //; left.
  by rewrite /within mulr1n mulr2n opprD addrA subrr sub0r normrN gtr0_norm.
have [b -> [H _]] := Op 0%N 2%N; congr Ok; apply/negP => /H.
have Ed : `|t *+ 0 - t *+ 2| = 2%:R * t by rewrite mulr0n sub0r normrN normrMn gtr0_norm // mulr_natl.
case; rewrite /within Ed.
  by apply/negP; rewrite -ltNge ltr_pmull // ltr1n.
move=> [_ [<-]]; rewrite mulr0n normr0 add0r normrMn gtr0_norm // -[t *+ 2]mulr_natl.
have -> : 2%:R * t / (2%:R * t / 2%:R) = 2%:R by field; rewrite gt_eqF.
by rewrite leNgt r2.
Qed.

(** hyperplanes *)
Theorem hp_neg_eq cfg t0 r0 n (h : hp R) (v : 'cV[R]_n) s t : tols_of cfg t0 r0 -> (0 < n)%N ->
  hrepr h v s t -> solid v s t -> solid v s t0 -> v != 0 -> s != 0 ->
  exists2 h', hp_neg_op cfg h = Ok h' & hrepr h' (- v) (- s) t0 /\ eq_op (hp_cls R) h' h = Ok true.
Proof.
move=> Hc n0 Hh Hs Hs0 v0 s0.
have HF : hfamily [:: h] (fun _ : 'I_1 => v) (fun=> s) (fun=> t) by split=> // i h0; rewrite (ord1 i).
have := HypOps.uminus_run [:: 1%N] Hc n0 HF; rewrite enum_ordS enum_ord0 /= => E.
exists (hneg cfg v s); first by rewrite /hp_neg_op /one E.
have [_ Hh'] := hneg_family (fun _ : 'I_1 => v) (fun=> s) Hc.
have {}Hh' : hrepr (hneg cfg v s) (- v) (- s) t0.
  by have := Hh' 0 h; rewrite enum_ordS enum_ord0.
split=> //.
have Hs' : solid (- v) (- s) t0.
  move=> /Hs0; rewrite normrN; case=> [|[i]]; [by left | by right; exists i; rewrite mxE normrN].
have [] := hp_same_set Hh' Hh Hs' Hs; rewrite ?oppr_eq0 //.
  by move=> x; rewrite /on_hp dotvNl; split=> [/oppr_inj|->].
by move=> rp E2 _; rewrite /eq_op -/(is_equal _ _ _ _) E2.
Qed.

End OP.
