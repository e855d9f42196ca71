(** Laws of Ellipsoid.is_internal. *)
From mathcomp Require Import all_ssreflect all_algebra.
Require Import Coq.Strings.String.
From mathcomp.algebra_tactics Require Import ring.
From Verif.Model Require Import Py NP Linalg La Ellipsoid.
From Verif.Spec Require Import MatSpec LinalgSpec OrthSpec EllSpec EllipsoidSpec.
From Verif.Proof Require Import NPLib MatLib LaBasic EllLib RegProof.
Set Implicit Arguments.
Unset Strict Implicit.
Unset Printing Implicit Defensive.
Import Order.Theory GRing.Theory Num.Theory.
Local Open Scope ring_scope.

Section InternalLaws.
Variable R : rcfType.
Variable la : linalg R.

Lemma qf_mix n (A : 'M[R]_n) (x y : 'cV[R]_n) a : qf A (a *: x + (1 - a) *: y) = a * qf A x + (1 - a) * qf A y - a * (1 - a) * qf A (x - y).
Proof.
rewrite /qf !mulmxDr mulmxN -!scalemxAr !dotvDl !dotvDr !dotvZl !dotvZr !dotvNl !dotvNr.
by move: (dotv x (A *m x)) (dotv x (A *m y)) (dotv y (A *m x)) (dotv y (A *m y)) => p q r s; ring.
Qed.

(** what lies in all of the ellipsoids lies in one of them *)
Theorem int_all_any n k s es (c : 'I_k -> 'cV[R]_n) (Q : 'I_k -> 'M[R]_n) (t : 'I_k -> R) m (P : 'M[R]_(n, m)) :
  eigvalsh_ok la -> eig_ok la -> inv_ok la -> (0 < n)%N -> (0 < k)%N -> family es c Q t -> s != [::] -> prodn s = 1%N ->
  exists bu bi, [/\ is_internal la (Arr (k :: s) es) (mat P) (Some "u"%string) = Ok (Arr [:: m; 1%N] bu),
    is_internal la (Arr (k :: s) es) (mat P) (Some "i"%string) = Ok (Arr [:: m; 1%N] bi),
    size bu = m, size bi = m & forall i : 'I_m, (nth false bi i -> nth false bu i) /\ (k = 1%N -> nth false bi i = nth false bu i)].
Proof.
move=> H1 H2 H3 n0 k0 Hf s0 ps; have [B HB H] := is_internal_any H1 H2 H3 n0 k0 Hf s0 ps.
have [[bu Eu [Su Hu]] [bi Ei [Si Hi]]] := H m P; exists bu, bi; split=> // i.
have imp : nth false bi i -> nth false bu i by move/Hi => h; apply/Hu; exists (Ordinal k0).
split=> // k1; apply/idP/idP => // /Hu[j hj]; apply/Hi => j'.
suff -> : j' = j by [].
by apply/val_inj => /=; move: (ltn_ord j) (ltn_ord j'); rewrite {2 4}k1; case: (val j) => //; case: (val j').
Qed.

(** the intersection is convex *)
Theorem int_convex n k s es (c : 'I_k -> 'cV[R]_n) (Q : 'I_k -> 'M[R]_n) (t : 'I_k -> R) m (X Y : 'M[R]_(n, m)) a :
  eigvalsh_ok la -> eig_ok la -> inv_ok la -> (0 < n)%N -> (0 < k)%N -> family es c Q t -> s != [::] -> prodn s = 1%N -> 0 <= a <= 1 ->
  exists bx yb bz, [/\ is_internal la (Arr (k :: s) es) (mat X) (Some "i"%string) = Ok (Arr [:: m; 1%N] bx),
    is_internal la (Arr (k :: s) es) (mat Y) (Some "i"%string) = Ok (Arr [:: m; 1%N] yb),
    is_internal la (Arr (k :: s) es) (mat (a *: X + (1 - a) *: Y)) (Some "i"%string) = Ok (Arr [:: m; 1%N] bz) &
    [/\ size bx = m, size yb = m, size bz = m & forall i : 'I_m, nth false bx i -> nth false yb i -> nth false bz i]].
Proof.
move=> H1 H2 H3 n0 k0 Hf s0 ps /andP[a0 a1]; have [B HB H] := is_internal_any H1 H2 H3 n0 k0 Hf s0 ps.
have [_ [bx Ex [Sx Hx]]] := H m X; have [_ [yb Ey [Sy Hy]]] := H m Y; have [_ [bz Ez [Sz Hz]]] := H m (a *: X + (1 - a) *: Y).
exists bx, yb, bz; split=> //; split=> // i /Hx h1 /Hy h2; apply/Hz => j.
have -> : col i (a *: X + (1 - a) *: Y) - c j = a *: (col i X - c j) + (1 - a) *: (col i Y - c j).
  rewrite linearD !linearZ /= !scalerBr addrACA -opprD -scalerDl; congr (_ - _).
  by rewrite (addrC a) subrK scale1r.
have [Bs Bp _ _] := HB j; have N (x : 'cV[R]_n) : 0 <= qf (invmx (B j)) x.
  have [->|x0] := eqVneq x 0; first by rewrite /qf dotv0l.
  exact/ltW/(posdef_inv Bs Bp).
rewrite qf_mix; have := N (col i X - c j - (col i Y - c j)); move: (h1 j) (h2 j).
move: (qf _ (_ - _ - _)) (qf _ (col i X - _)) (qf _ (col i Y - _)) ((1 + t j) ^+ 2) => d p q e hp hq hd.
have b0 : 0 <= 1 - a by rewrite subr_ge0.
apply: (@le_lt_trans _ _ (a * p + (1 - a) * q)); first by rewrite ler_subl_addr ler_addl !mulr_ge0.
have [->|an] := eqVneq a 1; first by rewrite subrr mul0r addr0 mul1r.
have E : e = a * e + (1 - a) * e by ring.
rewrite E; apply: ler_lt_add; first by rewrite ler_wpmul2l // ltW.
by rewrite ltr_pmul2l // subr_gt0 lt_neqAle an.
Qed.

(** one ellipsoid: its centre is inside, and the answers are symmetric about it *)
Theorem int_centre n s e (c : 'cV[R]_n) Q t : eigvalsh_ok la -> eig_ok la -> inv_ok la -> (0 < n)%N -> repr e c Q t -> s != [::] -> prodn s = 1%N ->
  is_internal la (Arr (1%N :: s) [:: e]) (mat c) (Some "u"%string) = Ok (Arr [:: 1%N; 1%N] [:: true]).
Proof.
move=> H1 H2 H3 n0 He s0 ps.
have Hf : family [:: e] (fun _ : 'I_1 => c) (fun=> Q) (fun=> t) by split=> // -[[|] // ?] ?.
have [B HB H] := is_internal_any H1 H2 H3 n0 (ltnSn 0) Hf s0 ps.
have [[bs -> [S Hb]] _] := H 1%N c; case: bs S Hb => [|b [|? ?]] // _ Hb; have [_ /(_ _)] := Hb 0 => /= -> //.
exists 0; have -> : col 0 c - c = 0 by apply/matrixP => i j; rewrite !mxE (ord1 j) subrr.
rewrite /qf dotv0l exprn_gt0 // addr_gt0 ?ltr01 //; by have [[]] := He.
Qed.

Theorem int_mirror n s e (c : 'cV[R]_n) Q t m (X Y : 'M[R]_(n, m)) : eigvalsh_ok la -> eig_ok la -> inv_ok la -> (0 < n)%N -> repr e c Q t ->
  s != [::] -> prodn s = 1%N -> (forall j, col j X + col j Y = 2%:R *: c) ->
  is_internal la (Arr (1%N :: s) [:: e]) (mat Y) (Some "u"%string) = is_internal la (Arr (1%N :: s) [:: e]) (mat X) (Some "u"%string).
Proof.
move=> H1 H2 H3 n0 He s0 ps E.
have Hf : family [:: e] (fun _ : 'I_1 => c) (fun=> Q) (fun=> t) by split=> // -[[|] // ?] ?.
have [B HB H] := is_internal_any H1 H2 H3 n0 (ltnSn 0) Hf s0 ps.
have [[bx -> [Sx Hx]] _] := H m X; have [[yb -> [Sy Hy]] _] := H m Y.
congr (Ok (Arr _ _)); apply: (@eq_from_nth _ false); rewrite Sy ?Sx // => i Hi; have := Hx (Ordinal Hi); have := Hy (Ordinal Hi) => /= hy hx.
have G : col (Ordinal Hi) Y - c = - (col (Ordinal Hi) X - c).
  apply/eqP; rewrite -addr_eq0 addrACA (addrC (col _ Y)) E -opprD.
  by rewrite (_ : 2%:R *: c = c + c) ?subrr // scaler_nat mulr2n.
have Q0 (A : 'M[R]_n) x : qf A (- x) = qf A x by rewrite /qf mulmxN dotvNl dotvNr opprK.
by apply/idP/idP => [/hy[j]|/hx[j]]; rewrite ?G ?Q0 => h; [apply/hx|apply/hy]; exists j; rewrite ?G ?Q0.
Qed.
End InternalLaws.
