(** The checks of the arguments of sup_geom_diff_2d and sup_geom_diff_3d. *)
From mathcomp Require Import all_ssreflect all_algebra.
Require Import Coq.Strings.String.
From Verif.Model Require Import Py NP NP3 Linalg SupDiff.
From Verif.Spec Require Import MatSpec SupDiffSpec.
From Verif.Proof Require Import NPLib NP3Lib MatLib LaBasic EllGeomProof SupDiffProof.
Set Implicit Arguments.
Unset Strict Implicit.
Unset Printing Implicit Defensive.
Import Order.Theory GRing.Theory Num.Theory.
Local Open Scope ring_scope.

Section Check.
Variables (R : rcfType) (t1 t2 : string) (dims : nat).
Notation X := (xnum R).
Notation A := (arr X).
Notation chk := (@geom_checks R t1 t2 dims).

Lemma chk_ndim rho1 rho2 l : ndim l != 2%N -> chk rho1 rho2 l = throw "wrongInput:l_mat".
Proof. by rewrite /geom_checks => ->. Qed.
Lemma chk_0d rho1 rho2 l : ndim l = 2%N -> shape rho1 = [::] -> chk rho1 rho2 l = ValueError.
Proof. by move=> H E; rewrite /geom_checks H eqxx /check_vec E. Qed.
Lemma chk_rho1 rho1 rho2 l : ndim l = 2%N -> shape rho1 != [::] -> ~~ is_vec rho1 ->
  chk rho1 rho2 l = throw "wrongInput:rho1_vec".
Proof.
by move=> H E; rewrite /geom_checks H eqxx /check_vec /is_vec; case: (shape rho1) E => // a s _ ->.
Qed.
Lemma check_is tag (rho : A) : shape rho != [::] -> is_vec rho -> check_vec tag rho = Ok tt.
Proof. by rewrite /check_vec /is_vec; case: (shape rho) => // a s _ ->. Qed.
Lemma chk_0d2 rho1 rho2 l : ndim l = 2%N -> shape rho1 != [::] -> is_vec rho1 -> shape rho2 = [::] -> chk rho1 rho2 l = ValueError.
Proof. by move=> H E V E2; rewrite /geom_checks H eqxx check_is // /check_vec E2. Qed.
Lemma chk_rho2 rho1 rho2 l : ndim l = 2%N -> shape rho1 != [::] -> is_vec rho1 -> shape rho2 != [::] -> ~~ is_vec rho2 ->
  chk rho1 rho2 l = throw "wrongInput:rho2_vec".
Proof.
move=> H E V E2 V2; rewrite /geom_checks H eqxx check_is //.
by move: E2 V2; rewrite /check_vec /is_vec; case: (shape rho2) => // a s _ ->.
Qed.

Lemma squeeze_len n (v : 'cV[R]_n) : SupDiff.len0 (np_squeeze (vec v)) = if n == 1%N then IndexError else Ok n.
Proof. by rewrite /np_squeeze /SupDiff.len0 /=; case: (n == 1%N). Qed.

Section Vec.
Variables (n1 n2 m n : nat) (r1 : 'cV[R]_n1) (r2 : 'cV[R]_n2) (L : 'M[R]_(m, n)).
Lemma chk_start : chk (vec r1) (vec r2) (mat L) =
  let* a := if n1 == 1%N then IndexError else Ok n1 in let* b := if n2 == 1%N then IndexError else Ok n2 in
  if a != b then throw t1 else if a != n then throw t2 else if m != dims then throw "wrongInput:l_mat" else
  let* diff := np_sub (np_squeeze (vec r1)) (np_squeeze (vec r2)) in
  if has (fun x => xle x x0) (data diff) then throw "wrongInput:rho_diff_vec" else Ok diff.
Proof.
rewrite /geom_checks.
have -> : ndim (mat L) = 2%N by [].
by rewrite !check_vec_ok !rbind_okE !squeeze_len.
Qed.

Lemma chk_one : (n1 == 1%N) || (n2 == 1%N) -> chk (vec r1) (vec r2) (mat L) = IndexError.
Proof. by rewrite chk_start; case: (n1 == 1%N) => //= ->. Qed.
Lemma chk_len : n1 != 1%N -> n2 != 1%N -> n1 != n2 -> chk (vec r1) (vec r2) (mat L) = throw t1.
Proof. by move=> /negbTE h1 /negbTE h2 h; rewrite chk_start h1 h2 !rbind_okE h. Qed.
Lemma chk_cols : n1 != 1%N -> n1 = n2 -> n1 != n -> chk (vec r1) (vec r2) (mat L) = throw t2.
Proof.
move=> h1 e h; rewrite chk_start; have h2 : n2 != 1%N by rewrite -e.
have e' : n1 == n2 by apply/eqP.
by rewrite (negbTE h1) (negbTE h2) !rbind_okE e' h.
Qed.
Lemma chk_rows : n1 != 1%N -> n1 = n2 -> n1 = n -> m != dims -> chk (vec r1) (vec r2) (mat L) = throw "wrongInput:l_mat".
Proof.
move=> h1 e f h; rewrite chk_start; have h2 : n2 != 1%N by rewrite -e.
have e' : n1 == n2 by apply/eqP.
have f' : n1 == n by apply/eqP.
by rewrite (negbTE h1) (negbTE h2) !rbind_okE e' f' h.
Qed.
End Vec.

Lemma chk_diff n (r1 r2 : 'cV[R]_n) (L : 'M[R]_(dims, n)) k : n != 1%N -> r1 k 0 <= r2 k 0 ->
  chk (vec r1) (vec r2) (mat L) = throw "wrongInput:rho_diff_vec".
Proof.
move=> n1 Hk; rewrite /geom_checks.
have -> : ndim (mat L) = 2%N by [].
rewrite !check_vec_ok !rbind_okE !squeeze_len (negbTE n1) !rbind_okE eqxx.
have -> : dim (mat L) 1 = n by [].
have -> : dim (mat L) 0 = dims by [].
rewrite !eqxx !np_squeeze_vec // np_sub_vec rbind_okE.
suff -> : has (fun x => xle x x0) (data (vec (r1 - r2))) by [].
rewrite data_vals has_map; apply/hasP; exists ((r1 - r2) k 0).
  by apply/mem_vals; exists k.
by rewrite !mxE /xle /= subr_lt0 subr_eq0 orbC -le_eqVlt.
Qed.
End Check.

Section Both.
Variables (R : rcfType) (la : linalg R) (hull2 : arr (xnum R) -> res (seq (nat * nat))) (hull3 : arr (xnum R) -> res (seq (nat * nat * nat))).

Lemma shapes_2 : shape_checks (sup_geom_diff_2d la hull2).
Proof.
move=> rho1 rho2 l; rewrite /sup_geom_diff_2d; split.
- by move=> H; rewrite chk_ndim.
- by move=> H H1; rewrite chk_0d.
- by move=> H H1 H2; rewrite chk_rho1.
- by move=> H H1 H2 H3; rewrite chk_0d2.
- by move=> H H1 H2 H3 H4; rewrite chk_rho2.
Qed.
Lemma shapes_3 : shape_checks (sup_geom_diff_3d hull3).
Proof.
move=> rho1 rho2 l; rewrite /sup_geom_diff_3d; split.
- by move=> H; rewrite chk_ndim.
- by move=> H H1; rewrite chk_0d.
- by move=> H H1 H2; rewrite chk_rho1.
- by move=> H H1 H2 H3; rewrite chk_0d2.
- by move=> H H1 H2 H3 H4; rewrite chk_rho2.
Qed.

Section Sizes.
Variables (n1 n2 m n : nat) (r1 : 'cV[R]_n1) (r2 : 'cV[R]_n2) (L : 'M[R]_(m, n)).
Lemma sizes_2 : let f := sup_geom_diff_2d la hull2 (vec r1) (vec r2) (mat L) in [/\
  (n1 == 1%N) || (n2 == 1%N) -> f = IndexError,
  n1 != 1%N -> n2 != 1%N -> n1 != n2 -> f = throw "wrongInput:rho1_vec,rho2_vec",
  n1 != 1%N -> n1 = n2 -> n1 != n -> f = throw "wrongInput:rho1_vec,l_mat" &
  n1 != 1%N -> n1 = n2 -> n1 = n -> m != 2%N -> f = throw "wrongInput:l_mat"].
Proof.
rewrite /sup_geom_diff_2d /=; split.
- by move=> H; rewrite chk_one.
- by move=> H1 H2 H3; rewrite chk_len.
- by move=> H1 H2 H3; rewrite chk_cols.
- by move=> H1 H2 H3 H4; rewrite chk_rows.
Qed.
Lemma sizes_3 : let f := sup_geom_diff_3d hull3 (vec r1) (vec r2) (mat L) in [/\
  (n1 == 1%N) || (n2 == 1%N) -> f = IndexError,
  n1 != 1%N -> n2 != 1%N -> n1 != n2 -> f = throw "wrongInput:rho1_vec, rho2_vec",
  n1 != 1%N -> n1 = n2 -> n1 != n -> f = throw "wrongInput:rho1_vec, l_mat" &
  n1 != 1%N -> n1 = n2 -> n1 = n -> m != 3%N -> f = throw "wrongInput:l_mat"].
Proof.
rewrite /sup_geom_diff_3d /=; split.
- by move=> H; rewrite chk_one.
- by move=> H1 H2 H3; rewrite chk_len.
- by move=> H1 H2 H3; rewrite chk_cols.
- by move=> H1 H2 H3 H4; rewrite chk_rows.
Qed.
End Sizes.

Lemma order_2 n (r1 r2 : 'cV[R]_n) (L : 'M[R]_(2, n)) k : n != 1%N -> r1 k 0 <= r2 k 0 ->
  sup_geom_diff_2d la hull2 (vec r1) (vec r2) (mat L) = throw "wrongInput:rho_diff_vec".
Proof. by move=> H1 H2; rewrite /sup_geom_diff_2d (chk_diff _ _ _ H1 H2). Qed.
Lemma order_3 n (r1 r2 : 'cV[R]_n) (L : 'M[R]_(3, n)) k : n != 1%N -> r1 k 0 <= r2 k 0 ->
  sup_geom_diff_3d hull3 (vec r1) (vec r2) (mat L) = throw "wrongInput:rho_diff_vec".
Proof. by move=> H1 H2; rewrite /sup_geom_diff_3d (chk_diff _ _ _ H1 H2). Qed.
End Both.
