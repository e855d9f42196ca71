(** An implementation of the numpy.linalg oracle meeting every contract of Spec/LinalgSpec.v exists,
    so the theorems that assume the contracts are not vacuous. *)
From mathcomp Require Import all_ssreflect all_algebra.
From mathcomp Require Import ring.
From Verif.Model Require Import Py NP Linalg La.
From Verif.Spec Require Import MatSpec LinalgSpec.
From Verif.Proof Require Import NPLib MatLib OrthLib LaBasic Decomp.
Set Implicit Arguments.
Unset Strict Implicit.
Unset Printing Implicit Defensive.
Import Order.Theory GRing.Theory Num.Theory.
Local Open Scope ring_scope.

Section S.
Variable R : rcfType.
Notation X := (xnum R).
Notation A := (arr X).

Definition fin_val (x : X) : R := if x is Fin a then a else 0.
Definition decm m n (a : A) : 'M[R]_(m, n) := \matrix_(i, j) fin_val (getn NaN a [:: val i; val j]).
Definition decv n (a : A) : 'cV[R]_n := \col_i fin_val (getn NaN a [:: val i]).

Lemma decmK m n (M : 'M[R]_(m, n)) : decm m n (mat M) = M.
Proof. by apply/matrixP => i j; rewrite mxE get_mat. Qed.
Lemma decvK n (v : 'cV[R]_n) : decv n (vec v) = v.
Proof. by apply/matrixP => i j; rewrite mxE get_vec (ord1 j). Qed.

Definition ascb n (d : 'cV[R]_n) := [forall i : 'I_n, forall j : 'I_n, (i <= j)%N ==> (d i 0 <= d j 0)].
Definition desb n (d : 'cV[R]_n) := [forall i : 'I_n, forall j : 'I_n, (i <= j)%N ==> (d j 0 <= d i 0)].
Definition utb m n (M : 'M[R]_(m, n)) := [forall i : 'I_m, forall j : 'I_n, (j < i)%N ==> (M i j == 0)].
Lemma ascP n (d : 'cV[R]_n) : reflect (ascending d) (ascb d).
Proof.
by apply: (iffP forallP) => [H i j ij|H i]; [move/forallP: (H i) => /(_ j)/implyP; apply
  | apply/forallP => j; apply/implyP; exact: H].
Qed.
Lemma desP n (d : 'cV[R]_n) : reflect (descending d) (desb d).
Proof.
by apply: (iffP forallP) => [H i j ij|H i]; [move/forallP: (H i) => /(_ j)/implyP; apply
  | apply/forallP => j; apply/implyP; exact: H].
Qed.
Lemma utP m n (M : 'M[R]_(m, n)) : reflect (uppertri M) (utb M).
Proof.
by apply: (iffP forallP) => [H i j ij|H i]; [move/forallP: (H i) => /(_ j)/implyP/(_ ij)/eqP
  | apply/forallP => j; apply/implyP => /H ->].
Qed.

Definition eigb n (M : 'M[R]_n) (p : 'cV[R]_n * 'M[R]_n) :=
  [&& p.2^T *m p.2 == 1%:M, M == p.2 *m diagv p.1 *m p.2^T & ascb p.1].
Lemma eig_ex n (M : 'M[R]_n) : exists p, eigb (lowsym M) p.
Proof.
have [d [V [[HV E] Hd]]] := spectral_asc (symm_lowsym M).
by exists (d, V); apply/and3P; split; [apply/eqP | apply/eqP | apply/ascP].
Qed.
Definition eig_f n (M : 'M[R]_n) := xchoose (eig_ex M).
Lemma eig_fP n (M : 'M[R]_n) : eigdec (lowsym M) (eig_f M).1 (eig_f M).2 /\ ascending (eig_f M).1.
Proof. by have /and3P[/eqP H1 /eqP H2 /ascP H3] := xchooseP (eig_ex M). Qed.

Definition svdb m n (M : 'M[R]_(m, n)) (p : 'M[R]_m * 'cV[R]_(minn m n) * 'M[R]_n) :=
  [&& p.1.1^T *m p.1.1 == 1%:M, p.2^T *m p.2 == 1%:M, M == p.1.1 *m rdiag p.1.2 *m p.2, desb p.1.2 &
      [forall i, 0 <= p.1.2 i 0]].
Lemma svd_ex m n (M : 'M[R]_(m, n)) : exists p, svdb M p.
Proof.
have [U [s [V [H1 H2 H3 H4 H5]]]] := svdec_exists M.
by exists (U, s, V); apply/and5P; split; [apply/eqP|apply/eqP|apply/eqP|apply/desP|apply/forallP].
Qed.
Definition svd_f m n (M : 'M[R]_(m, n)) := xchoose (svd_ex M).
Lemma svd_fP m n (M : 'M[R]_(m, n)) : svdec M (svd_f M).1.1 (svd_f M).1.2 (svd_f M).2.
Proof. by have /and5P[/eqP H1 /eqP H2 /eqP H3 /desP H4 /forallP H5] := xchooseP (svd_ex M). Qed.

Definition qrb m n (M : 'M[R]_(m, n)) (p : 'M[R]_m * 'M[R]_(m, n)) :=
  [&& p.1^T *m p.1 == 1%:M, utb p.2 & M == p.1 *m p.2].
Lemma qr_ex m n (M : 'M[R]_(m, n)) : exists p, qrb M p.
Proof.
have [Q [T [H1 H2 H3]]] := qr_exists M.
by exists (Q, T); apply/and3P; split; [apply/eqP|apply/utP|apply/eqP].
Qed.
Definition qr_f m n (M : 'M[R]_(m, n)) := xchoose (qr_ex M).
Lemma qr_fP m n (M : 'M[R]_(m, n)) :
  [/\ orthog (qr_f M).1, uppertri (qr_f M).2 & M = (qr_f M).1 *m (qr_f M).2].
Proof. by have /and3P[/eqP H1 /utP H2 /eqP H3] := xchooseP (qr_ex M). Qed.

Definition qrrb m n (M : 'M[R]_(m, n)) (p : 'M[R]_(m, minn m n) * 'M[R]_(minn m n, n)) :=
  [&& p.1^T *m p.1 == 1%:M, utb p.2 & M == p.1 *m p.2].
Lemma qrr_ex m n (M : 'M[R]_(m, n)) : exists p, qrrb M p.
Proof.
have [Q [T [H1 H2 H3]]] := qr_reduced_exists M.
by exists (Q, T); apply/and3P; split; [apply/eqP|apply/utP|apply/eqP].
Qed.
Definition qrr_f m n (M : 'M[R]_(m, n)) := xchoose (qrr_ex M).
Lemma qrr_fP m n (M : 'M[R]_(m, n)) :
  [/\ orthocols (qrr_f M).1, uppertri (qrr_f M).2 & M = (qrr_f M).1 *m (qrr_f M).2].
Proof. by have /and3P[/eqP H1 /utP H2 /eqP H3] := xchooseP (qrr_ex M). Qed.

Definition pinvb m n (M : 'M[R]_(m, n)) (P : 'M[R]_(n, m)) :=
  [&& M *m P *m M == M, P *m M *m P == P, (M *m P)^T == M *m P & (P *m M)^T == P *m M].
Lemma pinv_ex m n (M : 'M[R]_(m, n)) : exists P, pinvb M P.
Proof.
have [P [H1 H2 H3 H4]] := pinv_exists M.
by exists P; apply/and4P; split; apply/eqP.
Qed.
Definition pinv_f m n (M : 'M[R]_(m, n)) := xchoose (pinv_ex M).
Lemma pinv_fP m n (M : 'M[R]_(m, n)) : let P := pinv_f M in
  [/\ M *m P *m M = M, P *m M *m P = P, (M *m P)^T = M *m P & (P *m M)^T = P *m M].
Proof. by have /and4P[/eqP H1 /eqP H2 /eqP H3 /eqP H4] := xchooseP (pinv_ex M). Qed.

Definition on2 T (a : A) (f : forall m n, 'M[R]_(m, n) -> res T) : res T :=
  if shape a is [:: m; n] then f m n (decm m n a) else ValueError.
Definition onsq T (a : A) (f : forall n, 'M[R]_n -> res T) : res T :=
  if shape a is [:: m; n] then if m == n then f n (decm n n a) else LinAlgError else LinAlgError.

Lemma on2E T m n (M : 'M[R]_(m, n)) (f : forall m n, 'M[R]_(m, n) -> res T) : on2 (mat M) f = f m n M.
Proof. by rewrite /on2 /= decmK. Qed.
Lemma onsqE T n (M : 'M[R]_n) (f : forall n, 'M[R]_n -> res T) : onsq (mat M) f = f n M.
Proof. by rewrite /onsq /= eqxx decmK. Qed.

Definition the_linalg : linalg R := Linalg
  (fun a => onsq a (fun n M => Ok (vec (eig_f M).1, mat (eig_f M).2)))
  (fun a => onsq a (fun n M => Ok (vec (eig_f M).1)))
  (fun a => onsq a (fun n M => Ok (vec (eig_f M).1, mat (eig_f M).2)))
  (fun a => on2 a (fun m n M => Ok (mat (svd_f M).1.1, vec (svd_f M).1.2, mat (svd_f M).2)))
  (fun a => on2 a (fun m n M => Ok (vec (svd_f M).1.2)))
  (fun a => on2 a (fun m n M => Ok (mat (qr_f M).1, mat (qr_f M).2)))
  (fun a => on2 a (fun m n M => Ok (mat (qrr_f M).1, mat (qrr_f M).2)))
  (fun a => onsq a (fun n M => if M \in unitmx then Ok (mat (invmx M)) else LinAlgError))
  (fun a => on2 a (fun m n M => Ok (mat (pinv_f M))))
  (fun a b => on2 a (fun m n M =>
     match shape b with
     | [:: p] => if p == m then Ok (vec (pinv_f M *m decv m b)) else LinAlgError
     | [:: p; k] => if p == m then Ok (mat (pinv_f M *m decm m k b)) else LinAlgError
     | _ => LinAlgError
     end))
  (fun a => onsq a (fun n M => Ok (Fin (\det M)))).

Theorem the_linalg_ok : linalg_ok the_linalg.
Proof.
have HN m n k (M : 'M[R]_(m, n)) (B : 'M[R]_(m, k)) : M^T *m M *m (pinv_f M *m B) = M^T *m B.
  have [H1 _ H3 _] := pinv_fP M; rewrite -!mulmxA (mulmxA M (pinv_f M)) (mulmxA M^T).
  by rewrite -{1}H3 -trmx_mul H1.
split; [|split; [|split; [|split; [|split; [|split; [|split; [|split; [|split; [|split]]]]]]]]].
- move=> n M n0; have [H1 H2] := eig_fP M; exists (eig_f M).1, (eig_f M).2; split=> //.
  exact: onsqE.
- move=> n M n0; have [H1 H2] := eig_fP M; exists (eig_f M).1, (eig_f M).2; split=> //.
  exact: onsqE.
- move=> n M n0 HM; have [HE H2] := eig_fP M; rewrite lowsym_symm // in HE.
  exists (eig_f M).1, (eig_f M).2; split=> //; first exact: onsqE.
  + case: (HE) => HV EM; rewrite {1}EM -mulmxA HV mulmx1 //.
  + by case: HE => /orthog_unit.
  by move=> j; exact: eig_sqn_col HE.
- move=> m n M m0 n0; exists (svd_f M).1.1, (svd_f M).1.2, (svd_f M).2; split; last exact: svd_fP.
  exact: on2E.
- move=> m n M m0 n0; exists (svd_f M).1.1, (svd_f M).1.2, (svd_f M).2; split; last exact: svd_fP.
  exact: on2E.
- move=> m n M m0 n0; have [H1 H2 H3] := qr_fP M; exists (qr_f M).1, (qr_f M).2; split=> //.
  exact: on2E.
- move=> m n M m0 n0; have [H1 H2 H3] := qrr_fP M; exists (qrr_f M).1, (qrr_f M).2; split=> //.
  exact: on2E.
- by move=> n M n0; exact: onsqE.
- move=> m n M m0 n0; have [H1 H2 H3 H4] := pinv_fP M; exists (pinv_f M); split=> //; exact: on2E.
- split=> m n.
    move=> k M B m0 n0; exists (pinv_f M *m B); split; last exact: HN.
    by rewrite /= on2E /= eqxx decmK.
  move=> M b m0 n0; exists (pinv_f M *m b); split; last exact: HN.
  by rewrite /= on2E /= eqxx decvK.
by move=> n M; exact: onsqE.
Qed.

(** ------------------------------------------------ C25: eigenvectors that are not orthogonal *)
(** the zero matrix of order 2 with the unit eigenvectors (1, 0) and (3/5, 4/5) *)
Definition skewV : 'M[R]_2 :=
  \matrix_(i, j) (if j == 0 then (i == 0)%:R else if i == 0 then 3%:R / 5%:R else 4%:R / 5%:R).
Definition skew_eig (a : A) : res (A * A) :=
  if (shape a == [:: 2%N; 2%N]) && all (fun x => xeq x x0) (data a)
  then Ok (vec (0 : 'cV[R]_2), mat skewV) else la_eig the_linalg a.
Definition skew_linalg : linalg R := Linalg (la_eigh the_linalg) (la_eigvalsh the_linalg) skew_eig
  (la_svd the_linalg) (la_svdvals the_linalg) (la_qr_complete the_linalg) (la_qr the_linalg)
  (la_inv the_linalg) (la_pinv the_linalg) (la_lstsq the_linalg) (la_det the_linalg).

Lemma sum2 (f : 'I_2 -> R) : \sum_i f i = f 0 + f 1.
Proof. by rewrite big_ord_recl big_ord1; congr (f _ + f _); apply: val_inj. Qed.

Lemma skewV_det : \det skewV = 4%:R / 5%:R.
Proof. by rewrite (det22 skewV) !mxE /= mulr0n mulr0 subr0 mul1r. Qed.

Lemma skew_linalg_ok : linalg_ok skew_linalg.
Proof.
have [h1 [h2 [h3 h4]]] := the_linalg_ok; split=> //; split=> //; split=> // {h1 h2 h4} n M n0 HM.
rewrite /= /skew_eig all_zero_mat; case: ifP => [/andP[/eqP [En _] /eqP EM]|_]; last exact: h3.
have E2 : n = 2%N by case: En.
subst n M; exists 0, skewV; split=> //.
- rewrite mul0mx; have -> : diagv (0 : 'cV[R]_2) = 0.
    by apply/matrixP => i j; rewrite diagvE !mxE mul0rn.
  by rewrite mulmx0.
- by rewrite unitmxE skewV_det unitfE mulf_neq0 ?invr_eq0 ?pnatr_eq0.
have f5 : (5%:R : R) != 0 by rewrite pnatr_eq0.
move=> j; rewrite /sqn /dotv sum2 !mxE /=; case: eqP => _ /=.
  by rewrite mulr0 addr0 mulr1.
by field.
Qed.

Lemma skew_low : let B := skewV *m skewV^T in
  qf B (delta_mx 1 0 : 'cV[R]_2) = 16%:R / 25%:R.
Proof.
rewrite /= /qf dot_delta col_delta mxE mxE sum2 !mxE /=.
have f5 : (5%:R : R) != 0 by rewrite pnatr_eq0.
by field.
Qed.

Theorem reg_pos_def_low : exists la : linalg R, linalg_ok la /\
  exists (n : nat) (M B : 'M[R]_n) (t : R) x,
    [/\ 0 < t, symm M, reg_pos_def_mat la (mat M) (PReal (Fin t)) = Ok (mat B) & qf B x < t * sqn x].
Proof.
exists skew_linalg; split; first exact: skew_linalg_ok.
have Hs : symm (0 : 'M[R]_2) by rewrite /symm trmx0.
have HE : la_eig skew_linalg (mat (0 : 'M[R]_2)) = Ok (vec (0 : 'cV[R]_2), mat skewV).
  by rewrite /= /skew_eig all_zero_mat eqxx.
exists 2%N, 0, (skewV *m skewV^T), 1, (delta_mx 1 0); split=> //; first exact: ltr01.
  rewrite (reg_pos_def_run ltr01 Hs HE) add0r.
  have -> : (\col_i Num.max 0 (1 - (0 : 'cV[R]_2) i 0)) = const_mx 1.
    by apply/matrixP => i j; rewrite !mxE subr0; apply/max_idPr; exact: ler01.
  by rewrite diagv_const mulmx1.
rewrite skew_low /sqn dot_delta mxE eqxx mul1r ltr_pdivr_mulr ?ltr0n // mul1r ltr_nat.
by [].
Qed.

End S.
