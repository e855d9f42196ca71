(** Rank of a matrix from its singular values; numpy's matrix_rank. *)
From mathcomp Require Import all_ssreflect all_algebra.
From Verif.Model Require Import Py NP NP3 Linalg La.
From Verif.Spec Require Import MatSpec LinalgSpec.
From Verif.Proof Require Import NPLib MatLib OrthLib LaBasic Decomp EllLib.
Set Implicit Arguments.
Unset Strict Implicit.
Unset Printing Implicit Defensive.
Import Order.Theory GRing.Theory Num.Theory.
Local Open Scope ring_scope.

Section Rank.
Variable R : rcfType.

Lemma desc_prefix k (s : 'cV[R]_k) : descending s -> (forall i, 0 <= s i 0) ->
  exists2 r, (r <= k)%N & forall i : 'I_k, (s i 0 != 0) = (i < r)%N.
Proof.
move=> Hd H0; pose P j := [forall i : 'I_k, (j <= i)%N ==> (s i 0 == 0)].
have Pk : P k by apply/forallP => i; apply/implyP; rewrite leqNgt ltn_ord.
have exP : exists j, P j by exists k.
case: (ex_minnP exP) => r Pr Hr; exists r; first exact: Hr.
move=> i; rewrite ltnNge; congr negb; apply/eqP/idP => [Ei|ri]; last first.
  by apply/eqP; have /forallP/(_ i) := Pr; rewrite ri.
apply: Hr; apply/forallP => j; apply/implyP => ij.
by rewrite eq_le H0 andbT -Ei Hd.
Qed.

Lemma count_prefix k (s : 'cV[R]_k) (p : R -> bool) r : (r <= k)%N ->
  (forall i : 'I_k, p (s i 0) = (i < r)%N) -> count p (vals s) = r.
Proof.
move=> rk H; rewrite /vals count_map.
rewrite (eq_count (a2 := fun i : 'I_k => (i < r)%N)) => [|i]; last by rewrite /= H.
have -> : count (fun i : 'I_k => (i < r)%N) (enum 'I_k) = count (fun i => (i < r)%N) (iota 0 k).
  by rewrite -(val_enum_ord k) [RHS]count_map.
rewrite -{1}(subnKC rk) iotaD count_cat add0n.
rewrite (eq_in_count (a2 := predT)); last by move=> i; rewrite mem_iota add0n => /andP[_ ->].
rewrite count_predT size_iota (eq_in_count (a2 := pred0)) ?count_pred0 ?addn0 //.
by move=> i; rewrite mem_iota => /andP[ri _]; rewrite ltnNge ri.
Qed.

Lemma rank_rdiag m n (s : 'cV[R]_(minn m n)) r : (r <= minn m n)%N ->
  (forall i : 'I_(minn m n), (s i 0 != 0) = (i < r)%N) -> \rank (rdiag s) = r.
Proof.
move=> rk H.
pose d : 'cV[R]_m := \col_i (if insub (i : nat) is Some k then (if s k 0 == 0 then 1 else s k 0) else 1).
have Hd : diagv d \in unitmx.
  rewrite unitmxE det_diag unitfE; apply/prodf_neq0 => i _; rewrite !mxE.
  by case: insubP => [k _ _|_]; [case: (eqVneq (s k 0) 0) | ]; rewrite ?oner_neq0.
have -> : rdiag s = diagv d *m pid_mx r.
  apply/matrixP => i j; rewrite /diagv mul_diag_mx !mxE.
  case: insubP => [k Hk Ek|Hk].
    rewrite (eq_bigl (fun l => (l == k) && (i == j :> nat))); last first.
      move=> l; rewrite -(inj_eq val_inj) [val k]Ek.
      by case: eqP => //= ->.
    case: (eqVneq (i : nat) j) => [Eij|nij] /=; last by rewrite big_pred0 ?mulr0 // => l; rewrite andbF.
    rewrite (big_pred1 k) => [|l]; last by rewrite andbT.
    by have := H k; rewrite -Ek; case: eqVneq => [->|_] /= <-; rewrite ?mulr0 ?mulr1.
  rewrite big_pred0 => [|l]; last first.
    by apply/negbTE/negP => /andP[/eqP E _]; case/negP: Hk; rewrite -E ltn_ord.
  case: (eqVneq (i : nat) j) => [Eij|nij] /=; last by rewrite mulr0.
  by case/negP: Hk; rewrite leq_min ltn_ord Eij ltn_ord.
rewrite eqmxMfull ?row_full_unit // rank_pid_mx //; first by rewrite (leq_trans rk) ?geq_minl.
by rewrite (leq_trans rk) ?geq_minr.
Qed.

Lemma svdec_rank m n (M : 'M[R]_(m, n)) U s V : svdec M U s V ->
  exists2 r, \rank M = r & (r <= minn m n)%N /\ forall i, (s i 0 != 0) = (i < r)%N.
Proof.
case=> HU HV -> Hd H0; have [r rk Hr] := desc_prefix Hd H0; exists r => //.
rewrite mxrankMfree ?row_free_unit ?orthog_unit // eqmxMfull ?row_full_unit ?orthog_unit //.
exact: rank_rdiag.
Qed.

(** matrix_rank never exceeds the rank, and equals it when no singular value is tiny but nonzero *)
Lemma matrix_rank_run (la : linalg R) m n (M : 'M[R]_(m, n)) : svdvals_ok la -> (0 < m)%N -> (0 < n)%N ->
  exists U s V r, [/\ svdec M U s V, matrix_rank la (mat M) = Ok r, (r <= \rank M)%N &
    (forall i j, s i 0 != 0 -> s j 0 * ((maxn m n)%:R * (2%:R ^+ 52)^-1) < s i 0) -> r = \rank M].
Proof.
move=> Hla m0 n0; have [U [s [V [E Hs]]]] := Hla m n M m0 n0.
have k0 : (0 < minn m n)%N by rewrite leq_min m0.
have [i Ei Hi] := np_max_vec s k0.
have [_ _ _ Hd H0] := Hs; have [r Er [rk Hr]] := svdec_rank Hs.
have Ec : matrix_rank la (mat M) = Ok (count (fun x => s i 0 * ((maxn m n)%:R * (2%:R ^+ 52)^-1) < x) (vals s)).
  rewrite /matrix_rank [(_ < 2)%N]/= E rbind_okE Ei rbind_okE data_vals count_map; congr Ok.
  by apply: eq_count => x; rewrite /xgt /= mulrA.
exists U, s, V, (count (fun x => s i 0 * ((maxn m n)%:R * (2%:R ^+ 52)^-1) < x) (vals s)); split=> //.
  rewrite Er -(count_prefix (p := fun x => x != 0) rk Hr); apply: sub_count => x /= hx; rewrite gt_eqF //.
  apply: le_lt_trans hx; rewrite !mulr_ge0 ?ler0n ?invr_ge0 ?exprn_ge0 ?ler0n //.
move=> H; rewrite Er; apply: count_prefix => // j; rewrite -Hr; apply/idP/idP => [hj|hj]; last exact: H.
by rewrite gt_eqF // (le_lt_trans _ hj) // !mulr_ge0 ?ler0n ?invr_ge0 ?exprn_ge0 ?ler0n.
Qed.

End Rank.
