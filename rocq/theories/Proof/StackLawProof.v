(** Laws between the operations on stacks of matrices. *)
From mathcomp Require Import all_ssreflect all_fingroup all_algebra.
Require Import Coq.Strings.String.
From Verif.Model Require Import Py NP NP3 Linalg La Gen.
From Verif.Spec Require Import MatSpec LinalgSpec OrthSpec GenSpec StackLawSpec.
From Verif.Proof Require Import NPLib NP3Lib MatLib LaBasic EllLib EllEqProof GenProof.
Set Implicit Arguments.
Unset Strict Implicit.
Unset Printing Implicit Defensive.
Import Order.Theory GRing.Theory Num.Theory.
Local Open Scope ring_scope.

Section StackLaw.
Variable R : rcfType.
Variable la : linalg R.

(** products *)
Theorem mul_assoc m k n q p (D : 'I_p -> 'M[R]_(m, k)) (E : 'I_p -> 'M[R]_(k, n)) (F : 'I_p -> 'M[R]_(n, q)) b b' :
  (let* x := r_multiply (slices D) (slices E) None b in r_multiply x (slices F) None b') =
    r_multiply (slices D) (slices E) (Some (slices F)) b /\
  (let* y := r_multiply (slices E) (slices F) None b in r_multiply (slices D) y None b') =
    r_multiply (slices D) (slices E) (Some (slices F)) b.
Proof.
rewrite r_multiply3_slices !r_multiply_slices !rbind_okE !r_multiply_slices; split=> //.
by congr Ok; apply: eq_slices => l; rewrite mulmxA.
Qed.
Theorem mul_transpose m k n p (D : 'I_p -> 'M[R]_(m, k)) (E : 'I_p -> 'M[R]_(k, n)) b b' :
  (let* x := r_multiply (slices D) (slices E) None b in mv_transpose x) =
  (let* e := mv_transpose (slices E) in let* d := mv_transpose (slices D) in r_multiply e d None b').
Proof.
rewrite r_multiply_slices !transpose_slices !rbind_okE transpose_slices r_multiply_slices.
by congr Ok; apply: eq_slices => l; rewrite trmx_mul.
Qed.
Theorem congruence m n p (B : 'I_p -> 'M[R]_m) (M : 'I_p -> 'M[R]_(m, n)) b :
  lr_multiply (slices B) (slices M) FlagR = (let* t := mv_transpose (slices M) in lr_multiply (slices B) t FlagL) /\
  lr_multiply (slices B) (slices M) FlagR = (let* t := mv_transpose (slices M) in r_multiply t (slices B) (Some (slices M)) b).
Proof.
rewrite lr_multiply_33R transpose_slices !rbind_okE lr_multiply_33L r_multiply3_slices; split=> //.
by congr Ok; apply: eq_slices => l; rewrite trmxK.
Qed.

(** inverses *)
Theorem inv_mul n p (B : 'I_p -> 'M[R]_n) b : inv_ok la -> (0 < n)%N -> (forall l, B l \in unitmx) ->
  [/\ (let* i := sq_inv la (slices B) in r_multiply (slices B) i None b) = Ok (slices (fun _ : 'I_p => 1%:M : 'M[R]_n)),
      (let* i := sq_inv la (slices B) in r_multiply i (slices B) None b) = Ok (slices (fun _ : 'I_p => 1%:M : 'M[R]_n)) &
      (let* i := sq_inv la (slices B) in sq_inv la i) = Ok (slices B)].
Proof.
move=> ok n0 HB; rewrite sq_inv_slices // !rbind_okE !r_multiply_slices sq_inv_slices //; last by move=> l; rewrite unitmx_inv.
by split; congr Ok; apply: eq_slices => l; rewrite ?mulmxV ?mulVmx ?invmxK.
Qed.
Theorem inv_product n p (B C : 'I_p -> 'M[R]_n) b : inv_ok la -> (0 < n)%N -> (forall l, B l \in unitmx) -> (forall l, C l \in unitmx) ->
  (let* x := r_multiply (slices B) (slices C) None b in sq_inv la x) =
  (let* c := sq_inv la (slices C) in let* d := sq_inv la (slices B) in r_multiply c d None b).
Proof.
move=> ok n0 HB HC; rewrite r_multiply_slices !rbind_okE !sq_inv_slices // ?rbind_okE ?r_multiply_slices //; last first.
  by move=> l; rewrite unitmx_mul HB HC.
congr Ok; apply: eq_slices => l.
have U : B l *m C l \in unitmx by rewrite unitmx_mul HB HC.
by rewrite -[RHS]mulmx1 -(mulmxV U) !mulmxA mulmxKV // mulVmx // mul1mx.
Qed.

(** square roots *)
Theorem root_square n p (B : 'I_p -> 'M[R]_n) b : eigh_ok la -> (1 < n)%N ->
  (forall l, symm (B l)) -> (forall l, psd (B l)) ->
  (let* s := sq_sqrtm_pos la (slices B) in r_multiply s s None b) = Ok (slices B) /\
  (let* x := r_multiply (slices B) (slices B) None b in sq_sqrtm_pos la x) = Ok (slices B).
Proof.
move=> ok n1 HB PB; have [S [E HS]] := sq_sqrtm_slices ok n1 HB PB.
rewrite E rbind_okE !r_multiply_slices rbind_okE; split; first by congr Ok; apply: eq_slices => l; have [] := HS l.
have H2 l : symm (B l *m B l) by rewrite /symm trmx_mul HB.
have P2 l : psd (B l *m B l).
  by move=> x; rewrite /qf -mulmxA -{1}(HB l) dotv_mulr ?trmxK; exact: sqn_ge0.
have [T [-> HT]] := sq_sqrtm_slices ok n1 H2 P2; congr Ok; apply: eq_slices => l.
by have [h1 h2 h3] := HT l; exact: root_uniq.
Qed.
Theorem root_inverse n p (B : 'I_p -> 'M[R]_n) : eigh_ok la -> inv_ok la -> (1 < n)%N ->
  (forall l, symm (B l)) -> (forall l, posdef (B l)) ->
  (let* s := sq_sqrtm_pos la (slices B) in sq_inv la s) = (let* i := sq_inv la (slices B) in sq_sqrtm_pos la i).
Proof.
move=> ok ok2 n1 HB PB; have n0 := ltnW n1; have PB' l : psd (B l) by apply: posdef_psd.
have [S [E HS]] := sq_sqrtm_slices ok n1 HB PB'; have U l : B l \in unitmx by apply: posdef_unit.
have US l : S l \in unitmx by have [_ _ h] := HS l; have := U l; rewrite -h unitmx_mul andbb.
rewrite E sq_inv_slices // !rbind_okE sq_inv_slices //.
have sinv (M : 'M[R]_n) : symm M -> symm (invmx M) by move=> H; rewrite /symm trmx_inv H.
have pinv (M : 'M[R]_n) : symm M -> M \in unitmx -> psd M -> psd (invmx M).
  move=> H u P x; have := P (invmx M *m x); rewrite /qf mulmxA mulmxV // mul1mx dotvC; by [].
have [T [-> HT]] := sq_sqrtm_slices ok n1 (fun l => sinv _ (HB l)) (fun l => pinv _ (HB l) (U l) (PB' l)).
congr Ok; apply: eq_slices => l; have [t1 t2 t3] := HT l; have [s1 s2 s3] := HS l.
apply: root_uniq => //; [exact: sinv|exact: pinv|]; rewrite t3 -s3.
have US2 : S l *m S l \in unitmx by rewrite s3.
by rewrite -[LHS]mulmx1 -(mulmxV US2) !mulmxA mulmxKV // mulVmx // mul1mx.
Qed.

Lemma penrose_uniq m n (B : 'M[R]_(m, n)) P Q : penrose B P -> penrose B Q -> P = Q.
Proof.
move=> [p1 p2 p3 p4] [q1 q2 q3 q4].
have E1 : B *m P = B *m Q.
  have : B *m Q *m (B *m P) = B *m P by rewrite mulmxA q1.
  move/(congr1 trmx); rewrite trmx_mul p3 q3 => <-; by rewrite mulmxA p1.
have E2 : P *m B = Q *m B.
  have : P *m B *m (Q *m B) = P *m B by rewrite -mulmxA [B *m (Q *m B)]mulmxA q1.
  move/(congr1 trmx); rewrite trmx_mul p4 q4 => <-; by rewrite -mulmxA [B *m (P *m B)]mulmxA p1.
by rewrite -p2 E2 -mulmxA E1 mulmxA.
Qed.
Lemma penrose_sym m n (B : 'M[R]_(m, n)) P : penrose B P -> penrose P B.
Proof. by case=> *; split. Qed.
Lemma penrose_tr m n (B : 'M[R]_(m, n)) P : penrose B P -> penrose B^T P^T.
Proof. by case=> h1 h2 h3 h4; split; rewrite -?trmx_mul ?trmxK ?h4 ?h3 // -?mulmxA -?trmx_mul ?mulmxA ?h1 ?h2. Qed.
Lemma penrose_inv n (B : 'M[R]_n) : B \in unitmx -> penrose B (invmx B).
Proof. by move=> U; split; rewrite ?mulmxV ?mulVmx ?mul1mx ?trmx1. Qed.

Lemma pinv_run m n p (B : 'I_p -> 'M[R]_(m, n)) P : pinv_ok la -> (0 < m)%N -> (0 < n)%N ->
  (forall l, penrose (B l) (P l)) -> mv_pinv la (slices B) = Ok (slices P).
Proof.
move=> ok m0 n0 H; have [P' [-> H']] := mv_pinv_slices B ok m0 n0; congr Ok; apply: eq_slices => l.
exact: penrose_uniq (H' l) (H l).
Qed.
Theorem pinv_laws m n p (B : 'I_p -> 'M[R]_(m, n)) : pinv_ok la -> (0 < m)%N -> (0 < n)%N ->
  (let* i := mv_pinv la (slices B) in mv_pinv la i) = Ok (slices B) /\
  (let* t := mv_transpose (slices B) in mv_pinv la t) = (let* i := mv_pinv la (slices B) in mv_transpose i).
Proof.
move=> ok m0 n0; have [P [E H]] := mv_pinv_slices B ok m0 n0.
rewrite E transpose_slices !rbind_okE transpose_slices; split.
  by apply: pinv_run => // l; apply: penrose_sym; exact: H.
by apply: pinv_run => // l; apply: penrose_tr; exact: H.
Qed.
Theorem pinv_inv n p (B : 'I_p -> 'M[R]_n) : pinv_ok la -> inv_ok la -> (0 < n)%N -> (forall l, B l \in unitmx) ->
  mv_pinv la (slices B) = sq_inv la (slices B).
Proof.
move=> ok ok2 n0 U; rewrite sq_inv_slices //; apply: pinv_run => // l; exact: penrose_inv.
Qed.

(** make_pos_definite_by_eig changes nothing the second time *)
Theorem by_eig_twice n p (B : 'I_p -> 'M[R]_n) (v w : R) : eigh_ok la -> (0 < n)%N -> (forall l, symm (B l)) -> 0 <= v -> 0 <= w ->
  exists P : 'I_p -> 'M[R]_n, [/\ sq_make_pos_by_eig la (slices B) (Fin v) = Ok (slices P),
    sq_make_pos_by_eig la (slices P) (Fin w) = Ok (slices P) & forall l, symm (P l) /\ psd (P l)].
Proof.
move=> ok n0 HB v0 w0; have [P [E H]] := make_pos_by_eig_slices v ok n0 HB; exists P.
have HP l : symm (P l) /\ psd (P l).
  have [P' [E' SP _]] := make_pos_by_eig_spec v ok n0 (HB l).
  have EP : P l = P' by have := etrans (esym (H l)) E' => /Ok_inj/mat_inj.
  by split; [rewrite EP|have [] := make_pos_by_eig_psd ok n0 (HB l) v0 (H l)].
have [T [ET HT]] := make_pos_by_eig_slices w ok n0 (fun l => (HP l).1); split=> //.
rewrite ET; congr Ok; apply: eq_slices => l.
by have [_ h _] := make_pos_by_eig_psd ok n0 (HP l).1 w0 (HT l); apply: h; have [] := HP l.
Qed.

(** dividing is multiplying by the inverse *)
Theorem divide_inverse n p (B : 'I_p -> 'M[R]_n) (M : 'M[R]_(n, p)) : lstsq_ok la -> inv_ok la -> (0 < n)%N -> p != 1%N ->
  (forall l, B l \in unitmx) ->
  exists v : 'cV[R]_p, lr_divide_vec la (slices B) (mat M) = Ok (vec v) /\
  (let* i := sq_inv la (slices B) in lr_multiply_by_vec i (mat M)) = Ok (mat v^T).
Proof.
move=> ok ok2 n0 p1 U; exists (\col_l qf (invmx (B l)) (col l M)).
rewrite lr_divide_many // sq_inv_slices // rbind_okE lr_by_vec_slices; split=> //.
by congr (Ok (mat _)); apply/matrixP => i j; rewrite !mxE.
Qed.
End StackLaw.
