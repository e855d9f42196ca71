(** projection: zero columns, arrays holding one object twice, bases that are not orthogonal; witnesses. *)
Require Import Coq.Lists.List.
From mathcomp Require Import all_ssreflect all_algebra.
Require Import Coq.Strings.String.
From Verif.Model Require Import Py NP NP3 Linalg La Core EllGeom Ellipsoid EllHeap.
From Verif.Spec Require Import MatSpec LinalgSpec EllSpec EllipsoidSpec EllHeapSpec.
From Verif.Proof Require Import NPLib NP3Lib MatLib LaBasic EllLib EllGeomProof EllipsoidProof EllScalProof OpsEx EllHeapProof ProjProof.
Set Implicit Arguments.
Unset Strict Implicit.
Unset Printing Implicit Defensive.
Import Order.Theory GRing.Theory Num.Theory.
Local Open Scope ring_scope.

Section ProjEx.
Variable R : rcfType.
Variable la : linalg R.
Variable cfg : props R.
Notation A := (arr (xnum R)).

Lemma matmulE (a b : A) m k n : shape a = [:: m; k] -> shape b = [:: k; n] ->
  np_matmul a b = Ok (mkn [:: m; n] (fun idx =>
    xsum [seq xmul (getn NaN a [:: nth 0%N idx 0; l]) (getn NaN b [:: l; nth 0%N idx 1]) | l <- iota 0 k])).
Proof.
case: a b => sa da [sb db] /= -> ->; rewrite /np_matmul /= eqxx /=; congr Ok.
congr Arr; apply: eq_map => idx; congr xsum; apply: eq_map => l.
by rewrite !bidx_nil.
Qed.
Lemma matmul_bad (a b : A) m k k' n : shape a = [:: m; k] -> shape b = [:: k'; n] -> k != k' -> np_matmul a b = ValueError.
Proof. by case: a b => sa da [sb db] /= -> -> kk; rewrite /np_matmul /= kk. Qed.

Lemma xsum_nan (s : seq (xnum R)) : has (@xis_nan R) s -> xis_nan (xsum s).
Proof. by elim: s => //= x s IH /orP[|/IH]; [case: x | case: x => [y||| ] /=; case: (xsum s)]. Qed.
Lemma mul_nanl x (y : xnum R) : xis_nan x -> xis_nan (xmul x y). Proof. by case: x. Qed.
Lemma mul_nanr x (y : xnum R) : xis_nan y -> xis_nan (xmul x y). Proof. by case: x; case: y. Qed.

(** a zero column makes the quotient NaN, and the new shape matrix is refused *)
Lemma ort_basis_zero n k (B : 'M[R]_(n, k)) es t : (0 < size es)%N -> all_dim n es -> greatest_tol es t -> (k <= n)%N ->
  acute_below t B -> exists a, ort_basis es (mat B) = Ok a /\ shape a = [:: n; k] /\ forall (i : 'I_n) (j : 'I_k), col j B = 0 ->
    xis_nan (getn NaN a [:: val i; val j]).
Proof.
move=> e0 Hd Ht kn Ha; rewrite ort_basisE /= kn (all_dim_dims Hd) -[~~ (true && true)]/false.
rewrite np_T_mat np_matmul_mm rbind_okE np_diag_mat rbind_okE.
have [t' -> [Ht' t0]] := tol_run [:: size es] e0 Hd; rewrite rbind_okE -(greatest_uniq Ht Ht') {t' Ht'} in t0 *.
rewrite np_diag_vec rbind_okE np_sub_mat rbind_okE; set D := _ - _.
have -> : np_any (np_map (fun x => xgt x (Fin t)) (mat D)) = false.
  apply/negbTE; rewrite /np_any has_map -all_predC; apply/all_mkn => idx /valid2[i [j ->]].
  rewrite /= mxgetE -leNgt.
  have -> : D i j = (B^T *m B) i j - (B^T *m B) i i *+ (i == j) by rewrite /D; move: (B^T *m B) => M; rewrite !mxE.
  case: eqVneq => [->|ij]; first by rewrite subrr ltW.
  by rewrite mulr0n subr0 dot_cols; apply: Ha.
set v := \col_i _.
have -> : np_sqrt (vec v) = vec (\col_i len (col i B)).
  apply: vec_map => i; rewrite [v i 0]mxE dot_cols mxE; exact: (xsqrtE (sqn_ge0 _)).
rewrite np_tile_rows_vec np_div_mat; eexists; split; [reflexivity|split=> //] => i j Hj.
rewrite (getn_mkn _ _ (is_valid2 i j)) -[nth 0%N [:: val i; val j] 0]/(val i) -[nth 0%N [:: val i; val j] 1]/(val j) !mxgetE.
have -> : (\matrix_(_ < n, u < k) (\col_w len (col w B)) u 0) i j = 0 by rewrite !mxE Hj len0.
have -> : B i j = 0 by have := congr1 (fun w : 'cV[R]_n => w i 0) Hj; rewrite !mxE.
by rewrite /= eqxx.
Qed.

Lemma projection_zero n k (B : 'M[R]_(n, k)) h a es t j : objs h (data a) es -> all_dim n es ->
  greatest_tol es t -> (k <= n)%N -> acute_below t B -> col j B = 0 ->
  projection la a (mat B) h = (h, throw "wrongInput:shape_mat").
Proof.
move=> Ho Hd Ht kn Ha Hj; have Es := objs_size Ho.
have e0 : (0 < size es)%N by case: (es) Ht => // -[[]].
have [o [Eo [So No]]] := ort_basis_zero e0 Hd Ht kn Ha.
rewrite projectionE ?Es // {1}/hbind (hread_list Ho) {1}/hbind /hlift Eo.
case: (data a) es e0 Ho Hd {Es Ht Eo} => [|r rs] [|e es] // _ Ho Hd; first by inversion Ho.
have [c [Q [t' Hr]]] := List.Forall_inv Hd; have {}Ho : obj h r e by inversion Ho.
have [[Ec Eq Et t0] _] := Hr; have n0 : (0 < n)%N by apply: leq_trans kn; case: (j) => m; apply: leq_ltn_trans.
rewrite {1}/hbind [hmapM _ _]/= {1}/hbind /projection1 {1}/hbind (obj_read Ho) {1}/hbind {1}/hlift Eq.
have ST : shape (np_T o) = [:: k; n] by rewrite /= So.
rewrite (matmulE ST (erefl : shape (mat Q) = [:: n; n])) rbind_okE.
set q1 := mkn _ _; rewrite (matmulE (erefl : shape q1 = [:: k; n]) So); set q := mkn _ _.
have NT (i : 'I_n) : xis_nan (getn NaN (np_T o) [:: val j; val i]).
  by rewrite /np_T So getn_mkn; [exact: No | exact: (is_valid2 j i)].
have Nq : ~~ all (@xis_fin R) (data q).
  have Hn : xis_nan (getn NaN q [:: val j; val j]).
    rewrite (getn_mkn _ _ (is_valid2 j j)) /=; apply: xsum_nan.
    have -> : iota 0 n = 0%N :: iota 1 n.-1 by rewrite -{1}(prednK n0).
    rewrite [map _ _]/= [has _ _]/=; apply/orP; left; apply: mul_nanr; exact: (No (Ordinal n0) j).
  move: Hn; rewrite (getn_mkn _ _ (is_valid2 j j)) => Hn; apply/negP => /all_mkn /(_ _ (is_valid2 j j)).
  by move: Hn; case: (xsum _).
rewrite {1}/hbind /write_shape {1}/hbind (obj_read Ho) {1}/hbind {1}/hlift.
have k0 : (0 < k)%N by case: (j) => m; apply: leq_ltn_trans.
by rewrite /e_abs Et (set_shapeE _ (repr_props (e_props e) Hr)) // /np_size /= muln1 muln_gt0 k0 Nq.
Qed.

(** the same object twice: projected once, then the shapes do not fit *)
Lemma projection_alias n k (B : 'M[R]_(n, k)) h r e (c : 'cV[R]_n) Q t : eigvalsh_ok la -> obj h r e -> repr e c Q t ->
  (k < n)%N -> nonzero_cols B -> acute_below t B ->
  exists h' e', [/\ projection la (Arr [:: 2%N] [:: r; r]) (mat B) h = (h', ValueError), obj h' r e' & image_of (unit_cols B) e e'].
Proof.
move=> Hla Ho Hr kn nz Ha; have [[Ec Eq Et t0] _] := Hr.
have Hd : all_dim n [:: e; e] by do !constructor; exists c, Q, t.
have Ht : greatest_tol [:: e; e] t.
  by split=> [|e' u /= [<-|[<-|]]] //; [exists e => //; left | rewrite Et => -[->] | rewrite Et => -[->]].
have Hos : objs h [:: r; r] [:: e; e] by do !constructor.
have E1 := projection1_run (unit_cols B) Hla Ho Hr.
set e' := proj_ell (unit_cols B) c Q e in E1; set h1 := set_nth _ _ _ _ in E1.
have O1 : obj h1 r e' by apply: obj_written; apply: obj_lt Ho.
exists h1, e'; split=> //; last exact: proj_ell_image Hr.
rewrite projectionE // {1}/hbind (hread_list Hos) {1}/hbind /hlift ((ort_basis_run B _ Hd Ht (ltnW kn)).1 Ha nz) //.
rewrite [hmapM _ _]/= {1}/hbind {1}/hbind E1 {1}/hbind {1}/hbind /projection1 {1}/hbind (obj_read O1).
rewrite {1}/hbind {1}/hlift np_T_mat.
by rewrite (@matmul_bad _ _ k n k k) // eq_sym neq_ltn kn.
Qed.

(** obtuse basis vectors are accepted *)
Definition skew_basis : 'M[R]_2 := \matrix_(i, j) (if (i == 0) && (j == 0) then 1 else if j == 0 then 0 else if i == 0 then - 1 else 1).
Lemma skew_dot : dotv (col 0 skew_basis) (col 1 skew_basis) = - 1.
Proof. by rewrite /dotv !big_ord_recl big_ord0 !mxE /= !mul1r mul0r !addr0. Qed.
Lemma skew_nz : nonzero_cols skew_basis.
Proof.
move=> j; apply/eqP => H.
have := congr1 (fun w : 'cV[R]_2 => w (if j == 0 then 0 else 1) 0) H; rewrite !mxE.
by case: j {H} => -[|[|m]] i //=; move/eqP; rewrite oner_eq0.
Qed.
Lemma skew_acute (t : R) : 0 < t -> acute_below t skew_basis.
Proof.
move=> t0 i j ij; have : (i = 0 /\ j = 1) \/ (i = 1 /\ j = 0).
  by case: i j ij => -[|[|m]] ? [[|[|m']] ?] // _; [left|right]; split; apply: val_inj.
have H : (- 1 : R) <= t by apply: le_trans (ltW t0); rewrite oppr_le0 ler01.
by case=> [[-> ->]|[-> ->]]; [rewrite skew_dot | rewrite dotvC skew_dot].
Qed.
Lemma skew_accepted h a es : eigvalsh_ok la -> objs h (data a) es -> uniq (data a) -> (0 < size es)%N -> all_dim 2 es ->
  exists h', projection la a (mat skew_basis) h = (h', Ok a).
Proof.
move=> Hla Ho U e0 Hd; have [t _ [Ht t0]] := tol_run [::] e0 Hd.
by have [h' [es' [E _ _ _]]] := projection_run Hla Ho U Hd Ht (leqnn _) skew_nz (skew_acute t0); exists h'.
Qed.
Lemma skew_not_ortho : ~ ortho_cols skew_basis.
Proof. by move/(_ 0 1 isT)/eqP; rewrite skew_dot oppr_eq0 oner_eq0. Qed.

(** rep_mat refuses negative sizes, and floats of any value *)
Lemma rep_negative r (l : seq int) h : (0 < size l)%N -> has (fun z => z < 0) l ->
  rep_mat (single_copy la cfg) r (SInt (Arr [:: size l] l)) h = (h, throw "wrongInput:shape_vec").
Proof.
move=> l0 Hl; rewrite /rep_mat /hbind /hlift /rep_sizes max_shape1 /np_size /= muln1 (gtn_eqF l0) eqxx /=.
have -> // : all (fun z : int => 0 <= z) l = false.
by apply/negbTE; rewrite -has_predC; apply: sub_has Hl => z /=; rewrite ltNge.
Qed.
Lemma rep_float r (sh : seq nat) h : (0 < size sh)%N ->
  rep_mat (single_copy la cfg) r (SFloat (Arr [:: size sh] (map Posz sh))) h = (h, TypeError).
Proof.
move=> s0; rewrite /rep_mat /hbind /hlift /rep_sizes max_shape1 /np_size /= muln1 (gtn_eqF s0) eqxx /=.
by have -> : all (fun z : int => (0 <= z)%R) [seq Posz i | i <- sh] by apply/allP => z /mapP[i _ ->].
Qed.

End ProjEx.

(** a heap with the unit ball and a ball of radius 2 around (3, 3), and the basis (1, 1), (-1, 1) *)
Section Wit.
Variable R : rcfType.
Definition two_heap : seq (ell R) := two_balls R.
Definition diag_basis : 'M[R]_2 := \matrix_(i, j) (if (i == 0) && (j == 1) then - 1 else 1).

Lemma two_dim : all_dim 2 two_heap.
Proof.
have H (c : 'cV[R]_2) a : 0 <= a -> exists (c' : 'cV[R]_2) (Q : 'M[R]_2) t, repr (ball_at c a) c' Q t by move=> a0; exists c, a%:M, (10%:R ^- 7); exact: ball_repr.
by do !constructor; apply: H; rewrite ?ler01 ?ler0n.
Qed.
Lemma two_tol : greatest_tol two_heap (10%:R ^- 7).
Proof.
split=> [|e u /= [<-|[<-|]]] //; first by exists (ball_at (const_mx 3%:R : 'cV[R]_2) 1) => //; left.
- by move=> /= [<-].
- by move=> /= [<-].
Qed.
Lemma two_objs : objs two_heap [:: 1%N; 0%N] (rev two_heap).
Proof. by do !constructor. Qed.
Lemma diag_ortho : ortho_cols diag_basis.
Proof.
have H : dotv (col 0 diag_basis) (col 1 diag_basis) = 0.
  by rewrite /dotv !big_ord_recl big_ord0 !mxE /= !mul1r addr0 addNr.
move=> i j ij; have : (i = 0 /\ j = 1) \/ (i = 1 /\ j = 0).
  by case: i j ij => -[|[|m]] ? [[|[|m']] ?] // _; [left|right]; split; apply: val_inj.
by case=> [[-> ->]|[-> ->]]; [|rewrite dotvC].
Qed.
Lemma diag_nz : nonzero_cols diag_basis.
Proof.
move=> j; apply/eqP => H; have := congr1 (fun w : 'cV[R]_2 => w 1 0) H; rewrite !mxE /=.
by move/eqP; rewrite oner_eq0.
Qed.
End Wit.
