(** Proofs for Ellipsoid.rho. *)
From mathcomp Require Import all_ssreflect all_algebra.
From mathcomp.zify Require Import zify.
Require Import Coq.Strings.String.
From Verif.Model Require Import Py NP NP3 Linalg EllGeom Ellipsoid.
From Verif.Spec Require Import MatSpec LinalgSpec EllSpec EllipsoidSpec RhoSpec.
From Verif.Proof Require Import NPLib MatLib LaBasic EllLib EllGeomProof EllScalProof RegProof.
Set Implicit Arguments.
Unset Strict Implicit.
Unset Printing Implicit Defensive.
Import Order.Theory GRing.Theory Num.Theory.
Local Open Scope ring_scope.

Section Rho.
Variable R : rcfType.
Notation X := (xnum R).
Notation A := (arr X).
Notation ell := (ell R).

(** ------------------------------------------------------------------ np.hstack of columns *)
Definition mof n k (f : nat -> nat -> R) : 'M[R]_(n, k) := \matrix_(i, j) f i j.

Lemma mxget0 m n (M : 'M[R]_(m, n)) i j (Hi : (i < m)%N) (Hj : (j < n)%N) : mxget M i j = M (Ordinal Hi) (Ordinal Hj).
Proof. exact: (mxgetE M (Ordinal Hi) (Ordinal Hj)). Qed.

Lemma fold_cols n (l : seq 'cV[R]_n) a f :
  foldM (@np_hstack2 R) (mat (mof n a f)) [seq mat v | v <- l] =
  Ok (mat (mof n (a + size l) (fun i j => if (j < a)%N then f i j else mxget (nth 0 l (j - a)) i 0))).
Proof.
elim: l a f => [|v l IH] a f.
  rewrite /= addn0; congr (Ok (mat _)); apply/matrixP => i j; rewrite !mxE.
  by rewrite (ltn_ord j).
rewrite /= np_hstack_mat /=.
have -> : row_mx (mof n a f) v = mof n (a + 1) (fun i j => if (j < a)%N then f i j else mxget v i 0).
  apply/matrixP => i j; rewrite mxE [RHS]mxE; case: splitP => k Ek; first by rewrite mxE Ek.
  by rewrite ord1 -(mxgetE v i 0).
rewrite IH; have -> : (a + 1 + size l = a + (size l).+1)%N by lia.
congr (Ok (mat _)); apply/matrixP => i j; rewrite !mxE.
case: (ltnP j a) => H1; first by rewrite (leq_trans H1) ?leq_addr.
case: (ltnP j (a + 1)) => H2; first by have -> : (j - a = 0)%N by lia.
by have -> : (j - a = (j - (a + 1)).+1)%N by lia.
Qed.

Lemma hstack_cols n k (f : 'I_k -> 'cV[R]_n) : (0 < k)%N ->
  hstack [seq mat (f j) | j <- enum 'I_k] = Ok (mat (\matrix_(i, j) f j i 0)).
Proof.
case: k f => // k f _; rewrite enum_ordSl /= -map_comp.
have -> : f ord0 = mof n 1 (fun i _ => mxget (f ord0) i 0).
  by apply/matrixP => i j; rewrite mxE ord1 -(mxgetE (f ord0) i 0).
have -> : [seq (fun j => mat (f j)) (lift ord0 j) | j <- enum 'I_k] =
          [seq mat v | v <- [seq f (lift ord0 j) | j <- enum 'I_k]] by rewrite -map_comp.
rewrite fold_cols size_map size_enum_ord; congr (Ok (mat _)); apply/matrixP => i j; rewrite !mxE.
case: (unliftP ord0 j) => [j' ->|->] /=; last by rewrite -(mxgetE (f ord0) i 0).
rewrite /bump /= add1n subSS subn0 (nth_map j') ?size_enum_ord // nth_ord_enum.
by rewrite -(mxgetE _ i 0).
Qed.

Lemma data_one (M : 'M[R]_1) : data (mat M) = [:: Fin (M 0 0)].
Proof. by rewrite -(mxgetE M 0 0). Qed.

Lemma flat_sups k (v : 'I_k -> 'M[R]_1) : flatten [seq data (mat (v j)) | j <- enum 'I_k] = [seq Fin (v j 0 0) | j <- enum 'I_k].
Proof. by elim: (enum 'I_k) => //= j s ->; rewrite -(mxgetE (v j) 0 0). Qed.

(** ------------------------------------------------------------------ one ellipsoid, one direction *)
Lemma bp_supports n m (Q : 'M[R]_n) (c : 'cV[R]_n) (D : 'M[R]_(n, m)) j : symm Q -> psd Q ->
  supports c Q (col j D) (sup_row Q c D 0 j) (col j (bp_mat Q c D)).
Proof.
move=> HQ Hp; have -> : sup_row Q c D 0 j = dotv (col j D) c + Num.sqrt (qf Q (col j D)) by rewrite mxE.
have -> : col j (bp_mat Q c D) = c + (Num.sqrt (qf Q (col j D)))^-1 *: (Q *m col j D).
  by apply/colP => i; rewrite [LHS]mxE [LHS]mxE [RHS]mxE; congr (_ + _); rewrite [LHS]mxE [RHS]mxE.
split; [exact: ell_support|exact: ell_bp_in|exact: ell_bp_dot].
Qed.

Lemma rho_for_dir_run n e (c : 'cV[R]_n) Q t (d : 'cV[R]_n) : (0 < n)%N -> repr e c Q t ->
  rho_for_dir e (mat d) = Ok (mat (sup_row Q c d), mat (bp_mat Q c d)).
Proof.
move=> n0 [[Ec Eq _ _] [HQ Hp _]]; rewrite /rho_for_dir Ec Eq.
have -> : np_size (vec c) = n by rewrite /np_size /= muln1.
by rewrite np_reshape_col rbind_okE; apply: rho_mat_one => //; left.
Qed.

Lemma rho_pack_run n k (s : 'I_k -> 'M[R]_1) (p : 'I_k -> 'cV[R]_n) : (0 < k)%N ->
  rho_pack [seq (mat (s j), mat (p j)) | j <- enum 'I_k] =
  Ok (numbers [:: k; 1%N; 1%N] (fun j => s j 0 0), mat (\matrix_(i, j) p j i 0)).
Proof.
move=> k0; have : size [seq (mat (s j), mat (p j)) | j <- enum 'I_k] = k by rewrite size_map size_enum_ord.
rewrite /rho_pack; case E : [seq (mat (s j), mat (p j)) | j <- enum 'I_k] => [|x l] => [/= E0|_].
  by rewrite -E0 in k0.
rewrite -E -[map snd _]map_comp [map (snd \o _) _](_ : _ = [seq mat (p j) | j <- enum 'I_k]) // hstack_cols //= .
by rewrite size_map size_enum_ord -[map _ (map _ _)]map_comp /numbers -flat_sups.
Qed.

Lemma dims_ok n k es (c : 'I_k -> 'cV[R]_n) Q t s : family es c Q t ->
  all (fun d => d == n) (data (dimension (Arr s es))).
Proof.
move=> [Es H]; rewrite [data _]/= all_map; case: es Es H => // e0 es Es H; apply/(all_nthP e0) => j; rewrite Es => jk.
by rewrite /= (repr_dim (H (Ordinal jk) e0)).
Qed.

Lemma data_row m (v : 'rV[R]_m) : data (mat v) = [seq Fin (v 0 j) | j <- enum 'I_m].
Proof.
have -> : mat v = mat (v^T)^T by rewrite trmxK.
rewrite -np_expand0_vec [LHS]data_vals /vals -map_comp; apply: eq_map => j; by rewrite /= mxE.
Qed.

Lemma dres n m ds (D : 'M[R]_(n, m)) : (0 < size ds)%N -> dim_res (reshaped (n :: ds) D) 1 = Ok (nth 0%N ds 0).
Proof. by case: ds. Qed.

Lemma one_run n e (c : 'cV[R]_n) Q t s ds m (D : 'M[R]_(n, m)) : (0 < n)%N -> repr e c Q t ->
  (0 < size ds)%N -> prodn ds = m ->
  rho (Arr s [:: e]) (reshaped (n :: ds) D) =
  Ok (Arr (if (1 < size ds)%N then ds else [:: 1%N; m]) (data (mat (sup_row Q c D))), reshaped (n :: ds) (bp_mat Q c D)).
Proof.
move=> n0 Hr s0 Em; have [[Ec Eq Et t0] [HQ Hp _]] := Hr; rewrite /rho [shape _]/=.
rewrite (dres D s0) rbind_okE [size _ == _]/= orTb rbind_okE.
have -> : all (fun d => d == nth 0%N (n :: ds) 0) (data (dimension (Arr s [:: e]))).
  by rewrite /= Ec /np_size /= muln1 eqxx.
rewrite [data (Arr _ _)]/= [~~ true]/= /get_abs_tol_by /get_abs_tol_arr [size _ == _]/=.
have -> : np_min (Arr [:: size (data (Arr s [:: e]))] (map (@e_abs R) (data (Arr s [:: e])))) = Ok (Fin t).
  by rewrite /np_min /= /e_abs Et.
rewrite rbind_okE [behead _]/= Em [nth _ _ _]/=.
have -> : np_reshape [:: n; m] (reshaped (n :: ds) D) = Ok (mat D).
  by rewrite /np_reshape size_mkn eqxx.
rewrite rbind_okE Ec Eq; have -> : np_size (vec c) = n by rewrite /np_size /= muln1.
rewrite np_reshape_col rbind_okE (rho_mat_run D n0 HQ Hp (ltW t0) (or_introl (erefl _))) rbind_okE.
case: ds s0 Em => // d1 [|d2 ds] _ Em.
  by rewrite [(2 < _)%N]/= [(1 < _)%N]/= /reshaped /=; move: Em; rewrite /= muln1 => ->.
rewrite [(2 < _)%N]/= [(1 < _)%N]/= /np_reshape !size_mkn.
have -> : prodn (d1 :: d2 :: ds) == prodn [:: 1%N; m] by rewrite Em /= mul1n muln1.
rewrite rbind_okE.
by have -> : prodn [:: n, d1, d2 & ds] == prodn [:: n; m] by rewrite -Em /= muln1.
Qed.

Theorem one_spec n e (c : 'cV[R]_n) Q t s ds m (D : 'M[R]_(n, m)) : (0 < n)%N -> repr e c Q t ->
  (0 < size ds)%N -> prodn ds = m ->
  exists (v : 'I_m -> R) (P : 'M[R]_(n, m)),
    rho (Arr s [:: e]) (reshaped (n :: ds) D) =
      Ok (numbers (if (1 < size ds)%N then ds else [:: 1%N; m]) v, reshaped (n :: ds) P) /\
    forall j, supports c Q (col j D) (v j) (col j P).
Proof.
move=> n0 Hr s0 Em; exists (fun j => sup_row Q c D 0 j), (bp_mat Q c D); split; first by rewrite (one_run s D n0 Hr) // data_row.
by move=> j; apply: bp_supports; case: Hr => _ [].
Qed.

(** ------------------------------------------------------------------ several ellipsoids, one direction *)
Lemma size_numbers m s (v : 'I_m -> R) : size (data (numbers s v)) = m.
Proof. by rewrite size_map size_enum_ord. Qed.

Lemma col_id n (d : 'cV[R]_n) : col 0 d = d.
Proof. by apply/colP => i; rewrite mxE. Qed.

Theorem dir_spec n k es (c : 'I_k -> 'cV[R]_n) Q t s (d : 'cV[R]_n) : (0 < n)%N -> (1 < k)%N -> family es c Q t ->
  prodn s = k ->
  exists (v : 'I_k -> R) (P : 'M[R]_(n, k)),
    rho (Arr s es) (mat d) =
      Ok (numbers s v, reshaped (if (2 < size s)%N then n :: s else [:: n; k]) P) /\
    forall j, supports (c j) (Q j) d (v j) (col j P).
Proof.
move=> n0 k1 Hf Ek; have [Es H] := Hf.
exists (fun j => sup_row (Q j) (c j) d 0 0), (\matrix_(i, j) (bp_mat (Q j) (c j) d) i 0); split; last first.
  move=> j; have e0 : ell by case: es Es {H Hf} => [E|//]; move: k1; rewrite -E.
  have -> : col j (\matrix_(i, j) (bp_mat (Q j) (c j) d) i 0) = col 0 (bp_mat (Q j) (c j) d).
    by apply/colP => i; rewrite [LHS]mxE [LHS]mxE [RHS]mxE.
  by rewrite -{1}(col_id d); apply: bp_supports; have [_ []] := H j e0.
rewrite /rho [shape _]/= [dim_res _ _]/= rbind_okE [data (Arr _ _)]/= Es (gtn_eqF k1).
have -> : (1%N == 1%N) && (size [:: n; 1%N] == 2%N) by [].
rewrite orbT rbind_okE [nth _ _ _]/= (dims_ok s Hf) [~~ true]/=.
rewrite (mapM_ord (g := fun j => (mat (sup_row (Q j) (c j) d), mat (bp_mat (Q j) (c j) d))) Es) => [|j e0]; last first.
  exact: rho_for_dir_run (H j e0).
rewrite rbind_okE (rho_pack_run (fun j => sup_row (Q j) (c j) d) (fun j => bp_mat (Q j) (c j) d)) ?(ltnW k1) // rbind_okE.
rewrite {1}/np_reshape size_numbers Ek eqxx rbind_okE.
case: ifP => // _; rewrite /np_reshape size_mkn.
by have -> : prodn (n :: s) == prodn [:: n; k] by rewrite /= Ek muln1.
Qed.

(** ------------------------------------------------------------------ ellipsoids paired with directions *)
Theorem pairs_spec n k es (c : 'I_k -> 'cV[R]_n) Q t s ds (D : 'M[R]_(n, k)) : (0 < n)%N -> (1 < k)%N ->
  family es c Q t -> prodn s = k -> prodn ds = k -> paired s ds ->
  exists (v : 'I_k -> R) (P : 'M[R]_(n, k)),
    rho (Arr s es) (reshaped (n :: ds) D) =
      Ok (numbers (if (1 < size ds)%N then ds else [:: k; 1%N; 1%N]) v, reshaped (n :: ds) P) /\
    forall j, supports (c j) (Q j) (col j D) (v j) (col j P).
Proof.
move=> n0 k1 Hf Ek Ed [s1 Hp]; have [Es H] := Hf.
exists (fun j => sup_row (Q j) (c j) (col j D) 0 0), (\matrix_(i, j) (bp_mat (Q j) (c j) (col j D)) i 0); split; last first.
  move=> j; have e0 : ell by case: es Es {H Hf} => [E|//]; move: k1; rewrite -E.
  have -> : col j (\matrix_(i, j) (bp_mat (Q j) (c j) (col j D)) i 0) = col 0 (bp_mat (Q j) (c j) (col j D)).
    by apply/colP => i; rewrite [LHS]mxE [LHS]mxE [RHS]mxE.
  by rewrite -{1}(col_id (col j D)); apply: bp_supports; have [_ []] := H j e0.
have d0 : (0 < size ds)%N by case: Hp => [[-> _]//|<-]; apply: leq_trans s1.
rewrite /rho [shape _]/= (dres D d0) rbind_okE [data (Arr _ _)]/= Es (gtn_eqF k1).
have E1 : (nth 0%N ds 0 == 1%N) && (size (n :: ds) == 2%N) = false.
  apply/negP => /andP[/eqP E1 /eqP[E2]]; move: k1; rewrite -Ed.
  by case: ds E1 E2 {D Hp Ed d0} => // x [|//] /= ->.
rewrite [size (shape _)]/= E1 [behead _]/= Ek Ed eqxx.
have -> : (let* c1 := match s with
                      | [::] => IndexError
                      | [:: e0] => if e0 == 1%N then Ok (size (n :: ds) == 2%N) else IndexError
                      | [:: e0, e1 & _] => Ok (((e0 == 1%N) || (e1 == 1%N)) && (size (n :: ds) == 2%N))
                      end in Ok (c1 || (s == ds))) = Ok true.
  case: s s1 Hp {Ek Hf} => [|a [|b s]] //= _ [[-> [->|->]]|->]; rewrite ?eqxx ?orbT ?andbT //.
rewrite rbind_okE [nth _ (n :: _) _]/= (dims_ok s Hf) [~~ true]/=.
have -> : np_reshape [:: n; k] (reshaped (n :: ds) D) = Ok (mat D) by rewrite /np_reshape size_mkn eqxx.
rewrite rbind_okE.
rewrite (mapM_ord (k := k) (g := fun j => (mat (sup_row (Q j) (c j) (col j D)), mat (bp_mat (Q j) (c j) (col j D))))).
- rewrite rbind_okE (rho_pack_run (fun j => sup_row (Q j) (c j) (col j D)) (fun j => bp_mat (Q j) (c j) (col j D))) ?(ltnW k1) // rbind_okE.
  case: ds d0 Ed {Hp E1} => // d1 [|d2 ds] _ Ed.
    by rewrite [(2 < _)%N]/= [(1 < _)%N]/= /reshaped /=; move: Ed; rewrite /= muln1 => ->.
  rewrite [(2 < _)%N]/= [(1 < _)%N]/= /np_reshape size_numbers Ed eqxx rbind_okE size_mkn.
  by have -> : prodn [:: n, d1, d2 & ds] == prodn [:: n; k] by rewrite -Ed /= muln1.
- by rewrite size_zip size_iota Es minnn.
move=> j [e0 i0]; rewrite nth_zip ?size_iota // [(_, _).2]/= [(_, _).1]/= nth_iota // add0n np_col_mat rbind_okE np_expand1_vec.
exact: rho_for_dir_run (H j e0).
Qed.

(** ------------------------------------------------------------------ rejected arguments *)
Theorem vector_run k (es : seq ell) n ds (vs : seq X) : size es = k -> (1 < k)%N -> (0 < size ds)%N -> prodn ds = k ->
  rho (Arr [:: k] es) (Arr (n :: ds) vs) = IndexError.
Proof.
move=> Es k1 d0 Ed; rewrite /rho [shape _]/=.
have -> : dim_res (Arr (n :: ds) vs) 1 = Ok (nth 0%N ds 0) by case: ds d0 {Ed}.
rewrite rbind_okE [data (Arr _ _)]/= Es (gtn_eqF k1).
have E1 : (nth 0%N ds 0 == 1%N) && (size (n :: ds) == 2%N) = false.
  apply/negP => /andP[/eqP E1 /eqP[E2]]; move: k1; rewrite -Ed.
  by case: ds E1 E2 {Ed d0} => // x [|//] /= ->.
rewrite [shape _]/= E1 [behead _]/= Ed; have -> : prodn [:: k] = k by rewrite /= muln1.
by rewrite eqxx (gtn_eqF k1).
Qed.

Theorem sizes_run s (es : seq ell) n ds (vs : seq X) : size es <> 1%N -> (0 < size ds)%N -> ds <> [:: 1%N] ->
  prodn s <> prodn ds -> rho (Arr s es) (Arr (n :: ds) vs) = throw "wrongInput:wrongSizes".
Proof.
move=> E1 d0 d1 Ed; rewrite /rho [shape _]/=.
have -> : dim_res (Arr (n :: ds) vs) 1 = Ok (nth 0%N ds 0) by case: ds d0 {d1 Ed}.
rewrite rbind_okE [data (Arr _ _)]/=; have -> : (size es == 1%N) = false by apply/eqP.
have -> : (nth 0%N ds 0 == 1%N) && (size (shape (Arr (n :: ds) vs)) == 2%N) = false.
  by apply/negP => /andP[/eqP E3 /eqP[E2]]; apply: d1; case: ds E3 E2 {Ed d0} => // x [|//] /= ->.
rewrite [shape _]/= [behead _]/=; have -> : (prodn s == prodn ds) = false by apply/eqP.
have -> : (s == ds) = false by apply/eqP => E; apply: Ed; rewrite E.
by [].
Qed.

Theorem dims_run n n' e (c : 'cV[R]_n) Q t s ds (vs : seq X) : repr e c Q t -> n <> n' -> (0 < size ds)%N ->
  rho (Arr s [:: e]) (Arr (n' :: ds) vs) = throw "wrongInput".
Proof.
move=> Hr nn d0; rewrite /rho [shape _]/=.
have -> : dim_res (Arr (n' :: ds) vs) 1 = Ok (nth 0%N ds 0) by case: ds d0.
rewrite rbind_okE [size _ == _]/= orTb rbind_okE.
have -> // : all (fun d => d == nth 0%N (shape (Arr (n' :: ds) vs)) 0) (data (dimension (Arr s [:: e]))) = false.
by rewrite /= (repr_dim Hr) andbT; apply/eqP.
Qed.

Theorem dir_dims_run n n' k es (c : 'I_k -> 'cV[R]_n) Q t s (d : 'cV[R]_n') : (0 < k)%N -> family es c Q t -> n <> n' ->
  rho (Arr s es) (mat d) = throw "wrongInput".
Proof.
move=> k0 [Es H] nn; rewrite /rho [shape _]/= [dim_res _ _]/= rbind_okE.
have -> : (1%N == 1%N) && (size [:: n'; 1%N] == 2%N) by [].
rewrite orbT rbind_okE.
have -> // : all (fun m => m == nth 0%N (shape (mat d)) 0) (data (dimension (Arr s es))) = false.
case: es Es H => [E|e es _ /(_ (Ordinal k0) e) /= Hr]; first by move=> _; rewrite -E in k0.
by rewrite (repr_dim Hr); have -> : (n == n') = false by apply/eqP.
Qed.

Lemma flat_run (a : arr ell) n (vs : seq X) : rho a (Arr [:: n] vs) = IndexError.
Proof. by []. Qed.
End Rho.
