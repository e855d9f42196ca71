(** Lemmas about the mini-numpy of Model/NP.v: indexing, and refinement of array operations
    to mathcomp matrix operations. *)
From mathcomp Require Import all_ssreflect all_algebra.
From Verif.Model Require Import Py NP.
Set Implicit Arguments.
Unset Strict Implicit.
Unset Printing Implicit Defensive.
Import Order.Theory GRing.Theory Num.Theory.
Local Open Scope ring_scope.

(** ---------------------------------------------------------------- indices *)
Lemma size_indices s : size (indices s) = prodn s.
Proof.
elim: s => //= n s IH.
rewrite size_flatten /seq.shape -map_comp.
rewrite (@eq_map _ _ _ (fun=> prodn s)); last by move=> i; rewrite /= size_map IH.
by elim: n {IH} (0%N) => //= n IHn k; rewrite IHn mulSn.
Qed.

Lemma valid_ravel s idx : valid_idx s idx -> (ravel s idx < prodn s)%N.
Proof.
elim: s idx => [|n s IH] [|i idx] //= /andP[lt_in /IH lt].
apply: (@leq_trans (i * prodn s + prodn s)); first by rewrite ltn_add2l.
by rewrite -mulSnr leq_mul2r lt_in orbT.
Qed.

Lemma nth_flatten_unif {T} (d : T) (ss : seq (seq T)) k i j :
  (forall l, l \in [seq size x | x <- ss] -> l = k) -> (i < size ss)%N -> (j < k)%N ->
  nth d (flatten ss) (i * k + j) = nth d (nth [::] ss i) j.
Proof.
elim: ss i => [|s ss IH] i //= Hs lt_i lt_j.
have Es : size s = k by apply: Hs; rewrite inE eqxx.
rewrite nth_cat Es; case: i lt_i => [|i] lt_i /=; first by rewrite mul0n add0n lt_j.
rewrite mulSn -addnA ltnNge leq_addr /= addKn IH //.
by move=> l l_in; apply: Hs; rewrite inE l_in orbT.
Qed.

Lemma nth_indices s idx : valid_idx s idx -> nth [::] (indices s) (ravel s idx) = idx.
Proof.
elim: s idx => [|n s IH] [|i idx] //= /andP[lt_in Hv].
rewrite (@nth_flatten_unif _ _ _ (prodn s)).
- rewrite (nth_map 0%N) ?size_iota // nth_iota // add0n.
  by rewrite (nth_map [::]) ?size_indices ?valid_ravel // IH.
- move=> l /mapP[x /mapP[j _ ->] ->]; by rewrite size_map size_indices.
- by rewrite size_map size_iota.
- exact: valid_ravel.
Qed.

Lemma indices_valid s idx : (idx \in indices s) = valid_idx s idx.
Proof.
apply/idP/idP; last first.
  move=> Hv; rewrite -(nth_indices Hv); apply: mem_nth; rewrite size_indices.
  exact: valid_ravel.
elim: s idx => [|n s IH] idx /=; first by rewrite inE => /eqP->.
move/flattenP => [x /mapP[i]]; rewrite mem_iota => /andP[_ lt_i] -> /mapP[r /IH Hr ->] /=.
by rewrite Hr andbT.
Qed.

Lemma getn_mkn {T} (d : T) s f idx : valid_idx s idx -> getn d (mkn s f) idx = f idx.
Proof.
move=> Hv; rewrite /getn /mkn /= (nth_map [::]) ?size_indices ?valid_ravel //.
by rewrite nth_indices.
Qed.

Lemma mkn_ext {T} s (f g : seq nat -> T) :
  (forall idx, valid_idx s idx -> f idx = g idx) -> mkn s f = mkn s g.
Proof.
move=> H; congr Arr; apply/eq_in_map => idx; rewrite indices_valid; exact: H.
Qed.

Lemma mkn_inj {T} s (f g : seq nat -> T) idx :
  valid_idx s idx -> mkn s f = mkn s g -> f idx = g idx.
Proof. by move=> Hv E; rewrite -(getn_mkn (f [::]) f Hv) E getn_mkn. Qed.

Lemma size_mkn {T} s (f : seq nat -> T) : size (data (mkn s f)) = prodn s.
Proof. by rewrite size_map size_indices. Qed.

Lemma wf_mkn {T} s (f : seq nat -> T) : wf_arr (mkn s f).
Proof. by rewrite /wf_arr size_mkn. Qed.

(** every well-formed array is a [mkn] *)
Lemma indices_ravel s k : (k < prodn s)%N -> ravel s (nth [::] (indices s) k) = k.
Proof.
elim: s k => [|n s IH] k /=; first by rewrite ltnS leqn0 => /eqP->.
have [->|p0] := posnP (prodn s); first by rewrite muln0 ltn0.
move=> lt_k; rewrite {1 2}(divn_eq k (prodn s)).
have lt_q : (k %/ prodn s < n)%N by rewrite ltn_divLR // mulnC.
have lt_r : (k %% prodn s < prodn s)%N by rewrite ltn_mod.
rewrite (@nth_flatten_unif _ _ _ (prodn s)) //.
- rewrite (nth_map 0%N) ?size_iota // nth_iota // add0n.
  by rewrite (nth_map [::]) ?size_indices //= IH.
- by move=> l /mapP[x /mapP[j _ ->] ->]; rewrite size_map size_indices.
- by rewrite size_map size_iota.
Qed.

Lemma arr_mkn {T} (d : T) (a : arr T) : wf_arr a -> a = mkn (shape a) (getn d a).
Proof.
case: a => s dt; rewrite /wf_arr /= => /eqP Hs; congr Arr; rewrite /getn /=.
apply: (@eq_from_nth _ d); first by rewrite size_map size_indices.
move=> i lt_i; rewrite (nth_map [::]) ?size_indices -?Hs //.
by rewrite indices_ravel // -Hs.
Qed.

Lemma arr_ext {T} (d : T) (a b : arr T) : wf_arr a -> wf_arr b -> shape a = shape b ->
  (forall idx, valid_idx (shape a) idx -> getn d a idx = getn d b idx) -> a = b.
Proof.
move=> wa wb Es H; rewrite (arr_mkn d wa) (arr_mkn d wb) -Es; exact: mkn_ext.
Qed.

Lemma valid2 m n idx : valid_idx [:: m; n] idx ->
  exists (i : 'I_m) (j : 'I_n), idx = [:: val i; val j].
Proof.
case: idx => [|i [|j [|]]] //=; rewrite ?andbF //.
rewrite andbT => /andP[lt_i lt_j]; by exists (Ordinal lt_i), (Ordinal lt_j).
Qed.

Lemma valid1 n idx : valid_idx [:: n] idx -> exists (i : 'I_n), idx = [:: val i].
Proof.
case: idx => [|i [|]] //=; rewrite ?andbF // andbT => lt_i; by exists (Ordinal lt_i).
Qed.

Lemma valid3 m n k idx : valid_idx [:: m; n; k] idx ->
  exists (i : 'I_m) (j : 'I_n) (l : 'I_k), idx = [:: val i; val j; val l].
Proof.
case: idx => [|i idx] //= /andP[lt_i /valid2[j [l ->]]].
by exists (Ordinal lt_i), j, l.
Qed.

Lemma is_valid2 m n (i : 'I_m) (j : 'I_n) : valid_idx [:: m; n] [:: val i; val j].
Proof. by rewrite /= !ltn_ord. Qed.
Lemma is_valid1 m (i : 'I_m) : valid_idx [:: m] [:: val i].
Proof. by rewrite /= !ltn_ord. Qed.

(** ---------------------------------------------------------------- extended reals *)
Section XN.
Variable R : rcfType.

Lemma xsubE (a b : R) : xsub (Fin a) (Fin b) = Fin (a - b). Proof. by []. Qed.
Lemma xdivE (a b : R) : b != 0 -> xdiv (Fin a) (Fin b) = Fin (a / b).
Proof. by rewrite /xdiv => /negbTE->. Qed.
Lemma xsqrtE (a : R) : 0 <= a -> xsqrt (Fin a) = Fin (Num.sqrt a).
Proof. by rewrite /xsqrt ltNge => ->. Qed.
Lemma xleE (a b : R) : xle (Fin a) (Fin b) = (a <= b).
Proof. by rewrite /xle /= le_eqVlt orbC. Qed.
Lemma xmaxE (a b : R) : xmax (Fin a) (Fin b) = Fin (Num.max a b).
Proof. by rewrite /xmax /= maxEle lt_leAnge; case: (leP b a) => //= h; 
  rewrite ?andbT ?andbF //; [case: leP => // h'; congr Fin; apply/eqP; rewrite eq_le h h' | rewrite (ltW h)].
Qed.
Lemma xminE (a b : R) : xmin (Fin a) (Fin b) = Fin (Num.min a b).
Proof. by rewrite /xmin /= minEle; case: leP. Qed.

Lemma xsum_fin (s : seq R) : xsum [seq Fin x | x <- s] = Fin (\sum_(x <- s) x).
Proof.
elim: s => [|x s IH]; first by rewrite big_nil.
by rewrite big_cons /xsum /= -/(xsum _) IH.
Qed.

Lemma xsum_iota n (f : nat -> R) : xsum [seq Fin (f i) | i <- iota 0 n] = Fin (\sum_(i < n) f i).
Proof.
rewrite -(big_mkord xpredT f) /index_iota subn0.
by rewrite map_comp xsum_fin big_map.
Qed.

Lemma xsum_ord n (f : nat -> xnum R) (g : 'I_n -> R) :
  (forall i : 'I_n, f i = Fin (g i)) ->
  xsum [seq f i | i <- iota 0 n] = Fin (\sum_(i < n) g i).
Proof.
move=> H; pose h i := if insub i is Some j then g j else 0.
rewrite (_ : [seq f i | i <- iota 0 n] = [seq Fin (h i) | i <- iota 0 n]).
  by rewrite xsum_iota; congr Fin; apply: eq_bigr => i _; rewrite /h valK.
apply/eq_in_map => i; rewrite mem_iota add0n => /andP[_ lt_i].
by rewrite /h (insubT (fun i => (i < n)%N) lt_i) -H.
Qed.

(** ---------------------------------------------------------------- embedding *)
Lemma mxgetE m n (M : 'M[R]_(m, n)) (i : 'I_m) (j : 'I_n) : mxget M i j = M i j.
Proof. by rewrite /mxget !valK. Qed.

Lemma matE m n (M : 'M[R]_(m, n)) f :
  (forall (i : 'I_m) (j : 'I_n), f [:: val i; val j] = Fin (M i j)) -> mkn [:: m; n] f = mat M.
Proof.
move=> H; apply: mkn_ext => idx /valid2[i [j ->]]; by rewrite H /= mxgetE.
Qed.
Lemma vecE n (v : 'cV[R]_n) f :
  (forall (i : 'I_n), f [:: val i] = Fin (v i 0)) -> mkn [:: n] f = vec v.
Proof.
move=> H; apply: mkn_ext => idx /valid1[i ->]; rewrite H /=.
by rewrite -(mxgetE v i 0).
Qed.

Lemma get_mat m n (M : 'M[R]_(m, n)) (i : 'I_m) (j : 'I_n) d :
  getn d (mat M) [:: val i; val j] = Fin (M i j).
Proof. by rewrite getn_mkn ?is_valid2 //= mxgetE. Qed.
Lemma get_vec n (v : 'cV[R]_n) (i : 'I_n) d : getn d (vec v) [:: val i] = Fin (v i 0).
Proof.
by rewrite getn_mkn ?is_valid1 //= -(mxgetE v i 0).
Qed.
Lemma get_mat' m n (M : 'M[R]_(m, n)) i j d (Hi : (i < m)%N) (Hj : (j < n)%N) :
  getn d (mat M) [:: i; j] = Fin (M (Ordinal Hi) (Ordinal Hj)).
Proof. by rewrite -(get_mat M (Ordinal Hi) (Ordinal Hj) d). Qed.
Lemma get_vec' n (v : 'cV[R]_n) i d (Hi : (i < n)%N) :
  getn d (vec v) [:: i] = Fin (v (Ordinal Hi) 0).
Proof. by rewrite -(get_vec v (Ordinal Hi) d). Qed.

Lemma mat_inj m n : injective (@mat R m n).
Proof.
move=> A B E; apply/matrixP => i j.
by have := congr1 (fun q => getn NaN q [:: val i; val j]) E; rewrite !get_mat => -[].
Qed.
Lemma vec_inj n : injective (@vec R n).
Proof.
move=> A B E; apply/matrixP => i j; rewrite (ord1 j).
by have := congr1 (fun q => getn NaN q [:: val i]) E; rewrite !get_vec => -[].
Qed.
Lemma wf_mat m n (M : 'M[R]_(m, n)) : wf_arr (mat M). Proof. exact: wf_mkn. Qed.
Lemma wf_vec n (v : 'cV[R]_n) : wf_arr (vec v). Proof. exact: wf_mkn. Qed.

(** every finite 2-d (1-d) array is a matrix (vector) *)
Lemma fin_mat (a : arr (xnum R)) m n : wf_arr a -> shape a = [:: m; n] -> all (@xis_fin R) (data a) ->
  exists M : 'M[R]_(m, n), a = mat M.
Proof.
move=> wa Es Hf.
exists (\matrix_(i, j) (if getn NaN a [:: val i; val j] is Fin x then x else 0)).
rewrite {1}(arr_mkn NaN wa) Es; apply: matE => i j; rewrite mxE.
have: xis_fin (getn NaN a [:: val i; val j]).
  apply: (all_nthP NaN Hf).
  by rewrite (eqP wa) Es; apply: valid_ravel; rewrite is_valid2.
by case: getn.
Qed.
Lemma fin_vec (a : arr (xnum R)) n : wf_arr a -> shape a = [:: n] -> all (@xis_fin R) (data a) ->
  exists v : 'cV[R]_n, a = vec v.
Proof.
move=> wa Es Hf.
exists (\col_i (if getn NaN a [:: val i] is Fin x then x else 0)).
rewrite {1}(arr_mkn NaN wa) Es; apply: vecE => i; rewrite mxE.
have: xis_fin (getn NaN a [:: val i]).
  apply: (all_nthP NaN Hf).
  by rewrite (eqP wa) Es; apply: valid_ravel; rewrite is_valid1.
by case: getn.
Qed.

(** ---------------------------------------------------------------- broadcasting, equal shapes *)
Lemma bcast_rev_refl s : bcast_rev s s = Some s.
Proof. by elim: s => //= n s ->; rewrite eqxx. Qed.
Lemma bshape_refl s : bshape s s = Some s.
Proof. by rewrite /bshape bcast_rev_refl /= revK. Qed.
Lemma bidx_id s idx : valid_idx s idx -> bidx s idx = idx.
Proof.
rewrite /bidx => Hv; have <-: size s = size idx.
  by elim: s idx Hv => [|n s IH] [|i idx] //= /andP[_ /IH->].
rewrite subnn drop0; elim: s idx Hv => [|n s IH] [|i idx] //= /andP[lt_i /IH->].
by case: eqP lt_i => // ->; case: i.
Qed.

Lemma np_bin_same U (f : xnum R -> xnum R -> U) (a b : arr (xnum R)) : shape a = shape b ->
  np_bin f a b = Ok (mkn (shape a) (fun idx => f (getn NaN a idx) (getn NaN b idx))).
Proof.
move=> E; rewrite /np_bin -E bshape_refl; congr Ok; apply: mkn_ext => idx Hv.
by rewrite bidx_id.
Qed.

Lemma np_map_mkn T U (f : T -> U) s g : np_map f (mkn s g) = mkn s (f \o g).
Proof. by rewrite /np_map /mkn /= -map_comp. Qed.

Lemma np_map_get T U (d : T) (f : T -> U) (a : arr T) : wf_arr a ->
  np_map f a = mkn (shape a) (fun idx => f (getn d a idx)).
Proof. by move=> wa; rewrite {1}(arr_mkn d wa) np_map_mkn. Qed.

Lemma np_bin_scal_r U (f : xnum R -> xnum R -> U) (a : arr (xnum R)) (x : xnum R) : wf_arr a ->
  np_bin f a (np_scalar x) = Ok (np_map (fun y => f y x) a).
Proof.
move=> wa; rewrite /np_bin {1}/bshape /= (np_map_get NaN _ wa).
have -> : bcast_rev (rev (shape a)) [::] = Some (rev (shape a)) by case: (rev _).
by rewrite /= revK; congr Ok; apply: mkn_ext => idx Hv; rewrite bidx_id.
Qed.

Lemma np_bin_scal_l U (f : xnum R -> xnum R -> U) (a : arr (xnum R)) (x : xnum R) : wf_arr a ->
  np_bin f (np_scalar x) a = Ok (np_map (fun y => f x y) a).
Proof.
move=> wa; rewrite /np_bin {1}/bshape /= revK (np_map_get NaN _ wa).
by congr Ok; apply: mkn_ext => idx Hv; rewrite (bidx_id Hv).
Qed.

Section Mat.
Variables m n : nat.
Implicit Types A B : 'M[R]_(m, n).

Lemma np_add_mat A B : np_add (mat A) (mat B) = Ok (mat (A + B)).
Proof.
rewrite /np_add np_bin_same //; congr Ok; apply: matE => i j.
by rewrite !get_mat mxE.
Qed.
Lemma np_sub_mat A B : np_sub (mat A) (mat B) = Ok (mat (A - B)).
Proof.
rewrite /np_sub np_bin_same //; congr Ok; apply: matE => i j.
by rewrite !get_mat !mxE.
Qed.
Lemma np_mul_mat A B : np_mul (mat A) (mat B) = Ok (mat (\matrix_(i, j) (A i j * B i j))).
Proof.
rewrite /np_mul np_bin_same //; congr Ok; apply: matE => i j.
by rewrite !get_mat !mxE.
Qed.
Lemma np_scale_mat a A : np_scale (Fin a) (mat A) = mat (a *: A).
Proof. by rewrite /np_scale np_map_mkn; apply: matE => i j; rewrite /= mxE mxgetE. Qed.
Lemma np_neg_mat A : np_neg (mat A) = mat (- A).
Proof. by rewrite /np_neg np_map_mkn; apply: matE => i j; rewrite /= mxE mxgetE. Qed.
Lemma np_divs_mat a A : a != 0 -> np_divs (mat A) (Fin a) = mat (a^-1 *: A).
Proof.
move=> a0; rewrite /np_divs np_map_mkn; apply: matE => i j.
by rewrite [LHS]/= (negbTE a0) mxE mxgetE mulrC.
Qed.
Lemma np_T_mat A : np_T (mat A) = mat A^T.
Proof.
rewrite /np_T; apply: matE => i j; by rewrite /= get_mat mxE.
Qed.
Lemma np_zeros_mat : np_zeros R [:: m; n] = mat (0 : 'M_(m, n)).
Proof. by apply: matE => i j; rewrite mxE. Qed.
Lemma np_sum_mat A : np_sum (mat A) = Fin (\sum_i \sum_j A i j).
Proof.
rewrite /np_sum /mat /mkn [data _]/=.
rewrite (map_comp (@Fin R) (fun idx => mxget A (nth 0%N idx 0) (nth 0%N idx 1))) xsum_fin.
rewrite big_map big_flatten big_map; congr Fin.
rewrite -{1}[m]subn0 -/(index_iota 0 m) big_mkord; apply: eq_bigr => i _.
rewrite big_map big_flatten big_map.
rewrite -{1}[n]subn0 -/(index_iota 0 n) big_mkord; apply: eq_bigr => j _.
by rewrite /= ?big_seq1 /= mxgetE.
Qed.


Lemma np_flatten_row (v : 'rV[R]_n) : np_flatten (mat v) = vec v^T.
Proof.
have Hs : size (data (mat v)) = n by rewrite size_mkn /= mul1n muln1.
rewrite /np_flatten Hs; apply: (@arr_ext _ NaN); rewrite ?wf_mkn //.
- by rewrite /wf_arr [data _]/= Hs /= muln1.
move=> idx; rewrite [shape _]/= => /valid1[i ->].
rewrite get_vec mxE -(get_mat v 0 i NaN) /getn; congr nth.
Qed.
End Mat.

Section Vec.
Variable n : nat.
Implicit Types u v : 'cV[R]_n.

Lemma np_add_vec u v : np_add (vec u) (vec v) = Ok (vec (u + v)).
Proof.
rewrite /np_add np_bin_same //; congr Ok; apply: vecE => i.
by rewrite !get_vec mxE.
Qed.
Lemma np_sub_vec u v : np_sub (vec u) (vec v) = Ok (vec (u - v)).
Proof.
rewrite /np_sub np_bin_same //; congr Ok; apply: vecE => i.
by rewrite !get_vec !mxE.
Qed.
Lemma np_mul_vec u v : np_mul (vec u) (vec v) = Ok (vec (\col_i (u i 0 * v i 0))).
Proof.
rewrite /np_mul np_bin_same //; congr Ok; apply: vecE => i.
by rewrite !get_vec !mxE.
Qed.
Lemma vec_map (f : xnum R -> xnum R) v (w : 'cV[R]_n) :
  (forall i, f (Fin (v i 0)) = Fin (w i 0)) -> np_map f (vec v) = vec w.
Proof.
by move=> H; rewrite np_map_mkn; apply: vecE => i; rewrite /= -H -(mxgetE v i 0).
Qed.
Lemma np_scale_vec a v : np_scale (Fin a) (vec v) = vec (a *: v).
Proof. by apply: vec_map => i; rewrite mxE. Qed.
Lemma np_neg_vec v : np_neg (vec v) = vec (- v).
Proof. by apply: vec_map => i; rewrite mxE. Qed.
Lemma np_divs_vec a v : a != 0 -> np_divs (vec v) (Fin a) = vec (a^-1 *: v).
Proof. by move=> a0; apply: vec_map => i; rewrite mxE xdivE // mulrC. Qed.
Lemma np_zeros_vec : np_zeros R [:: n] = vec (0 : 'cV_n).
Proof. by apply: vecE => i; rewrite mxE. Qed.
Lemma np_ones_vec : np_ones R [:: n] = vec (const_mx 1 : 'cV_n).
Proof. by apply: vecE => i; rewrite mxE. Qed.
Lemma np_T_vec v : np_T (vec v) = vec v.
Proof. by rewrite /np_T; apply: vecE => i; rewrite [rev _]/= get_vec. Qed.
Lemma data_vec v : data (vec v) = [seq Fin (mxget v i 0) | i <- iota 0 n].
Proof.
rewrite /vec /mkn [data _]/=.
by elim: (iota 0 n) => //= i s <-.
Qed.
Lemma np_sum_vec v : np_sum (vec v) = Fin (\sum_i v i 0).
Proof.
rewrite /np_sum data_vec; apply: xsum_ord => i; by rewrite -(mxgetE v i 0).
Qed.
Lemma np_diag_vec v : np_diag (vec v) = Ok (mat (diag_mx v^T)).
Proof.
congr Ok; apply: matE => i j; rewrite /= !mxE val_eqE.
case: eqP => [->|_]; by rewrite ?get_vec ?mulr1n ?mulr0n.
Qed.
Lemma np_expand1_vec v : np_expand 1 (vec v) = mat v.
Proof.
apply: (@arr_ext _ NaN); rewrite ?wf_mkn //.
- by rewrite /wf_arr /np_expand size_mkn /= muln1.
move=> idx; rewrite [shape _]/= => /valid2[i [j ->]]; rewrite get_mat (ord1 j).
have := get_vec v i NaN; rewrite /getn /= !muln1 !addn0 => <-.
by [].
Qed.
Lemma np_expand0_vec v : np_expand 0 (vec v) = mat v^T.
Proof.
apply: (@arr_ext _ NaN); rewrite ?wf_mkn //.
- by rewrite /wf_arr /np_expand size_mkn /= mul1n muln1.
move=> idx; rewrite [shape _]/= => /valid2[j [i ->]]; rewrite get_mat (ord1 j) mxE.
have := get_vec v i NaN; rewrite /getn /= mul0n !muln1 !addn0 add0n => <-.
by [].
Qed.
Lemma np_reshape_col v : np_reshape [:: n; 1%N] (vec v) = Ok (mat v).
Proof. by rewrite /np_reshape size_mkn /= muln1 eqxx -np_expand1_vec. Qed.
Lemma np_reshape_row v : np_reshape [:: 1%N; n] (vec v) = Ok (mat v^T).
Proof. by rewrite /np_reshape size_mkn /= muln1 mul1n eqxx -np_expand0_vec. Qed.
Lemma np_flatten_vec v : np_flatten (vec v) = vec v.
Proof. by rewrite /np_flatten /vec /mkn /= size_map -/(indices [:: n]) size_indices /= muln1. Qed.
Lemma np_flatten_col v : np_flatten (mat v) = vec v.
Proof. by rewrite -np_expand1_vec -[RHS]np_flatten_vec. Qed.
Lemma np_squeeze_vec v : n != 1%N -> np_squeeze (vec v) = vec v.
Proof. by rewrite /np_squeeze /= => ->. Qed.
Lemma np_squeeze_col v : n != 1%N -> np_squeeze (mat v) = vec v.
Proof. by move=> n1; rewrite -np_expand1_vec -{2}np_squeeze_vec // /np_squeeze /= n1. Qed.
End Vec.

Lemma np_eye_mat n : np_eye R n = mat (1%:M : 'M_n).
Proof.
by apply: matE => i j; rewrite /= !mxE val_eqE; case: eqP.
Qed.

Lemma bidx_nil idx : bidx [::] idx = [::].
Proof. by rewrite /bidx; case: (drop _ _). Qed.

Lemma np_matmul_mm m k n (A : 'M[R]_(m, k)) (B : 'M[R]_(k, n)) :
  np_matmul (mat A) (mat B) = Ok (mat (A *m B)).
Proof.
rewrite /np_matmul [ndim _]/= [ndim _]/= [shape _]/= [shape _]/=.
rewrite [size _]/= [take _ _]/= [take _ _]/= eqxx /=; congr Ok.
set r := map _ _; have : mkn [:: m; n] (fun idx =>
   xsum [seq xmul (getn NaN (mat A) [:: nth 0%N idx 0; l]) (getn NaN (mat B) [:: l; nth 0%N idx 1])
     | l <- iota 0 k]) = mat (A *m B).
  apply: matE => i j /=; rewrite mxE; apply: xsum_ord => l; by rewrite !get_mat.
move=> <-; congr Arr; apply: eq_map => idx; congr xsum; apply: eq_map => l.
by rewrite !bidx_nil.
Qed.

Lemma matmul_1r (a v : arr (xnum R)) m k k' : shape a = [:: m; k] -> shape v = [:: k'] ->
  np_matmul a v = (let* r := np_matmul a (np_expand 1 v) in Ok (Arr [:: m] (data r))).
Proof.
case: a v => sa da [sv dv] /= -> ->; rewrite /np_matmul /=.
by case: (k == k').
Qed.
Lemma matmul_1l (v b : arr (xnum R)) k k' n : shape v = [:: k] -> shape b = [:: k'; n] ->
  np_matmul v b = (let* r := np_matmul (np_expand 0 v) b in Ok (Arr [:: n] (data r))).
Proof.
case: v b => sv dv [sb db] /= -> ->; rewrite /np_matmul /=.
by case: (k == k').
Qed.
Lemma matmul_11 (u v : arr (xnum R)) k k' : shape u = [:: k] -> shape v = [:: k'] ->
  np_matmul u v =
  (let* r := np_matmul (np_expand 0 u) (np_expand 1 v) in Ok (Arr [::] (data r))).
Proof.
case: u v => su du [sv dv] /= -> ->; rewrite /np_matmul /=.
by case: (k == k').
Qed.

Lemma vec_data n (v : 'cV[R]_n) : Arr [:: n] (data (mat v)) = vec v.
Proof. by rewrite -np_expand1_vec. Qed.
Lemma vec_dataT n (v : 'rV[R]_n) : Arr [:: n] (data (mat v)) = vec v^T.
Proof. by rewrite -{1}[v]trmxK -np_expand0_vec. Qed.

Lemma np_matmul_mv m k (A : 'M[R]_(m, k)) (v : 'cV[R]_k) :
  np_matmul (mat A) (vec v) = Ok (vec (A *m v)).
Proof. by rewrite (matmul_1r (m:=m) (k:=k) (k':=k)) // np_expand1_vec np_matmul_mm /= -vec_data. Qed.

Lemma np_matmul_vm k n (v : 'cV[R]_k) (B : 'M[R]_(k, n)) :
  np_matmul (vec v) (mat B) = Ok (vec (B^T *m v)).
Proof.
rewrite (matmul_1l (n:=n) (k:=k) (k':=k)) // np_expand0_vec np_matmul_mm /rbind vec_dataT.
by rewrite trmx_mul trmxK.
Qed.

Lemma np_matmul_vv k (u v : 'cV[R]_k) :
  np_matmul (vec u) (vec v) = Ok (scal ((u^T *m v) 0 0)).
Proof.
rewrite (matmul_11 (k:=k) (k':=k)) // np_expand0_vec np_expand1_vec np_matmul_mm /rbind.
by rewrite /scal /mat /mkn /= -(mxgetE (u^T *m v) 0 0).
Qed.

Lemma np_sum_mulvv n (u v : 'cV[R]_n) :
  (let* p := np_mul (vec u) (vec v) in Ok (np_sum p)) = Ok (Fin ((u^T *m v) 0 0)).
Proof.
rewrite np_mul_vec /= np_sum_vec mxE; congr (Ok (Fin _)).
by apply: eq_bigr => i _; rewrite !mxE.
Qed.

Lemma np_col_mat m n (A : 'M[R]_(m, n)) (j : 'I_n) : np_col (mat A) j = Ok (vec (col j A)).
Proof.
rewrite /np_col /= ltn_ord; congr Ok; apply: vecE => i; by rewrite /= get_mat mxE.
Qed.
Lemma np_row_mat m n (A : 'M[R]_(m, n)) (i : 'I_m) : np_row (mat A) i = Ok (vec (row i A)^T).
Proof.
rewrite /np_row /= ltn_ord; congr Ok; apply: vecE => j; by rewrite /= get_mat !mxE.
Qed.
Lemma np_cols_rsub m n1 n2 (A : 'M[R]_(m, n1 + n2)) hi : (n1 + n2 <= hi)%N ->
  np_cols (mat A) n1 hi = Ok (mat (rsubmx A)).
Proof.
move=> h; rewrite /np_cols /=; have -> : (minn hi (n1 + n2) - n1)%N = n2.
  by rewrite (minn_idPr h) addKn.
congr Ok; apply: matE => i j; by rewrite mxE -(get_mat A i (rshift n1 j) NaN).
Qed.
Lemma np_cols_lsub m n1 n2 (A : 'M[R]_(m, n1 + n2)) :
  np_cols (mat A) 0 n1 = Ok (mat (lsubmx A)).
Proof.
rewrite /np_cols /=; have -> : (minn n1 (n1 + n2) - 0)%N = n1.
  by rewrite subn0 (minn_idPl (leq_addr _ _)).
congr Ok; apply: matE => i j; by rewrite mxE -(get_mat A i (lshift n2 j) NaN).
Qed.
Lemma np_rows_dsub m1 m2 n (A : 'M[R]_(m1 + m2, n)) hi : (m1 + m2 <= hi)%N ->
  np_rows (mat A) m1 hi = Ok (mat (dsubmx A)).
Proof.
move=> h; rewrite /np_rows /=; have -> : (minn hi (m1 + m2) - m1)%N = m2.
  by rewrite (minn_idPr h) addKn.
congr Ok; apply: matE => i j; by rewrite mxE -(get_mat A (rshift m1 i) j NaN).
Qed.
Lemma np_set_col_vec m n (A : 'M[R]_(m, n)) (j : 'I_n) (v : 'cV[R]_m) :
  np_set_col (mat A) j (vec v) =
  Ok (mat (\matrix_(i, k) (if k == j then v i 0 else A i k))).
Proof.
rewrite /np_set_col /= ltn_ord bshape_refl eqxx; congr Ok; apply: matE => i k.
rewrite bidx_id; last by rewrite /= ltn_ord.
by rewrite mxE [nth _ _ _]/= val_eqE; case: ifP => _; rewrite ?get_vec ?get_mat.
Qed.
Lemma np_set_col_scal m n (A : 'M[R]_(m, n)) (j : 'I_n) a :
  np_set_col (mat A) j (scal a) =
  Ok (mat (\matrix_(i, k) (if k == j then a else A i k))).
Proof.
rewrite /np_set_col /= ltn_ord /= eqxx; congr Ok; apply: matE => i k.
by rewrite mxE [nth _ _ _]/= val_eqE; case: ifP => _; rewrite ?get_mat.
Qed.
Lemma np_hstack_mat m n1 n2 (A : 'M[R]_(m, n1)) (B : 'M[R]_(m, n2)) :
  np_hstack2 (mat A) (mat B) = Ok (mat (row_mx A B)).
Proof.
rewrite /np_hstack2 /= eqxx; congr Ok; apply: matE => i j; rewrite mxE.
rewrite [nth _ _ 0]/= [nth _ _ 1]/=.
case: splitP => k Ek; rewrite Ek.
  exact: get_mat.
by rewrite addKn get_mat.
Qed.
Lemma np_trace_mat n (A : 'M[R]_n) : np_trace (mat A) = Ok (Fin (\tr A)).
Proof.
rewrite /np_trace /= minnn; congr Ok; apply: xsum_ord => i; exact: get_mat.
Qed.
Lemma np_diag_mat n (A : 'M[R]_n) : np_diag (mat A) = Ok (vec (\col_i A i i)).
Proof.
rewrite /np_diag /= minnn; congr Ok; apply: vecE => i; by rewrite mxE get_mat.
Qed.

End XN.

(** step through [let* x := Ok a in f] without unfolding anything else *)
Lemma rbind_okE T U (x : T) (f : T -> res U) : rbind (Ok x) f = f x.
Proof. by []. Qed.
Ltac ok := rewrite !rbind_okE; cbv beta iota zeta.
Lemma Ok_inj T (x y : T) : Ok x = Ok y -> x = y.
Proof. by case. Qed.
Arguments Ok_inj {T x y}.
Lemma Ok_inj2 T U (x y : T) (z t : U) : Ok (x, z) = Ok (y, t) -> x = y /\ z = t.
Proof. by case=> -> ->. Qed.
Arguments Ok_inj2 {T U x y z t}.
