(** Lemmas on Model/NP3.v: loops that fill stacks of matrices, Fortran-order reshapes, sparse
    matrices. *)
From mathcomp Require Import all_ssreflect all_algebra.
From mathcomp.algebra_tactics Require Import ring.
Require Import Coq.Strings.String.
From Verif.Model Require Import Py NP NP3 Linalg.
From Verif.Spec Require Import MatSpec OrthSpec.
From Verif.Proof Require Import NPLib MatLib.
Set Implicit Arguments.
Unset Strict Implicit.
Unset Printing Implicit Defensive.
Import GRing.Theory Num.Theory.
Local Open Scope ring_scope.

Lemma foldM_iota S (P : nat -> S -> Prop) (f : S -> nat -> res S) s n :
  P 0%N s -> (forall t s, (t < n)%N -> P t s -> exists2 s', f s t = Ok s' & P t.+1 s') ->
  exists2 s', foldM f s (iota 0 n) = Ok s' & P n s'.
Proof.
move=> H0 Hs.
suff G k i s1 : (i + k = n)%N -> P i s1 -> exists2 s', foldM f s1 (iota i k) = Ok s' & P n s'.
  exact: (G n 0%N s).
elim: k i s1 => [|k IH] i s1 /= E Hi; first by exists s1 => //; rewrite -E addn0.
have lt_i : (i < n)%N by rewrite -E -addSnnS leq_addr.
have [s' -> H'] := Hs i s1 lt_i Hi; rewrite rbind_okE; apply: IH => //; by rewrite addSnnS.
Qed.

Lemma foldM_iota_err S (f : S -> nat -> res S) s n e : (0 < n)%N -> f s 0%N = Err e ->
  foldM f s (iota 0 n) = Err e.
Proof. by case: n => //= n _ ->. Qed.

Section L.
Variable R : rcfType.
Notation X := (xnum R).
Notation A := (arr X).
Notation get := (getn (@NaN R)).

Lemma shape_slices m n p (D : 'I_p -> 'M[R]_(m, n)) : shape (slices D) = [:: m; n; p].
Proof. by []. Qed.
Lemma dim_slices m n p (D : 'I_p -> 'M[R]_(m, n)) :
  (dim_res (slices D) 0 = Ok m) * (dim_res (slices D) 1 = Ok n) * (dim_res (slices D) 2 = Ok p) *
  (ndim (slices D) = 3%N) * (dim (slices D) 2 = p).
Proof. by []. Qed.
Lemma dim_mat m n (M : 'M[R]_(m, n)) :
  (dim_res (mat M) 0 = Ok m) * (dim_res (mat M) 1 = Ok n) * (dim_res (mat M) 2 = IndexError) *
  (ndim (mat M) = 2%N).
Proof. by []. Qed.
Lemma wf_slices m n p (D : 'I_p -> 'M[R]_(m, n)) : wf_arr (slices D).
Proof. exact: wf_mkn. Qed.
Lemma get_slices m n p (D : 'I_p -> 'M[R]_(m, n)) (i : 'I_m) (j : 'I_n) (l : 'I_p) d :
  getn d (slices D) [:: val i; val j; val l] = Fin (D l i j).
Proof. by rewrite getn_mkn /= ?ltn_ord // valK mxgetE. Qed.

Lemma slicesE m n p (D : 'I_p -> 'M[R]_(m, n)) f :
  (forall (i : 'I_m) (j : 'I_n) (l : 'I_p), f [:: val i; val j; val l] = Fin (D l i j)) ->
  mkn [:: m; n; p] f = slices D.
Proof.
move=> H; apply: mkn_ext => idx /valid3[i [j [l ->]]]; by rewrite H /= valK mxgetE.
Qed.

Lemma eq_slices m n p (D E : 'I_p -> 'M[R]_(m, n)) : D =1 E -> slices D = slices E.
Proof. by move=> H; apply: slicesE => i j l; rewrite -H /= valK mxgetE. Qed.

Lemma slices_inj m n p (D E : 'I_p -> 'M[R]_(m, n)) : slices D = slices E -> D =1 E.
Proof.
move=> H l; apply/matrixP => i j.
by have := congr1 (fun a => getn NaN a [:: val i; val j; val l]) H; rewrite !get_slices => -[].
Qed.

Lemma np_slice_slices m n p (D : 'I_p -> 'M[R]_(m, n)) (l : 'I_p) :
  np_slice (slices D) l = Ok (mat (D l)).
Proof.
rewrite /np_slice /= ltn_ord; congr Ok; apply: matE => i j; exact: get_slices.
Qed.

Lemma np_set_slice_mat m n p (a : A) (l : 'I_p) (M : 'M[R]_(m, n)) : shape a = [:: m; n; p] ->
  np_set_slice a l (mat M) = Ok (mkn [:: m; n; p] (fun idx =>
     if nth 0%N idx 2 == l then Fin (mxget M (nth 0%N idx 0) (nth 0%N idx 1)) else get a idx)).
Proof.
move=> Hs; rewrite /np_set_slice Hs [strip_lead _ _]/= ltn_ord bshape_refl eqxx.
congr Ok; apply: mkn_ext => idx /valid3[i [j [k ->]]]; rewrite [nth _ _ _]/= [nth _ _ 0]/= [nth _ _ 1]/=.
case: ifP => // _; rewrite [shape _]/= bidx_id ?is_valid2 //.
by rewrite -[Arr _ _]/(mat M) get_mat mxgetE.
Qed.

Lemma fill_slices_ok m n p (out : A) (f : nat -> res A) (D : 'I_p -> 'M[R]_(m, n)) :
  wf_arr out -> shape out = [:: m; n; p] -> (forall l : 'I_p, f l = Ok (mat (D l))) ->
  fill_slices out p f = Ok (slices D).
Proof.
move=> Hwf Ho Hf; rewrite /fill_slices.
pose P t (o : A) := [/\ shape o = [:: m; n; p], wf_arr o & forall (i : 'I_m) (j : 'I_n) (l : 'I_p),
  (l < t)%N -> get o [:: val i; val j; val l] = Fin (D l i j)].
have [//|t o lt_t [Hs _ Ho1]|o -> [Hs Hw Hg]] :=
  @foldM_iota _ P (fun o t => let* v := f t in np_set_slice o t v) out p.
  rewrite (Hf (Ordinal lt_t)) rbind_okE (@np_set_slice_mat m n p o (Ordinal lt_t)) //.
  eexists; first by reflexivity.
  split=> [||i j l] //; first exact: wf_mkn.
  rewrite ltnS => le; rewrite getn_mkn /= ?ltn_ord //; case: eqP => [E|/eqP ne].
    by rewrite mxgetE; congr (Fin (D _ _ _)); apply: val_inj.
  by apply: Ho1; rewrite ltn_neqAle ne.
congr Ok; rewrite (arr_mkn NaN Hw) Hs; apply: slicesE => i j l; exact: Hg.
Qed.

(** the matrix with columns c 0, c 1, ... *)
Definition mx_of_cols m n (c : 'I_n -> 'cV[R]_m) : 'M[R]_(m, n) := \matrix_(i, j) c j i 0.

Lemma fill_cols_ok m n (out : 'M[R]_(m, n)) (f : nat -> res A) (c : 'I_n -> 'cV[R]_m) :
  (forall l : 'I_n, f l = Ok (vec (c l))) -> fill_cols (mat out) n f = Ok (mat (mx_of_cols c)).
Proof.
move=> Hf; rewrite /fill_cols.
pose P t (o : A) := exists2 M : 'M[R]_(m, n), o = mat M & forall i (l : 'I_n), (l < t)%N -> M i l = c l i 0.
have [|t o lt_t [M -> HM]|o -> [M -> HM]] :=
  @foldM_iota _ P (fun o t => let* v := f t in np_set_col o t v) (mat out) n.
- by exists out.
- rewrite (Hf (Ordinal lt_t)) rbind_okE (np_set_col_vec M (Ordinal lt_t)).
  eexists; first by reflexivity.
  eexists; first by reflexivity.
  move=> i l; rewrite ltnS mxE => le; case: eqP => [->//|/eqP ne].
  by apply: HM; rewrite ltn_neqAle ne.
by congr (Ok (mat _)); apply/matrixP => i j; rewrite mxE HM.
Qed.

Lemma fill_cols_scal m n (out : 'M[R]_(m, n)) (f : nat -> res A) (c : 'I_n -> R) :
  (forall l : 'I_n, f l = Ok (scal (c l))) -> fill_cols (mat out) n f = Ok (mat (\matrix_(i, j) c j : 'M[R]_(m, n))).
Proof.
move=> Hf; rewrite /fill_cols.
pose P t (o : A) := exists2 M : 'M[R]_(m, n), o = mat M & forall i (l : 'I_n), (l < t)%N -> M i l = c l.
have [|t o lt_t [M -> HM]|o -> [M -> HM]] :=
  @foldM_iota _ P (fun o t => let* v := f t in np_set_col o t v) (mat out) n.
- by exists out.
- rewrite (Hf (Ordinal lt_t)) rbind_okE (np_set_col_scal M (Ordinal lt_t)).
  eexists; first by reflexivity.
  eexists; first by reflexivity.
  move=> i l; rewrite ltnS mxE => le; case: eqP => [->//|/eqP ne].
  by apply: HM; rewrite ltn_neqAle ne.
by congr (Ok (mat _)); apply/matrixP => i j; rewrite mxE HM.
Qed.

Lemma fill_elems_ok n (out : 'cV[R]_n) (f : nat -> res A) (v : 'cV[R]_n) :
  (forall l : 'I_n, exists2 x, f l = Ok x & data x = [:: Fin (v l 0)]) ->
  fill_elems (vec out) n f = Ok (vec v).
Proof.
move=> Hf; rewrite /fill_elems.
pose P t (o : A) := exists2 w : 'cV[R]_n, o = vec w & forall (l : 'I_n), (l < t)%N -> w l 0 = v l 0.
have [|t o lt_t [w -> Hw]|o -> [w -> Hw]] :=
  @foldM_iota _ P (fun o t => let* v := f t in np_set_elem o t v) (vec out) n.
- by exists out.
- have [x -> Hx] := Hf (Ordinal lt_t); rewrite rbind_okE /np_set_elem -[shape (vec w)]/[:: n]; cbv iota; rewrite lt_t Hx.
  eexists; first by reflexivity.
  exists (\col_i (if (i == t :> nat) then v i 0 else w i 0)).
    apply: vecE => i; rewrite mxE [nth _ _ _]/=; case: eqP => [E|_]; last exact: get_vec.
    by congr (Fin (v _ _)); apply: val_inj.
  move=> l; rewrite ltnS mxE => le; case: eqP => [//|/eqP ne].
  by apply: Hw; rewrite ltn_neqAle ne.
congr (Ok (vec _)); apply/matrixP => i j; by rewrite (ord1 j) Hw.
Qed.

(** ---------------------------------------------------------------- Fortran-order reshapes *)

Lemma iota_mul a b : flatten [seq [seq (i * b + j)%N | j <- iota 0 b] | i <- iota 0 a] = iota 0 (a * b).
Proof.
elim: a => // a IH; rewrite -addn1 iotaD map_cat flatten_cat IH /= cats0 add0n.
rewrite mulnDl mul1n iotaD add0n; congr (_ ++ _).
by rewrite -[in RHS](addn0 (a * b)%N) iotaDl.
Qed.

Lemma flatten_flatten T (s : seq (seq (seq T))) : flatten [seq flatten x | x <- s] = flatten (flatten s).
Proof. by elim: s => //= x s ->; rewrite flatten_cat. Qed.

Definition merge2 b (idx : seq nat) : seq nat :=
  if idx is i :: j :: r then (i * b + j)%N :: r else idx.
Lemma indices_merge a b s : indices ((a * b)%N :: s) = [seq merge2 b idx | idx <- indices [:: a, b & s]].
Proof.
rewrite /= -[in LHS]iota_mul map_flatten map_flatten -!map_comp -flatten_flatten -map_comp.
congr flatten; apply: eq_map => i /=; rewrite map_flatten -!map_comp map_flatten -map_comp.
by congr flatten; apply: eq_map => j /=; rewrite -!map_comp.
Qed.

Lemma mapidx_cons T (f : seq nat -> T) n s : [seq f idx | idx <- indices (n :: s)] =
  flatten [seq [seq f (i :: r) | r <- indices s] | i <- iota 0 n].
Proof. by rewrite /= map_flatten -map_comp; congr flatten; apply: eq_map => i /=; rewrite -map_comp. Qed.

(** splitting the leading axis of an array *)
Lemma reshape_split T q a b s (f : seq nat -> T) : q = (a * b)%N ->
  np_reshape [:: a, b & s] (mkn (q :: s) f) = Ok (mkn [:: a, b & s] (f \o merge2 b)).
Proof.
move=> ->; rewrite /np_reshape size_mkn /= mulnA eqxx; congr (Ok (Arr _ _)).
by rewrite -[flatten _]/(indices ((a * b)%N :: s)) indices_merge -map_comp.
Qed.
Lemma reshape_merge T q a b s (f g : seq nat -> T) : q = (a * b)%N ->
  (forall idx, valid_idx [:: a, b & s] idx -> g idx = f (merge2 b idx)) ->
  np_reshape (q :: s) (mkn [:: a, b & s] g) = Ok (mkn (q :: s) f).
Proof.
move=> -> H; rewrite (mkn_ext H) /np_reshape size_mkn /= mulnA eqxx; congr (Ok (Arr _ _)).
by rewrite -[RHS]/(map f (indices ((a * b)%N :: s))) indices_merge -map_comp.
Qed.

Lemma gT_mkn T (d : T) s f : gT d (mkn s f) = mkn (rev s) (fun idx => f (rev idx)).
Proof.
rewrite /gT; apply: mkn_ext => idx Hv; rewrite getn_mkn //.
have H s1 : forall i1 s2 i2, size s1 = size i1 -> valid_idx (s1 ++ s2) (i1 ++ i2) = valid_idx s1 i1 && valid_idx s2 i2.
  by elim: s1 => [|n s1 IH] [|i i1] s2 i2 //= [/IH->]; rewrite andbA.
have G s1 : forall i1, valid_idx s1 i1 -> size i1 = size s1.
  by elim: s1 => [|n s1 IH] [|i i1] //= /andP[_ /IH->].
elim: s idx Hv => [|n s IH] idx; first by case: idx.
rewrite [shape _]/= rev_cons -cats1; case: (lastP idx) => [|i1 j].
  by move/G; rewrite size_cat addn1.
rewrite -cats1 => Hv; have /eqP := G _ _ Hv; rewrite !size_cat !addn1 eqSS => /eqP Es.
move: Hv; rewrite (H _ _ _ _ (esym Es)) rev_cat => /andP[/IH Hi /=]; rewrite andbT => Hj.
by rewrite Hj.
Qed.

Lemma prodn_cat s t : prodn (s ++ t) = (prodn s * prodn t)%N.
Proof. by elim: s => [|n s IH] /=; rewrite ?mul1n // IH mulnA. Qed.
Lemma prodn_rev s : prodn (rev s) = prodn s.
Proof. by elim: s => // n s IH; rewrite rev_cons -cats1 prodn_cat IH /= muln1 mulnC. Qed.

Lemma gT1 T (d : T) n (l : seq T) : size l = n -> gT d (Arr [:: n] l) = Arr [:: n] l.
Proof.
move=> Hl; apply: (@arr_ext _ d); rewrite ?wf_mkn ?/wf_arr //= ?Hl ?muln1 //.
case=> [|i []] //=; rewrite ?andbF // andbT => Hi.
by rewrite /gT getn_mkn //= andbT.
Qed.

(** np.reshape(a, (a.size), order='F') *)
Lemma flattenF T (d : T) s n (f : seq nat -> T) : n = prodn s ->
  reshape_F d [:: n] (mkn s f) = Ok (Arr [:: n] [seq f (rev idx) | idx <- indices (rev s)]).
Proof.
move=> ->; rewrite /reshape_F gT_mkn /np_reshape size_mkn !prodn_rev /= muln1 eqxx rbind_okE.
by rewrite gT1 // size_map size_indices prodn_rev.
Qed.

(** ---------------------------------------------------------------- block-diagonal layout *)

(** a.reshape(m, n * p, order='F'): the slices side by side *)
Lemma divmod_lt n p k : (k < n * p)%N -> ((k %% n < n) && (k %/ n < p))%N.
Proof.
case: n => [|n]; first by rewrite mul0n.
by move=> H; rewrite ltn_mod /= ltn_divLR // mulnC.
Qed.
Lemma divmod_lt' n p (k : 'I_(n * p)) : ((k %% n < n)%N * (k %/ n < p)%N)%type.
Proof. by have /andP[] := divmod_lt (ltn_ord k). Qed.
Definition ord_mod n p (k : 'I_(n * p)) : 'I_n :=
  Ordinal (proj1 (andP (divmod_lt (ltn_ord k)))).
Definition ord_div n p (k : 'I_(n * p)) : 'I_p :=
  Ordinal (proj2 (andP (divmod_lt (ltn_ord k)))).
Lemma ord_pair_lt n p (j : 'I_n) (l : 'I_p) : (l * n + j < n * p)%N.
Proof.
apply: (@leq_trans (l.+1 * n)%N); first by rewrite mulSn addnC ltn_add2r.
by rewrite mulnC leq_mul2l ltn_ord orbT.
Qed.
Definition ord_pair n p (j : 'I_n) (l : 'I_p) : 'I_(n * p) := Ordinal (ord_pair_lt j l).
Lemma ord_pair_mod n p (j : 'I_n) (l : 'I_p) : ord_mod (ord_pair j l) = j.
Proof. by apply: val_inj; rewrite /= modnMDl modn_small. Qed.
Lemma ord_pair_div n p (j : 'I_n) (l : 'I_p) : ord_div (ord_pair j l) = l.
Proof.
apply: val_inj; case: n j => [[]|n] // j.
by rewrite /= divnMDl // divn_small // addn0.
Qed.
Lemma ord_pair_eta n p (k : 'I_(n * p)) : ord_pair (ord_mod k) (ord_div k) = k.
Proof. by apply: val_inj; rewrite /= -divn_eq. Qed.

Lemma ord_pair_eq n p (j : 'I_n) (l : 'I_p) k :
  (ord_pair j l == k) = (l == ord_div k) && (j == ord_mod k).
Proof.
apply/eqP/andP => [<-|[/eqP-> /eqP->]]; last exact: ord_pair_eta.
by rewrite ord_pair_div ord_pair_mod !eqxx.
Qed.

Lemma big_ord_pair n p (F : 'I_(n * p) -> R) :
  \sum_k F k = \sum_(j : 'I_n) \sum_(l : 'I_p) F (ord_pair j l).
Proof.
rewrite pair_big /= (reindex (fun q : 'I_n * 'I_p => ord_pair q.1 q.2)) //=.
exists (fun k => (ord_mod k, ord_div k)) => [[j l] _|k _] /=.
  by rewrite ord_pair_mod ord_pair_div.
exact: ord_pair_eta.
Qed.

Definition side m n p (D : 'I_p -> 'M[R]_(m, n)) : 'M[R]_(m, n * p) :=
  \matrix_(i, k) D (ord_div k) i (ord_mod k).
Definition bdiag m n p (D : 'I_p -> 'M[R]_(m, n)) : 'M[R]_(m * p, n * p) :=
  \matrix_(k, l) (if ord_div k == ord_div l then D (ord_div k) (ord_mod k) (ord_mod l) else 0).

Lemma side_bdiag m n k p (D : 'I_p -> 'M[R]_(m, n)) (E : 'I_p -> 'M[R]_(n, k)) :
  side D *m bdiag E = side (fun l => D l *m E l).
Proof.
apply/matrixP => i c; rewrite !mxE big_ord_pair; apply: eq_bigr => j _.
rewrite (bigD1 (ord_div c)) //= big1 => [|l ne]; last first.
  by rewrite !mxE ord_pair_mod ord_pair_div (negbTE ne) mulr0.
by rewrite !mxE ord_pair_mod ord_pair_div eqxx addr0.
Qed.

Lemma reshape_side m n p (D : 'I_p -> 'M[R]_(m, n)) :
  reshape_F NaN [:: m; (n * p)%N] (slices D) = Ok (mat (side D)).
Proof.
rewrite /reshape_F /slices gT_mkn -[rev [:: m; n; p]]/[:: p; n; m] -[rev _]/[:: (n * p)%N; m].
pose f idx := Fin (mxget (side D) (nth 0%N idx 1) (nth 0%N idx 0)).
rewrite (@reshape_merge _ _ p n [:: m] f) => [||idx]; [|by rewrite mulnC|].
  rewrite rbind_okE gT_mkn; congr Ok; apply: matE => i j; by rewrite /f /= mxgetE.
move=> /valid3[l [j [i ->]]]; rewrite /f /= valK mxgetE.
rewrite -[(l * n + j)%N]/(val (ord_pair j l)) (mxgetE (side D) i (ord_pair j l)) mxE.
by rewrite ord_pair_mod ord_pair_div.
Qed.

Lemma reshape_unside m n p (D : 'I_p -> 'M[R]_(m, n)) :
  reshape_F NaN [:: m; n; p] (mat (side D)) = Ok (slices D).
Proof.
rewrite /reshape_F /mat gT_mkn -[rev [:: m; n; p]]/[:: p; n; m] -[rev [:: m; _]]/[:: (n * p)%N; m].
rewrite (@reshape_split _ _ p n) 1?mulnC // rbind_okE gT_mkn; congr Ok; apply: slicesE => i j l.
rewrite [rev [:: _; _; _]]/= /comp [merge2 _ _]/= [rev _]/= [nth _ _ 0]/= [nth _ _ 1]/=.
rewrite -[(l * n + j)%N]/(val (ord_pair j l)) (mxgetE (side D) i (ord_pair j l)) mxE.
by rewrite ord_pair_mod ord_pair_div.
Qed.

(** ---------------------------------------------------------------- sparse matrices *)

Lemma map_ravel s : map (ravel s) (indices s) = iota 0 (prodn s).
Proof.
apply: (@eq_from_nth _ 0%N); first by rewrite size_map size_indices size_iota.
move=> i; rewrite size_map size_indices => Hi.
by rewrite (nth_map [::]) ?size_indices // indices_ravel // nth_iota.
Qed.
Lemma uniq_indices s : uniq (indices s).
Proof. by apply: (@map_uniq _ _ (ravel s)); rewrite map_ravel iota_uniq. Qed.

Lemma zip_maps T U V W (f : T -> U) (g : T -> V) (h : T -> W) (L : seq T) :
  zip (map f L) (zip (map g L) (map h L)) = [seq (f x, (g x, h x)) | x <- L].
Proof. by elim: L => //= x L ->. Qed.

Lemma csc_map T (L : seq T) (F : T -> R) (I J : T -> nat) m n :
  all (fun x => (I x < m) && (J x < n))%N L ->
  csc m n [seq Fin (F x) | x <- L] (map I L) (map J L) =
  Ok (mat (\matrix_(a < m, b < n) \sum_(x <- L | (I x == a) && (J x == b)) F x)).
Proof.
move=> H; rewrite /csc !size_map eqxx /=.
have -> : has (leq m) [seq I i | i <- L] = false.
  elim: L H => //= x L IH /andP[/andP[Hi _] /IH ->]; by rewrite leqNgt Hi.
have -> /= : has (leq n) [seq J i | i <- L] = false.
  elim: L H => //= x L IH /andP[/andP[_ Hj] /IH ->]; by rewrite leqNgt Hj.
congr Ok; apply: matE => a b; rewrite mxE zip_maps filter_map -map_comp.
rewrite -[nth _ _ 0]/(val a) -[nth _ _ 1]/(val b).
rewrite -big_filter -[RHS](_ : Fin (\sum_(y <- [seq F x | x <- L & (I x == a) && (J x == b)]) y) = _).
  by rewrite -xsum_fin -map_comp.
by rewrite big_map.
Qed.

Lemma gT102_mkn T (d : T) m n p f : gT102 d (mkn [:: m; n; p] f) =
  Ok (mkn [:: n; m; p] (fun idx => f [:: nth 0%N idx 1; nth 0%N idx 0; nth 0%N idx 2])).
Proof.
congr Ok; apply: mkn_ext => idx /valid3[i [j [l ->]]].
by rewrite getn_mkn /= ?ltn_ord.
Qed.

Definition idx3 (f : nat -> nat -> nat -> nat) (idx : seq nat) : nat :=
  f (nth 0%N idx 0) (nth 0%N idx 1) (nth 0%N idx 2).

Lemma tile_rows_iota k n : tile_rows 0%N k (iota 0 n) = mkn [:: k; n] (fun idx => nth 0%N idx 1).
Proof.
rewrite /tile_rows size_iota; apply: mkn_ext => idx /valid2[i [j ->]].
by rewrite /= nth_iota.
Qed.

Lemma sparse_i nr nc nt :
  (let* i_mat := reshape_F 0%N [:: nc; nr; nt] (tile_rows 0%N nc (iota 0 (nr * nt))) in
   let* i_mat := gT102 0%N i_mat in
   reshape_F 0%N [:: (nr * nc * nt)%N] i_mat) =
  Ok (Arr [:: (nr * nc * nt)%N] [seq idx3 (fun t c r => (t * nr + r)%N) idx | idx <- indices [:: nt; nc; nr]]).
Proof.
rewrite tile_rows_iota {1}/reshape_F gT_mkn -[rev [:: nc; nr; nt]]/[:: nt; nr; nc].
rewrite -[rev [:: _; _]]/[:: (nr * nt)%N; nc] (reshape_split _ _ (mulnC nr nt)) 2!rbind_okE.
rewrite gT_mkn -[rev _]/[:: nc; nr; nt] gT102_mkn rbind_okE flattenF; last by rewrite /= muln1 mulnA.
congr (Ok (Arr _ _)); apply/eq_in_map => idx; rewrite indices_valid => /valid3[t [c [r ->]]].
by rewrite /idx3.
Qed.

Lemma sparse_j nr nc nt :
  reshape_F 0%N [:: (nr * nc * nt)%N] (tile_rows 0%N nr (iota 0 (nc * nt))) =
  Ok (Arr [:: (nr * nc * nt)%N] [seq idx3 (fun t c r => (t * nc + c)%N) idx | idx <- indices [:: nt; nc; nr]]).
Proof.
rewrite tile_rows_iota flattenF; last by rewrite /= muln1 mulnA.
congr (Ok (Arr _ _)); rewrite -[rev _]/[:: (nc * nt)%N; nr] (mulnC nc nt) indices_merge -map_comp.
apply/eq_in_map => idx; rewrite indices_valid => /valid3[t [c [r ->]]].
by rewrite /idx3.
Qed.

Lemma csc_bdiag nr nc nt (D : 'I_nt -> 'M[R]_(nr, nc)) :
  csc (nr * nt) (nc * nt) (data (np_T (slices D)))
    [seq idx3 (fun t c r => (t * nr + r)%N) idx | idx <- indices [:: nt; nc; nr]]
    [seq idx3 (fun t c r => (t * nc + c)%N) idx | idx <- indices [:: nt; nc; nr]] =
  Ok (mat (bdiag D)).
Proof.
pose F idx := if insub (nth 0%N idx 0) is Some l then mxget (D l) (nth 0%N idx 2) (nth 0%N idx 1) else 0.
have FE (l : 'I_nt) (i : 'I_nr) (j : 'I_nc) : F [:: val l; val j; val i] = D l i j.
  by rewrite /F /= valK mxgetE.
have -> : data (np_T (slices D)) = [seq Fin (F idx) | idx <- indices [:: nt; nc; nr]].
  rewrite -[np_T _]/(gT NaN _) gT_mkn; apply/eq_in_map => idx.
  rewrite indices_valid => /valid3[t [c [r ->]]]; by rewrite FE /= valK mxgetE.
rewrite csc_map; last first.
  apply/allP => idx; rewrite indices_valid => /valid3[t [c [r ->]]].
  by rewrite /idx3 /= (ord_pair_lt r t) (ord_pair_lt c t).
congr (Ok (mat _)); apply/matrixP => a b; rewrite !mxE.
case: eqP => [E|ne]; last first.
  rewrite big_seq_cond big1 // => idx /andP[]; rewrite indices_valid => /valid3[t [c [r ->]]].
  rewrite /idx3 /= => /andP[/eqP Ea /eqP Eb]; case: ne.
  have <- : ord_pair r t = a by apply: val_inj.
  have <- : ord_pair c t = b by apply: val_inj.
  by rewrite !ord_pair_div.
pose x := [:: val (ord_div a); val (ord_mod b); val (ord_mod a)].
have xin : x \in indices [:: nt; nc; nr] by rewrite indices_valid /x /= !divmod_lt' andbT.
rewrite -big_filter (_ : filter _ _ = [:: x]) ?big_seq1 ?FE //.
rewrite -[RHS](filter_pred1_uniq (uniq_indices _) xin); apply: eq_in_filter => idx.
rewrite indices_valid => /valid3[t [c [r ->]]]; rewrite /idx3 /x /= !eqseq_cons andbT.
rewrite -[(t * nr + r)%N]/(val (ord_pair r t)) -[(t * nc + c)%N]/(val (ord_pair c t)) !val_eqE !ord_pair_eq -E.
rewrite -[(a %/ nr)%N]/(val (ord_div a)) -[(b %% nc)%N]/(val (ord_mod b)) -[(a %% nr)%N]/(val (ord_mod a)) !val_eqE.
by case: (t == _) => /=; rewrite ?andbF // andbC.
Qed.

Lemma csc_vec nc nt (B : 'M[R]_(nc, nt)) :
  csc (nc * nt) nt (data (np_T (mat B))) (iota 0 (nc * nt)) (repeat_each nc (iota 0 nt)) =
  Ok (mat (\matrix_(k < nc * nt, t < nt) if ord_div k == t then B (ord_mod k) t else 0)).
Proof.
pose F idx := mxget B (nth 0%N idx 1) (nth 0%N idx 0).
have -> : data (np_T (mat B)) = [seq Fin (F idx) | idx <- indices [:: nt; nc]].
  by rewrite -[np_T _]/(gT NaN _) gT_mkn; apply/eq_in_map => idx; rewrite indices_valid => /valid2[t [c ->]].
have -> : iota 0 (nc * nt) = [seq ravel [:: nt; nc] idx | idx <- indices [:: nt; nc]].
  by rewrite map_ravel /= muln1 mulnC.
have -> : repeat_each nc (iota 0 nt) = [seq nth 0%N idx 0 | idx <- indices [:: nt; nc]].
  rewrite mapidx_cons /repeat_each; congr flatten; apply: eq_map => t.
  have := size_indices [:: nc]; rewrite [prodn _]/= muln1 => {1}<-.
  by elim: (indices [:: nc]) => //= x s ->.
have RE (t : 'I_nt) (c : 'I_nc) : ravel [:: nt; nc] [:: val t; val c] = ord_pair c t by rewrite /= !muln1 addn0.
rewrite csc_map; last first.
  apply/allP => idx; rewrite indices_valid => /valid2[t [c ->]].
  by rewrite RE !ltn_ord.
congr (Ok (mat _)); apply/matrixP => a b; rewrite !mxE.
case: eqP => [E|ne]; last first.
  rewrite big_seq_cond big1 // => idx /andP[]; rewrite indices_valid => /valid2[t [c ->]].
  rewrite RE val_eqE => /andP[/eqP Ea /eqP /= Eb]; case: ne.
  rewrite -Ea ord_pair_div; exact: val_inj.
pose x := [:: val b; val (ord_mod a)].
have xin : x \in indices [:: nt; nc] by rewrite indices_valid /x /= ltn_ord divmod_lt'.
rewrite -big_filter (_ : filter _ _ = [:: x]).
  by rewrite big_seq1 /F /= -[(a %% nc)%N]/(val (ord_mod a)) mxgetE.
rewrite -[RHS](filter_pred1_uniq (uniq_indices _) xin); apply: eq_in_filter => idx.
rewrite indices_valid => /valid2[t [c ->]]; rewrite RE val_eqE /x /= !eqseq_cons andbT.
rewrite ord_pair_eq E -[(a %% nc)%N]/(val (ord_mod a)) !val_eqE.
by case: (t == _) => //=; rewrite andbT.
Qed.

End L.
