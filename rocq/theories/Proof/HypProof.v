(** Hyperplane: construction, dimension, contains. *)
From mathcomp Require Import all_ssreflect all_algebra.
Require Import Coq.Strings.String.
From mathcomp.algebra_tactics Require Import ring.
From Verif.Model Require Import Py NP NP3 Linalg La Ellipsoid Hyperplane.
From Verif.Spec Require Import MatSpec HypSpec.
From Verif.Proof Require Import NPLib NP3Lib MatLib LaBasic OrthProof GenProof EllipsoidProof RegProof.
From mathcomp.zify Require Import zify.
Set Implicit Arguments.
Unset Strict Implicit.
Unset Printing Implicit Defensive.
Import Order.Theory GRing.Theory Num.Theory.
Local Open Scope ring_scope.

Section Hyp.
Variable R : rcfType.
Notation X := (xnum R).
Notation A := (arr X).

Lemma data_ord n (v : 'cV[R]_n) : data (vec v) = [seq Fin (v i 0) | i <- enum 'I_n].
Proof. by rewrite data_vals /vals -map_comp. Qed.
Lemma data_ordm n (v : 'cV[R]_n) : data (mat v) = [seq Fin (v i 0) | i <- enum 'I_n].
Proof. by rewrite -data_ord -vec_data. Qed.

Lemma dim1_run n (v : 'cV[R]_n) h s t : (0 < n)%N -> hrepr h v s t -> solid v s t -> hp_dim1 h = Ok n.
Proof.
case: n v => // n v _ [Ev Es Et t0 _] Hs; rewrite /hp_dim1 Ev Es Et data_ord size_map size_enum_ord.
case: n v Hs {Ev} => [|n] v Hs //; rewrite enum_ordSl /= /xle /xlt /xeq /=.
have -> : (`|v ord0 0| < t) || (`|v ord0 0| == t) = (`|v ord0 0| <= t) by rewrite orbC -le_eqVlt.
have -> : (`|s| < t) || (`|s| == t) = (`|s| <= t) by rewrite orbC -le_eqVlt.
case: (Hs erefl) => [H|[i]]; first by rewrite [in X in _ && X]leNgt H andbF.
by rewrite (ord1 i) => H; rewrite leNgt H.
Qed.

Lemma sing_contains_gen n (v : 'cV[R]_n) h s t sx (z : 'I_n -> X) : hrepr h v s t -> prodn sx = n ->
  (forall i, ~~ xis_nan (z i)) ->
  exists2 b, sing_contains h (Arr sx [seq z i | i <- enum 'I_n]) = Ok b &
    b = true <-> (forall i, xis_fin (z i) \/ v i 0 = 0) /\
      `|\sum_(i | xis_fin (z i)) v i 0 * (if z i is Fin a then a else 0) - s| < t.
Proof.
move=> [Ev Es Et t0 _] Hx Hn; rewrite /sing_contains {1}/np_size [shape _]/= Hx Ev /np_size.
rewrite [prodn (shape (vec v))]/= muln1 eqxx [~~ _]/= data_ord [data _]/= Es Et.
have -> : zip [seq Fin (v i 0) | i <- enum 'I_n] [seq z i | i <- enum 'I_n] = [seq (Fin (v i 0), z i) | i <- enum 'I_n].
  by elim: (enum 'I_n) => //= a l ->.
rewrite all_map.
have -> : all (preim (fun i => (Fin (v i 0), z i)) (fun p => xis_fin p.2 || xeq p.1 x0)) (enum 'I_n) =
          [forall i, xis_fin (z i) || (v i 0 == 0)].
  by apply/allP/forallP => [H i|H i _]; [have := H i (mem_enum _ i)|exact: H].
case: forallP => H; last first.
  exists false => //; split=> // -[H1 _]; case: H => i; case: (H1 i) => ->; rewrite ?eqxx ?orbT //.
eexists; first by reflexivity.
have -> : xsum [seq xmul p.1 p.2 | p <- [seq (Fin (v i 0), z i) | i <- enum 'I_n] & xis_fin p.2] =
  Fin (\sum_(i | xis_fin (z i)) v i 0 * (if z i is Fin a then a else 0)).
  rewrite [in RHS]big_mkcond -big_enum /=.
  elim: (enum 'I_n) => [|i l IH] /=; first by rewrite big_nil.
  rewrite big_cons; move: IH; set w := bigop _ _ _ => IH.
  by case: (z i) => [a| | |] /=; rewrite ?add0r // -/(xsum _) IH.
rewrite /=; split=> [|[_ ->] //] h1; split=> // i; case/orP: (H i) => [|/eqP]; by [left|right].
Qed.


Lemma sing_contains_run n (v x : 'cV[R]_n) h s t sx : hrepr h v s t -> prodn sx = n ->
  sing_contains h (Arr sx (data (mat x))) = Ok (`|dotv v x - s| < t).
Proof.
move=> Hr Hx; rewrite data_ordm; have [//|b -> Hb] := sing_contains_gen Hr Hx (z := fun i => Fin (x i 0)) _.
congr Ok; apply/idP/idP => [/Hb[_ H]|H]; first exact: H.
by apply/Hb; split=> // i; left.
Qed.
Lemma sing_contains_mat n (v x : 'cV[R]_n) h s t : hrepr h v s t ->
  sing_contains h (mat x) = Ok (`|dotv v x - s| < t).
Proof. by move=> Hr; rewrite -(sing_contains_run x (sx := [:: n; 1%N]) Hr) //= !muln1. Qed.

Lemma cols_col n m (P : 'M[R]_(n, m)) (j : 'I_m) : np_cols (mat P) j (minn m (j + 1)) = Ok (mat (col j P)).
Proof.
rewrite /np_cols /=; have E : (minn (minn m (j + 1)) m - j = 1)%N by have := ltn_ord j; lia.
rewrite E; congr Ok; apply: matE => i k; rewrite (ord1 k) /= addn0 get_mat mxE //.
Qed.

Lemma blocks_cols n m (P : 'M[R]_(n, m)) k : (1 < m)%N -> k = 1%N \/ k = m ->
  hp_blocks (mat P) k = Ok [seq mat (col j P) | j <- enum 'I_m].
Proof.
move=> m1 Hk; rewrite /hp_blocks [dim _ 1]/=.
have -> : (if k == m then 1 else k)%N = 1%N by case: Hk => ->; rewrite ?eqxx //; case: eqP.
rewrite dvd1n andbF /split_starts m1 addn1 divn1 [m.+1.-1]/=.
have -> : [seq (i * 1)%N | i <- iota 0 m] = [seq val j | j <- enum 'I_m].
  by rewrite val_enum_ord -[RHS]map_id; apply: eq_map => i; rewrite muln1.
by elim: (enum 'I_m) => [|j l IH] //; cbn [map mapM]; rewrite cols_col rbind_okE IH.
Qed.

Lemma hdims n k hs (v : 'I_k -> 'cV[R]_n) s t : (0 < n)%N -> hfamily hs v s t ->
  (forall i, solid (v i) (s i) (t i)) -> mapM (@hp_dim1 R) hs = Ok (nseq k n).
Proof.
move=> n0 [Ek H] Hs; have h0 : hp R by exact: (Hp (np_scalar x0) x0 x0 x0).
have {}H i (Hi : (i < k)%N) : hp_dim1 (nth h0 hs i) = Ok n.
  exact: (dim1_run n0 (H (Ordinal Hi) h0) (Hs (Ordinal Hi))).
elim: hs k Ek H {v s t Hs} => [|h hs IH] [|k] //= [Ek] H.
by rewrite (H 0%N) // (IH k) // => i Hi; exact: (H i.+1).
Qed.

Lemma fold_nseq (f : nat -> nat -> nat) k n : f n n = n -> foldr f n (nseq k n) = n.
Proof. by move=> E; elim: k => //= k ->. Qed.

Lemma contains_start n k m tl hs sh (P : 'M[R]_(n, m)) (v : 'I_k -> 'cV[R]_n) s t : (0 < n)%N -> (0 < k)%N ->
  hfamily hs v s t -> (forall i, solid (v i) (s i) (t i)) -> prodn tl = m ->
  contains (Arr sh hs) (Arr (n :: tl) (data (mat P))) =
  if m == 1%N then amapM (fun h => sing_contains h (mat P)) (Arr sh hs) else
  let* bl := hp_blocks (mat P) k in
  let* bs := match hs with
    | [:: h] => mapM (sing_contains h) bl
    | _ => mapM (fun p => sing_contains p.1 p.2) (zip hs bl)
    end in np_reshape tl (Arr [:: size bs] bs).
Proof.
move=> n0 k0 Hf Hs Em; have [Ek _] := Hf.
rewrite /contains; cbn [shape]; rewrite (gtn_eqF n0); cbv zeta; cbn [data]; rewrite Em.
rewrite -[Arr [:: n; m] (data (mat P))]/(mat P) no_nan /hp_dimension /amapM; cbn [data shape].
rewrite (hdims n0 Hf Hs) !rbind_okE; cbn [data]; case: k k0 v s t Hf Hs Ek => // k _ v s t Hf Hs Ek.
rewrite -[nseq k.+1 n]/(n :: nseq k n); cbv beta iota zeta; rewrite !fold_nseq ?maxnn ?minnn // !eqxx; cbv beta iota delta [negb]; by rewrite Ek.
Qed.

Lemma one_family n (v : 'cV[R]_n) s t h : hrepr h v s t ->
  hfamily [:: h] (fun _ : 'I_1 => v) (fun _ => s) (fun _ => t).
Proof. by move=> H; split=> // i h0; rewrite (ord1 i). Qed.

(** one point, any array of hyperplanes *)
Theorem contains_point n k tl hs sh (x : 'cV[R]_n) (v : 'I_k -> 'cV[R]_n) s t :
  (0 < n)%N -> (0 < k)%N -> hfamily hs v s t -> (forall i, solid (v i) (s i) (t i)) -> prodn tl = 1%N ->
  exists2 bs, contains (Arr sh hs) (Arr (n :: tl) (data (mat x))) = Ok (Arr sh bs) &
  size bs = k /\ forall i : 'I_k, nth false bs i = true <-> near_hp (v i) (s i) (t i) x.
Proof.
move=> n0 k0 Hf Hs t1; rewrite (contains_start _ _ n0 k0 Hf Hs t1) eqxx.
exists [seq `|dotv (v i) x - s i| < t i | i <- enum 'I_k].
  rewrite /amapM; cbn [data shape]; have [Ek H] := Hf.
  by rewrite (mapM_ord (g := fun i => `|dotv (v i) x - s i| < t i) Ek) // => j h0; exact: sing_contains_mat.
split; first by rewrite size_map size_enum_ord.
by move=> i; rewrite (nth_mapord (fun i => `|dotv (v i) x - s i| < t i)).
Qed.

(** one hyperplane, many points *)
Theorem contains_points n m tl h sh (P : 'M[R]_(n, m)) (v : 'cV[R]_n) s t :
  (0 < n)%N -> hrepr h v s t -> solid v s t -> prodn tl = m -> (1 < m)%N ->
  exists2 bs, contains (Arr sh [:: h]) (Arr (n :: tl) (data (mat P))) = Ok (Arr tl bs) &
  size bs = m /\ forall j : 'I_m, nth false bs j = true <-> near_hp v s t (col j P).
Proof.
move=> n0 Hr Hs Em m1; have m1' : (m == 1%N) = false by lia.
rewrite (contains_start _ _ n0 (ltnSn 0) (one_family Hr) _ Em) // m1' blocks_cols //; last by left.
rewrite rbind_okE; exists [seq `|dotv v (col j P) - s| < t | j <- enum 'I_m].
  have -> : mapM (sing_contains h) [seq mat (col j P) | j <- enum 'I_m] =
      Ok [seq `|dotv v (col j P) - s| < t | j <- enum 'I_m].
    by elim: (enum _) => //= a l ->; rewrite (sing_contains_mat _ Hr).
  by rewrite rbind_okE /np_reshape; cbn [data]; rewrite Em size_map size_enum_ord eqxx.
split; first by rewrite size_map size_enum_ord.
by move=> i; rewrite (nth_mapord (fun j => `|dotv v (col j P) - s| < t)).
Qed.

(** as many points as hyperplanes *)
Theorem contains_pairs n m tl hs sh (P : 'M[R]_(n, m)) (v : 'I_m -> 'cV[R]_n) s t :
  (0 < n)%N -> prodn tl = m -> (1 < m)%N -> hfamily hs v s t -> (forall i, solid (v i) (s i) (t i)) ->
  exists2 bs, contains (Arr sh hs) (Arr (n :: tl) (data (mat P))) = Ok (Arr tl bs) &
  size bs = m /\ forall i : 'I_m, nth false bs i = true <-> near_hp (v i) (s i) (t i) (col i P).
Proof.
move=> n0 Em m1 Hf Hs; have m1' : (m == 1%N) = false by lia.
rewrite (contains_start _ _ n0 (ltnW m1) Hf Hs Em) // m1' blocks_cols //; last by right.
have [Ek H] := Hf; rewrite rbind_okE.
have -> : (match hs with [:: h] => mapM (sing_contains h) [seq mat (col j P) | j <- enum 'I_m]
  | _ => mapM (fun p => sing_contains p.1 p.2) (zip hs [seq mat (col j P) | j <- enum 'I_m]) end) =
  mapM (fun p => sing_contains p.1 p.2) (zip hs [seq mat (col j P) | j <- enum 'I_m]).
  by case: hs Ek {Hf H} => [|h [|h2 hs]] //= E; rewrite -E in m1.
exists [seq `|dotv (v j) (col j P) - s j| < t j | j <- enum 'I_m].
  rewrite (mapM_ord (g := fun i => `|dotv (v i) (col i P) - s i| < t i) (k := m)).
  - by rewrite rbind_okE /np_reshape; cbn [data]; rewrite Em size_map size_enum_ord eqxx.
  - by rewrite size_zip size_map size_enum_ord Ek minnn.
  - move=> j [h0 a0]; rewrite nth_zip; cbn [fst snd]; last by rewrite size_map size_enum_ord.
    by rewrite (nth_mapord (fun j => mat (col j P))) (sing_contains_mat _ (H j h0)).
split; first by rewrite size_map size_enum_ord.
by move=> i; rewrite (nth_mapord (fun j => `|dotv (v j) (col j P) - s j| < t j)).
Qed.

(** any other numbers of hyperplanes and points *)
Theorem contains_counts n k m tl hs sh (P : 'M[R]_(n, m)) (v : 'I_k -> 'cV[R]_n) s t :
  (0 < n)%N -> (1 < k)%N -> prodn tl = m -> m != 1%N -> k != m -> hfamily hs v s t ->
  (forall i, solid (v i) (s i) (t i)) ->
  contains (Arr sh hs) (Arr (n :: tl) (data (mat P))) =
  if (k < m)%N && ~~ (k %| m)%N then ValueError else IndexError.
Proof.
move=> n0 k1 Em m1 km Hf Hs; rewrite (contains_start _ _ n0 (ltnW k1) Hf Hs Em) // (negbTE m1).
rewrite {1}/hp_blocks [dim _ 1]/= (negbTE km); case: ifP => // _.
have [Ek H] := Hf; have h0 : hp R by exact: (Hp (np_scalar x0) x0 x0 x0).
case: hs Ek H {Hf} => [|h [|h2 hs]] /= Ek H; [by rewrite -Ek in k1|by rewrite -Ek in k1|].
have Hh : np_size (h_normal h) = n.
  by have [-> _ _ _ _] := H (Ordinal (ltnW k1)) h0; rewrite /np_size /= muln1.
have [st Est] : exists st, split_starts m k = 0%N :: st.
  rewrite /split_starts; case: ifP => [lt|_]; last by exists [::].
  by case: (_ %/ k)%N (divn_gt0 (m + k).-1 (ltnW k1)) => [|q _]; [lia|eexists].
rewrite Est /=.
case E : (mapM _ st) => [bl|e] /=.
  rewrite /sing_contains Hh /np_size /= muln1.
  suff -> : (n * (minn (minn m (0 + k)) m - 0) != n)%N by [].
  by rewrite -{2}[n]muln1 eqn_pmul2l //; lia.
exfalso; move: E; elim: st {Est} => //= a l IH; case E2 : (mapM _ l) => [q|q] //=.
by move=> [Ee]; apply: IH; rewrite E2 Ee.
Qed.

Lemma contains_scalar hs (x : X) : contains hs (np_scalar x) = IndexError.
Proof. by []. Qed.
Lemma contains_nan n tl hs d : (0 < n)%N -> has (@xis_nan R) d -> contains hs (Arr (n :: tl) d) = throw "wrongInput".
Proof. by move=> n0 Hd; rewrite /contains; cbn [shape]; rewrite (gtn_eqF n0); cbv zeta; cbn [data]; rewrite Hd. Qed.
Theorem contains_dims n n' k tl hs sh (P : 'M[R]_(n', prodn tl)) (v : 'I_k -> 'cV[R]_n) s t :
  (0 < n)%N -> (0 < n')%N -> (0 < k)%N -> n' != n -> hfamily hs v s t -> (forall i, solid (v i) (s i) (t i)) ->
  contains (Arr sh hs) (Arr (n' :: tl) (data (mat P))) = throw "wrongInput:wrongSizes".
Proof.
move=> n0 n0' k0 nn Hf Hs; have [Ek _] := Hf.
rewrite /contains; cbn [shape]; rewrite (gtn_eqF n0'); cbv zeta; cbn [data].
rewrite -[Arr [:: n'; prodn tl] (data (mat P))]/(mat P) no_nan /hp_dimension /amapM; cbn [data shape].
rewrite (hdims n0 Hf Hs) !rbind_okE; cbn [data]; case: k k0 v s t Hf Hs Ek => // k _ v s t Hf Hs Ek.
by rewrite -[nseq k.+1 n]/(n :: nseq k n); cbv beta iota zeta; rewrite !fold_nseq ?maxnn ?minnn // !eqxx nn.
Qed.

(** hyperplanes of two dimensions *)
Theorem contains_mixed n n1 n2 tl sh hs1 h1 hs2 h2 hs3 (v1 : 'cV[R]_n1) (v2 : 'cV[R]_n2) s1 s2 t1 t2 d : (0 < n)%N ->
  has (@xis_nan R) d = false -> (0 < n1)%N -> (0 < n2)%N -> n1 != n2 ->
  hrepr h1 v1 s1 t1 -> solid v1 s1 t1 -> hrepr h2 v2 s2 t2 -> solid v2 s2 t2 ->
  (forall h, List.In h (hs1 ++ hs2 ++ hs3) -> exists m, hp_dim1 h = Ok m) ->
  contains (Arr sh (hs1 ++ h1 :: hs2 ++ h2 :: hs3)) (Arr (n :: tl) d) = throw "wrongSizes".
Proof.
move=> n0 Hd n1p n2p nn R1 S1 R2 S2 Hall.
rewrite /contains; cbn [shape]; rewrite (gtn_eqF n0); cbv zeta; cbn [data]; rewrite Hd /hp_dimension /amapM; cbn [data shape].
have okM l : (forall h, List.In h l -> exists m, hp_dim1 h = Ok m) -> exists ms, mapM (@hp_dim1 R) l = Ok ms.
  elim: l => [|h l IH] Hl /=; first by exists [::].
  have [m ->] := Hl h (or_introl erefl); have [|ms ->] := IH; first by move=> h' Hh; apply: Hl; right.
  by exists (m :: ms).
have catM l1 l2 ms1 ms2 : mapM (@hp_dim1 R) l1 = Ok ms1 -> mapM (@hp_dim1 R) l2 = Ok ms2 -> mapM (@hp_dim1 R) (l1 ++ l2) = Ok (ms1 ++ ms2).
  elim: l1 ms1 => [|h l1 IH] ms1 /=; first by case=> <-.
  by case: (hp_dim1 h) => //= m; case E : (mapM _ l1) => [q|] //= [<-] E2; rewrite (IH q).
have [a1 A1] := okM hs1 (fun h Hh => Hall h (List.in_or_app _ _ _ (or_introl Hh))).
have [a2 A2] := okM hs2 (fun h Hh => Hall h (List.in_or_app _ _ _ (or_intror (List.in_or_app _ _ _ (or_introl Hh))))).
have [a3 A3] := okM hs3 (fun h Hh => Hall h (List.in_or_app _ _ _ (or_intror (List.in_or_app _ _ _ (or_intror Hh))))).
have B3 : mapM (@hp_dim1 R) (h2 :: hs3) = Ok (n2 :: a3) by rewrite /= (dim1_run n2p R2 S2) /= A3.
have B2 : mapM (@hp_dim1 R) (h1 :: hs2 ++ h2 :: hs3) = Ok (n1 :: a2 ++ n2 :: a3).
  by rewrite /= (dim1_run n1p R1 S1) /= (catM _ _ _ _ A2 B3).
rewrite (catM _ _ _ _ A1 B2) !rbind_okE; cbn [data].
have : n1 \in a1 ++ n1 :: a2 ++ n2 :: a3 by rewrite mem_cat mem_head orbT.
have : n2 \in a1 ++ n1 :: a2 ++ n2 :: a3 by rewrite mem_cat in_cons mem_cat mem_head !orbT.
case: (a1 ++ _) => // d0 ds I2 I1.
have Hmax x : x \in d0 :: ds -> (x <= foldr maxn d0 ds)%N.
  elim: ds {I1 I2} => [|y ds IH]; first by rewrite inE => /eqP->.
  rewrite !inE => /or3P[/eqP E|/eqP->|E] /=; [rewrite leq_max IH ?E ?mem_head ?orbT //|exact: leq_maxl|].
  by rewrite leq_max IH ?orbT // inE E orbT.
have Hmin x : x \in d0 :: ds -> (foldr minn d0 ds <= x)%N.
  elim: ds {I1 I2 Hmax} => [|y ds IH]; first by rewrite inE => /eqP->.
  rewrite !inE => /or3P[/eqP E|/eqP->|E] /=; [rewrite geq_min IH ?E ?mem_head ?orbT //|exact: geq_minl|].
  by rewrite geq_min IH ?orbT // inE E orbT.
suff -> : foldr minn d0 ds != foldr maxn d0 ds by [].
move: (Hmax _ I1) (Hmax _ I2) (Hmin _ I1) (Hmin _ I2); lia.
Qed.

(** infinite coordinates: one hyperplane, one point *)
Theorem contains_infinite n sh h (v : 'cV[R]_n) s t (z : 'I_n -> X) : (0 < n)%N -> hrepr h v s t -> solid v s t ->
  (forall i, ~~ xis_nan (z i)) ->
  exists2 b, contains (Arr sh [:: h]) (Arr [:: n] [seq z i | i <- enum 'I_n]) = Ok (Arr sh [:: b]) &
    b = true <-> (forall i, xis_fin (z i) \/ v i 0 = 0) /\
      `|\sum_(i | xis_fin (z i)) v i 0 * (if z i is Fin a then a else 0) - s| < t.
Proof.
move=> n0 Hr Hs Hz; have [|b Eb Hb] := sing_contains_gen (sx := [:: n; 1%N]) Hr _ Hz; first by rewrite /= !muln1.
exists b => //; rewrite /contains; cbn [shape]; rewrite (gtn_eqF n0); cbv zeta; cbn [data].
have -> : has (@xis_nan R) [seq z i | i <- enum 'I_n] = false.
  by rewrite has_map; apply/hasP => -[i _ /=]; rewrite (negbTE (Hz i)).
rewrite /hp_dimension /amapM; cbn [data shape mapM]; rewrite (dim1_run n0 Hr Hs) !rbind_okE; cbn [data foldr prodn].
by rewrite !eqxx [~~ true]/= Eb.
Qed.
End Hyp.
