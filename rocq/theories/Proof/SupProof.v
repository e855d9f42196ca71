(** Proofs about Model/Sup.v. *)
From mathcomp Require Import all_ssreflect all_algebra.
From mathcomp.algebra_tactics Require Import ring.
From mathcomp.zify Require Import zify.
Require Import Coq.Strings.String.
From Verif.Model Require Import Py NP NP3 Linalg Sup.
From Verif.Spec Require Import MatSpec LinalgSpec SupSpec.
From Verif.Proof Require Import NPLib MatLib NP3Lib.
Set Implicit Arguments.
Unset Strict Implicit.
Unset Printing Implicit Defensive.
Import GRing.Theory Num.Theory.
Local Open Scope ring_scope.

Section SupProof.
Variable R : rcfType.
Notation A := (arr (xnum R)).

(** the equations of the places f *)
Definition eqs k n d (D : 'M[R]_(n, d)) (f : 'I_k -> 'I_n) : 'M[R]_(k, d) := \matrix_(i, j) D (f i) j.
Definition rhs k n (s : 'cV[R]_n) (f : 'I_k -> 'I_n) : 'cV[R]_k := \col_i s (f i) 0.

Lemma on_planeE k n d (D : 'M[R]_(n, d)) s (f : 'I_k -> 'I_n) (x : 'rV[R]_d) :
  (forall i, on_plane D s (f i) x) <-> eqs D f *m x^T = rhs s f.
Proof.
split=> [H|/colP E i]; last first.
  by move: (E i); rewrite !mxE /on_plane => <-; apply: eq_bigr => j _; rewrite !mxE.
by apply/colP => i; rewrite !mxE -(H i); apply: eq_bigr => j _; rewrite !mxE.
Qed.

Lemma normal_solves k d (M : 'M[R]_(k, d)) (b : 'cV[R]_k) z y : M^T *m M *m z = M^T *m b -> M *m y = b -> M *m z = b.
Proof.
move=> Hz Hy; have E : M *m (z - y) = 0.
  apply/eqP; rewrite -sqn_eq0 /sqn -/(dotv _ _) dotv_mull mulmxA mulmxBr Hz -Hy -!mulmxA subrr.
  by rewrite dotv0r.
by rewrite -Hy; apply/eqP; rewrite -subr_eq0 -mulmxBr E.
Qed.

Lemma indep_common n d (D : 'M[R]_(n, d)) s (f : 'I_d -> 'I_n) : indep D f -> common D s f.
Proof.
move=> Hi; have U : eqs D f \in unitmx.
  rewrite -row_free_unit -kermx_eq0; apply/eqP/row_matrixP => i; rewrite row0.
  have /rowP E : row i (kermx (eqs D f)) *m eqs D f = 0 by rewrite -row_mul mulmx_ker row0.
  apply/rowP => j; rewrite [RHS]mxE; apply: (Hi (fun k => row i (kermx (eqs D f)) 0 k)) => l.
  move: (E l); rewrite mxE [RHS]mxE => E0; rewrite -[RHS]E0; apply: eq_bigr => k _.
  by rewrite [eqs D f k l]mxE.
exists (invmx (eqs D f) *m rhs s f)^T; apply/on_planeE; by rewrite trmxK mulKVmx.
Qed.

Variable la : linalg R.
Hypothesis Hla : lstsq_ok la.

Lemma lstsq_common k n d (D : 'M[R]_(n, d)) s (f : 'I_k -> 'I_n) : (0 < k)%N -> (0 < d)%N ->
  exists z : 'rV[R]_d, la_lstsq la (mat (eqs D f)) (vec (rhs s f)) = Ok (vec z^T) /\
    (common D s f -> forall i, on_plane D s (f i) z).
Proof.
move=> Hk Hd; have [_ /(_ k d (eqs D f) (rhs s f) Hk Hd)[z [E Hz]]] := Hla.
exists z^T; rewrite trmxK; split=> // -[x /on_planeE Hx]; apply/on_planeE; rewrite trmxK; exact: normal_solves Hz Hx.
Qed.

(** rows i and i+1 *)
Lemma np_rows2 n d (D : 'M[R]_(n, d)) (i j : 'I_n) : j = i.+1 :> nat -> np_rows (mat D) i (i + 2) = Ok (mat (eqs D (two i j))).
Proof.
move=> Ej; rewrite /np_rows /=; have -> : (minn (i + 2) n - i)%N = 2%N by have := ltn_ord j; lia.
congr Ok; apply: matE => k l; rewrite [nth _ _ _]/= [nth _ _ 1]/= mxE /two -(get_mat D _ l NaN).
congr (getn _ _ [:: _; _]); case: k => -[|[|]] //= Hk; lia.
Qed.
Lemma np_vslice2 n (s : 'cV[R]_n) (i j : 'I_n) : j = i.+1 :> nat -> np_vslice (vec s) i (i + 2) = Ok (vec (rhs s (two i j))).
Proof.
move=> Ej; rewrite /np_vslice /=; have -> : (minn (i + 2) n - i)%N = 2%N by have := ltn_ord j; lia.
congr Ok; apply: vecE => k; rewrite [nth _ _ _]/= mxE /two -(get_vec s _ NaN).
congr (getn _ _ [:: _]); case: k => -[|[|]] //= Hk; lia.
Qed.
Lemma two_rows n d (D : 'M[R]_(n, d)) (i j : 'I_n) :
  np_vstack_rows (vec (row i D)^T) (vec (row j D)^T) = Ok (mat (eqs D (two i j))).
Proof.
rewrite /np_vstack_rows /= eqxx; congr Ok; apply: matE => k l; rewrite [nth _ _ _]/= [nth _ _ 1]/= !mxE /two.
by case: k => -[|[|]] //= Hk; rewrite get_vec !mxE.
Qed.
Lemma two_elems n (s : 'cV[R]_n) (i j : 'I_n) :
  Arr [:: 2%N] [:: Fin (s i 0); Fin (s j 0)] = vec (rhs s (two i j)).
Proof.
rewrite -(@vecE R 2 (rhs s (two i j)) (fun idx => nth NaN [:: Fin (s i 0); Fin (s j 0)] (nth 0%N idx 0))) //.
by case=> -[|[|]] //= Hk; rewrite mxE /two.
Qed.
Lemma np_elem_vec n (s : 'cV[R]_n) (i : 'I_n) : np_elem (vec s) i = Ok (Fin (s i 0)).
Proof. by rewrite /np_elem /= ltn_ord get_vec. Qed.

Lemma cycS n (i : 'I_n.+1) : (i < n)%N -> cyc i = i.+1 :> nat.
Proof. by move=> Hi; rewrite /cyc ltn_eqF // inordK. Qed.
Lemma cyc_last n : cyc (@ord_max n) = ord0.
Proof. by apply: val_inj; rewrite /cyc /= eqxx inordK. Qed.

Theorem sup_2_boundary_2_spec n (D : 'M[R]_(n.+1, 2)) (s : 'cV[R]_n.+1) :
  exists Z : 'M[R]_(n.+1, 2), sup_2_boundary_2 la (mat D) (vec s) = Ok (mat Z) /\
  forall i, common D s (two i (cyc i)) -> on_plane D s i (row i Z) /\ on_plane D s (cyc i) (row i Z).
Proof.
have H i : exists z : 'rV[R]_2, la_lstsq la (mat (eqs D (two i (cyc i)))) (vec (rhs s (two i (cyc i)))) = Ok (vec z^T) /\
    (common D s (two i (cyc i)) -> forall k, on_plane D s (two i (cyc i) k) z) by apply: lstsq_common.
have [z Hz] := fin_all_exists H.
exists (\matrix_i z i); split; last first.
  move=> i Hc; have [_ /(_ Hc) E] := Hz i; rewrite !rowK.
  by split; [exact: (E 0)|exact: (E 1)].
rewrite /sup_2_boundary_2 [shape _]/=.
have -> : np_zeros R [:: 2%N; n.+1] = mat (0 : 'M[R]_(2, n.+1)) by apply: matE => i j; rewrite mxE.
pose P t (o : A) := exists2 M : 'M[R]_(2, n.+1), o = mat M & forall i (l : 'I_n.+1), (l < t)%N -> M i l = z l 0 i.
have [|t o lt_t [M -> HM]|o E [M Eo HM]] := @foldM_iota _ P (fun o t => let* v := (let* a := np_rows (mat D) t (t + 2) in
  let* b := np_vslice (vec s) t (t + 2) in la_lstsq la a b) in np_set_col o t v) (mat (0 : 'M[R]_(2, n.+1))) n.
- by exists 0.
- have lt_t' : (t < n.+1)%N by lia.
  have Ec := cycS (i := Ordinal lt_t') lt_t.
  rewrite (np_rows2 (i := Ordinal lt_t') D Ec) (np_vslice2 (i := Ordinal lt_t') s Ec) !rbind_okE.
  have [-> _] := Hz (Ordinal lt_t'); rewrite rbind_okE (np_set_col_vec M (Ordinal lt_t')).
  eexists; first by reflexivity.
  eexists; first by reflexivity.
  move=> i l; rewrite ltnS mxE => le; case: eqP => [->|/eqP ne]; first by rewrite mxE.
  by apply: HM; rewrite ltn_neqAle ne.
rewrite /fill_cols [n.+1.-1]/= E rbind_okE Eo.
have Hl : la_lstsq la (mat (eqs D (two ord_max ord0))) (vec (rhs s (two ord_max ord0))) = Ok (vec (z ord_max)^T).
  by have [El _] := Hz ord_max; rewrite cyc_last in El.
rewrite (np_row_mat D (@ord_max n)) rbind_okE (np_row_mat D ord0) rbind_okE two_rows rbind_okE.
rewrite (np_elem_vec s (@ord_max n)) rbind_okE (np_elem_vec s ord0) rbind_okE two_elems Hl rbind_okE.
rewrite (np_set_col_vec M (@ord_max n)) rbind_okE np_T_mat; congr (Ok (mat _)).
apply/matrixP => i j; rewrite !mxE; case: eqP => [->|/eqP ne]; first by [].
apply: HM; by rewrite ltn_neqAle -ltnS ltn_ord andbT.
Qed.

(** indices of a face *)
Lemma norm_ix_ok m (k : 'I_m) z : z = Posz k \/ z = Posz k - Posz m -> norm_ix m z = Ok (val k).
Proof.
case=> ->; first by rewrite /= ltn_ord.
have Hk := ltn_ord k; have -> : Posz k - Posz m = Negz (m - k).-1 by rewrite NegzE; lia.
rewrite /norm_ix; case: ltnP => H; last lia.
by congr Ok; rewrite /=; lia.
Qed.
Lemma norm_ixs_ok m (ks : seq 'I_m) zs : size zs = size ks ->
  (forall i, (i < size ks)%N -> forall d, nth 0 zs i = Posz (nth d ks i) \/ nth 0 zs i = Posz (nth d ks i) - Posz m) ->
  norm_ixs m zs = Ok [seq val k | k <- ks].
Proof.
elim: ks zs => [|k ks IH] [|z zs] //= [Hs] H.
rewrite (norm_ix_ok (k := k)) ?rbind_okE; last exact: (H 0%N isT k).
by rewrite IH // => i Hi d; exact: (H i.+1 Hi d).
Qed.
Section Face.
Variables (n m : nat) (faces : arr int) (F : 'I_n -> 'I_3 -> 'I_m).
Hypothesis HF : faces_are faces F.
Lemma face_ixs (i : 'I_n) : norm_ixs m (face_row 3 i faces) = Ok [seq val (F i j) | j <- enum 'I_3].
Proof.
have -> : [seq val (F i j) | j <- enum 'I_3] = [seq val k | k <- [seq F i j | j <- enum 'I_3]] by elim: (enum 'I_3) => //= x l ->.
apply: norm_ixs_ok; first by rewrite /face_row size_map size_iota size_map size_enum_ord.
move=> k; rewrite size_map size_enum_ord => Hk d; have [_ /(_ i (Ordinal Hk))] := HF.
rewrite /face_row (nth_map 0%N) ?size_iota // nth_iota // add0n.
have -> // : nth d [seq F i j | j <- enum 'I_3] k = F i (Ordinal Hk).
rewrite (nth_map (Ordinal Hk)); last by rewrite size_enum_ord.
by congr (F i _); apply: val_inj; rewrite /= nth_enum_ord.
Qed.
Lemma size_face i : size [seq val (F i j) | j <- enum 'I_3] = 3%N.
Proof. by rewrite size_map size_enum_ord. Qed.
Lemma nth_face i (k : 'I_3) : nth 0%N [seq val (F i j) | j <- enum 'I_3] k = F i k.
Proof. by rewrite (nth_map k) ?size_enum_ord // nth_ord_enum. Qed.
Lemma take_rows_face d (D : 'M[R]_(m, d)) (i : 'I_n) : take_rows (mat D) (face_row 3 i faces) = Ok (mat (eqs D (F i))).
Proof.
have -> : take_rows (mat D) (face_row 3 i faces) = (let* ks := norm_ixs m (face_row 3 i faces) in
    Ok (mkn [:: size ks; d] (fun idx => getn NaN (mat D) [:: nth 0%N ks (nth 0%N idx 0); nth 0%N idx 1]))) by [].
rewrite face_ixs rbind_okE size_face; congr Ok; apply: matE => k l.
by rewrite [nth _ [:: _; _] 0]/= [nth _ [:: _; _] 1]/= nth_face get_mat mxE.
Qed.
Lemma take_elems_face (s : 'cV[R]_m) (i : 'I_n) : take_elems (vec s) (face_row 3 i faces) = Ok (vec (rhs s (F i))).
Proof.
have -> : take_elems (vec s) (face_row 3 i faces) = (let* ks := norm_ixs m (face_row 3 i faces) in
    Ok (mkn [:: size ks] (fun idx => getn NaN (vec s) [:: nth 0%N ks (nth 0%N idx 0)]))) by [].
rewrite face_ixs rbind_okE size_face; congr Ok; apply: vecE => k.
by rewrite [nth _ [:: _] 0]/= nth_face get_vec mxE.
Qed.
Theorem sup_2_boundary_3_spec (D : 'M[R]_(m, 3)) (s : 'cV[R]_m) :
  exists Z : 'M[R]_(n, 3), sup_2_boundary_3 la (mat D) (vec s) faces = Ok (mat Z) /\
  forall i, common D s (F i) -> forall k, on_plane D s (F i k) (row i Z).
Proof.
have H i : exists z : 'rV[R]_3, la_lstsq la (mat (eqs D (F i))) (vec (rhs s (F i))) = Ok (vec z^T) /\
    (common D s (F i) -> forall k, on_plane D s (F i k) z) by apply: lstsq_common.
have [z Hz] := fin_all_exists H.
exists (\matrix_i z i); split; last by move=> i Hc k; rewrite rowK; have [_ E] := Hz i; exact: E.
rewrite /sup_2_boundary_3; have [-> _] := HF.
have -> : np_zeros R [:: 3%N; n] = mat (0 : 'M[R]_(3, n)) by apply: matE => i j; rewrite mxE.
rewrite (fill_cols_ok _ (c := fun l => (z l)^T)); last first.
  by move=> l; rewrite take_rows_face take_elems_face !rbind_okE; have [] := Hz l.
by rewrite rbind_okE np_T_mat; congr (Ok (mat _)); apply/matrixP => i j; rewrite !mxE.
Qed.
End Face.
End SupProof.

(** two directions of the plane *)
Lemma indep2 (R : rcfType) n (D : 'M[R]_(n, 2)) i j : D i 0 * D j 1 - D i 1 * D j 0 != 0 -> indep D (two i j).
Proof.
move=> Hd c Hc; move: (Hc 0) (Hc 1); rewrite !big_ord_recl !big_ord0 /two /= !addr0.
rewrite (_ : lift ord0 ord0 = 1 :> 'I_2); last exact: val_inj.
rewrite (_ : ord0 = 0 :> 'I_2) //.
move: (D i 0) (D i 1) (D j 0) (D j 1) Hd => a b a' b' Hd E0 E1.
have Z0 : c 0 * (a * b' - b * a') = 0.
  have -> : c 0 * (a * b' - b * a') = (c 0 * a + c 1 * a') * b' - (c 0 * b + c 1 * b') * a' by ring.
  by rewrite E0 E1 !mul0r subr0.
have Z1 : c 1 * (a * b' - b * a') = 0.
  have -> : c 1 * (a * b' - b * a') = (c 0 * b + c 1 * b') * a - (c 0 * a + c 1 * a') * b by ring.
  by rewrite E0 E1 !mul0r subr0.
move/eqP: Z0; rewrite mulf_eq0 (negbTE Hd) orbF => /eqP Z0.
move/eqP: Z1; rewrite mulf_eq0 (negbTE Hd) orbF => /eqP Z1.
by case=> -[|[|]] // Hk; [rewrite -[RHS]Z0|rewrite -[RHS]Z1]; congr (c _); apply: val_inj.
Qed.
