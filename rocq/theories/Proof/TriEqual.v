(** Lemmas about tri.py:is_tri_equal. *)
From mathcomp Require Import all_ssreflect all_fingroup all_algebra.
From mathcomp.zify Require Import zify.
From Verif.Model Require Import Py NP IsMember Tri Gen TriEq.
From Verif.Spec Require Import TriSpec TriEqSpec GenSpec.
From Verif.Proof Require Import NPLib MatLib LaBasic SortProof TriMap TriFace TriFace2.
Set Implicit Arguments.
Unset Strict Implicit.
Unset Printing Implicit Defensive.
Import Order.Theory GRing.Theory Num.Theory.
Local Open Scope ring_scope.

Section Max.
Variable R : rcfType.
Lemma np_max_mat m n (M : 'M[R]_(m, n)) : (0 < m)%N -> (0 < n)%N ->
  exists i j, np_max (mat M) = Ok (Fin (M i j)) /\ forall k l, M k l <= M i j.
Proof.
move=> m0 n0.
pose vs := [seq mxget M (nth 0%N idx 0) (nth 0%N idx 1) | idx <- indices [:: m; n]].
have Ed : data (mat M) = [seq Fin x | x <- vs] by rewrite /mat /mkn /= /vs -map_comp.
have mem x : x \in vs -> exists i j, x = M i j.
  case/mapP=> idx; rewrite indices_valid; case: idx => [|i [|j [|k idx]]] //=; rewrite ?andbF // andbT => /andP[Hi Hj] ->.
  by exists (Ordinal Hi), (Ordinal Hj); rewrite -(mxgetE M (Ordinal Hi) (Ordinal Hj)).
have memr i j : M i j \in vs.
  by apply/mapP; exists [:: val i; val j]; rewrite ?indices_valid /= ?ltn_ord // mxgetE.
have nz : vs != [::] by apply/eqP => E; have := memr (Ordinal m0) (Ordinal n0); rewrite E.
case Ev : vs nz => [|a s] // _; have [H1 H2] := foldl_max_spec a s; rewrite -Ev in H1 H2.
have [i [j Eij]] := mem _ H1; exists i, j; split; last by move=> k l; rewrite -Eij H2.
by rewrite /np_max Ed Ev /= foldl_max Eij.
Qed.

Lemma max_abs_le m n (D : 'M[R]_(m, n)) tol : (0 < m)%N -> (0 < n)%N ->
  exists2 x, np_max (np_abs (mat D)) = Ok (Fin x) & (x <= tol) = [forall i, forall j, `|D i j| <= tol].
Proof.
move=> m0 n0; rewrite np_abs_mat; have [i [j [-> H]]] := np_max_mat (\matrix_(i, j) `|D i j|) m0 n0.
exists ((\matrix_(i, j) `|D i j|) i j) => //; apply/idP/forallP => [Hx k|Hx]; last by rewrite mxE; have /forallP := Hx i.
by apply/forallP => l; apply: le_trans Hx; have := H k l; rewrite [X in X <= _]mxE.
Qed.
End Max.

(** ------------------------------------------------------------------ renumbering *)
Lemma pnumE m (s : 'S_m) (i : 'I_m) : pnum s i = s i.
Proof. by rewrite /pnum valK. Qed.
Lemma pnum_lt m (s : 'S_m) v : (v < m)%N -> (pnum s v < m)%N.
Proof. by move=> H; rewrite -[v]/(val (Ordinal H)) pnumE ltn_ord. Qed.
Lemma pnum_nth m (s : 'S_m) v : (v < m)%N -> nth 0%N [seq val (s i) | i <- enum 'I_m] v = pnum s v.
Proof. by move=> H; rewrite -[v]/(val (Ordinal H)) pnumE (nth_map (Ordinal H)) ?size_enum_ord // nth_ord_enum. Qed.
Lemma pnum_inj m (s : 'S_m) : injective (pnum s).
Proof.
move=> u v; rewrite /pnum; case: insubP => [i _ Eu|nu]; case: insubP => [j _ Ev|nv] //.
- by move/val_inj/perm_inj => E; rewrite -Eu E.
- by move=> E; rewrite -E ltn_ord in nv.
- by move=> E; rewrite E ltn_ord in nu.
Qed.
Lemma pnumM m (s t : 'S_m) v : pnum t (pnum s v) = pnum (s * t)%g v.
Proof. by rewrite {2 3}/pnum; case: insubP => [i _ _|nv]; [rewrite pnumE permM|rewrite /pnum insubN]. Qed.
Lemma pnum1 m v : pnum (1 : 'S_m)%g v = v.
Proof. by rewrite /pnum; case: insubP => // i _ Ei; rewrite perm1. Qed.

Lemma renum_inj p : injective p -> injective (renum p).
Proof. by move=> Hp [[a b] c] [[d e] f] [/Hp Ea /Hp Eb /Hp Ec]; rewrite /f0 /f1 /f2 /= in Ea Eb Ec *; rewrite Ea Eb Ec. Qed.
Lemma renumM p q f : renum p (renum q f) = renum (p \o q) f. Proof. by []. Qed.
Lemma eq_renum p q f : p =1 q -> renum p f = renum q f.
Proof. by move=> E; rewrite /renum !E. Qed.

Lemma below_renum m (s : 'S_m) fs : faces_below m fs -> faces_below m [seq renum (pnum s) f | f <- fs].
Proof.
by rewrite /faces_below all_map; apply: sub_all => -[[a b] c]; rewrite /verts /= => /and4P[/= *]; rewrite !pnum_lt.
Qed.
Lemma take_facesE m (s : 'S_m) fs : faces_below m fs ->
  take_faces [seq val (s i) | i <- enum 'I_m] fs = Ok [seq renum (pnum s) f | f <- fs].
Proof.
move=> Hf; rewrite /take_faces size_map size_enum_ord; case: ifP => [_|]; last by move: Hf; rewrite /faces_below /verts => ->.
congr Ok; apply/eq_in_map => f /(allP Hf) /and4P[/= *]; by rewrite !pnum_nth.
Qed.

(** ------------------------------------------------------------------ what is_face answers, under renumbering *)
Definition face_in (fs : seq face) (g : face) : bool :=
  has (fun f => all (has_side f) (sides g)) fs && all (fun e => attached fs e <= 2)%N (sides g).
Lemma face_in_eq fs fs' g : perm_eq fs fs' -> face_in fs g = face_in fs' g.
Proof.
move=> H; rewrite /face_in (perm_has _ H); congr andb; apply: eq_all => e.
by rewrite /attached (seq.permP (perm_flatten (perm_map _ H))).
Qed.
Definition emap (p : nat -> nat) (e : edge) : edge := (p e.1, p e.2).
Lemma has_side_renum p f e : injective p -> has_side (renum p f) (emap p e) = has_side f e.
Proof.
by move=> Hp; case: e => a b; rewrite /has_side /emap /side12 /side23 /side13 /flip /f0 /f1 /f2 /= !xpair_eqE !(inj_eq Hp).
Qed.
Lemma sides_renum p g : sides (renum p g) = [seq emap p e | e <- sides g]. Proof. by []. Qed.
Lemma attached_renum p fs e : injective p -> attached [seq renum p f | f <- fs] (emap p e) = attached fs e.
Proof.
move=> Hp; rewrite /attached; elim: fs => //= f fs ->; case: e => a b.
by rewrite /emap /side12 /side23 /side13 /flip /f0 /f1 /f2 /= !xpair_eqE !(inj_eq Hp).
Qed.
Lemma face_in_renum p fs g : injective p -> face_in [seq renum p f | f <- fs] (renum p g) = face_in fs g.
Proof.
move=> Hp; rewrite /face_in sides_renum has_map !all_map; congr andb.
  apply: eq_has => f; rewrite /= -(has_side_renum f (side12 g) Hp).
  by rewrite -(has_side_renum f (side23 g) Hp) -(has_side_renum f (side13 g) Hp).
by apply: eq_all => e /=; rewrite attached_renum.
Qed.

Section Equal.
Variables (R : rcfType) (argsort : seq nat -> seq nat) (xargsort : seq (xnum R) -> seq nat).
Hypotheses (Ha : argsortn_ok argsort) (Hx : argsort_ok xargsort).
Variables (m n : nat) (tol : R).
Hypotheses (m0 : (0 < m)%N) (n0 : (0 < n)%N) (t0 : 0 <= tol).
Implicit Types (M W : 'M[R]_(m, n)) (fs g : seq face) (s p : 'S_m).
Notation teq M1 fs1 M2 fs2 := (is_tri_equal argsort xargsort (mat M1) fs1 (mat M2) fs2 (Fin tol)).

Definition verdict W1 W2 g1 g2 : res (bool * report R) :=
  if size g1 != size g2 then Ok (false, FaceNumber R) else
  let* x := np_max (np_abs (mat (W1 - W2))) in
  if ~~ xle x (Fin tol) then Ok (false, VertsDiffer x (Fin tol)) else
  if size (undup g1) != size (undup g2) then Ok (false, UniqueFacesDiffer R) else
  Ok (if all (face_in g2) g1 && all (face_in g1) g2 then (true, NoReport R) else (false, FacesDiffer R)).

Definition sorts M s : Prop := forall k l : 'I_m, (k < l)%N -> precedes tol M (s k) (s l).

Lemma run M : exists s, sorts M s.
Proof. by have [s [_ H]] := sort_rows_tol_run Hx M t0 n0; exists s. Qed.

Lemma equal_run M1 M2 fs1 fs2 s1 s2 : sorts M1 s1 -> sorts M2 s2 -> faces_below m fs1 -> faces_below m fs2 ->
  teq M1 fs1 M2 fs2 = verdict (row_perm s1 M1) (row_perm s2 M2)
    [seq renum (pnum s1^-1) f | f <- fs1] [seq renum (pnum s2^-1) f | f <- fs2].
Proof.
move=> S1 S2 B1 B2; rewrite /is_tri_equal /verdict eqxx [if ~~ true then _ else _]/= !size_map.
case: ifP => // _.
have [t1 [-> /(precedes_unique t0 S1) <-]] := sort_rows_tol_run Hx M1 t0 n0.
have [t2 [-> /(precedes_unique t0 S2) <-]] := sort_rows_tol_run Hx M2 t0 n0.
rewrite !rbind_okE /= !take_facesE // !rbind_okE np_sub_mat rbind_okE.
case: (np_max _) => // x; rewrite !rbind_okE; case: ifP => // _; case: ifP => // _.
rewrite !is_face_run // !rbind_okE; set b1 := [seq _ | _ <- _].
have -> : all id b1 = all (face_in [seq renum (pnum s2^-1) f | f <- fs2]) [seq renum (pnum s1^-1) f | f <- fs1].
  by rewrite /b1 all_map; apply: eq_all.
case: ifP => // _; rewrite !rbind_okE; congr (Ok (if _ && _ then _ else _)).
by rewrite all_map; apply: eq_all.
Qed.

Lemma verdict_perm W1 W2 g1 g2 g1' : perm_eq g1 g1' -> verdict W1 W2 g1 g2 = verdict W1 W2 g1' g2.
Proof.
move=> H; rewrite /verdict (perm_size H); case: ifP => // _; case: (np_max _) => // x; rewrite !rbind_okE.
have -> : size (undup g1) = size (undup g1') by apply/perm_size/uniq_perm; rewrite ?undup_uniq // => f; rewrite !mem_undup (perm_mem H).
have -> : all (face_in g2) g1 = all (face_in g2) g1' by exact: perm_all.
by have -> : all (face_in g1) g2 = all (face_in g1') g2 by apply: eq_all => f; exact: face_in_eq.
Qed.

Lemma verdictC W1 W2 g1 g2 : verdict W1 W2 g1 g2 = verdict W2 W1 g2 g1.
Proof.
rewrite /verdict eq_sym [size (undup g2) == _]eq_sym andbC.
have -> // : np_abs (mat (W2 - W1)) = np_abs (mat (W1 - W2)).
by rewrite !np_abs_mat; congr mat; apply/matrixP => i j; rewrite !mxE distrC.
Qed.

Theorem equal_sym M1 M2 fs1 fs2 : faces_below m fs1 -> faces_below m fs2 -> teq M1 fs1 M2 fs2 = teq M2 fs2 M1 fs1.
Proof.
move=> B1 B2; have [s1 S1] := run M1; have [s2 S2] := run M2.
by rewrite (equal_run S1 S2) // (equal_run S2 S1) // verdictC.
Qed.

(** ------------------------------------------------------------------ renumbering *)
Lemma gap_perm M s c i j : gap tol (row_perm s M) c i j = gap tol M c (s i) (s j).
Proof.
apply/existsP/existsP => [[u /existsP[v]]|[u /existsP[v]]]; rewrite ?mxE => /and4P[H1 H2 H3 /forallP H4].
  exists (s u); apply/existsP; exists (s v); rewrite H1 H2 H3 /=; apply/forallP => w.
  by have := H4 (s^-1%g w); rewrite !mxE permKV.
exists (s^-1%g u); apply/existsP; exists (s^-1%g v); rewrite !mxE !permKV H1 H2 H3 /=.
by apply/forallP => w; rewrite !mxE; exact: H4.
Qed.

Lemma sorts_perm M s t : separated tol M -> sorts M t -> sorts (row_perm s M) (t * s^-1)%g.
Proof.
move=> Hs Ht k l lt; have := Ht k l lt; case=> [[c Hc Hc']|[Htie _]]; last first.
  have [|c] := Hs (t k) (t l); first by rewrite (inj_eq perm_inj); apply/eqP => E; rewrite E ltnn in lt.
  by rewrite Htie.
left; exists c; rewrite ?gap_perm ?permM ?permKV // => c' lt'; have := Hc' c' lt'.
by rewrite /tied !gap_perm !permKV.
Qed.

Theorem equal_renumber M M2 fs fs' fs2 p : separated tol M -> faces_below m fs -> faces_below m fs2 ->
  perm_eq fs' [seq renum (pnum p) f | f <- fs] ->
  teq (row_perm p^-1 M) fs' M2 fs2 = teq M fs M2 fs2.
Proof.
move=> Hs B B2 Hp; have [t S] := run M; have [t2 S2] := run M2.
have S' := sorts_perm p^-1%g Hs S; rewrite invgK in S'.
have B' : faces_below m fs' by rewrite /faces_below (perm_all _ Hp); exact: below_renum.
rewrite (equal_run S' S2) // (equal_run S S2) // -row_permM.
rewrite mulgK; apply: verdict_perm; rewrite (perm_trans (perm_map _ Hp)) // -map_comp.
have -> // : [seq (renum (pnum (t * p)^-1) \o renum (pnum p)) f | f <- fs] = [seq renum (pnum t^-1) f | f <- fs].
by apply: eq_map => f; rewrite /comp renumM; apply: eq_renum => v; rewrite /= pnumM invMg mulKVg.
Qed.

(** ------------------------------------------------------------------ the same vertices *)
Lemma undup_renum p fs : size (undup [seq renum (pnum p) f | f <- fs]) = size (undup fs).
Proof. by rewrite (undup_map_inj (renum_inj (@pnum_inj _ p))) size_map. Qed.

Theorem equal_same M fs1 fs2 : faces_below m fs1 -> faces_below m fs2 -> teq M fs1 M fs2 =
  Ok (if size fs1 != size fs2 then (false, FaceNumber R) else
      if size (undup fs1) != size (undup fs2) then (false, UniqueFacesDiffer R) else
      if all (face_in fs2) fs1 && all (face_in fs1) fs2 then (true, NoReport R) else (false, FacesDiffer R)).
Proof.
move=> B1 B2; have [s S] := run M; rewrite (equal_run S S) // /verdict !size_map subrr.
case: ifP => // _; have [x -> Hle] := max_abs_le (0 : 'M[R]_(m, n)) tol m0 n0.
rewrite rbind_okE xleE Hle; have -> : [forall i, forall j, `|(0 : 'M[R]_(m, n)) i j| <= tol].
  by apply/forallP => i; apply/forallP => j; rewrite mxE normr0.
rewrite [if ~~ true then _ else _]/= !undup_renum; case: ifP => // _; rewrite !all_map.
have E (l1 l2 : seq face) : all (preim (renum (pnum s^-1)) (face_in [seq renum (pnum s^-1) f | f <- l2])) l1 = all (face_in l2) l1.
  by apply: eq_all => f; rewrite /= face_in_renum //; exact: pnum_inj.
by rewrite !E.
Qed.

Lemma manifoldE fs : all (face_in fs) fs = manifold fs.
Proof.
apply: eq_in_all => f fi; rewrite /face_in; have -> // : has (fun f' => all (has_side f') (sides f)) fs.
by apply/hasP; exists f => //; exact: sides_self.
Qed.

Theorem equal_refl M fs : faces_below m fs ->
  teq M fs M fs = Ok (if manifold fs then (true, NoReport R) else (false, FacesDiffer R)).
Proof. by move=> B; rewrite equal_same // !eqxx /= !manifoldE andbb. Qed.

Theorem equal_renumbered M fs fs' p : separated tol M -> faces_below m fs -> perm_eq fs' [seq renum (pnum p) f | f <- fs] ->
  teq (row_perm p^-1 M) fs' M fs = Ok (if manifold fs then (true, NoReport R) else (false, FacesDiffer R)).
Proof. by move=> S B P; rewrite (@equal_renumber M M fs fs' fs p) // equal_refl. Qed.

(** ------------------------------------------------------------------ soundness *)
Theorem equal_sound M1 M2 fs1 fs2 r : faces_below m fs1 -> faces_below m fs2 ->
  all (fun f : face => ~~ constant f) fs1 -> all (fun f : face => ~~ constant f) fs2 ->
  teq M1 fs1 M2 fs2 = Ok (true, r) ->
  exists p : 'S_m, [/\ near tol M1 M2 p, size fs1 = size fs2,
    all (fun f => is_face_of fs2 (renum (pnum p) f)) fs1 & all (fun f => is_face_of fs1 (renum (pnum p^-1) f)) fs2].
Proof.
move=> B1 B2 C1 C2; have [s1 S1] := run M1; have [s2 S2] := run M2; rewrite (equal_run S1 S2) // /verdict !size_map.
case: eqP => //= Es; have [x -> Hle] := max_abs_le (row_perm s1 M1 - row_perm s2 M2) tol m0 n0.
rewrite rbind_okE xleE Hle; case: forallP => //= Hn; case: ifP => // _.
case: ifP => // /andP[A1 A2] _; exists (s1^-1 * s2)%g; split=> //.
- by move=> i j; have /forallP/(_ j) := Hn (s1^-1%g i); rewrite !mxE permM permKV.
- apply/allP => f fi; have := allP A1 _ (map_f _ fi).
  rewrite /face_in => /andP[/hasP[h /mapP[g gi ->]]] Hs _; apply/hasP; exists g => //.
  rewrite -sides_same; last by move: (allP C1 f fi); rewrite /constant !(inj_eq (@pnum_inj _ _)).
  have E : renum (pnum s1^-1) f = renum (pnum s2^-1) (renum (pnum (s1^-1 * s2)) f).
    by rewrite renumM; apply: eq_renum => v; rewrite /= pnumM mulgK.
  move: Hs; rewrite E sides_renum /= !has_side_renum //; exact: pnum_inj.
apply/allP => f fi; have := allP A2 _ (map_f _ fi).
rewrite /face_in => /andP[/hasP[h /mapP[g gi ->]]] Hs _; apply/hasP; exists g => //.
rewrite -sides_same; last by move: (allP C2 f fi); rewrite /constant !(inj_eq (@pnum_inj _ _)).
have E : renum (pnum s2^-1) f = renum (pnum s1^-1) (renum (pnum (s1^-1 * s2)^-1) f).
  by rewrite renumM; apply: eq_renum => v; rewrite /= pnumM invMg invgK mulgK.
by move: Hs; rewrite E sides_renum /= !has_side_renum //; exact: pnum_inj.
Qed.

(** ------------------------------------------------------------------ other arguments *)
Lemma equal_sizes (m' : nat) M (M' : 'M[R]_(m', n)) fs fs' : m != m' ->
  is_tri_equal argsort xargsort (mat M) fs (mat M') fs' (Fin tol) = Ok (false, VertNumber R).
Proof. by rewrite /is_tri_equal /= => ->. Qed.
End Equal.

(** ------------------------------------------------------------------ two copies of a vertex *)
Section Dup.
Variables (R : rcfType) (argsort : seq nat -> seq nat) (xargsort : seq (xnum R) -> seq nat).
Hypotheses (Ha : argsortn_ok argsort) (Hx : argsort_ok xargsort).
Definition dup_pts : 'M[R]_(4, 1) := \col_i nth 0 [:: 0; 0; 1; 2%:R] i.
Definition swap01 : 'S_4 := tperm (inord 0) (inord 1).
Lemma swap01E : [seq renum (pnum swap01) f | f <- [:: (0, 2, 3)%N]] = [:: (1, 2, 3)%N].
Proof.
rewrite /= /renum /f0 /f1 /f2 /=; have E k : (k < 4)%N -> pnum swap01 k = swap01 (inord k).
  by move=> Hk; rewrite -{1}(inordK Hk) pnumE.
rewrite !E // /swap01 tpermL !tpermD ?inordK //; apply/eqP => /(congr1 val) /=; by rewrite !inordK.
Qed.
Lemma dup_perm : row_perm swap01^-1 dup_pts = dup_pts.
Proof.
rewrite /swap01 tpermV; apply/matrixP => i j; rewrite !mxE.
by case: tpermP => [->|->|] //; rewrite !inordK.
Qed.
Theorem dup_refuted tol : 0 <= tol ->
  is_tri_equal argsort xargsort (mat dup_pts) [:: (0, 2, 3)%N] (mat dup_pts) [:: (0, 2, 3)%N] (Fin tol) = Ok (true, NoReport R) /\
  is_tri_equal argsort xargsort (mat (row_perm swap01^-1 dup_pts)) [seq renum (pnum swap01) f | f <- [:: (0, 2, 3)%N]]
    (mat dup_pts) [:: (0, 2, 3)%N] (Fin tol) = Ok (false, FacesDiffer R).
Proof. by move=> t0; rewrite swap01E dup_perm !(equal_same Ha Hx). Qed.

Lemma book_refuted tol (M : 'M[R]_(5, 3)) : 0 <= tol ->
  is_tri_equal argsort xargsort (mat M) book (mat M) book (Fin tol) = Ok (false, FacesDiffer R).
Proof. by move=> t0; rewrite (equal_refl Ha Hx). Qed.

(** separated points *)
Lemma line_separated : separated (1 : R) (\matrix_(i < 4, j < 1) (2%:R * (val i)%:R)).
Proof.
move=> i j ne; exists 0.
have L (a b : 'I_4) : (a < b)%N -> gap 1 (\matrix_(i < 4, j < 1) (2%:R * (val i)%:R) : 'M[R]_(4, 1)) 0 a b.
  move=> lt; have H : (a.+1 < 4)%N by apply: leq_ltn_trans lt (ltn_ord b).
  apply/existsP; exists a; apply/existsP; exists (Ordinal H); rewrite !mxE /= lexx /=; apply/and3P; split.
  - by rewrite -[a.+1]addn1 natrD mulrDr ltr_add2l mulr1 ltr1n.
  - by rewrite ler_pmul2l ?ltr0n // ler_nat.
  - apply/forallP => w; rewrite !mxE /= !ltr_pmul2l ?ltr0n // !ltr_nat; lia.
rewrite /tied; case: (ltngtP i j) => [lt|lt|/val_inj E]; first by rewrite (L _ _ lt).
  by rewrite (L _ _ lt) andbF.
by rewrite E eqxx in ne.
Qed.
End Dup.
