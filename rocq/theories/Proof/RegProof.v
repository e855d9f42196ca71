(** Regularised shapes, families of ellipsoids, is_internal. *)
From mathcomp Require Import all_ssreflect all_algebra.
Require Import Coq.Strings.String.
From mathcomp.algebra_tactics Require Import ring.
From Verif.Model Require Import Py NP NP3 Linalg Compare La Core EllGeom Ellipsoid.
From Verif.Spec Require Import MatSpec LinalgSpec EllSpec EllipsoidSpec.
From Verif.Proof Require Import NPLib NP3Lib MatLib OrthLib LaBasic Decomp GenProof EllLib EllGeomProof RankLib EllipsoidProof EllScalProof CoreProof.
Set Implicit Arguments.
Unset Strict Implicit.
Unset Printing Implicit Defensive.
Import Order.Theory GRing.Theory Num.Theory.
Local Open Scope ring_scope.

Section MapM.
Variables (T U : Type).
Lemma mapM_ord (f : T -> res U) k (s : seq T) (g : 'I_k -> U) : size s = k ->
  (forall (j : 'I_k) x0, f (nth x0 s j) = Ok (g j)) -> mapM f s = Ok [seq g j | j <- enum 'I_k].
Proof.
elim: k s g => [|k IH] [|x s] g //= => [_ _|[Es] H].
  by have -> : enum 'I_0 = [::] by apply/nilP; rewrite /nilp size_enum_ord.
rewrite (H ord0 x) /= (IH s (g \o lift ord0)) // => [|j x0]; last by rewrite -(H _ x0).
by rewrite enum_ordSl /= -map_comp.
Qed.
Lemma mapM_iota (f : nat -> res U) k (g : 'I_k -> U) : (forall j : 'I_k, f j = Ok (g j)) ->
  mapM f (iota 0 k) = Ok [seq g j | j <- enum 'I_k].
Proof.
move=> H; rewrite -val_enum_ord; elim: (enum 'I_k) => [|j s IH] //=.
by rewrite H /= IH.
Qed.
Lemma mapM_err (f : T -> res U) x s e : f x = Err e -> mapM f (x :: s) = Err e.
Proof. by move=> /= ->. Qed.
End MapM.
Lemma nth_mapord T k (g : 'I_k -> T) x0 (j : 'I_k) : nth x0 [seq g j | j <- enum 'I_k] j = g j.
Proof. by rewrite (nth_map j) ?size_enum_ord // nth_ord_enum. Qed.
Lemma has_mapord T k (g : 'I_k -> T) p : has p [seq g j | j <- enum 'I_k] = [exists j, p (g j)].
Proof.
rewrite has_map; apply/hasP/existsP => -[j] => [_ H|H]; exists j => //.
by rewrite mem_enum.
Qed.
Lemma all_mapord T k (g : 'I_k -> T) p : all p [seq g j | j <- enum 'I_k] = [forall j, p (g j)].
Proof.
rewrite all_map; apply/allP/forallP => [H j|H j _]; last exact: H.
by apply: H; rewrite mem_enum.
Qed.

Section Reg.
Variable R : rcfType.
Variable la : linalg R.
Notation X := (xnum R).
Notation A := (arr X).

Lemma repr_uniq n e (c c' : 'cV[R]_n) Q Q' t t' : repr e c Q t -> repr e c' Q' t' -> [/\ c = c', Q = Q' & t = t'].
Proof.
move=> [[E1 E2 E3 _] _] [[E1' E2' E3' _] _]; split.
- by apply: vec_inj; rewrite -E1 -E1'.
- by apply: mat_inj; rewrite -E2 -E2'.
by have := E3; rewrite E3' => -[].
Qed.

Lemma family_good n k es (c : 'I_k -> 'cV[R]_n) Q t : (0 < n)%N -> family es c Q t -> List.Forall (@good R) es.
Proof.
move=> n0 [Es H]; elim: es k c Q t Es H => [|e es IH] [|k] c Q t //= [Es] H; constructor.
  by exists n, (c ord0), (Q ord0), (t ord0); split=> //; exact: (H ord0 e).
by apply: (IH k (c \o lift ord0) (Q \o lift ord0) (t \o lift ord0)) => // j e0; exact: (H (lift ord0 j) e0).
Qed.

(** the columns of the matrix of eigenvectors *)
Lemma eig_col n (M V : 'M[R]_n) d i : M *m V = V *m diagv d -> M *m col i V = d i 0 *: col i V.
Proof.
move=> EV; rewrite -col_delta mulmxA EV -mulmxA.
have -> : diagv d *m (delta_mx i 0 : 'cV[R]_n) = d i 0 *: delta_mx i 0.
  apply/matrixP => a l; rewrite (ord1 l) mul_diagv !mxE.
  by case: (eqVneq a i) => [->|_] //=; rewrite !mulr0.
by rewrite -scalemxAr.
Qed.

Lemma tr_col_dot n (V : 'M[R]_n) x i : (V^T *m x) i 0 = dotv (col i V) x.
Proof. by rewrite mxE; apply: eq_bigr => k _; rewrite !mxE. Qed.

(** any answer of eig within its contract makes a semidefinite matrix definite *)
Lemma regularize_run n (Q : 'M[R]_n) t : eig_ok la -> (0 < n)%N -> 0 < t -> symm Q -> psd Q ->
  exists B : 'M[R]_n, regularize la (mat Q) (Fin t) = Ok (mat B) /\
    [/\ symm B, posdef B, forall x, qf Q x <= qf B x <= qf Q x + n%:R * t * sqn x &
        (forall x, t * sqn x <= qf Q x) -> B = Q].
Proof.
move=> Hla n0 t0 HQ Hp; have [d [V [E EV uV Hn]]] := Hla n Q n0 HQ.
have [B [EB HB HQB HBQ]] := reg_pos_def_any Hla n0 t0 HQ; exists B; split=> //.
have EB' : B = Q + V *m diagv (\col_i Num.max 0 (t - d i 0)) *m V^T.
  by apply: mat_inj; apply: Ok_inj; rewrite -EB -(reg_pos_def_run t0 HQ E).
have d0 i : 0 <= d i 0.
  by have := Hp (col i V); rewrite /qf (eig_col i EV) dotvZr -/(sqn _) Hn mulr1.
have qB x : qf B x = qf Q x + \sum_i Num.max 0 (t - d i 0) * dotv (col i V) x ^+ 2.
  rewrite EB' qfD qf_conj qf_diagv; congr (_ + _); apply: eq_bigr => i _.
  by rewrite [X in X * _]mxE tr_col_dot.
have m0 i : 0 <= Num.max 0 (t - d i 0) by rewrite le_maxr lexx.
split=> //.
- move=> x x0; rewrite lt0r qB addr_ge0 // ?andbT; last first.
    by apply: sumr_ge0 => i _; rewrite mulr_ge0 ?sqr_ge0.
  apply/negP; rewrite paddr_eq0 //; last by apply: sumr_ge0 => i _; rewrite mulr_ge0 ?sqr_ge0.
  case/andP=> /eqP /(psd_ker HQ Hp) Qx; rewrite psumr_eq0 => [/allP Hs|i _]; last by rewrite mulr_ge0 ?sqr_ge0.
  have Vx : V^T *m x = 0.
    apply/matrixP => i j; rewrite (ord1 j) tr_col_dot [RHS]mxE.
    have := Hs i (mem_index_enum i); rewrite /= mulf_eq0 expf_eq0 /= => /orP[h|/eqP //].
    have td : t <= d i 0.
      by rewrite -subr_le0; move/eqP: h => h; rewrite -h le_maxr lexx orbT.
    have di : d i 0 != 0 by rewrite gt_eqF // (lt_le_trans t0).
    apply: (mulfI di); rewrite mulr0 -dotvZl -(eig_col i EV).
    by rewrite dotv_mull HQ Qx dotv0r.
  case/negP: x0; rewrite -(mulKmx (_ : V^T \in unitmx) x) ?unitmx_tr // Vx mulmx0 //.
- move=> x; rewrite HQB /= qB ler_add2l -mulrA mulr_natl -[X in _ *+ X](card_ord n) -sumr_const.
  apply: ler_sum => i _; apply: ler_pmul; rewrite ?sqr_ge0 //.
    by rewrite le_maxl ltW //= ler_subl_addr ler_addl.
  by apply: le_trans (cauchy_schwarz _ _) _; rewrite Hn mul1r.
Qed.

Lemma reg_shape_run e n (c : 'cV[R]_n) (Q : 'M[R]_n) t : eigvalsh_ok la -> eig_ok la -> (0 < n)%N ->
  repr e c Q t -> exists2 B : 'M[R]_n, reg_shape la e (e_abs e) = Ok (mat B) & regularised t Q B.
Proof.
move=> Hev Heig n0 Hr; have [[Ec Es Et t0] [HQ Hp _]] := Hr.
have [b Eb Hb] := degenerate1_run Hev n0 Hr; rewrite /reg_shape Eb rbind_okE Es /e_abs Et.
case: b Eb Hb => _ Hb; last first.
  have Hpd := Hb.1 erefl; exists Q => //; split=> //.
    by move=> x x0; apply: le_lt_trans (Hpd x x0); rewrite mulr_ge0 ?sqn_ge0 // ltW.
  by move=> x; rewrite lexx ler_addl !mulr_ge0 ?ler0n ?sqn_ge0 // ltW.
have [B [-> [H1 H2 H3 _]]] := regularize_run Heig n0 t0 HQ Hp; exists B => //; split=> //.
by move/Hb.
Qed.

(** --------------------------------------------------- is_internal *)
Lemma np_sub_vec_row n (v : 'cV[R]_n) (r : 'rV[R]_n) : np_sub (vec v) (mat r) = Ok (mat (v^T - r)).
Proof.
rewrite /np_sub /np_bin [shape (vec v)]/= [shape (mat r)]/=.
have -> : bshape [:: n] [:: 1%N; n] = Some [:: 1%N; n] by rewrite /bshape /= eqxx.
congr Ok; apply: matE => i j; rewrite (ord1 i) /bidx /= !one_idx.
by rewrite -[0%N]/(val (0 : 'I_1)) get_mat get_vec !mxE.
Qed.

Lemma internal_case_run e s n (c : 'cV[R]_n) (Q : 'M[R]_n) t : eigvalsh_ok la -> eig_ok la -> inv_ok la ->
  (0 < n)%N -> repr e c Q t -> exists2 B : 'M[R]_n, regularised t Q B &
  forall x, internal_case la (Arr s [:: e]) (vec x) (Fin t) = Ok (qf (invmx B) (x - c) < (1 + t) ^+ 2).
Proof.
move=> Hev Heig Hinv n0 Hr; have [[Ec Es Et t0] [HQ Hp _]] := Hr.
have [B EB HB] := reg_shape_run Hev Heig n0 Hr; exists B => // x.
rewrite /internal_case; cbn [data]; rewrite Ec np_expand0_vec np_sub_vec_row rbind_okE np_T_mat.
have -> : (x^T - c^T)^T = x - c by rewrite (raddfB (@trmx_additive _ _ _)) /= !trmxK.
have E1 : (let* dg := is_degenerate la (Arr (1%N :: s) [:: e])
   in if nth false (data dg) 0 then regularize la (e_shape e) (Fin t) else Ok (e_shape e)) = Ok (mat B).
  move: EB; rewrite /reg_shape /degenerate1 /e_abs Et /is_degenerate /is_empty /np_any /= .
  case: ifP => // _; rewrite /amapM /=.
  by case: (is_mat_pos_def _ _ _ _) => //= -[].
have [HB1 HB2 _ _] := HB.
have uB := posdef_unit HB2.
have [b Eb] : exists b, is_degenerate la (Arr (1%N :: s) [:: e]) = Ok b.
  by move: E1; case: (is_degenerate _ _) => //= b; exists b.
rewrite Eb !rbind_okE in E1 *; rewrite E1 rbind_okE inv_mat_run // uB rbind_okE np_T_mat.
rewrite np_matmul_mm rbind_okE np_matmul_mm rbind_okE.
have -> : (x - c)^T *m invmx B *m (x - c) = (qf (invmx B) (x - c))%:M.
  by rewrite -mulmxA quad_inv.
have q0 : 0 <= qf (invmx B) (x - c) by exact: (posdef_psd (posdef_inv HB1 HB2)).
set q := qf _ _ in q0 *.
have -> : data (np_sqrt (mat (q%:M : 'M[R]_1))) = [:: Fin (Num.sqrt q)].
  by rewrite /= (mxgetE (q%:M : 'M[R]_1) 0 0) mxE eqxx mulr1n ltNge q0.
congr Ok; rewrite /xabs /xsub /= .
have -> : (Num.sqrt q < 1) || (`|Num.sqrt q - 1| < t) = (Num.sqrt q < 1 + t).
  rewrite ltr_norml !ltr_subl_addr ltr_subr_addr [t + 1]addrC [- t + 1]addrC.
  have [h|h] := ltP (Num.sqrt q) 1; first by rewrite /= (lt_trans h) // ltr_addl.
  by rewrite /= (lt_le_trans _ h) // gtr_addl oppr_lt0.
have t1 : 0 <= 1 + t by rewrite addr_ge0 ?ler01 ?ltW.
by rewrite -[in RHS](sqr_sqrtr q0) ltr_sqr ?nnegrE ?sqrtr_ge0.
Qed.

Definition modeb (mode : string) k (p : 'I_k -> bool) : bool :=
  if String.eqb mode "u" then [exists j, p j] else [forall j, p j].

Lemma is_internal_run n k s es (c : 'I_k -> 'cV[R]_n) (Q : 'I_k -> 'M[R]_n) (t : 'I_k -> R) :
  eigvalsh_ok la -> eig_ok la -> inv_ok la -> (0 < n)%N -> (0 < k)%N ->
  family es c Q t -> s != [::] -> prodn s = 1%N ->
  exists2 B : 'I_k -> 'M[R]_n, (forall j, regularised (t j) (Q j) (B j)) &
  forall m (P : 'M[R]_(n, m)) mode, mode = "u"%string \/ mode = "i"%string ->
  is_internal la (Arr (k :: s) es) (mat P) (Some mode) =
  Ok (Arr [:: m; 1%N] [seq modeb mode (fun j => qf (invmx (B j)) (col i P - c j) < (1 + t j) ^+ 2) | i <- enum 'I_m]).
Proof.
move=> Hev Heig Hinv n0 k0 Hf s0 ps; have [Es Hr] := Hf.
have [e0 _] : exists e0 : ell R, True by case: (es) Es k0 => [<-//|e ? _ _]; exists e.
have H1 (j : 'I_k) : exists B : 'M[R]_n, regularised (t j) (Q j) B /\
  forall x, internal_case la (Arr s [:: nth e0 es j]) (vec x) (Fin (t j)) =
    Ok (qf (invmx B) (x - c j) < (1 + t j) ^+ 2).
  by have [B HB HB'] := internal_case_run s Hev Heig Hinv n0 (Hr j e0); exists B.
have [B HB] := fin_all_exists H1; exists B => [j|m P mode Hm]; first by have [] := HB j.
rewrite /is_internal not_empty; last exact: family_good Hf.
rewrite [data _]/= Es (gtn_eqF k0).
have -> : String.eqb mode "u" || String.eqb mode "i" by case: Hm => ->.
have -> : all (fun d => d == dim (mat P) 0) (data (dimension (Arr (k :: s) es))).
  rewrite [data _]/= all_map; apply/(all_nthP e0) => j; rewrite Es => jk.
  by rewrite /= (repr_dim (Hr (Ordinal jk) e0)).
have -> : dim (mat P) 1 = m by [].
rewrite (mapM_iota (g := fun i => modeb mode (fun j => qf (invmx (B j)) (col i P - c j) < (1 + t j) ^+ 2))) //.
move=> i; rewrite np_col_mat rbind_okE /internal_vec [data _]/= Es.
rewrite (mapM_iota (g := fun j => qf (invmx (B j)) (col i P - c j) < (1 + t j) ^+ 2)) => [|j].
  by rewrite rbind_okE /modeb has_mapord all_mapord.
have -> : np_sub_arr (Arr (k :: s) es) j = Ok (Arr s [:: nth e0 es j]).
  case: s ps s0 {P i Hf HB H1} => // a s ps _; rewrite /np_sub_arr; cbn [shape data]; rewrite ltn_ord ps muln1.
  by rewrite (drop_nth e0) ?Es //= take0.
rewrite rbind_okE (nth_map e0) ?Es // /e_abs.
have [[_ _ -> _] _] := Hr j e0.
by have [_ ->] := HB j.
Qed.


Lemma is_internal_any n k s es (c : 'I_k -> 'cV[R]_n) (Q : 'I_k -> 'M[R]_n) (t : 'I_k -> R) :
  eigvalsh_ok la -> eig_ok la -> inv_ok la -> (0 < n)%N -> (0 < k)%N ->
  family es c Q t -> s != [::] -> prodn s = 1%N ->
  exists2 B : 'I_k -> 'M[R]_n, (forall j, regularised (t j) (Q j) (B j)) &
  forall m (P : 'M[R]_(n, m)),
  (exists2 bs, is_internal la (Arr (k :: s) es) (mat P) (Some "u"%string) = Ok (Arr [:: m; 1%N] bs) &
     size bs = m /\ forall i : 'I_m, nth false bs i = true <->
       exists j, qf (invmx (B j)) (col i P - c j) < (1 + t j) ^+ 2) /\
  (exists2 bs, is_internal la (Arr (k :: s) es) (mat P) (Some "i"%string) = Ok (Arr [:: m; 1%N] bs) &
     size bs = m /\ forall i : 'I_m, nth false bs i = true <->
       forall j, qf (invmx (B j)) (col i P - c j) < (1 + t j) ^+ 2).
Proof.
move=> Hev Heig Hinv n0 k0 Hf s0 ps.
have [B HB H] := is_internal_run Hev Heig Hinv n0 k0 Hf s0 ps; exists B => // m P.
split; (rewrite H; last by [left|right]); eexists; try reflexivity;
  (split; first by rewrite size_map size_enum_ord); move=> i; rewrite nth_mapord /modeb.
  by split=> [/existsP|Hj]; last exact/existsP.
by split=> [/forallP|Hj]; last exact/forallP.
Qed.

Lemma regularised_in n (c : 'cV[R]_n) Q B t x : 0 < t -> symm Q -> psd Q -> regularised t Q B -> in_ell c Q x ->
  qf (invmx B) (x - c) < (1 + t) ^+ 2.
Proof.
move=> t0 HQ Hp [H1 H2 H3 _] Hx; apply: le_lt_trans (_ : 1 < _).
  apply/in_ellP_inv => //.
  have Hs := (ell_subset_center c HQ Hp H1 (posdef_psd H2)).2; apply: Hs => // y.
  by rewrite qfD qfN subr_ge0; have /andP[] := H3 y.
by rewrite exprn_egt1 // ltr_addl.
Qed.

Lemma in_ell_scaled n (c : 'cV[R]_n) Q a x : symm Q -> posdef Q -> 0 < a ->
  in_ell c (a *: Q) x <-> qf (invmx Q) (x - c) <= a.
Proof.
move=> HQ Hp a0; have Ha : posdef (a *: Q).
  by move=> y y0; rewrite /qf -scalemxAl dotvZr mulr_gt0 // Hp.
have Hs : symm (a *: Q) by apply/matrixP => i j; rewrite !mxE -{1}HQ mxE.
apply: iff_trans (in_ellP_inv c x Hs Ha) _.
rewrite invmxZ ?(posdef_unit Ha) //.
by rewrite /qf -scalemxAl dotvZr ler_pdivr_mull // mulr1.
Qed.

(** non-degenerate ellipsoids: membership implies True, True implies membership in the ellipsoids
    enlarged (1 + abs_tol) times *)
Lemma is_internal_member n k s es (c : 'I_k -> 'cV[R]_n) (Q : 'I_k -> 'M[R]_n) (t : 'I_k -> R) :
  eigvalsh_ok la -> eig_ok la -> inv_ok la -> (0 < n)%N -> (0 < k)%N ->
  family es c Q t -> s != [::] -> prodn s = 1%N ->
  forall m (P : 'M[R]_(n, m)),
  (exists2 bs, is_internal la (Arr (k :: s) es) (mat P) (Some "u"%string) = Ok (Arr [:: m; 1%N] bs) &
     forall i : 'I_m, ((exists j, in_ell (c j) (Q j) (col i P)) -> nth false bs i = true) /\
       ((forall j x, x != 0 -> t j * sqn x < qf (Q j) x) -> nth false bs i = true ->
        exists j, in_ell (c j) ((1 + t j) ^+ 2 *: Q j) (col i P))) /\
  (exists2 bs, is_internal la (Arr (k :: s) es) (mat P) (Some "i"%string) = Ok (Arr [:: m; 1%N] bs) &
     forall i : 'I_m, ((forall j, in_ell (c j) (Q j) (col i P)) -> nth false bs i = true) /\
       ((forall j x, x != 0 -> t j * sqn x < qf (Q j) x) -> nth false bs i = true ->
        forall j, in_ell (c j) ((1 + t j) ^+ 2 *: Q j) (col i P))).
Proof.
move=> Hev Heig Hinv n0 k0 Hf s0 ps m P.
have [e0 _] : exists e0 : ell R, True.
  by have [Es _] := Hf; case: (es) Es k0 => [<-//|e ? _ _]; exists e.
have [B HB H] := is_internal_any Hev Heig Hinv n0 k0 Hf s0 ps.
have [[b1 E1 [_ H1]] [b2 E2 [_ H2]]] := H m P.
have t0 j : 0 < t j by have [_ /(_ j e0) [[]]] := Hf.
have HQ j : symm (Q j) by have [_ /(_ j e0) [_ []]] := Hf.
have Hp j : psd (Q j) by have [_ /(_ j e0) [_ []]] := Hf.
have In j x : in_ell (c j) (Q j) x -> qf (invmx (B j)) (x - c j) < (1 + t j) ^+ 2.
  exact: regularised_in (t0 j) (HQ j) (Hp j) (HB j).
have Out j x : (forall x, x != 0 -> t j * sqn x < qf (Q j) x) -> qf (invmx (B j)) (x - c j) < (1 + t j) ^+ 2 ->
    in_ell (c j) ((1 + t j) ^+ 2 *: Q j) x.
  move=> nd; have [_ H3 _ /(_ nd) EB] := HB j; rewrite EB in H3 * => h.
  by apply/in_ell_scaled; rewrite ?exprn_gt0 ?addr_gt0 ?ltr01 // ltW.
split; [exists b1|exists b2] => // i; split.
- by move=> [j hj]; apply/H1; exists j; exact: In.
- by move=> nd /H1[j hj]; exists j; exact: Out (nd j) hj.
- by move=> hj; apply/H2 => j; exact: In.
by move=> nd /H2 hj j; exact: Out (nd j) (hj j).
Qed.

(** a list or vector of ellipsoids *)
Lemma is_internal_vector n k m es (c : 'I_k -> 'cV[R]_n) (Q : 'I_k -> 'M[R]_n) (t : 'I_k -> R) (P : 'M[R]_(n, m)) :
  (0 < n)%N -> (0 < k)%N -> (0 < m)%N -> family es c Q t ->
  is_internal la (Arr [:: k] es) (mat P) (Some "u"%string) = AttributeError.
Proof.
move=> n0 k0 m0 Hf; have [Es Hr] := Hf.
rewrite /is_internal not_empty; last exact: family_good Hf.
rewrite [data _]/= Es (gtn_eqF k0).
have [e0 _] : exists e0 : ell R, True by case: (es) Es k0 => [<-//|e ? _ _]; exists e.
have -> : all (fun d => d == dim (mat P) 0) (data (dimension (Arr [:: k] es))).
  rewrite [data _]/= all_map; apply/(all_nthP e0) => j; rewrite Es => jk.
  by rewrite /= (repr_dim (Hr (Ordinal jk) e0)).
have -> : dim (mat P) 1 = m by [].
have -> : iota 0 m = 0%N :: iota 1 m.-1 by case: m m0 P.
rewrite (@mapM_err _ _ _ _ _ (PyExc "AttributeError")) //.
rewrite -[0%N]/(val (Ordinal m0)) np_col_mat rbind_okE /internal_vec [data _]/= Es.
by case: k k0 {Es Hr Hf c Q t}.
Qed.

Lemma is_internal_badmode a m mode : size (data a) != 0%N -> ~~ np_any (is_empty a) ->
  mode <> "u"%string -> mode <> "i"%string -> is_internal la a m (Some mode) = throw "wrongInput".
Proof.
move=> h1 h2 h3 h4; rewrite /is_internal (negbTE h1) (negbTE h2).
by move/String.eqb_neq: h3 => ->; move/String.eqb_neq: h4 => ->.
Qed.

Lemma is_internal_notstring a m : is_internal la a m None = is_internal la a m (Some "u"%string).
Proof. by []. Qed.

Lemma is_internal_sizes n' n k s es (c : 'I_k -> 'cV[R]_n) (Q : 'I_k -> 'M[R]_n) (t : 'I_k -> R) m (P : 'M[R]_(n', m)) :
  (0 < n)%N -> (0 < k)%N -> family es c Q t -> n != n' ->
  is_internal la (Arr s es) (mat P) (Some "u"%string) = throw "wrongSizes".
Proof.
move=> n0 k0 Hf nn; have [Es Hr] := Hf.
rewrite /is_internal not_empty; last exact: family_good Hf.
rewrite [data _]/= Es (gtn_eqF k0).
case: es Es Hr {Hf} => [|e es] Es Hr; first by move: k0; rewrite -{1}Es.
have -> : all (fun d => d == dim (mat P) 0) (data (dimension (Arr s (e :: es)))) = false; last by [].
have En := repr_dim (Hr (Ordinal k0) e); move: En; rewrite [nth _ _ _]/= => En.
by apply/negbTE; apply/negP => /andP[]; rewrite En => /idPn; rewrite nn.
Qed.

End Reg.
