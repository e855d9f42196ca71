(** Laws relating Ellipsoid.rho to the other operations on ellipsoids. *)
From mathcomp Require Import all_ssreflect all_algebra.
From mathcomp.zify Require Import zify.
Require Import Coq.Strings.String.
From Verif.Model Require Import Py NP NP3 Linalg La EllGeom Ellipsoid EllHeap.
From Verif.Spec Require Import MatSpec LinalgSpec EllSpec EllipsoidSpec EllHeapSpec RhoSpec LawSpec.
From Verif.Proof Require Import NPLib MatLib LaBasic EllLib EllGeomProof EllScalProof RegProof MinksumProof MinkIaProof PolarProof RhoProof CoreProof EllHeapProof ProjProof.
Set Implicit Arguments.
Unset Strict Implicit.
Unset Printing Implicit Defensive.
Import Order.Theory GRing.Theory Num.Theory.
Local Open Scope ring_scope.

Section Law.
Variable R : rcfType.
Variable la : linalg R.
Notation ell := (ell R).

Lemma rho_one n e (c : 'cV[R]_n) Q t l : (0 < n)%N -> repr e c Q t ->
  exists p, [/\ rho_is e l (dotv l c + Num.sqrt (qf Q l)) p, in_ell c Q p & dotv l p = dotv l c + Num.sqrt (qf Q l)].
Proof.
move=> n0 Hr; have [v [P [E H]]] := @one_spec R n e c Q t [:: 1%N] [:: 1%N] 1 l n0 Hr isT (erefl _).
have [_ [HQ Hq _]] := Hr; have [h1 h2 h3] := H 0.
have c1 (M : 'cV[R]_n) : col 0 M = M by apply/matrixP => i j; rewrite mxE (ord1 j).
have Ev : v 0 = dotv l c + Num.sqrt (qf Q l) by rewrite c1 in h1; exact: max_over_uniq h1 (ell_support c l HQ Hq).
exists P; rewrite -Ev; rewrite !c1 in h2 h3; split=> //.
by rewrite /rho_is E /numbers /=; congr (Ok (Arr _ _, _)); rewrite enum_ordSl /= (_ : enum 'I_0 = [::]) //; apply/size0nil; rewrite size_enum_ord.
Qed.
Lemma rho_max n e (c : 'cV[R]_n) Q t l s p : (0 < n)%N -> repr e c Q t -> rho_is e l s p ->
  s = dotv l c + Num.sqrt (qf Q l) /\ in_ell c Q p /\ dotv l p = s.
Proof.
move=> n0 Hr; have [p' [E hp he]] := rho_one l n0 Hr.
move=> E'; have [Es Ep] : Fin s = Fin (dotv l c + Num.sqrt (qf Q l)) /\ mat p = mat p'.
  have := etrans (esym E') E => /Ok_inj K; split; last exact: (f_equal snd K).
  by have := f_equal (fun q => nth (Fin 0) (data q.1) 0) K.
by rewrite (mat_inj Ep); case: Es => ->.
Qed.

(** rho is a support function: positively homogeneous and subadditive *)
Theorem law_linear n e (c l l' : 'cV[R]_n) Q t a : (0 < n)%N -> repr e c Q t -> 0 <= a ->
  exists s s' r p p', [/\ rho_is e l s p, rho_is e l' s' p', (exists q, rho_is e (a *: l) (a * s) q),
    (exists q, rho_is e (l + l') r q) & r <= s + s'].
Proof.
move=> n0 Hr a0; have [_ [HQ Hq _]] := Hr.
have [p [E1 _ _]] := rho_one l n0 Hr; have [p' [E2 _ _]] := rho_one l' n0 Hr.
have [q [E3 _ _]] := rho_one (a *: l) n0 Hr; have [q' [E4 Eq E5]] := rho_one (l + l') n0 Hr.
exists (dotv l c + Num.sqrt (qf Q l)), (dotv l' c + Num.sqrt (qf Q l')), (dotv (l + l') c + Num.sqrt (qf Q (l + l'))), p, p'.
split=> //; [exists q|by exists q'|].
- have Eq2 : qf Q (a *: l) = a ^+ 2 * qf Q l by rewrite /qf -scalemxAr dotvZl dotvZr mulrA.
  by rewrite mulrDr; move: E3; rewrite dotvZl Eq2 sqrtrM ?sqr_ge0 // sqrtr_sqr ger0_norm.
- by rewrite -E5 dotvDl; apply: ler_add; exact: ell_support_ub.
Qed.

(** rho of the reflected ellipsoid *)
Theorem law_uminus cfg p t0 n e (c l : 'cV[R]_n) Q t : eigvalsh_ok la -> props_of cfg (no_kw R) p t0 -> (0 < n)%N ->
  repr e c Q t ->
  exists r s q q', [/\ uminus la cfg (Arr [::] [:: e]) = Ok (Arr [::] [:: r]), rho_is r l s q & rho_is e (- l) s q'].
Proof.
move=> Hla Hp n0 Hr.
have Hv : List.Forall (@valid R) [:: e] by constructor=> //; exists n, c, Q, t.
have [rs E [H _ _]] := uminus_run [::] Hla Hp Hv.
case: rs E H => [|r [|r' rs]] E H; [by inversion H| |by inversion H; subst; match goal with h : List.Forall2 _ [::] _ |- _ => inversion h end].
have Hr' : repr r (- c) Q t0 by inversion H; subst; eauto.
have [q [E1 _ _]] := rho_one l n0 Hr'; have [q' [E2 _ _]] := rho_one (- l) n0 Hr.
exists r, (dotv l (- c) + Num.sqrt (qf Q l)), q, q'; split=> //.
by move: E2; rewrite dotvNl dotvNr /qf mulmxN dotvNl dotvNr opprK.
Qed.

(** the point rho returns is found inside *)
Theorem law_inside n e (c l p : 'cV[R]_n) Q t s : eigvalsh_ok la -> eig_ok la -> inv_ok la -> (0 < n)%N ->
  repr e c Q t -> rho_is e l s p ->
  is_internal la (Arr [:: 1%N; 1%N] [:: e]) (mat p) (Some "u"%string) = Ok (Arr [:: 1%N; 1%N] [:: true]).
Proof.
move=> H1 H2 H3 n0 Hr /(rho_max n0 Hr) [_ [Hin _]].
have Hf : @family R n 1 [:: e] (fun=> c) (fun=> Q) (fun=> t) by split=> // j e0; rewrite (ord1 j).
have [B HB H] := @is_internal_any R la n 1 [:: 1%N] [:: e] (fun=> c) (fun=> Q) (fun=> t) H1 H2 H3 n0 isT Hf isT (erefl _).
have [[bs -> [Eb K]] _] := H 1%N p.
have c1 (M : 'cV[R]_n) : col 0 M = M by apply/matrixP => i j; rewrite mxE (ord1 j).
case: bs Eb K => [|b [|]] //= _ K; congr (Ok (Arr _ [:: _])); apply/(K 0); exists 0; rewrite c1.
by have [[_ _ _ t0] [HQ Hq _]] := Hr; exact: regularised_in (HB 0) Hin.
Qed.

(** the polar decides membership through its support function *)
Theorem law_polar cfg p t0 e n (c : 'cV[R]_n) Q t : inv_ok la -> lstsq_ok la -> eigvalsh_ok la ->
  (0 < n)%N -> repr e c Q t -> (forall x, x != 0 -> t * sqn x < qf Q x) ->
  origin_inside (in_ell c Q) -> props_of cfg (no_kw R) p t0 ->
  exists2 e', polar la cfg (Arr [:: 1%N] [:: e]) = Ok (Arr [:: 1%N] [:: e']) &
  forall x : 'cV[R]_n, exists s q, rho_is e' x s q /\ (s <= 1 <-> in_ell c Q x).
Proof.
move=> Hi Hl He n0 Hr Hd Ho Hpr; have Hp := repr_posdef Hr Hd; have [_ [HQ Hq _]] := Hr.
have [e' [c' [Q' [E Hr' _ Hset]]]] := polar_spec Hi Hl He n0 Hr Hd Ho Hpr.
exists e' => // x; have [q [E1 _ _]] := rho_one x n0 Hr'; have [_ [HQ' Hq' _]] := Hr'.
exists (dotv x c' + Num.sqrt (qf Q' x)), q; split=> //.
apply: iff_trans (iff_sym (in_polarP c' x HQ' Hq')) _.
apply: iff_trans _ (bipolar_set x HQ Hp (inside_k HQ Hp Ho)).
by split=> H y /Hset Hy; exact: H.
Qed.

(** sums *)
Lemma rhos_run n k es (c : 'I_k -> 'cV[R]_n) Q t (d : 'cV[R]_n) : (0 < n)%N -> (1 < k)%N -> family es c Q t ->
  exists2 v, rhos_are es d v & forall j, v j = dotv d (c j) + Num.sqrt (qf (Q j) d).
Proof.
move=> n0 k1 Hf; have [v [P [E H]]] := dir_spec (s := [:: k]) d n0 k1 Hf (muln1 k).
exists v; first by eexists; exact: E.
move=> j; have [h _ _] := H j; have [_ K] := Hf; have [e0] : inhabited ell by constructor; case: es {K E Hf} => [|e _]; [exact: Ell (vec (0 : 'cV[R]_0)) (mat (0 : 'M[R]_0)) (Props (Fin 0) (Fin 0) 0 0)|exact: e].
by have [_ [HQ Hq _]] := K j e0; exact: max_over_uniq h (ell_support (c j) d HQ Hq).
Qed.

Theorem law_sum cfg p t0 n k es (c : 'I_k -> 'cV[R]_n) Q t (l : 'cV[R]_n) : eigvalsh_ok la -> eig_ok la ->
  (0 < n)%N -> (1 < k)%N -> family es c Q t -> props_of cfg (no_kw R) p t0 -> l != 0 ->
  exists2 r, minksum_ea la cfg es (vec l) = Ok (Arr [:: 1%N] [:: r]) &
  forall d : 'cV[R]_n, exists (v : 'I_k -> R) s q, [/\ rhos_are es d v, rho_is r d s q, \sum_j v j <= s &
    (forall j x, x != 0 -> t j * sqn x < qf (Q j) x) -> d = l -> \sum_j v j = s].
Proof.
move=> H1 H2 n0 k1 Hf Hp l0; have [B HB [_ H]] := minksum_ea_run H1 H2 n0 k1 Hf Hp.
have [r [c' [Q' [E Hr Ho Hin]]]] := H l l0; exists r => // d.
have [v Ev Vj] := rhos_run d n0 k1 Hf; have [q [E1 _ _]] := rho_one d n0 Hr; have [_ [HQ' Hq' _]] := Hr.
have [_ K] := Hf; have [e0] : inhabited ell by constructor; case: (es) => [|e _]; [exact: Ell (vec (0 : 'cV[R]_0)) (mat (0 : 'M[R]_0)) (Props (Fin 0) (Fin 0) 0 0)|exact: e].
have M j : max_over (in_ell (c j) (Q j)) d (v j) by rewrite Vj; have [_ [HQ Hq _]] := K j e0; exact: ell_support.
have [_ [x Hx Ex]] := msum_support M.
exists v, (dotv d c' + Num.sqrt (qf Q' d)), q; split=> //.
  by rewrite -Ex; exact: ell_support_ub (Hin _ Hx).
move=> Hnd Ed; have BQ : forall j, B j = Q j by move=> j; have [_ _ _ h] := HB j; exact: h (Hnd j).
have [_ [s [s1 s2]]] := Ho.
have -> : \sum_j v j = s.
  apply: max_over_uniq (msum_support M) _; rewrite Ed.
  case: s2 => a [y [z Hz Ey] Hy]; split=> [w [u Hu Ew]|]; first by apply: a; exists u => // j; rewrite BQ.
  by exists y => //; exists z => // j; rewrite -BQ.
by rewrite Ed in E1 *; exact: max_over_uniq s1 (ell_support c' l HQ' Hq').
Qed.

Theorem law_sum_ia cfg p t0 n k es (c : 'I_k.+2 -> 'cV[R]_n) Q t (l : 'cV[R]_n) : eigvalsh_ok la -> eig_ok la -> eigh_ok la ->
  (0 < n)%N -> family es c Q t -> props_of cfg (no_kw R) p t0 -> l != 0 ->
  (forall j x, x != 0 -> t j * sqn x < qf (Q j) x) -> (forall j, clear_roots (Q j) (Q ord0) l) ->
  exists2 r, minksum_ia la cfg es (vec l) = Ok (Arr [:: 1%N] [:: r]) &
  forall d : 'cV[R]_n, exists (v : 'I_k.+2 -> R) s q, [/\ rhos_are es d v, rho_is r d s q, s <= \sum_j v j &
    d = l -> s = \sum_j v j].
Proof.
move=> H1 H2 H3 n0 Hf Hp l0 Hnd Hc; have [B HB [_ H]] := minksum_ia_run H1 H2 H3 n0 Hf Hp.
have BQ j : B j = Q j by have [_ _ _ h] := HB j; exact: h (Hnd j).
have [_ K] := Hf; have [e0] : inhabited ell by constructor; case: (es) => [|e _]; [exact: Ell (vec (0 : 'cV[R]_0)) (mat (0 : 'M[R]_0)) (Props (Fin 0) (Fin 0) 0 0)|exact: e].
have q0 : 0 < qf (Q ord0) l.
  apply: le_lt_trans (Hnd ord0 l l0); have [[_ _ _ h] _] := K ord0 e0; by rewrite mulr_ge0 ?ltW // sqn_gt0.
have [r [c' [Q' [E Hr _ Ho]]]] := H l q0; exists r => // d.
have {}Ho := Ho (fun j => eq_ind_r (fun M => clear_roots M (Q ord0) l) (Hc j) (BQ j)).
have [v Ev Vj] := @rhos_run n k.+2 es c Q t d n0 isT Hf; have [q [E1 Hq1 Eq1]] := rho_one d n0 Hr; have [_ [HQ' Hq' _]] := Hr.
have M j : max_over (in_ell (c j) (B j)) d (v j) by rewrite Vj BQ; have [_ [HQ Hq _]] := K j e0; exact: ell_support.
have [Hin [s [s1 s2]]] := Ho.
exists v, (dotv d c' + Num.sqrt (qf Q' d)), q; split=> //.
  by rewrite -Eq1; apply: (msum_support M).1; exact: Hin.
move=> Ed; rewrite Ed in M *; rewrite -(max_over_uniq s2 (msum_support M)).
by apply: max_over_uniq _ s1; exact: ell_support.
Qed.

(** containment is decided through support values *)
Theorem law_bigger e1 e2 n (c1 c2 : 'cV[R]_n) (Q1 Q2 : 'M[R]_n) t1 t2 : linalg_ok la -> (0 < n)%N ->
  repr e1 c1 Q1 t1 -> repr e2 c2 Q2 t2 -> (forall x, x != 0 -> t1 * sqn x < qf Q1 x) -> wellcond Q1 ->
  exists2 b, is_bigger la e1 e2 = Ok b &
  ((forall (l : 'cV[R]_n) s1 p1 s2 p2, rho_is e1 l s1 p1 -> rho_is e2 l s2 p2 -> s2 - dotv l c2 <= s1 - dotv l c1) -> b) /\
  (b -> forall (l : 'cV[R]_n) s1 p1 s2 p2, rho_is e1 l s1 p1 -> rho_is e2 l s2 p2 ->
    s2 - dotv l c2 <= Num.sqrt (1 + t1) * (s1 - dotv l c1)).
Proof.
move=> Hla n0 H1 H2 Hnd Hw; have [b E Hb] := is_bigger_run Hla n0 H1 H2 Hnd Hw; exists b => //.
have [[_ _ _ t0] [HQ1 Hq1 _]] := H1; have [_ [HQ2 Hq2 _]] := H2.
have sub (a b' : R) : a + b' - a = b' by rewrite addrAC subrr add0r.
split=> [H|/Hb K l s1 p1 s2 p2 /(rho_max n0 H1)[-> _] /(rho_max n0 H2)[-> _]].
  apply/Hb => x x0.
  have [p1 [R1 _ _]] := rho_one x n0 H1; have [p2 [R2 _ _]] := rho_one x n0 H2.
  have := H _ _ _ _ _ R1 R2; rewrite !sub ler_sqrt' ?Hq1 ?Hq2 // => h.
  apply: le_lt_trans h _; rewrite ltr_pmull ?ltr_addl //.
  by apply: le_lt_trans (Hnd x x0); rewrite mulr_ge0 ?ltW // sqn_gt0.
have t1' : 0 <= 1 + t1 by rewrite addr_ge0 ?ler01 // ltW.
rewrite !sub -sqrtrM // ler_sqrt' ?Hq2 // ?mulr_ge0 ?Hq1 //.
have [->|l0] := eqVneq l 0; last exact/ltW/K.
by rewrite /qf !mulmx0 !dotv0l mulr0.
Qed.

(** eigenvalues and trace are the extreme and the summed squares of the half-widths *)
Theorem law_eigs n e (c : 'cV[R]_n) Q t : eigvalsh_ok la -> (0 < n)%N -> repr e c Q t ->
  exists a b d, [/\ min_eig la (Arr [:: 1%N] [:: e]) = Ok (Arr [:: 1%N] [:: Fin a]),
    max_eig la (Arr [:: 1%N] [:: e]) = Ok (Arr [:: 1%N] [:: Fin b]),
    trace (Arr [:: 1%N] [:: e]) = Ok (Arr [:: 1%N] [:: Fin d]),
    forall (l : 'cV[R]_n) s q, rho_is e l s q -> a * sqn l <= (s - dotv l c) ^+ 2 <= b * sqn l &
    forall s : 'I_n -> R, (forall i, exists q, rho_is e (delta_mx i 0 : 'cV[R]_n) (s i) q) -> d = \sum_i (s i - c i 0) ^+ 2].
Proof.
move=> Hla n0 Hr; have [[E1 E2 _ _] [HQ Hq _]] := Hr.
have Hg : List.Forall (@good R) [:: e] by constructor=> //; exists n, c, Q, t.
have one T (P : T -> Prop) (f : ell -> T -> Prop) ms : (forall m, f e m -> P m) -> List.Forall2 f [:: e] ms -> exists2 m, ms = [:: m] & P m.
  move=> h H; inversion H; subst; match goal with g : List.Forall2 _ [::] _ |- _ => inversion g end; subst; eexists=> //; exact: h.
have [ms Em /one Hm] := min_eig_run [:: 1%N] Hg Hla.
have [m1 ? [a Ea [Ha _]]] := Hm _ (fun m h => h n c Q t Hr); subst ms m1.
have [ms Em' /one Hm'] := max_eig_run [:: 1%N] Hg Hla.
have [m1 ? [b Eb [Hb _]]] := Hm' _ (fun m h => h n c Q t Hr); subst ms m1.
have sq (l : 'cV[R]_n) s q : rho_is e l s q -> (s - dotv l c) ^+ 2 = qf Q l.
  by move=> /(rho_max n0 Hr)[-> _]; rewrite addrAC subrr add0r sqr_sqrtr.
exists a, b, (\tr Q); split=> //.
- by rewrite /trace not_empty //= E2 np_trace_mat.
- by move=> l s q /sq ->; rewrite Ha Hb.
- move=> s Hs; rewrite /mxtrace; apply: eq_bigr => i _; have [q Hqi] := Hs i; have := sq _ _ _ Hqi.
  have -> : dotv (delta_mx i 0) c = c i 0 by rewrite dotvE trmx_delta -rowE mxE.
  by move=> ->; rewrite /qf dotvE trmx_delta mulmxA -rowE -colE !mxE.
Qed.

(** the support values of a projection onto an orthonormal system are those of the ellipsoid along it *)
Theorem law_projection cfg n k (B : 'M[R]_(n, k)) h a es : eigvalsh_ok la -> objs h (data a) es -> all_dim n es ->
  (0 < size es)%N -> (0 < k <= n)%N -> orthocols B ->
  exists h' b es', [/\ get_projection la cfg a (mat B) h = (h', Ok b), objs h' (data b) es', preserved h h' &
    List.Forall2 (fun e e' => forall l : 'cV[R]_k, exists s q q', rho_is e' l s q /\ rho_is e (B *m l) s q') es es'].
Proof.
move=> Hla Ho Hd s0 /andP[k0 kn] HB; have [t _ [Ht t0]] := tol_run [::] s0 Hd.
have dots i j : dotv (col i B) (col j B) = (i == j)%:R by rewrite -dot_cols HB mxE.
have nz : nonzero_cols B.
  by move=> j; apply/eqP => E; have := dots j j; rewrite E MatLib.dotv0l eqxx => /eqP; rewrite eq_sym oner_eq0.
have Ha : acute_below t B by move=> i j ij; rewrite dots (negbTE ij) ltW.
have [h' [b [es' [E1 _ E2 E3 E4]]]] := get_projection_run cfg Hla Ho Hd Ht kn nz Ha.
exists h', b, es'; split=> //; rewrite (orthonormal_unit HB) in E3.
elim: E3 Hd => [|e e' es1 es1' [_ H] _ IH] Hd; first by constructor.
have {Hd} [[c [Q [t1 Hr]]] Hd] : (exists (c : 'cV[R]_n) Q t, repr e c Q t) /\ all_dim n es1 by inversion Hd.
constructor=> [l|]; last exact: IH.
have [c' [Q' [Hr' _ HS]]] := H _ _ _ Hr.
have [q [R1 _ _]] := rho_one l k0 Hr'; have [q' [R2 _ _]] := rho_one (B *m l) (leq_trans k0 kn) Hr.
have [_ [HQ Hq _]] := Hr; have [_ [HQ' Hq' _]] := Hr'.
exists (dotv l c' + Num.sqrt (qf Q' l)), q, q'; split=> //.
by rewrite (max_over_uniq ((HS _ _).1 (ell_support c' l HQ' Hq')) (ell_support c (B *m l) HQ Hq)).
Qed.
End Law.
