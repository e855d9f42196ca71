(** Proofs about the boundary points of an ellipsoid. *)
From mathcomp Require Import all_ssreflect all_algebra.
Require Import Coq.Strings.String.
From Verif.Model Require Import Py NP Linalg La EllGeom Ellipsoid Tri Sphere Sup Boundary.
From Verif.Spec Require Import MatSpec LinalgSpec EllSpec EllipsoidSpec TriSpec SphereSpec BoundarySpec.
From Verif.Proof Require Import NPLib MatLib LaBasic EllLib EllGeomProof SphereProof Icosa SphereExt.
Set Implicit Arguments.
Unset Strict Implicit.
Unset Printing Implicit Defensive.
Import Order.Theory GRing.Theory Num.Theory.
Local Open Scope ring_scope.

Section BoundaryProof.
Variables (R : rcfType) (la : linalg R) (tr : trig R) (argsort : seq nat -> seq nat) (fuel : nat).
Notation eps := (Sphere.eps R).

(** a matrix without negative eigenvalues has its exact root, whatever the tolerance *)
Lemma sqrtm_pos_tol n (M : 'M[R]_n) t : eigh_ok la -> (0 < n)%N -> 0 <= t -> symm M -> psd M ->
  exists S : 'M_n, [/\ sqrtm_pos la (mat M) (Fin t) = Ok (mat S), symm S, psd S & S *m S = M].
Proof.
move=> Hla n0 t0 HM Hp; rewrite /sqrtm_pos /= ltNge t0 /=.
have [b Hb Hbs] := is_mat_symm_mat M t0.
have -> : is_mat_symm (mat M) (Fin t) = Ok true.
  by rewrite Hb; congr Ok; apply/Hbs => i j; rewrite -{1}HM mxE subrr normr0.
have [d [V [-> HE _]]] := Hla n M n0; rewrite lowsym_symm // in HE; have [HV EM] := HE.
have Hd i : 0 <= d i 0 by move/(eig_psd HE): Hp.
rewrite rbind_okE rbind_okE.
have -> : has (fun x => xlt x (Fin (- t))) (data (vec d)) = false.
  rewrite data_vals has_map; apply/negbTE; rewrite -all_predC.
  by apply/allP => x /mem_vals[i ->] /=; rewrite -leNgt (le_trans _ (Hd i)) // oppr_le0.
have -> : np_sqrt (np_map (fun x => if xlt x x0 then x0 else x) (vec d)) =
    vec (\col_i Num.sqrt (d i 0)).
  rewrite (vec_map (w := \col_i d i 0)); last by move=> i; rewrite mxE /= ltNge Hd.
  by apply: vec_map => i; rewrite !mxE xsqrtE.
rewrite np_diag_vec rbind_okE np_T_mat matmul3 -/(diagv _).
set r := \col_i _; exists (V *m diagv r *m V^T).
have HE' : eigdec (V *m diagv r *m V^T) r V by [].
split=> //.
- exact: eig_symm HE'.
- by apply/(eig_psd HE') => i; rewrite mxE sqrtr_ge0.
rewrite EM -!mulmxA (mulmxA V^T) HV mul1mx (mulmxA (diagv r)) mul_diagv2.
congr (_ *m (_ *m _)); apply/matrixP => i j; rewrite !mxE; case: eqP => [->|_]; rewrite ?mulr1n ?mulr0n //.
by rewrite -expr2 sqr_sqrtr.
Qed.

Lemma sum_sqn d (w : 'rV[R]_d) : sqn w^T = \sum_j w 0 j ^+ 2.
Proof. by apply: eq_bigr => j _; rewrite mxE expr2. Qed.

(** the level of c + S w is the squared length of w *)
Lemma level_root d (c : 'cV[R]_d) (Q S : 'M[R]_d) (w : 'rV[R]_d) : posdef Q -> symm S -> S *m S = Q ->
  level c Q (c^T + w *m S) = \sum_j w 0 j ^+ 2.
Proof.
move=> Hp HS E; have uQ := posdef_unit Hp.
have uS : S \in unitmx by move: uQ; rewrite -E unitmx_mul andbb.
rewrite /level -sum_sqn linearD /= trmxK [c + _]addrC addrK trmx_mul HS /qf -E.
have -> : invmx (S *m S) *m (S *m w^T) = invmx S *m w^T.
  by rewrite -[X in _ *m (S *m X)](mulKVmx uS w^T) (mulmxA S S) mulKmx // unitmx_mul uS.
by rewrite dotvC dotv_mulr HS mulKVmx.
Qed.

Lemma on_dirs_ok d (e : ell R) (c : 'cV[R]_d) Q t (v : seq 'rV[R]_d) : eigh_ok la -> (0 < d)%N -> repr e c Q t ->
  exists S : 'M[R]_d, [/\ symm S, psd S, S *m S = Q &
    on_dirs la e v = Ok (mat (\matrix_(i < size v) (c^T + nth 0 v i *m S)))].
Proof.
move=> Hla d0 [[Ec Eq Et t0] [HQ Hp _]].
have [S [ES HS HP E]] := sqrtm_pos_tol Hla d0 (ltW t0) HQ Hp; exists S; split=> //.
rewrite /on_dirs /e_abs Ec Eq Et ES rbind_okE np_matmul_mm rbind_okE np_tile_rows_vec np_add_mat; congr (Ok (mat _)).
apply/row_matrixP => i; rewrite linearD /= row_mul !rowK addrC; congr (_ + _).
by apply/rowP => j; rewrite !mxE.
Qed.

(** the directions, patched, and what get_boundary makes of them *)
Lemma level_patched d (c : 'cV[R]_d) (Q S : 'M[R]_d) (x w : 'rV[R]_d) : posdef Q -> symm S -> S *m S = Q ->
  unit_vec x -> patched eps x w -> 1 <= level c Q (c^T + w *m S) <= 1 + d%:R * eps ^+ 2.
Proof. by move=> Hp HS E Hx Hw; rewrite level_root //; exact: patched_norm Hx Hw. Qed.

Lemma size_center d (e : ell R) (c : 'cV[R]_d) Q t : repr e c Q t -> np_size (e_center e) = d.
Proof. by case=> [[-> _ _ _] _]; rewrite /np_size /= muln1. Qed.

Lemma pick_2 (e : ell R) (c : 'cV[R]_2) Q t n : repr e c Q t -> pick_points e (Some n) = Ok (2%N, n).
Proof. by move=> He; rewrite /pick_points (size_center He). Qed.
Lemma pick_3 (e : ell R) (c : 'cV[R]_3) Q t n : repr e c Q t -> pick_points e (Some n) = Ok (3%N, n).
Proof. by move=> He; rewrite /pick_points (size_center He). Qed.

Theorem boundary_2 (e : ell R) (c : 'cV[R]_2) Q t n rg : eigh_ok la -> repr e c Q t -> posdef Q ->
  (0 < n)%N -> angle_ok tr (2%:R * t_pi tr / n%:R) n ->
  exists (B : 'M[R]_(n, 2)) es, [/\
    get_boundary la tr argsort fuel e (Some (IInt n%:Z)) rg = Some (Ok (mat B, if rg then Some (Edges es) else None)),
    one_cycle n es & forall i, 1 <= level c Q (row i B) <= 1 + 2%:R * eps ^+ 2].
Proof.
move=> Hla He Hp n0 Hg; have [vs [Ev [Sv _] Uv _ _]] := circle_full n0 Hg.
have [ws [Ew Sw Pw]] := ext_circle argsort fuel rg n0 Ev.
have [S [HS PS ES Eo]] := on_dirs_ok ws Hla (isT : (0 < 2)%N) He.
have {Sw} Sw : size ws = n by rewrite Sw.
exists (\matrix_(i < n) (c^T + nth 0 ws i *m S)), (ring_edges n); split; last first.
- move=> i; rewrite rowK; apply: (@level_patched _ c Q S (nth 0 vs i)) => //.
    by apply: Uv; rewrite mem_nth // Sv.
  by apply: Pw; rewrite Sv.
- exact: ring_cycle.
rewrite /get_boundary (pick_2 _ He) Ew /fbind.
by case: rg Ew => Ew /=; rewrite Eo /= -Sw.
Qed.

(** the first point of the plane grid always misses the boundary *)
Theorem boundary_2_first (e : ell R) (c : 'cV[R]_2) Q t n rg : eigh_ok la -> repr e c Q t -> posdef Q ->
  (0 < n)%N -> angle_ok tr (2%:R * t_pi tr / n%:R) n ->
  forall (B : 'M[R]_(n, 2)) g i, get_boundary la tr argsort fuel e (Some (IInt n%:Z)) rg = Some (Ok (mat B, g)) ->
  val i = 0%N -> level c Q (row i B) = 1 + eps ^+ 2.
Proof.
move=> Hla He Hp n0 Hg B g i EB i0; have [vs [Ev [Sv _] Uv V0 _]] := circle_full n0 Hg.
have [ws [Ew Sw Pw]] := ext_circle argsort fuel rg n0 Ev.
have [S [HS PS ES Eo]] := on_dirs_ok ws Hla (isT : (0 < 2)%N) He.
have {Sw} Sw : size ws = n by rewrite Sw.
have {EB} EB : mat B = mat (\matrix_(i < size ws) (c^T + nth 0 ws i *m S)).
  move: EB; rewrite /get_boundary (pick_2 _ He) Ew /fbind.
  by case: rg Ew => _; rewrite Eo rbind_okE => /Some_inj/Ok_inj/(congr1 fst).
have {EB} -> : row i B = c^T + nth 0 ws i *m S.
  move: (EB); case: _ / Sw B i i0 EB => B i i0 EB EB'.
  have -> : B = \matrix_(i < size ws) (c^T + nth 0 ws i *m S) by exact: mat_inj EB.
  by rewrite rowK.
rewrite level_root // i0; have := Pw 0%N; rewrite Sv V0 => /(_ n0) P0.
rewrite !big_ord_recl big_ord0 addr0.
have -> : nth 0 ws 0 0 ord0 = 1.
  by case: (P0 ord0) => -[-> ]; rewrite mxE //= => /eqP; rewrite oner_eq0.
have -> : nth 0 ws 0 0 (lift ord0 ord0) = eps.
  by case: (P0 (lift ord0 ord0)) => -[-> ]; rewrite mxE //= eqxx.
by rewrite expr1n.
Qed.

Lemma depth_size n d : least_depth n d -> (n <= sphere_size d)%N. Proof. by case. Qed.

Lemma ext_mesh n rf : angle_ok tr (t_pi tr / 5%:R) 10 -> argsortn_ok argsort -> (0 < n)%N -> (n <= fuel)%N ->
  exists d vs fs, [/\ least_depth n d, sphere_mesh d vs fs &
    sphere_tri_ext tr argsort fuel 3%:Z (IInt n%:Z) rf = Some (Ok (Grid3 [seq no_zeros x | x <- vs] fs))].
Proof.
move=> Hg Ha n0 nf; have [d Ed [/andP[d0 df] dn dl]] := calc_depth_ok nf (leq_trans n0 nf).
have [vs [fs [Es Hm]]] := sphere_tri_ok Hg Ha df; exists d, vs, fs; split=> //.
by rewrite /sphere_tri_ext n0 Ed Es.
Qed.

Theorem boundary_3 (e : ell R) (c : 'cV[R]_3) Q t n : eigh_ok la -> repr e c Q t -> posdef Q ->
  angle_ok tr (t_pi tr / 5%:R) 10 -> argsortn_ok argsort -> (0 < n)%N -> (n <= fuel)%N ->
  exists d (B : 'M[R]_(sphere_size d, 3)) (vs : seq 'rV[R]_3) fs, [/\ least_depth n d, sphere_mesh d vs fs,
    get_boundary la tr argsort fuel e (Some (IInt n%:Z)) true = Some (Ok (mat B, Some (Faces fs))) &
    forall i, 1 <= level c Q (row i B) <= 1 + 3%:R * eps ^+ 2].
Proof.
move=> Hla He Hp Hg Ha n0 nf; have [d [vs [fs [dn Hm Ex]]]] := ext_mesh true Hg Ha n0 nf.
have [S [HS PS ES Eo]] := on_dirs_ok [seq no_zeros x | x <- vs] Hla (isT : (0 < 3)%N) He.
have [[Sv _ _] _ _ Uv _] := Hm.
exists d, (\matrix_(i < sphere_size d) (c^T + nth 0 [seq no_zeros x | x <- vs] i *m S)), vs, fs; split=> //.
  rewrite /get_boundary (pick_3 _ He) Ex.
  by rewrite /fbind Eo rbind_okE; congr (Some (Ok (_, _))); rewrite size_map Sv.
move=> i; rewrite rowK (nth_map 0) ?Sv //; apply: level_patched => //; last exact: no_zerosP.
by apply: Uv; rewrite mem_nth // Sv.
Qed.

(** without the grid there are no points in space *)
Theorem boundary_3_fails (e : ell R) (c : 'cV[R]_3) Q t n : eigh_ok la -> repr e c Q t ->
  angle_ok tr (t_pi tr / 5%:R) 10 -> argsortn_ok argsort -> (0 < n)%N -> (n <= fuel)%N ->
  get_boundary la tr argsort fuel e (Some (IInt n%:Z)) false = Some ValueError.
Proof.
move=> Hla He Hg Ha n0 nf; have [d [vs [fs [dn Hm Ex]]]] := ext_mesh false Hg Ha n0 nf.
rewrite /get_boundary (pick_3 _ He) Ex /fbind.
have [[Ec Eq Et t0] [HQ Hp _]] := He.
by have [S [ES _ _ _]] := sqrtm_pos_tol Hla (isT : (0 < 3)%N) (ltW t0) HQ Hp; rewrite /e_abs Eq Et ES.
Qed.

(** ------------------------------------------------------------ points from the support function *)
Definition bp_rows m d (c : 'cV[R]_d) (Q : 'M[R]_d) (L : 'M[R]_(m, d)) : 'M[R]_(m, d) :=
  \matrix_(i < m) (c + (Num.sqrt (qf Q (row i L)^T))^-1 *: (Q *m (row i L)^T))^T.
Definition sup_col m d (c : 'cV[R]_d) (Q : 'M[R]_d) (L : 'M[R]_(m, d)) : 'cV[R]_m :=
  \col_i (dotv (row i L)^T c + Num.sqrt (qf Q (row i L)^T)).

Lemma bp_rows_ok m d (c : 'cV[R]_d) Q (L : 'M[R]_(m, d)) : symm Q -> psd Q -> supports c Q (bp_rows c Q L) L (sup_col c Q L).
Proof.
move=> HQ Hp i; rewrite rowK trmxK [sup_col _ _ _ _ _]mxE.
by split; [exact: ell_support | exact: ell_bp_in | exact: ell_bp_dot].
Qed.

Lemma bp_rows_level m d (c : 'cV[R]_d) Q (L : 'M[R]_(m, d)) i : symm Q -> posdef Q -> row i L != 0 ->
  level c Q (row i (bp_rows c Q L)) = 1.
Proof.
move=> HQ Hp Hi; have Hl : (row i L)^T != 0 by rewrite trmx_eq0.
rewrite /level rowK trmxK addrC addKr scalemxAr qf_inv ?posdef_unit //.
rewrite /qf -scalemxAr dotvZl dotvZr -/(qf _ _) mulrA -expr2 exprVn sqr_sqrtr ?mulVf //; last exact/ltW/Hp.
by rewrite gt_eqF ?Hp.
Qed.

Lemma rho_dirs_ok d (e : ell R) (c : 'cV[R]_d) Q t (v : seq 'rV[R]_d) m : (0 < d)%N -> repr e c Q t -> (0 < size v)%N ->
  let L := \matrix_(i < size (rcons v (head 0 v))) nth 0 (rcons v (head 0 v)) i in
  rho_dirs e v m = Ok (mat (bp_rows c Q L), m, mat (sup_col c Q L), mat L).
Proof.
move=> d0 [[Ec Eq Et t0] [HQ Hp _]]; case: v => // x v _ L.
rewrite /rho_dirs /e_abs Ec Eq Et /rows_arr -/L np_T_mat np_expand1_vec.
rewrite (rho_mat_closed _ d0 HQ Hp (ltW t0) (or_introl (erefl _))) rbind_okE !np_T_mat.
have cr i : col i L^T = (row i L)^T by rewrite tr_row.
congr (Ok (_, _, _, _)); congr mat; first apply/row_matrixP => i.
  by rewrite rowK; apply/rowP => j; rewrite !mxE -?cr; congr (_ + _); rewrite ?mxE.
by apply/colP => i; rewrite !mxE cr.
Qed.

(** the points of the grid of directions, the first one repeated *)
Lemma rho_grid d (e : ell R) (c : 'cV[R]_d) Q t (v : seq 'rV[R]_d) m k : (0 < d)%N -> repr e c Q t -> size v = k -> (0 < k)%N ->
  (forall x, x \in v -> x != 0) ->
  exists (B L : 'M[R]_(k.+1, d)) (s : 'cV[R]_k.+1), [/\ rho_dirs e v m = Ok (mat B, m, mat s, mat L),
    supports c Q B L s, row ord_max B = row ord0 B, forall i, row i L != 0 & posdef Q -> forall i, level c Q (row i B) = 1].
Proof.
move=> d0 He Sv k0 Hv; have v0 : (0 < size v)%N by rewrite Sv.
have := rho_dirs_ok m d0 He v0; rewrite /= size_rcons => Er.
case: _ / Sv k0 => _; set L := \matrix_i _ in Er; exists (bp_rows c Q L), L, (sup_col c Q L).
have [[_ _ _ _] [HQ Hp _]] := He.
have HL i : row i L != 0.
  rewrite rowK; apply: Hv; have := ltn_ord i; rewrite ltnS leq_eqVlt nth_rcons => /orP[/eqP->|Hi].
    by rewrite ltnn eqxx -nth0 mem_nth.
  by rewrite Hi mem_nth.
split=> //; [exact: bp_rows_ok| |by move=> P i; apply: bp_rows_level].
have E : row ord_max L = row ord0 L.
  by rewrite !rowK !nth_rcons ltnn eqxx v0 nth0.
by rewrite ![row _ (bp_rows _ _ _)]rowK E.
Qed.

Lemma patched_neq0 d (x w : 'rV[R]_d) : unit_vec x -> patched eps x w -> w != 0.
Proof.
move=> Hx Hw; have /andP[H _] := patched_norm Hx Hw; apply/eqP => E; move: H; rewrite E big1 ?ler10 // => j _.
by rewrite mxE expr0n.
Qed.

Theorem rho_2 (e : ell R) (c : 'cV[R]_2) Q t n : repr e c Q t ->
  (0 < n)%N -> angle_ok tr (2%:R * t_pi tr / n%:R) n ->
  exists (B L : 'M[R]_(n.+1, 2)) (s : 'cV[R]_n.+1) es, [/\
    get_rho_boundary tr argsort fuel e (Some (IInt n%:Z)) = Some (Ok (mat B, Edges es, mat s, mat L)),
    one_cycle n es, supports c Q B L s, row ord_max B = row ord0 B /\ (forall i, row i L != 0) &
    posdef Q -> forall i, level c Q (row i B) = 1].
Proof.
move=> He n0 Hg; have [vs [Ev [Sv _] Uv _ _]] := circle_full n0 Hg.
have [ws [Ew Sw Pw]] := ext_circle argsort fuel true n0 Ev; rewrite Sv in Sw.
have Hw x : x \in ws -> x != 0.
  move=> /(nthP 0)[i]; rewrite Sw => Hi <-; apply: (@patched_neq0 _ (nth 0 vs i)); last by apply: Pw; rewrite Sv.
  by apply: Uv; rewrite mem_nth // Sv.
have [B [L [s [E H1 H2 H3 H4]]]] := rho_grid (Edges (ring_edges n)) (isT : (0 < 2)%N) He Sw n0 Hw.
exists B, L, s, (ring_edges n); split=> //; last exact: ring_cycle.
by rewrite /get_rho_boundary (pick_2 _ He) Ew /fbind E.
Qed.

Theorem rho_3 (e : ell R) (c : 'cV[R]_3) Q t n : repr e c Q t ->
  angle_ok tr (t_pi tr / 5%:R) 10 -> argsortn_ok argsort -> (0 < n)%N -> (n <= fuel)%N ->
  exists d (B L : 'M[R]_((sphere_size d).+1, 3)) (s : 'cV[R]_(sphere_size d).+1) (vs : seq 'rV[R]_3) fs, [/\
    least_depth n d /\ sphere_mesh d vs fs,
    get_rho_boundary tr argsort fuel e (Some (IInt n%:Z)) = Some (Ok (mat B, Faces fs, mat s, mat L)),
    supports c Q B L s, row ord_max B = row ord0 B /\ (forall i, row i L != 0) &
    posdef Q -> forall i, level c Q (row i B) = 1].
Proof.
move=> He Hg Ha n0 nf; have [d [vs [fs [dn Hm Ex]]]] := ext_mesh true Hg Ha n0 nf.
have [[Sv _ _] _ _ Uv _] := Hm.
have Hw x : x \in [seq no_zeros x | x <- vs] -> x != 0.
  by case/mapP=> y Hy ->; apply: (@patched_neq0 _ y); [exact: Uv | exact: no_zerosP].
have Sw : size [seq no_zeros x | x <- vs] = sphere_size d by rewrite size_map.
have [B [L [s [E H1 H2 H3 H4]]]] := rho_grid (Faces fs) (isT : (0 < 3)%N) He Sw (leq_trans n0 (depth_size dn)) Hw.
exists d, B, L, s, vs, fs; split=> //.
by rewrite /get_rho_boundary (pick_3 _ He) Ex /fbind E.
Qed.

(** ------------------------------------------------------------ the variants with a factor *)
Variable fl : R -> int.
Notation by_factor := (get_boundary_by_factor la tr argsort fuel fl).
Notation rho_by_factor := (get_rho_boundary_by_factor tr argsort fuel fl).

Lemma floor_nat (k : int) (x : R) : is_floor fl -> x = k%:~R -> fl x = k.
Proof.
move=> Hf ->; have := Hf k%:~R; rewrite ler_int ltr_int ltz_addr1 => H.
by apply/eqP; rewrite eq_le; case/andP: H => -> ->.
Qed.

Lemma factor_default d (e : ell R) (c : 'cV[R]_d) Q t rg : repr e c Q t ->
  by_factor e FNone rg = get_boundary la tr argsort fuel e None rg /\
  rho_by_factor e FNone = get_rho_boundary tr argsort fuel e None.
Proof.
move=> He; rewrite /get_boundary_by_factor /get_rho_boundary_by_factor (size_center He) /the_factor !rbind_okE.
have E1 n : scale_points fl n x1 = Ok n%:Z by rewrite /scale_points /= eqxx.
rewrite !E1.
rewrite /get_boundary /get_rho_boundary /pick_points (size_center He).
by case: d c Q He => [|[|[|[|d]]]].
Qed.

Lemma scale_real n (x : R) : is_floor fl -> scale_points fl n (Fin x) = Ok (fl (n%:R * x)).
Proof.
move=> Hf; rewrite /scale_points /=; case: eqP => // ->; rewrite mulr1; congr Ok.
by apply/esym/(floor_nat Hf); rewrite -pmulrn.
Qed.

Lemma dim_23 d : d \in [:: 2; 3]%N -> (d < 2)%N || (3 < d)%N = false.
Proof. by rewrite !inE => /orP[]/eqP->. Qed.

(** with the factor x the number of points is floor(n x), n the property for the dimension *)
Lemma factor_int d (e : ell R) (c : 'cV[R]_d) Q t k rg : is_floor fl -> repr e c Q t -> d \in [:: 2; 3]%N ->
  by_factor e (FInt k) rg = get_boundary la tr argsort fuel e (Some (IInt ((n_plot e d)%:Z * k))) rg /\
  rho_by_factor e (FInt k) = get_rho_boundary tr argsort fuel e (Some (IInt ((n_plot e d)%:Z * k))).
Proof.
move=> Hf He Hd; rewrite /get_boundary_by_factor /get_rho_boundary_by_factor (size_center He) (dim_23 Hd) /the_factor !rbind_okE.
have E n : scale_points fl n (Fin k%:~R) = Ok (n%:Z * k).
  by rewrite scale_real //; congr Ok; apply: floor_nat => //; rewrite intrM -pmulrn.
by rewrite !E /n_plot; move: Hd; rewrite !inE => /orP[]/eqP->.
Qed.

Lemma factor_vec d (e : ell R) (c : 'cV[R]_d) Q t x2 x3 rg : is_floor fl -> repr e c Q t -> d \in [:: 2; 3]%N ->
  let n := fl ((n_plot e d)%:R * (if d == 2%N then x2 else x3)) in
  by_factor e (FVec [:: Fin x2; Fin x3]) rg = get_boundary la tr argsort fuel e (Some (IInt n)) rg /\
  rho_by_factor e (FVec [:: Fin x2; Fin x3]) = get_rho_boundary tr argsort fuel e (Some (IInt n)).
Proof.
move=> Hf He Hd n; rewrite /get_boundary_by_factor /get_rho_boundary_by_factor (size_center He) (dim_23 Hd) /n /n_plot.
by move: Hd; rewrite !inE => /orP[]/eqP-> /=; rewrite scale_real.
Qed.

(** a float is not accepted, a list must have an entry for the dimension *)
Lemma factor_float d (e : ell R) (c : 'cV[R]_d) Q t x rg : repr e c Q t -> d \in [:: 2; 3]%N ->
  by_factor e (FReal x) rg = Some TypeError /\ rho_by_factor e (FReal x) = Some TypeError.
Proof.
by move=> He Hd; rewrite /get_boundary_by_factor /get_rho_boundary_by_factor (size_center He) (dim_23 Hd).
Qed.

Lemma factor_short (e : ell R) (c : 'cV[R]_3) Q t x rg : repr e c Q t ->
  by_factor e (FVec [:: x]) rg = Some IndexError /\ rho_by_factor e (FVec [:: x]) = Some IndexError.
Proof. by move=> He; rewrite /get_boundary_by_factor /get_rho_boundary_by_factor (size_center He). Qed.

(** other dimensions *)
Lemma bad_dim d (e : ell R) (c : 'cV[R]_d) Q t n f rg : repr e c Q t -> d \notin [:: 2; 3]%N ->
  [/\ get_boundary la tr argsort fuel e n rg = Some (throw "wrongDim"), by_factor e f rg = Some (throw "wrongDim"),
      get_rho_boundary tr argsort fuel e n = Some (throw "wrongDim") & rho_by_factor e FNone = Some (throw "wrongDim")].
Proof.
move=> He Hd.
have E : (d == 2%N) = false /\ (d == 3%N) = false by move: Hd; rewrite !inE negb_or => /andP[/negbTE-> /negbTE->].
have E2 : (d < 2)%N || (3 < d)%N by case: d c Q He Hd E => [|[|[|[|d]]]].
by rewrite /get_boundary /get_boundary_by_factor /get_rho_boundary /get_rho_boundary_by_factor /pick_points (size_center He) E.1 E.2 E2.
Qed.
End BoundaryProof.
