(** Proofs about projection and get_projection of Model/EllHeap.v. *)
Require Import Coq.Lists.List.
From mathcomp Require Import all_ssreflect all_algebra.
Require Import Coq.Strings.String.
From Verif.Model Require Import Py NP NP3 Linalg La Core EllGeom Ellipsoid EllHeap.
From Verif.Spec Require Import MatSpec LinalgSpec EllSpec EllipsoidSpec EllHeapSpec.
From Verif.Proof Require Import NPLib NP3Lib MatLib LaBasic EllLib EllGeomProof EllipsoidProof EllScalProof EllHeapProof.
Set Implicit Arguments.
Unset Strict Implicit.
Unset Printing Implicit Defensive.
Import Order.Theory GRing.Theory Num.Theory.
Local Open Scope ring_scope.

Section Geom.
Variable R : rcfType.

Lemma proj_symm n k (B : 'M[R]_(n, k)) (Q : 'M[R]_n) : symm Q -> symm (B^T *m Q *m B).
Proof. by rewrite /symm => HQ; rewrite !trmx_mul trmxK HQ mulmxA. Qed.
Lemma qf_proj n k (B : 'M[R]_(n, k)) (Q : 'M[R]_n) l : qf (B^T *m Q *m B) l = qf Q (B *m l).
Proof. by rewrite /qf -!mulmxA dotv_mulr trmxK. Qed.
Lemma proj_psd n k (B : 'M[R]_(n, k)) (Q : 'M[R]_n) : psd Q -> psd (B^T *m Q *m B).
Proof. by move=> Hq l; rewrite qf_proj. Qed.

Lemma proj_support n k (B : 'M[R]_(n, k)) c (Q : 'M[R]_n) l s : symm Q -> psd Q ->
  max_over (in_ell (B^T *m c) (B^T *m Q *m B)) l s <-> max_over (in_ell c Q) (B *m l) s.
Proof.
move=> HQ Hq; have H1 := ell_support (B^T *m c) l (proj_symm B HQ) (proj_psd B Hq).
have H2 := ell_support c (B *m l) HQ Hq.
have E : dotv l (B^T *m c) + Num.sqrt (qf (B^T *m Q *m B) l) = dotv (B *m l) c + Num.sqrt (qf Q (B *m l)).
  by rewrite qf_proj dotv_mulr trmxK.
rewrite E in H1; split=> H; first by rewrite (max_over_uniq H H1).
by rewrite (max_over_uniq H H2).
Qed.

Lemma proj_image n k (B : 'M[R]_(n, k)) c (Q : 'M[R]_n) y : symm Q -> psd Q ->
  in_ell (B^T *m c) (B^T *m Q *m B) y <-> exists2 x, in_ell c Q x & y = B^T *m x.
Proof.
move=> HQ Hq; rewrite (in_ellP_range _ _ (proj_symm B HQ) (proj_psd B Hq)); split=> [[u -> Hu]|[x Hx ->]].
  exists (c + Q *m (B *m u)); last by rewrite mulmxDr !mulmxA.
  by apply/in_ellP_range => //; exists (B *m u) => //; rewrite -qf_proj.
apply: (in_ellP_range _ _ (proj_symm B HQ) (proj_psd B Hq)).1.
apply: (in_ellP_dual _ _ (proj_symm B HQ) (proj_psd B Hq)).2 => l.
by have := ell_support_ub (B *m l) Hx; rewrite qf_proj !dotv_mulr trmxK.
Qed.

End Geom.

Section Proj.
Variable R : rcfType.
Variable la : linalg R.
Variable cfg : props R.
Implicit Types h : seq (ell R).

(** the largest tolerance *)
Lemma tol_run n (es : seq (ell R)) s : (0 < size es)%N -> all_dim n es ->
  exists2 t, get_abs_tol_by (@np_max R) (Arr s es) = Ok (Fin t) & greatest_tol es t /\ 0 < t.
Proof.
move=> e0 Hd; have [ts Et Hpos] : exists2 ts, map (@e_abs R) es = [seq Fin x | x <- ts] & all (fun x => 0 < x) ts.
  elim: Hd => [|e l [c [Q [t [[_ _ Et t0] _]]]] _ [ts E Hp]]; first by exists [::].
  by exists (t :: ts); rewrite /= ?t0 // E /e_abs Et.
rewrite /get_abs_tol_by /=; case: es e0 Hd Et => [|e es] //= _ Hd; case: ts Hpos => // u ts Hpos [Eu Et].
have [H1 H2] := foldl_max_spec u ts; set m := foldl _ u ts in H1 H2.
exists m; first by rewrite /np_max /= Eu Et foldl_max.
have Hin e' v : List.In e' (e :: es) -> p_abs (e_props e') = Fin v -> v \in u :: ts.
  case=> [<-|]; first by rewrite -/(e_abs e) Eu => -[->]; rewrite mem_head.
  move=> He Ev; rewrite inE; apply/orP; right.
  have : List.In (Fin v) (map (@e_abs R) es) by rewrite -Ev; apply: (List.in_map (@e_abs R)).
  by rewrite Et => /(List.in_map_iff (@Fin R) ts (Fin v)).1 [w [[<-] /in_mem]].
split; last by have /allP := Hpos; apply.
split; last by move=> e' v He Ev; apply: H2; apply: Hin He Ev.
have : List.In (Fin m) (map (@e_abs R) (e :: es)).
  have -> : map (@e_abs R) (e :: es) = map (@Fin R) (u :: ts) by rewrite /= Eu Et.
  exact: (List.in_map (@Fin R) (u :: ts) m (mem_in H1)).
by move/(List.in_map_iff (@e_abs R) (e :: es) (Fin m)).1 => [e' [E He]]; exists e'.
Qed.

Lemma greatest_uniq (es : seq (ell R)) t u : greatest_tol es t -> greatest_tol es u -> t = u.
Proof.
move=> [[e He Et] Ht] [[e' He' Eu] Hu]; apply/eqP; rewrite eq_le (Hu _ _ He Et); exact: Ht He' Eu.
Qed.

Lemma all_dim_dims n (es : seq (ell R)) : all_dim n es -> all (fun d => d == n) (map (fun e => np_size (e_center e)) es).
Proof.
by elim=> //= e l [c [Q [t Hr]]] _ ->; rewrite (repr_dim Hr) eqxx.
Qed.

Lemma dot_cols n k (B : 'M[R]_(n, k)) i j : (B^T *m B) i j = dotv (col i B) (col j B).
Proof. by rewrite dot_col. Qed.

Lemma ort_basisE n k (B : 'M[R]_(n, k)) es : ort_basis es (mat B) =
  let dims := map (fun e => np_size (e_center e)) es in
  if ~~ ((k <= n)%N && all (fun d => d == n) dims) then throw "wrongInput" else
  let* sc := np_matmul (np_T (mat B)) (mat B) in
  let* nsq := np_diag sc in
  let* tol := get_abs_tol_by (@np_max R) (Arr [:: size es] es) in
  let* dg := np_diag nsq in
  let* off := np_sub sc dg in
  if np_any (np_map (fun x => xgt x tol) off) then throw "wrongInput" else
  np_div (mat B) (np_tile_rows (np_sqrt nsq) n).
Proof. by []. Qed.

Lemma ort_basis_run n k (B : 'M[R]_(n, k)) es t : (0 < size es)%N -> all_dim n es -> greatest_tol es t -> (k <= n)%N ->
  (acute_below t B -> nonzero_cols B -> ort_basis es (mat B) = Ok (mat (unit_cols B))) /\
  (~ acute_below t B -> ort_basis es (mat B) = throw "wrongInput").
Proof.
move=> e0 Hd Ht kn; rewrite ort_basisE /= kn (all_dim_dims Hd) -[~~ (true && true)]/false.
rewrite np_T_mat np_matmul_mm rbind_okE np_diag_mat rbind_okE.
have [t' -> [Ht' t0]] := tol_run [:: size es] e0 Hd; rewrite rbind_okE -(greatest_uniq Ht Ht') {t' Ht'} in t0 *.
rewrite np_diag_vec rbind_okE np_sub_mat rbind_okE; set D := _ - _.
have ED i j : D i j = if i == j then 0 else dotv (col i B) (col j B).
  have -> : D i j = (B^T *m B) i j - (B^T *m B) i i *+ (i == j) by rewrite /D; move: (B^T *m B) => M; rewrite !mxE.
  by case: eqVneq => [->|_]; rewrite ?subrr // mulr0n subr0 dot_cols.
have Ha : np_any (np_map (fun x => xgt x (Fin t)) (mat D)) = ~~ all (fun x => ~~ xgt x (Fin t)) (data (mat D)).
  by rewrite /np_any -has_predC /= has_map; apply: eq_has => x /=; rewrite negbK.
have Hall : reflect (acute_below t B) (all (fun x => ~~ xgt x (Fin t)) (data (mat D))).
  apply: (iffP idP) => [/all_mkn H i j ij|H].
    by have := H _ (is_valid2 i j); rewrite /= mxgetE ED (negbTE ij) -leNgt.
  apply/all_mkn => idx /valid2[i [j ->]]; rewrite /= mxgetE ED -leNgt.
  by case: eqVneq => [_|ij]; [exact: ltW | exact: H].
rewrite Ha; split=> [/Hall -> nz|H]; last by case: Hall.
rewrite [~~ true]/=; set v := \col_i _.
have -> : np_sqrt (vec v) = vec (\col_i len (col i B)).
  apply: vec_map => i; rewrite [v i 0]mxE dot_cols mxE; exact: (xsqrtE (sqn_ge0 _)).
rewrite np_tile_rows_vec np_div_mat; congr Ok; apply: mkn_ext => idx /valid2[i [j ->]].
rewrite -[nth 0%N [:: val i; val j] 0]/(val i) -[nth 0%N [:: val i; val j] 1]/(val j) !mxgetE.
have -> : (\matrix_(_ < n, u < k) (\col_w len (col w B)) u 0) i j = len (col j B) by rewrite !mxE.
by rewrite xdivE ?len_eq0 // mxE.
Qed.

Lemma ort_basis_wide n k (B : 'M[R]_(n, k)) es : (n < k)%N -> ort_basis es (mat B) = throw "wrongInput".
Proof. by move=> nk; rewrite ort_basisE /= leqNgt nk. Qed.
Lemma ort_basis_dims n k (B : 'M[R]_(n, k)) es e : List.In e es -> np_size (e_center e) != n ->
  ort_basis es (mat B) = throw "wrongInput".
Proof.
move=> He ne; rewrite ort_basisE /=.
have -> : all (fun d => d == n) [seq np_size (e_center e) | e <- es] = false.
  apply/negbTE; rewrite -has_predC has_map; elim: es He => //= e' es IH [->|/IH ->]; by rewrite ?ne ?orbT.
by rewrite andbF.
Qed.

(** one object *)
Lemma set_shape_psd e n (c : 'cV[R]_n) Q t k (Q' : 'M[R]_k) : eigvalsh_ok la -> repr e c Q t -> symm Q' -> psd Q' ->
  set_shape la (e_abs e) (RealArr (mat Q')) = Ok (mat Q').
Proof.
move=> Hla Hr HQ Hq; have Hp := repr_props (e_props e) Hr; have [[_ _ Et t0] _] := Hr; rewrite /e_abs Et.
have [k0|k0] := posnP k; last by apply: (set_shape_run Hp Q' Hla k0).1; exact: near_psd_exact.
by rewrite (set_shapeE _ Hp) // size_mat {1}k0.
Qed.
Lemma set_center_vec e n (c : 'cV[R]_n) Q t k (c' : 'cV[R]_k) : repr e c Q t ->
  set_center (e_abs e) (RealArr (vec c')) = Ok (vec c').
Proof.
move=> Hr; have [[_ _ Et t0] _] := Hr; rewrite /e_abs Et /set_center try_real // !rbind_okE size_vec eqxx np_flatten_vec.
by rewrite [if ~~ true then _ else _]/= fin_data_vec.
Qed.

Definition proj_ell n k (B : 'M[R]_(n, k)) (c : 'cV[R]_n) (Q : 'M[R]_n) (e : ell R) : ell R :=
  Ell (vec (B^T *m c)) (mat (B^T *m Q *m B)) (e_props e).

Lemma set_nth_twice (T : Type) (s : seq T) r (x y : T) : (r < size s)%N ->
  set_nth y (set_nth x s r x) r y = set_nth y s r y.
Proof. by elim: s r => [|z s IH] [|r] //= H; congr cons; apply: IH. Qed.

Lemma projection1_run h r e n k (B : 'M[R]_(n, k)) (c : 'cV[R]_n) Q t : eigvalsh_ok la -> obj h r e -> repr e c Q t ->
  projection1 la (mat B) r h = (set_nth (proj_ell B c Q e) h r (proj_ell B c Q e), Ok tt).
Proof.
move=> Hla Ho Hr; have [[Ec Eq Et t0] [HQ Hq _]] := Hr.
rewrite /projection1 {1}/hbind (obj_read Ho) {1}/hbind {1}/hlift Eq np_T_mat np_matmul_mm rbind_okE np_matmul_mm.
have rl := obj_lt Ho.
have Es := set_shape_psd Hla Hr (proj_symm B HQ) (proj_psd B Hq).
rewrite {1}/hbind {1}/write_shape {1}/hbind (obj_read Ho) {1}/hbind {1}/hlift Es {1}/hwrite rl.
set e1 := Ell _ _ _; have O1 := @obj_written _ h r e1 rl.
rewrite {1}/hbind (obj_read O1) {1}/hbind {1}/hlift [e_center e1]/= Ec np_matmul_mv.
rewrite /write_center {1}/hbind (obj_read O1) {1}/hbind {1}/hlift.
have -> : e_abs e1 = e_abs e by [].
rewrite (set_center_vec _ Hr) /hwrite size_set_nth leq_max rl orbT.
by rewrite set_nth_twice.
Qed.
Lemma proj_ell_image n k (B : 'M[R]_(n, k)) (c : 'cV[R]_n) Q t e : repr e c Q t -> image_of B e (proj_ell B c Q e).
Proof.
move=> Hr; have [[Ec Eq Et t0] [HQ Hq He]] := Hr; split=> // c1 Q1 t1 Hr1.
have [[Ec1 Eq1 Et1 _] _] := Hr1.
have E1 : c1 = c by apply: vec_inj; rewrite -Ec1.
have E2 : Q1 = Q by apply: mat_inj; rewrite -Eq1.
have E3 : t1 = t by move: Et1; rewrite Et => -[].
subst; exists (B^T *m c), (B^T *m Q *m B); split.
- by split; split=> //; [exact: proj_symm | exact: proj_psd].
- by move=> y; apply: proj_image.
- by move=> l s; apply: proj_support.
Qed.

(** the loop over the objects *)
Lemma projection_loop n k (B : 'M[R]_(n, k)) rs : eigvalsh_ok la -> forall h es, objs h rs es -> all_dim n es -> uniq rs ->
  exists h' us es', [/\ hmapM (projection1 la (mat B)) rs h = (h', Ok us), objs h' rs es' & List.Forall2 (image_of B) es es'].
Proof.
move=> Hla; elim: rs => [|r rs IH] h es Ho Hd U.
  by exists h, [::], [::]; inversion Ho; split=> //; constructor.
inversion Ho as [|? e ? es1 Hr Hrs]; subst.
have [c [Q [t Hrep]]] := List.Forall_inv Hd; have E1 := projection1_run B Hla Hr Hrep.
set e' := proj_ell B c Q e in E1; set h1 := set_nth _ _ _ _ in E1.
move: U => /= /andP[Nr U].
have Hrs1 : objs h1 rs es1.
  elim: Hrs Nr {IH Hd U Ho} => [|q v l l' Hq _ IH'] => [|]; first by constructor.
  rewrite inE negb_or => /andP[rq Nr]; constructor; last exact: IH'.
  by apply: obj_write => //; rewrite eq_sym.
have [h' [us [es' [E2 O2 F2]]]] := IH _ _ Hrs1 (List.Forall_inv_tail Hd) U.
exists h', (tt :: us), (e' :: es'); split.
- by rewrite /= {1}/hbind E1 /hbind E2.
- constructor=> //; have : spares r (hmapM (projection1 la (mat B)) rs).
    by apply: spares_map => q /in_mem qr; apply: spares_projection1; apply: contraNneq Nr => ->.
  by move/(_ h1 e'); rewrite E2; apply; apply: obj_written; apply: obj_lt Hr.
- by constructor=> //; apply: proj_ell_image Hrep.
Qed.

Lemma projectionE a b h : (0 < size (data a))%N -> projection la a b h =
  hbind (hmapM (@hread (ell R)) (data a)) (fun es => hbind (hlift (ort_basis es b)) (fun ort =>
  hbind (hmapM (projection1 la ort) (data a)) (fun _ => hret a))) h.
Proof. by rewrite /projection; case: (data a). Qed.

Lemma projection_run n k (B : 'M[R]_(n, k)) h a es t : eigvalsh_ok la -> objs h (data a) es -> uniq (data a) ->
  all_dim n es -> greatest_tol es t -> (k <= n)%N -> nonzero_cols B -> acute_below t B ->
  exists h' es', [/\ projection la a (mat B) h = (h', Ok a), objs h' (data a) es',
    List.Forall2 (image_of (unit_cols B)) es es' & forall r v, r \notin data a -> obj h r v -> obj h' r v].
Proof.
move=> Hla Ho U Hd Ht kn nz Ha; have Es := objs_size Ho.
have e0 : (0 < size es)%N by case: (es) Ht => // -[[]].
have [h' [us [es' [E O F]]]] := projection_loop (unit_cols B) Hla Ho Hd U.
have EP : projection la a (mat B) h = (h', Ok a).
  rewrite projectionE ?Es //.
  rewrite {1}/hbind (hread_list Ho) {1}/hbind /hlift ((ort_basis_run B e0 Hd Ht kn).1 Ha nz).
  by rewrite /hbind E.
exists h', es'; split=> // r v Hr Hv; have := spares_projection la (mat B) Hr Hv; by rewrite EP.
Qed.

Lemma projection_rejects n k (B : 'M[R]_(n, k)) h a es t : objs h (data a) es -> all_dim n es ->
  greatest_tol es t -> (n < k)%N \/ ~ acute_below t B -> projection la a (mat B) h = (h, throw "wrongInput").
Proof.
move=> Ho Hd Ht H; have Es := objs_size Ho.
have e0 : (0 < size es)%N by case: (es) Ht => // -[[]].
rewrite projectionE ?Es //.
rewrite {1}/hbind (hread_list Ho) {1}/hbind /hlift.
have [nk|kn] := ltnP n k; first by rewrite ort_basis_wide.
case: H => [nk|H]; first by rewrite ltnNge kn in nk.
by rewrite ((ort_basis_run B e0 Hd Ht kn).2 H).
Qed.
Lemma projection_dims n k (B : 'M[R]_(n, k)) h a es e : objs h (data a) es -> List.In e es -> np_size (e_center e) != n ->
  projection la a (mat B) h = (h, throw "wrongInput").
Proof.
move=> Ho He ne; have Es := objs_size Ho; have e0 : (0 < size es)%N by case: (es) He.
rewrite projectionE ?Es //.
by rewrite {1}/hbind (hread_list Ho) {1}/hbind /hlift (ort_basis_dims _ He ne).
Qed.

Lemma all_dim_valid n es : all_dim n es -> List.Forall (@valid R) es.
Proof. by apply: List.Forall_impl => e [c [Q [t Hr]]]; exists n, c, Q, t. Qed.

Lemma get_projection_run n k (B : 'M[R]_(n, k)) h a es t : eigvalsh_ok la -> objs h (data a) es ->
  all_dim n es -> greatest_tol es t -> (k <= n)%N -> nonzero_cols B -> acute_below t B ->
  exists h' b es', [/\ get_projection la cfg a (mat B) h = (h', Ok b), fresh h (data b), objs h' (data b) es',
    List.Forall2 (image_of (unit_cols B)) es es' & preserved h h'].
Proof.
move=> Hla Ho Hd Ht kn nz Ha.
have [h1 [b [E1 P1 [U F1] O1 _]]] := ell_copy_run cfg Hla Ho (all_dim_valid Hd).
have [h2 [es' [E2 O2 F2 K2]]] := projection_run Hla O1 U Hd Ht kn nz Ha.
exists h2, b, es'; split=> //; first by rewrite /get_projection /hbind E1.
move=> r v Hv; apply: K2; last exact: P1.
by apply/negP => /F1; rewrite leqNgt (obj_lt Hv).
Qed.

Lemma get_projection_keeps a b h : preserved h (get_projection la cfg a b h).1.
Proof. by move=> r v; apply: spares_get_projection. Qed.

(** with orthogonal columns, the scaled basis is orthonormal *)
Lemma unit_ortho n k (B : 'M[R]_(n, k)) : nonzero_cols B -> ortho_cols B -> orthocols (unit_cols B).
Proof.
move=> nz Ho; apply/matrixP => i j; rewrite -[LHS]/(((unit_cols B)^T *m unit_cols B) i j) dot_cols [RHS]mxE.
have E l : col l (unit_cols B) = (len (col l B))^-1 *: col l B.
  by apply/matrixP => u v; rewrite !mxE mulrC.
rewrite !E dotvZl dotvZr; case: eqVneq => [->|ij]; last by rewrite Ho // !mulr0.
have lj : len (col j B) != 0 by rewrite len_eq0.
by rewrite -/(sqn _) -len_sq expr2 mulKf // mulVf.
Qed.
Lemma orthonormal_unit n k (B : 'M[R]_(n, k)) : orthocols B -> unit_cols B = B.
Proof.
move=> HB; apply/matrixP => i j; rewrite mxE /len /sqn -dot_cols HB mxE eqxx sqrtr1 divr1 //.
Qed.

End Proj.
