(** Proofs about Model/Ellipsoid.v: dimension, degeneracy, eigenvalues, trace, volume, uminus, dicts. *)
From mathcomp Require Import all_ssreflect all_algebra.
Require Import Coq.Strings.String.
From mathcomp.algebra_tactics Require Import ring.
From Verif.Model Require Import Py NP NP3 Linalg Compare La Core EllGeom Ellipsoid.
From Verif.Spec Require Import MatSpec LinalgSpec EllSpec EllipsoidSpec.
From Verif.Proof Require Import NPLib NP3Lib MatLib OrthLib LaBasic Decomp EllLib EllGeomProof RankLib EllipsoidProof.
Set Implicit Arguments.
Unset Strict Implicit.
Unset Printing Implicit Defensive.
Import Order.Theory GRing.Theory Num.Theory.
Local Open Scope ring_scope.

Section Scal.
Variable R : rcfType.
Variable la : linalg R.
Notation X := (xnum R).
Notation A := (arr X).

Lemma Forall_all T (P : T -> Prop) (s : seq T) (b : pred T) :
  List.Forall P s -> (forall x, P x -> b x) -> all b s.
Proof. by move=> H Hb; elim: H => //= x l Hx _ ->; rewrite Hb. Qed.

Lemma Forall2_size T U (P : T -> U -> Prop) s r : List.Forall2 P s r -> size s = size r.
Proof. by elim=> //= x y l l' _ _ ->. Qed.

Lemma repr_dim n e (c : 'cV[R]_n) Q t : repr e c Q t -> np_size (e_center e) = n.
Proof. by case=> [[-> _ _ _] _]; rewrite size_vec. Qed.

Lemma mapM_good T (P : forall n, 'cV[R]_n -> 'M[R]_n -> R -> T -> Prop) f es : List.Forall (@good R) es ->
  (forall e n (c : 'cV[R]_n) Q t, (0 < n)%N -> repr e c Q t -> exists2 y, f e = Ok y & P n c Q t y) ->
  exists2 ys, mapM f es = Ok ys & results P es ys.
Proof.
move=> H Hf; elim: H => [|e l He _ [ys Ey IH]]; first by exists [::] => //; constructor.
have [n [c [Q [t [n0 Hr]]]]] := He; have [y Efy _] := Hf e n c Q t n0 Hr.
exists (y :: ys); first by rewrite /= Efy /= Ey.
constructor=> // n' c' Q' t' Hr'.
have n0' : (0 < n')%N by rewrite -(repr_dim Hr') (repr_dim Hr).
by have [y' Ey' Hy'] := Hf e n' c' Q' t' n0' Hr'; move: Ey'; rewrite Efy => -[->].
Qed.

Lemma not_empty s es : List.Forall (@good R) es -> np_any (is_empty (Arr s es)) = false.
Proof.
move=> H; rewrite /np_any /= -map_comp has_map; apply/negbTE; rewrite -all_predC.
apply: (Forall_all H) => e [n [c [Q [t [n0 Hr]]]]] /=.
by rewrite (repr_dim Hr) -lt0n n0.
Qed.
Lemma with_empty (a : arr (ell R)) : has (fun e => np_size (e_center e) == 0%N) (data a) ->
  np_any (is_empty a) = true.
Proof. by move=> H; rewrite /np_any /= -map_comp has_map. Qed.

(** dimension *)
Lemma dimension_run s es : List.Forall (@good R) es ->
  exists2 ds, dimension (Arr s es) = Arr s ds & results (fun n _ _ _ d => d = n) es ds.
Proof.
move=> H; exists (map (fun e => np_size (e_center e)) es) => //.
elim: H => [|e l He _ IH]; constructor=> // n c Q t Hr; exact: repr_dim Hr.
Qed.

Lemma rank_full n (Q : 'M[R]_n) : (0 < n)%N -> symm Q -> psd Q -> wellcond Q -> svdvals_ok la ->
  matrix_rank la (mat Q) = Ok n.
Proof.
move=> n0 HQ Hq Hw Hla; have [U [s [V [r [Hs -> rk H]]]]] := matrix_rank_run Q Hla n0 n0.
have [HU HV _ Hd Hge] := Hs.
have [s' [Ev EM Hd' H0']] := svd_sq_dec Hs.
have eps0 : 0 <= n%:R * (2%:R ^+ 52)^-1 :> R by rewrite mulr_ge0 ?ler0n ?invr_ge0 ?exprn_ge0 ?ler0n.
(* the largest singular value is at most a value of the form *)
have lenQ v i : v = V^T *m delta_mx i 0 -> len (Q *m v) = s' i 0 /\ sqn v = 1.
  move=> ->; have [E1 E2] := svd_attained i HU HV EM; split=> //.
  by rewrite /len E1 sqrtr_sqr ger0_norm.
have up i : exists2 y, sqn y = 1 & s' i 0 <= qf Q y.
  pose v := V^T *m delta_mx i 0 : 'cV[R]_n; have [El E1] := lenQ v i erefl.
  have [z|nz] := eqVneq (s' i 0) 0; first by exists v => //; rewrite z; exact: Hq.
  have Qv0 : Q *m v != 0 by rewrite -len_eq0 El.
  pose u := unitv (Q *m v); have Eu : sqn u = 1 by rewrite sqn_unitv.
  have Hc := psd_cauchy u v HQ Hq.
  have Ed : dotv u (Q *m v) = s' i 0.
    by rewrite dotvZl -/(sqn _) -len_sq El expr2 mulKf.
  have [h|h] := leP (qf Q v) (qf Q u); last first.
    exists v => //; rewrite -(ler_pexpn2r (n := 2)) ?nnegrE ?Hq //.
    rewrite -Ed; apply: le_trans Hc _; rewrite expr2; apply: ler_wpmul2r; [exact: Hq|exact: ltW].
  exists u => //; rewrite -(ler_pexpn2r (n := 2)) ?nnegrE ?Hq //.
  rewrite -Ed; apply: le_trans Hc _; rewrite expr2; apply: ler_wpmul2l => //; exact: Hq.
have lo i y : sqn y = 1 -> n%:R * (2%:R ^+ 52)^-1 * qf Q y < s' i 0.
  move=> Ey; pose v := V^T *m delta_mx i 0 : 'cV[R]_n; have [El E1] := lenQ v i erefl.
  apply: lt_le_trans (Hw y v Ey E1) _; rewrite /qf; apply: le_trans (cauchy_len _ _) _.
  by rewrite El /len E1 sqrtr1 mul1r.
have Es i : exists j, s i 0 = s' j 0.
  have Ev' : vals s = vals s'.
    by apply: (inj_map (f := @Fin R)) => [x y [->]|] //; rewrite -!data_vals Ev.
  by apply/mem_vals; rewrite -Ev'; apply/mem_vals; exists i.
have gap i j : s j 0 * (n%:R * (2%:R ^+ 52)^-1) < s i 0.
  have [i' ->] := Es i; have [j' ->] := Es j; have [y Ey hy] := up j'.
  by apply: le_lt_trans (lo i' y Ey); rewrite mulrC ler_wpmul2l.
have Er : r = \rank Q by apply: H => i j _; rewrite maxnn.
have [r' Er' [rk' Hr']] := svdec_rank Hs; rewrite Er Er'; congr Ok; apply/eqP.
rewrite eqn_leq -{1}(minnn n) rk' /= leqNgt; apply/negP => ltr.
have ltm : (r' < minn n n)%N by rewrite minnn.
have := Hr' (Ordinal ltm); rewrite /= ltnn => /negbFE /eqP E0.
by have := gap (Ordinal ltm) (Ordinal ltm); rewrite E0 mul0r ltxx.
Qed.

Lemma dimension_rank_run s es : List.Forall (@good R) es -> svdvals_ok la -> (0 < size es)%N ->
  exists ds rs, [/\ dimension_rank la (Arr s es) = Ok (Arr s ds, Arr s rs),
    results (fun n _ _ _ d => d = n) es ds &
    results (fun n _ Q _ r => (r <= \rank Q)%N /\ (wellcond Q -> r = n)) es rs].
Proof.
move=> H Hla e0; rewrite /dimension_rank.
have [|ys Ey Hy] := mapM_good (P := fun n _ Q _ p => p.1 = n /\ (p.2 <= \rank Q)%N /\ (wellcond Q -> p.2 = n)) (f := fun e => let* r := matrix_rank la (e_shape e) in Ok (np_size (e_center e), r)) H.
  move=> e n c Q t n0 Hr; have [[E1 E2 _ _] [HQ Hq _]] := Hr.
  have [U [sv [V [r [Hs Er rk Hgap]]]]] := matrix_rank_run Q Hla n0 n0.
  exists (n, r); first by rewrite E2 Er rbind_okE (repr_dim Hr).
  split=> //; split=> // Hw; have := rank_full n0 HQ Hq Hw Hla; rewrite Er => -[//].
rewrite Ey rbind_okE.
have -> : (size ys == 0%N) = false.
  by rewrite -(Forall2_size Hy); case: (es) e0.
exists (map fst ys), (map snd ys); split=> //.
  by elim: {Ey e0 H} Hy => [|e y l l' Hey _ IH]; constructor=> // n c Q t /Hey[].
by elim: {Ey e0 H} Hy => [|e y l l' Hey _ IH]; constructor=> // n c Q t /Hey[].
Qed.

(** is_degenerate *)
Lemma pos_def_repr e n (c : 'cV[R]_n) Q t : eigvalsh_ok la -> (0 < n)%N -> repr e c Q t ->
  exists2 b, is_mat_pos_def la (e_shape e) (e_abs e) false = Ok b &
    (b <-> forall x, x != 0 -> t * sqn x < qf Q x).
Proof.
move=> Hla n0 [[E1 E2 E3 t0] [HQ Hq _]]; rewrite /e_abs E2 E3.
have [|b Eb Hb] := is_mat_pos_def_spec false Hla n0 (ltW t0) (M := Q).
  by move=> i j; rewrite -{1}HQ mxE subrr normr0 ltW.
by rewrite lowsym_symm // in Hb; exists b.
Qed.

Lemma is_degenerate_run s es : List.Forall (@good R) es -> eigvalsh_ok la ->
  exists2 bs, is_degenerate la (Arr s es) = Ok (Arr s bs) &
    results (fun n _ Q t b => b = false <-> forall x, x != 0 -> t * sqn x < qf Q x) es bs.
Proof.
move=> H Hla; rewrite /is_degenerate not_empty // [data _]/=.
case: eqP => [E|_]; first by exists [::] => //; case: es E {H} => // _; constructor.
have [ys Ey Hy] := mapM_good H (fun e n c Q t n0 Hr => pos_def_repr Hla n0 Hr).
rewrite /amapM Ey /=; eexists; first by [].
elim: {Ey H} Hy => [|e y l l' Hey _ IH]; constructor=> // n c Q t Hr.
by rewrite -(Hey n c Q t Hr); case: (y).
Qed.

Lemma degenerate1_run e n (c : 'cV[R]_n) Q t : eigvalsh_ok la -> (0 < n)%N -> repr e c Q t ->
  exists2 b, degenerate1 la e = Ok b & (b = false <-> forall x, x != 0 -> t * sqn x < qf Q x).
Proof.
move=> Hla n0 Hr; have Hg : List.Forall (@good R) [:: e] by constructor=> //; exists n, c, Q, t.
have [b Eb Hb] := pos_def_repr Hla n0 Hr; exists (~~ b); last by rewrite -Hb; case: (b).
by rewrite /degenerate1 /is_degenerate not_empty //= /amapM /= Eb.
Qed.

(** eigenvalues *)
Lemma np_min_fin m n (M : 'M[R]_(m, n)) : (0 < m)%N -> (0 < n)%N -> exists x, np_min (mat M) = Ok (Fin x).
Proof.
move=> m0 n0; have Hf := fin_data_mat M.
have : (0 < size (data (mat M)))%N by rewrite (eqP (wf_mat M)) /= muln1 muln_gt0 m0.
rewrite /np_min; case: (data (mat M)) Hf => // -[a| | |] // s /= Hs _.
have -> : s = [seq Fin x | x <- [seq (if x is Fin y then y else 0) | x <- s]].
  by elim: s Hs => //= -[y| | |] //= s IH /IH {1}->.
by rewrite foldl_min; eexists.
Qed.
Lemma np_max_fin m n (M : 'M[R]_(m, n)) : (0 < m)%N -> (0 < n)%N -> exists x, np_max (mat M) = Ok (Fin x).
Proof.
move=> m0 n0; have Hf := fin_data_mat M.
have : (0 < size (data (mat M)))%N by rewrite (eqP (wf_mat M)) /= muln1 muln_gt0 m0.
rewrite /np_max; case: (data (mat M)) Hf => // -[a| | |] // s /= Hs _.
have -> : s = [seq Fin x | x <- [seq (if x is Fin y then y else 0) | x <- s]].
  by elim: s Hs => //= -[y| | |] //= s IH /IH {1}->.
by rewrite foldl_max; eexists.
Qed.

Lemma min_eig_run s es : List.Forall (@good R) es -> eigvalsh_ok la ->
  exists2 ms, min_eig la (Arr s es) = Ok (Arr [:: size es] ms) &
    results (fun n _ Q _ m => exists2 r, m = Fin r & ray_min Q r) es ms.
Proof.
move=> H Hla; rewrite /min_eig not_empty //.
have [|ys Ey Hy] := mapM_good (P := fun n _ Q _ m => exists2 r, m = Fin r & ray_min Q r) (f := fun e =>
    let* m := np_min (e_shape e) in
    if is_pinf m then Ok PInf else if xis_nan m then Ok NaN else
    let* ev := la_eigvalsh la (e_shape e) in np_min ev) H.
  move=> e n c Q t n0 [[E1 E2 _ _] [HQ Hq _]]; rewrite E2.
  have [x ->] := np_min_fin Q n0 n0; rewrite rbind_okE /=.
  have [d [V [-> HE _]]] := Hla n Q n0; rewrite rbind_okE lowsym_symm // in HE *.
  have [i -> Hi] := np_min_vec d n0; eexists=> //; exists (d i 0) => //; split; first exact: eig_lower HE Hi.
  by exists (col i V); rewrite ?(eig_attained _ HE) ?(eig_sqn_col _ HE).
by rewrite Ey rbind_okE; exists ys => //; rewrite -(Forall2_size Hy).
Qed.
Lemma max_eig_run s es : List.Forall (@good R) es -> eigvalsh_ok la ->
  exists2 ms, max_eig la (Arr s es) = Ok (Arr [:: size es] ms) &
    results (fun n _ Q _ m => exists2 r, m = Fin r & ray_max Q r) es ms.
Proof.
move=> H Hla; rewrite /max_eig not_empty //.
have [|ys Ey Hy] := mapM_good (P := fun n _ Q _ m => exists2 r, m = Fin r & ray_max Q r) (f := fun e =>
    let* m := np_max (e_shape e) in
    if is_pinf m then Ok PInf else if xis_nan m then Ok NaN else
    let* ev := la_eigvalsh la (e_shape e) in np_max ev) H.
  move=> e n c Q t n0 [[E1 E2 _ _] [HQ Hq _]]; rewrite E2.
  have [x ->] := np_max_fin Q n0 n0; rewrite rbind_okE /=.
  have [d [V [-> HE _]]] := Hla n Q n0; rewrite rbind_okE lowsym_symm // in HE *.
  have [i -> Hi] := np_max_vec d n0; eexists=> //; exists (d i 0) => //; split; first exact: eig_upper HE Hi.
  by exists (col i V); rewrite ?(eig_attained _ HE) ?(eig_sqn_col _ HE).
by rewrite Ey rbind_okE; exists ys => //; rewrite -(Forall2_size Hy).
Qed.

Lemma trace_eig n (Q : 'M[R]_n) d V : eigdec Q d V -> \tr Q = \sum_i d i 0.
Proof.
case=> HV ->; rewrite mxtrace_mulC mulmxA HV mul1mx /mxtrace.
by apply: eq_bigr => i _; rewrite diagvE eqxx mulr1n.
Qed.

Lemma trace_run s es : List.Forall (@good R) es ->
  exists2 ms, trace (Arr s es) = Ok (Arr [:: size es] ms) &
    results (fun n _ Q _ m => exists2 r, m = Fin r & forall d V, eigdec Q d V -> r = \sum_i d i 0) es ms.
Proof.
move=> H; rewrite /trace not_empty //.
have [|ys Ey Hy] := mapM_good (P := fun n _ Q _ m => exists2 r, m = Fin r & forall d V, eigdec Q d V -> r = \sum_i d i 0) (f := fun e => np_trace (e_shape e)) H.
  move=> e n c Q t n0 [[E1 E2 _ _] [HQ Hq _]]; rewrite E2 np_trace_mat; eexists=> //.
  by exists (\tr Q) => // d V; exact: trace_eig.
by rewrite Ey rbind_okE; exists ys => //; rewrite -(Forall2_size Hy).
Qed.

Lemma empty_rejected (vf : volfun R) (a : arr (ell R)) : has (fun e => np_size (e_center e) == 0%N) (data a) ->
  [/\ is_degenerate la a = throw "wrongInput:emptyEllipsoid", volume la vf a = throw "wrongInput:emptyEllipsoid",
      min_eig la a = throw "wrongInput:emptyEllipsoid" , max_eig la a = throw "wrongInput:emptyEllipsoid" &
      trace a = throw "wrongInput:emptyEllipsoid"].
Proof. by move=> H; rewrite /is_degenerate /volume /min_eig /max_eig /trace (with_empty H). Qed.

(** volume *)
Lemma pi_powE (vf : volfun R) pi k : volfun_ok vf pi -> pi_pow vf (2 * k) = pi ^+ k.
Proof.
move=> [[p0 P0 P1 PS] _]; elim: k => [|k IH]; first by rewrite muln0 P0.
by rewrite mulnS addnC PS IH exprS.
Qed.

Lemma ball_vol_even (pi : R) k : ball_vol pi (2 * k) = pi ^+ k / (k`!)%:R.
Proof.
elim: k => [|k IH]; first by rewrite muln0 /= divr1.
have -> : (2 * k.+1 = (2 * k).+2)%N by rewrite mulnS.
have -> : ball_vol pi (2 * k).+2 = 2%:R * pi / ((2 * k).+2)%:R * ball_vol pi (2 * k) by [].
have -> : ((2 * k).+2)%:R = 2%:R * (k.+1)%:R :> R by rewrite -natrM mulnS.
have h1 : (k.+1)%:R != 0 :> R by rewrite pnatr_eq0.
have h2 : (k`!)%:R != 0 :> R by rewrite pnatr_eq0 -lt0n fact_gt0.
rewrite IH factS natrM exprS.
by move: (k.+1)%:R (k`!)%:R (pi ^+ k) h1 h2 => a b c h1 h2; field; rewrite h1 h2.
Qed.
Lemma ball_vol_odd (pi : R) k :
  ball_vol pi (2 * k + 1) = 2%:R ^+ (2 * k + 1) * pi ^+ k * (k`!)%:R / ((2 * k + 1)`!)%:R.
Proof.
elim: k => [|k IH]; first by rewrite muln0 /= expr1 expr0 fact0 !mulr1 divr1.
have -> : (2 * k.+1 + 1 = (2 * k + 1).+2)%N by rewrite mulnS.
have -> : ball_vol pi (2 * k + 1).+2 = 2%:R * pi / ((2 * k + 1).+2)%:R * ball_vol pi (2 * k + 1) by [].
rewrite IH !factS !natrM !exprS.
have -> : ((2 * k + 1).+1)%:R = 2%:R * (k.+1)%:R :> R by rewrite -natrM mulnS addn1.
have h1 : (k.+1)%:R != 0 :> R by rewrite pnatr_eq0.
have h2 : ((2 * k + 1)`!)%:R != 0 :> R by rewrite pnatr_eq0 -lt0n fact_gt0.
have h3 : ((2 * k + 1).+2)%:R != 0 :> R by rewrite pnatr_eq0.
move: (k.+1)%:R ((2 * k + 1)`!)%:R ((2 * k + 1).+2)%:R (2%:R ^+ (2 * k + 1)) (pi ^+ k) (k`!)%:R h1 h2 h3 => a b c d f g h1 h2 h3.
by field; rewrite h1 h2 h3.
Qed.

Lemma volume_run (vf : volfun R) pi s es : List.Forall (@good R) es -> eigvalsh_ok la -> det_ok la ->
  volfun_ok vf pi ->
  exists2 vs, volume la vf (Arr s es) = Ok vs &
    results (fun n _ Q t v =>
      ((forall x, x != 0 -> t * sqn x < qf Q x) -> v = VolNum (Fin (ball_vol pi n * Num.sqrt (\det Q)))) /\
      (~ (forall x, x != 0 -> t * sqn x < qf Q x) -> v = VolArr0 R)) es vs.
Proof.
move=> H Hla Hdet Hvf; rewrite /volume not_empty //.
have [|ys Ey Hy] := mapM_good (P := fun n _ Q t v =>
      ((forall x, x != 0 -> t * sqn x < qf Q x) -> v = VolNum (Fin (ball_vol pi n * Num.sqrt (\det Q)))) /\
      (~ (forall x, x != 0 -> t * sqn x < qf Q x) -> v = VolArr0 R)) (f := single_volume la vf) H; last by exists ys.
move=> e n c Q t n0 Hr; have [[E1 E2 _ t0] [HQ Hq _]] := Hr.
rewrite /single_volume; have [b -> Hb] := degenerate1_run Hla n0 Hr; rewrite rbind_okE.
case: b Hb => Hb; first by eexists=> //; split=> // /Hb.
rewrite (repr_dim Hr) E2 Hdet rbind_okE; eexists=> //.
have h : 0 <= \det Q by exact: psd_det.
split=> [_|]; last by case; apply: Hb.1.
rewrite /= (ltNge _ 0) h /=; congr (VolNum (Fin (_ * _))).
have En := odd_double_half n; rewrite -muln2 mulnC in En; rewrite !(pi_powE _ Hvf).
case: (odd n) En => /= En.
  by rewrite -ball_vol_odd; congr ball_vol; rewrite -[RHS]En addnC.
by rewrite -ball_vol_even; congr ball_vol; rewrite -[RHS]En.
Qed.

(** a degenerate shape has zero volume anyway *)
Lemma degenerate_det n (Q : 'M[R]_n) : symm Q -> psd Q -> ~ posdef Q -> \det Q = 0.
Proof.
move=> HQ Hq H; apply/eqP; apply: contraT => h; case: H => x x0.
rewrite lt_def Hq andbT; apply: contra x0 => /eqP E.
have := psd_ker HQ Hq E; move=> /(congr1 (fun v => invmx Q *m v)).
by rewrite mulmxA mulVmx ?mul1mx ?mulmx0 ?unitmxE ?unitfE // => ->.
Qed.

(** building an ellipsoid from valid data *)
Lemma mk_valid cfg k p t n (c : 'cV[R]_n) (Q : 'M[R]_n) : eigvalsh_ok la -> props_of cfg k p t -> symm Q -> psd Q ->
  mk_ell la cfg (CBoth (RealArr (vec c)) (RealArr (mat Q))) k = Ok (Ell (vec c) (mat Q) p).
Proof.
move=> Hla Hp HQ Hq; have t0 : 0 < t by case: Hp.
have [n0|n0] := posnP n; last exact: (ctor_run Hp Q Hla n0 (HoldsVec c)).1 (near_psd_exact t0 HQ Hq).
rewrite /mk_ell (parse_props_ok Hp) rbind_okE.
have -> : p_abs p = Fin t by case: Hp.
have -> : set_center (Fin t) (RealArr (vec c)) = Ok (vec c).
  rewrite /set_center try_real // !rbind_okE size_vec eqxx np_flatten_vec.
  by rewrite [if ~~ true then _ else _]/= fin_data_vec.
rewrite rbind_okE (set_shapeE _ Hp) // size_mat {1}n0 [(0 < _)%N]/= rbind_okE.
by rewrite size_vec dimE eqxx.
Qed.

Lemma repr_props e n (c : 'cV[R]_n) Q t cfg : repr e c Q t -> props_of cfg (kw_of (e_props e)) (e_props e) t.
Proof. by case=> [[_ _ Et t0] [_ _ Hr]]; split=> //; case: (e_props e). Qed.
Lemma repr_eta e n (c : 'cV[R]_n) Q t : repr e c Q t -> e = Ell (vec c) (mat Q) (e_props e).
Proof. by case: e => ce sh p [[/= -> -> _ _] _]. Qed.
Lemma mk_repr cfg k p t n (c : 'cV[R]_n) (Q : 'M[R]_n) : props_of cfg k p t -> symm Q -> psd Q ->
  repr (Ell (vec c) (mat Q) p) c Q t.
Proof. by case=> _ Et t0 Hr HQ Hq; split. Qed.

Lemma single_copy_run cfg e : eigvalsh_ok la -> valid e -> single_copy la cfg e = Ok e.
Proof.
move=> Hla [n [c [Q [t Hr]]]]; have [[E1 E2 _ _] [HQ Hq _]] := Hr.
rewrite /single_copy E1 E2 (mk_valid _ Hla (repr_props cfg Hr)) //; by rewrite -(repr_eta Hr).
Qed.

Lemma mapM_Forall T U (f : T -> res U) (g : T -> U) (P : T -> Prop) s : List.Forall P s ->
  (forall x, P x -> f x = Ok (g x)) -> mapM f s = Ok (map g s).
Proof. by move=> H Hf; elim: H => //= x l Hx _ ->; rewrite Hf. Qed.

(** to_dict / from_dict *)
Lemma dict_roundtrip cfg s es : eigvalsh_ok la -> List.Forall (@valid R) es ->
  from_dict la cfg (to_dict (Arr s es) true) = Ok (Arr s es).
Proof.
move=> Hla H; rewrite /from_dict /amapM /to_dict [data _]/= [shape _]/=.
have -> : mapM (dict_2_ell la cfg) [seq ell_2_dict e true | e <- es] = Ok es; last by [].
elim: H => [|e l He _ IH] //=; rewrite IH.
have -> : dict_2_ell la cfg (ell_2_dict e true) = single_copy la cfg e by [].
by rewrite single_copy_run.
Qed.

(** without the properties: the configured ones *)
Lemma dict_noprops cfg p t s es : eigvalsh_ok la -> props_of cfg (no_kw R) p t -> List.Forall (@valid R) es ->
  from_dict la cfg (to_dict (Arr s es) false) =
  Ok (Arr s [seq Ell (e_center e) (e_shape e) p | e <- es]).
Proof.
move=> Hla Hp H; rewrite /from_dict /amapM /to_dict [data _]/= [shape _]/=.
have -> : mapM (dict_2_ell la cfg) [seq ell_2_dict e false | e <- es] =
    Ok [seq Ell (e_center e) (e_shape e) p | e <- es]; last by [].
elim: H => [|e l [n [c [Q [t' Hr]]]] _ IH] //=; rewrite IH.
have [[E1 E2 _ _] [HQ Hq _]] := Hr.
have -> : dict_2_ell la cfg (ell_2_dict e false) =
   mk_ell la cfg (CBoth (RealArr (e_center e)) (RealArr (e_shape e))) (no_kw R) by [].
by rewrite E1 E2 (mk_valid _ Hla Hp).
Qed.

(** uminus *)
Lemma uminus_run cfg p t s es : eigvalsh_ok la -> props_of cfg (no_kw R) p t -> List.Forall (@valid R) es ->
  exists2 rs, uminus la cfg (Arr s es) = Ok (Arr s rs) &
    [/\ results (fun n c Q _ r => repr r (- c) Q t) es rs, List.Forall (@valid R) rs &
        List.Forall (fun r => e_props r = p) rs].
Proof.
move=> Hla Hp H.
have E : uminus la cfg (Arr s es) = amapM (fun e => mk_ell la cfg (CBoth (RealArr (np_neg (e_center e))) (RealArr (e_shape e))) (no_kw R)) (Arr s es).
  by rewrite /uminus; case: es {H}.
rewrite E /amapM; pose g e := Ell (np_neg (e_center e)) (e_shape e) p.
have Hg e n (c : 'cV[R]_n) Q t' : repr e c Q t' -> repr (g e) (- c) Q t.
  by case=> [[E1 E2 _ _] [HQ Hq _]]; rewrite /g E1 E2 np_neg_vec; exact: (mk_repr _ Hp).
rewrite (mapM_Forall (g := g) H) => [|e [n [c [Q [t' Hr]]]]]; last first.
  have [[E1 E2 _ _] [HQ Hq _]] := Hr; rewrite /g E1 E2 np_neg_vec; exact: (mk_valid _ Hla Hp).
rewrite rbind_okE; exists (map g es) => //; split.
- by elim: {E} H => [|e l _ _ IH]; constructor=> // n c Q t'; exact: Hg.
- elim: {E} H => [|e l [n [c [Q [t' Hr]]]] _ IH]; constructor=> //.
  by exists n, (- c), Q, t; exact: Hg Hr.
- by elim: {E} H => [|e l _ _ IH]; constructor.
Qed.

Lemma uminus_twice cfg p t s es : eigvalsh_ok la -> props_of cfg (no_kw R) p t -> List.Forall (@valid R) es ->
  (let* r := uminus la cfg (Arr s es) in uminus la cfg r) =
  Ok (Arr s [seq Ell (e_center e) (e_shape e) p | e <- es]).
Proof.
move=> Hla Hp H.
have E : forall s es, List.Forall (@valid R) es -> uminus la cfg (Arr s es) = Ok (Arr s [seq Ell (np_neg (e_center e)) (e_shape e) p | e <- es]).
  move=> s' es' H'; have -> : uminus la cfg (Arr s' es') = amapM (fun e => mk_ell la cfg (CBoth (RealArr (np_neg (e_center e))) (RealArr (e_shape e))) (no_kw R)) (Arr s' es').
    by rewrite /uminus; case: es' {H'}.
  rewrite /amapM (mapM_Forall (g := fun e => Ell (np_neg (e_center e)) (e_shape e) p) H') //.
  move=> e [n [c [Q [t' Hr]]]]; have [[E1 E2 _ _] [HQ Hq _]] := Hr.
  rewrite E1 E2 np_neg_vec; exact: (mk_valid _ Hla Hp).
rewrite E // rbind_okE E; last first.
  elim: H => [|e l [n [c [Q [t' Hr]]]] _ IH]; constructor=> //.
  have [[E1 E2 _ _] [HQ Hq _]] := Hr; exists n, (- c), Q, t.
  by rewrite E1 E2 np_neg_vec; exact: (mk_repr _ Hp).
congr (Ok (Arr s _)); rewrite -map_comp.
elim: H => [|e l [n [c [Q [t' Hr]]]] _ IH] //=; rewrite IH; congr cons.
have [[E1 E2 _ _] _] := Hr; by rewrite E1 !np_neg_vec opprK.
Qed.

Lemma in_ell_opp n (c : 'cV[R]_n) Q x : in_ell (- c) Q (- x) <-> in_ell c Q x.
Proof.
have H c' x' : in_ell c' Q x' -> in_ell (- c') Q (- x').
  move=> [S [z [E1 E2 ->]]]; exists S, (- z); split=> //; first by rewrite sqnN.
  by rewrite mulmxN opprD.
by split=> [/H|/H]; rewrite ?opprK.
Qed.

(** ell_unitball *)
Lemma unitball_run cfg p t n : eigvalsh_ok la -> props_of cfg (no_kw R) p t -> (0 < n)%N ->
  exists2 e, ell_unitball la cfg n = Ok e & repr e (0 : 'cV_n) 1%:M t.
Proof.
move=> Hla Hp n0; have t0 : 0 < t by case: Hp.
have HQ : symm (1%:M : 'M[R]_n) by rewrite /symm trmx1.
have Hq : psd (1%:M : 'M[R]_n) by move=> x; rewrite /qf mul1mx; exact: sqn_ge0.
rewrite /ell_unitball np_eye_mat.
rewrite (ctor1_run Hp 1%:M Hla n0).1; last exact: near_psd_exact.
by eexists=> //; exact: (mk_repr _ Hp).
Qed.
Lemma in_unitball n (x : 'cV[R]_n) : in_ell 0 1%:M x <-> sqn x <= 1.
Proof.
split=> [[S [z [E1 E2 ->]]]|H]; last by exists 1%:M, x; rewrite trmx1 mulmx1 add0r mul1mx.
by rewrite add0r orthog_sqn //; exact: mulmx1C E1.
Qed.

End Scal.
