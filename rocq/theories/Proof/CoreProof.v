(** Proofs about Model/Core.v (ell_sim_diag, ell_valign) and is_bigger. *)
From mathcomp Require Import all_ssreflect all_algebra.
Require Import Coq.Strings.String.
From mathcomp.algebra_tactics Require Import ring.
From Verif.Model Require Import Py NP NP3 Linalg Compare La Core EllGeom Ellipsoid.
From Verif.Spec Require Import MatSpec LinalgSpec EllSpec EllipsoidSpec.
From Verif.Proof Require Import NPLib NP3Lib MatLib OrthLib LaBasic Decomp GenProof EllLib EllGeomProof RankLib EllipsoidProof EllScalProof.
Set Implicit Arguments.
Unset Strict Implicit.
Unset Printing Implicit Defensive.
Import Order.Theory GRing.Theory Num.Theory.
Local Open Scope ring_scope.

Section Core.
Variable R : rcfType.
Variable la : linalg R.
Notation X := (xnum R).
Notation A := (arr X).

Lemma sqrtm_pos_tol n (M : 'M[R]_n) t : eigh_ok la -> (0 < n)%N -> 0 <= t -> symm M -> psd M ->
  sqrtm_pos la (mat M) (Fin t) = sqrtm_pos la (mat M) x0.
Proof.
move=> Hla n0 t0 HM Hp.
have Hsym u : 0 <= u -> is_mat_symm (mat M) (Fin u) = Ok true.
  move=> u0; have [b -> Hb] := is_mat_symm_mat M u0; congr Ok; apply/Hb => i j.
  by rewrite -{1}HM mxE subrr normr0.
have Hlt (u : R) : 0 <= u -> xlt (Fin u) x0 = false by move=> u0; apply/negbTE; rewrite /= -leNgt.
rewrite /sqrtm_pos !Hlt // !Hsym // !rbind_okE.
have [d [V [-> HE _]]] := Hla n M n0; rewrite lowsym_symm // in HE.
have d0 := (eig_psd HE).1 Hp; rewrite !rbind_okE.
have Hh u : 0 <= u -> has (fun x => xlt x (xopp (Fin u))) (data (vec d)) = false.
  move=> u0; rewrite data_vals has_map; apply/negbTE; rewrite -all_predC.
  apply/allP => x /mem_vals[i ->] /=; rewrite -leNgt; apply: le_trans (d0 i).
  by rewrite oppr_le0.
by rewrite /= !Hh.
Qed.

Lemma sqrtm_pos_exact_tol n (M : 'M[R]_n) t : eigh_ok la -> (0 < n)%N -> 0 <= t -> symm M -> psd M ->
  exists S : 'M_n, [/\ sqrtm_pos la (mat M) (Fin t) = Ok (mat S), symm S, psd S & S *m S = M].
Proof.
move=> Hla n0 t0 HM Hp; have [S HS] := sqrtm_pos_exact Hla n0 HM Hp; exists S.
by rewrite sqrtm_pos_tol.
Qed.

Lemma qf_delta n (N : 'M[R]_n) i : qf N (delta_mx i 0) = N i i.
Proof.
rewrite /qf -colE /dotv (bigD1 i) //= [X in X * _]mxE !eqxx mul1r mxE big1 ?addr0 // => k /negbTE ki.
by rewrite [X in X * _]mxE ki mul0r.
Qed.

(** the singular vectors of a positive semidefinite matrix are eigenvectors *)
Lemma psd_svd n (M U V : 'M[R]_n) (s : 'cV[R]_n) : eigh_ok la -> (0 < n)%N -> symm M -> psd M ->
  orthog U -> orthog V -> M = U *m diagv s *m V -> (forall i, 0 <= s i 0) -> eigdec M s U.
Proof.
move=> Hla n0 HM Hp HU HV E s0; split=> //.
have HE : eigdec (U *m diagv s *m U^T) s U by [].
apply: (psd_root_unique Hla n0) => //; [exact: eig_symm HE|exact/(eig_psd HE)|].
rewrite -{2}HM {1 2}E !trmx_mul tr_diagv -!mulmxA (mulmxA V); move/orthogC: HV => ->; rewrite mul1mx.
by rewrite [in RHS](mulmxA U^T) HU mul1mx.
Qed.

(** a symmetric matrix whose left singular vectors fail to diagonalise it has opposite eigenvalues *)
Lemma svd_sym_diag n (C U V : 'M[R]_n) (s : 'cV[R]_n) : symm C -> orthog U -> orthog V ->
  C = U *m diagv s *m V -> (forall i, 0 <= s i 0) ->
  (forall (l : R) (w1 w2 : 'cV[R]_n), l != 0 -> w1 != 0 -> w2 != 0 -> C *m w1 = l *: w1 -> C *m w2 = - l *: w2 -> False) ->
  forall i j, i != j -> (U^T *m C *m U) i j = 0.
Proof.
move=> HC HU HV E s0 H i j ij; set D := U^T *m C *m U.
have HD : symm D by rewrite /symm /D !trmx_mul trmxK HC mulmxA.
have HUU : U *m U^T = 1%:M by move/orthogC: HU.
have DD : D *m D = diagv (\col_k (s k 0 * s k 0)).
  have CC : C *m C = U *m diagv (\col_k (s k 0 * s k 0)) *m U^T.
    rewrite -{2}HC E !trmx_mul tr_diagv -!mulmxA (mulmxA V); move/orthogC: HV => ->.
    by rewrite mul1mx (mulmxA (diagv s)) mul_diagv2.
  rewrite /D -!mulmxA (mulmxA U U^T) HUU mul1mx (mulmxA C C) CC.
  by rewrite -!mulmxA HU mulmx1 mulmxA HU mul1mx.
apply/eqP; apply: contraT => h; exfalso.
pose e : 'cV[R]_n := delta_mx j 0.
have DDe : D *m (D *m e) = (s j 0 ^+ 2) *: e.
  rewrite mulmxA DD mul_diagv; apply/matrixP => k l; rewrite !mxE (ord1 l).
  case: eqP => [->|_]; by rewrite ?mulr1n ?mulr0n ?mulr0 // eqxx.
have De k : (D *m e) k 0 = D k j by rewrite -colE mxE.
have sj0 : s j 0 != 0.
  apply/eqP => z; move: h; rewrite -/D.
  have : sqn (D *m e) = 0.
    rewrite /sqn dotv_mull HD DDe z expr0n scale0r dotv0r //.
  by move/eqP; rewrite sqn_eq0 => /eqP Z; rewrite -De Z mxE eqxx.
pose w1 := D *m e + s j 0 *: e; pose w2 := D *m e - s j 0 *: e.
have ei : e i 0 = 0 by rewrite mxE (negbTE ij).
have sei : (s j 0 *: e) i 0 = 0 by rewrite [LHS]mxE ei mulr0.
have w1i : w1 i 0 != 0 by rewrite [w1 i 0]mxE De sei addr0.
have w2i : w2 i 0 != 0 by rewrite [w2 i 0]mxE De [X in _ + X]mxE sei oppr0 addr0.
have nz (w : 'cV[R]_n) : w i 0 != 0 -> U *m w != 0.
  by move=> wi; rewrite -len_eq0 orthog_len // len_eq0; apply: contra wi => /eqP->; rewrite mxE.
have CU w : C *m (U *m w) = U *m (D *m w) by rewrite /D !mulmxA HUU mul1mx.
apply: (H (s j 0) (U *m w1) (U *m w2)) => //; try exact: nz.
  by rewrite CU /w1 mulmxDr DDe -scalemxAr addrC expr2 -scalerA -scalerDr scalemxAr.
rewrite CU /w2 mulmxBr DDe -scalemxAr expr2 -scalerA -scalerBr -opprB scalerN -scaleNr.
by rewrite -scalemxAr.
Qed.

(** ell_sim_diag *)
Lemma sim_diag_run n (P B : 'M[R]_n) t : eigvalsh_ok la -> eigh_ok la -> svd_ok la -> lstsq_ok la ->
  (0 < n)%N -> 0 <= t -> symm P -> (forall x, x != 0 -> t * sqn x < qf P x) -> symm B ->
  exists T : 'M[R]_n, [/\ ell_sim_diag la (mat P) (mat B) (Fin t) = Ok (mat T), T *m P *m T^T = 1%:M &
    (forall (l : R) (w1 w2 : 'cV[R]_n), l != 0 -> w1 != 0 -> w2 != 0 ->
       B *m w1 = l *: (P *m w1) -> B *m w2 = - l *: (P *m w2) -> False) ->
    forall i j, i != j -> (T *m B *m T^T) i j = 0].
Proof.
move=> Hev Heh Hsvd Hls n0 t0 HP Hpd HB; rewrite /ell_sim_diag.
have Hposd : posdef P.
  by move=> x x0; apply: le_lt_trans (Hpd x x0); rewrite mulr_ge0 ?sqn_ge0.
have Hpsd := posdef_psd Hposd.
have [|b -> Hb] := is_mat_pos_def_spec false Hev n0 t0 (M := P).
  by move=> i j; rewrite -{1}HP mxE subrr normr0.
rewrite lowsym_symm // in Hb; rewrite rbind_okE (Hb.2 Hpd) [if ~~ true then _ else _]/=.
have [b' -> Hb'] := is_mat_symm0 B; rewrite rbind_okE (Hb'.2 HB) [if ~~ true then _ else _]/=.
rewrite !dimE eqxx [if ~~ true then _ else _]/=.
have [U [s [V [-> Hs]]]] := Hsvd n n P n0 n0; rewrite rbind_okE.
have [HU HV _ _ _] := Hs; have [s' [-> EP _ Hs0]] := svd_sq_dec Hs.
have HE := psd_svd Heh n0 HP Hpsd HU HV EP Hs0.
have sp : forall i, 0 < s' i 0 by exact: (eig_posdef HE).1.
rewrite np_diag_vec rbind_okE -/(diagv s').
have Hds : symm (diagv s') by exact: tr_diagv.
have Hdp : psd (diagv s').
  by move=> x; rewrite qf_diagv; apply: sumr_ge0 => i _; rewrite mulr_ge0 ?sqr_ge0.
have [S [-> HS PS ES]] := sqrtm_pos_exact_tol Heh n0 t0 Hds Hdp; rewrite rbind_okE np_T_mat HS.
have uS : S \in unitmx.
  have : diagv s' \in unitmx.
    rewrite unitmxE det_diag unitfE; apply/prodf_neq0 => i _; rewrite !mxE.
    by rewrite gt_eqF.
  by rewrite -ES unitmx_mul => /andP[].
rewrite np_T_mat (lstsq_unit _ Hls n0 uS) rbind_okE !np_T_mat trmxK; set W := invmx S *m U^T.
rewrite np_matmul_mm rbind_okE np_matmul_mm rbind_okE.
have [U2 [s2 [V2 [-> Hs2]]]] := Hsvd n n (W *m B *m W^T) n0 n0; rewrite rbind_okE np_T_mat np_matmul_mm.
have [HU2 HV2 _ _ _] := Hs2; have [s2' [_ EC _ Hs20]] := svd_sq_dec Hs2.
exists (U2^T *m W).
have WPW : W *m P *m W^T = 1%:M.
  rewrite /W trmx_mul trmxK; case: HE => _ ->.
  rewrite -!mulmxA (mulmxA U^T U) HU mul1mx (mulmxA U^T U) HU mul1mx -ES.
  by rewrite trmx_inv HS -!mulmxA mulmxV // mulmx1 mulVmx.
split=> //.
  have -> : U2^T *m W *m P *m (U2^T *m W)^T = U2^T *m (W *m P *m W^T) *m U2 by rewrite trmx_mul trmxK !mulmxA.
  by rewrite WPW mulmx1.
move=> Hopp i j ij.
have -> : U2^T *m W *m B *m (U2^T *m W)^T = U2^T *m (W *m B *m W^T) *m U2.
  by rewrite trmx_mul trmxK !mulmxA.
have HC : symm (W *m B *m W^T) by rewrite /symm trmx_mul trmxK trmx_mul HB mulmxA.
apply: (svd_sym_diag HC HU2 HV2 EC Hs20) ij => l w1 w2 l0 w10 w20 E1 E2.
have [_ uW] : W *m P *m W^T \in unitmx /\ W \in unitmx.
  split; first by rewrite WPW unitmx1.
  by rewrite /W unitmx_mul unitmx_inv uS unitmx_tr orthog_unit.
have uWt : W^T \in unitmx by rewrite unitmx_tr.
have gen (a : R) w : (W *m B *m W^T) *m w = a *: w -> B *m (W^T *m w) = a *: (P *m (W^T *m w)).
  move=> E; apply: (can_inj (mulKmx uW)); rewrite -scalemxAr !mulmxA WPW mul1mx.
  by rewrite -E.
have nz w : w != 0 -> W^T *m w != 0.
  apply: contra => /eqP E; apply/eqP; apply: (can_inj (mulKmx uWt)); by rewrite E mulmx0.
by apply: (Hopp l (W^T *m w1) (W^T *m w2)); rewrite ?nz //; exact: gen.
Qed.

(** with a positive semidefinite second matrix *)
Lemma sim_diag_psd n (P B : 'M[R]_n) t : eigvalsh_ok la -> eigh_ok la -> svd_ok la -> lstsq_ok la ->
  (0 < n)%N -> 0 <= t -> symm P -> (forall x, x != 0 -> t * sqn x < qf P x) -> symm B -> psd B ->
  exists (T : 'M[R]_n) (d : 'cV[R]_n), [/\ ell_sim_diag la (mat P) (mat B) (Fin t) = Ok (mat T),
    T *m P *m T^T = 1%:M, T *m B *m T^T = diagv d & forall i, 0 <= d i 0].
Proof.
move=> Hev Heh Hsvd Hls n0 t0 HP Hpd HB Hb.
have [T [ET EP HD]] := sim_diag_run Hev Heh Hsvd Hls n0 t0 HP Hpd HB.
exists T, (\col_i (T *m B *m T^T) i i); split=> //.
  apply/matrixP => i j; rewrite diagvE; case: eqP => [->|/eqP ij]; first by rewrite mulr1n [RHS]mxE.
  rewrite mulr0n; apply: HD => //= l w1 w2 l0 w10 w20 E1 E2.
  have p (w : 'cV[R]_n) : w != 0 -> 0 < qf P w.
    by move=> w0; apply: le_lt_trans (Hpd w w0); rewrite mulr_ge0 ?sqn_ge0.
  have q1 : 0 <= l * qf P w1 by rewrite /qf -dotvZr -E1; exact: Hb.
  have q2 : 0 <= - l * qf P w2 by rewrite /qf -dotvZr -E2; exact: Hb.
  rewrite pmulr_lge0 ?p // in q1; rewrite pmulr_lge0 ?p // oppr_ge0 in q2.
  by move: l0; rewrite eq_le q2 q1.
move=> i; rewrite mxE; have := Hb (T^T *m delta_mx i 0).
by rewrite -qf_conj qf_delta.
Qed.

Lemma sim_diag_notpd n (P : 'M[R]_n) b t : eigvalsh_ok la -> (0 < n)%N -> 0 <= t -> symm P ->
  ~ (forall x, x != 0 -> t * sqn x < qf P x) ->
  ell_sim_diag la (mat P) b (Fin t) = throw "wrongInput:a_mat".
Proof.
move=> Hev n0 t0 HP H; rewrite /ell_sim_diag.
have [|c -> Hb] := is_mat_pos_def_spec false Hev n0 t0 (M := P).
  by move=> i j; rewrite -{1}HP mxE subrr normr0.
rewrite lowsym_symm // in Hb; rewrite rbind_okE; by case: c Hb => // -[/(_ isT) /H].
Qed.
Lemma sim_diag_notsym n (P B : 'M[R]_n) t : eigvalsh_ok la -> (0 < n)%N -> 0 <= t -> symm P ->
  (forall x, x != 0 -> t * sqn x < qf P x) -> ~ symm B ->
  ell_sim_diag la (mat P) (mat B) (Fin t) = throw "wrongInput:b_mat".
Proof.
move=> Hev n0 t0 HP H HB; rewrite /ell_sim_diag.
have [|c -> Hb] := is_mat_pos_def_spec false Hev n0 t0 (M := P).
  by move=> i j; rewrite -{1}HP mxE subrr normr0.
rewrite lowsym_symm // in Hb; rewrite rbind_okE (Hb.2 H) [if ~~ true then _ else _]/=.
by have [b' -> Hb'] := is_mat_symm0 B; rewrite rbind_okE; case: b' Hb' => // -[/(_ isT) /HB].
Qed.
Lemma sim_diag_dims m n (P : 'M[R]_n) (B : 'M[R]_m) t : eigvalsh_ok la -> (0 < n)%N -> 0 <= t -> symm P ->
  (forall x, x != 0 -> t * sqn x < qf P x) -> symm B -> m != n ->
  ell_sim_diag la (mat P) (mat B) (Fin t) = throw "wrongInput".
Proof.
move=> Hev n0 t0 HP H HB mn; rewrite /ell_sim_diag.
have [|c -> Hb] := is_mat_pos_def_spec false Hev n0 t0 (M := P).
  by move=> i j; rewrite -{1}HP mxE subrr normr0.
rewrite lowsym_symm // in Hb; rewrite rbind_okE (Hb.2 H) [if ~~ true then _ else _]/=.
have [b' -> Hb'] := is_mat_symm0 B; rewrite rbind_okE (Hb'.2 HB) [if ~~ true then _ else _]/=.
by rewrite !dimE eq_sym mn.
Qed.

(** ell_valign *)
Lemma holds_squeeze n (v : 'cV[R]_n) va : n != 1%N -> holds v va -> np_squeeze va = vec v.
Proof.
move=> n1 H; have E := holds_flat H; rewrite /np_squeeze.
have -> : data va = data (vec v) by rewrite -E.
by case: H => /=; rewrite n1.
Qed.

Lemma svd_col n (v : 'cV[R]_n) U s V : (0 < n)%N -> svdec v U s V ->
  exists (i0 : 'I_n) (a : R), [/\ v = len v *: (a *: col i0 U), V 0 0 = a, a * a = 1 & i0 = 0%N :> nat].
Proof.
move=> n0 [HU HV E Hd H0].
have k1 : (0 < minn n 1)%N by rewrite leq_min n0.
pose k0 := Ordinal k1; pose i0 := Ordinal n0.
have HV1 : V 0 0 * V 0 0 = 1.
  by have := congr1 (fun M : 'M[R]_1 => M 0 0) HV; rewrite !mxE big_ord1 mxE eqxx.
have Er : rdiag s = s k0 0 *: (delta_mx i0 0 : 'cV[R]_n).
  apply/matrixP => i j; rewrite (ord1 j) [RHS]mxE [in RHS]mxE eqxx andbT.
  have [Ei|ni] := eqVneq i i0.
    by rewrite (rdiagE _ _ (k := k0)) ?Ei //= mulr1.
  rewrite mulr0 mxE big_pred0 // => k; apply/negbTE/negP => /andP[/eqP E1 /eqP E2].
  by case/eqP: ni; apply: val_inj; rewrite /= -E1 E2.
have Ev : v = s k0 0 *: (V 0 0 *: col i0 U).
  rewrite {1}E Er -scalemxAr -scalemxAl -colE; congr (_ *: _).
  by rewrite [V]mx11_scalar mul_mx_scalar !mxE eqxx mulr1n.
have El : len v = s k0 0.
  rewrite Ev !lenZ (ger0_norm (H0 _)) /len.
  have -> : sqn (col i0 U) = 1.
    by rewrite colE orthog_sqn // -[RHS](_ : sqn (delta_mx i0 0 : 'cV[R]_n) = 1) // /sqn /dotv (bigD1 i0) //= mxE !eqxx mulr1 big1 ?addr0 // => j /negbTE ji; rewrite mxE ji mul0r.
  rewrite sqrtr1 mulr1; have -> : `|V 0 0| = 1; last by rewrite mulr1.
  by apply/eqP; rewrite -sqr_norm_eq1 expr2 HV1.
by exists i0, (V 0 0); split=> //; rewrite El.
Qed.

Lemma valign_run n (v x : 'cV[R]_n) va xa : svd_ok la -> (1 < n)%N -> holds v va -> holds x xa ->
  exists T : 'M[R]_n, [/\ ell_valign la va xa = Ok (mat T), orthog T & len v *: (T *m x) = len x *: v].
Proof.
move=> Hsvd n1 Hv Hx; have n0 : (0 < n)%N by apply: ltn_trans n1.
have nn1 : n != 1%N by rewrite gtn_eqF.
rewrite /ell_valign.
have [-> ->] := holds_max n0 Hv; have [-> ->] := holds_max n0 Hx.
rewrite !rbind_okE eqxx [if ~~ true then _ else _]/= (holds_squeeze nn1 Hv) (holds_squeeze nn1 Hx).
rewrite [if ~~ true then _ else _]/= !np_expand1_vec.
have [U1 [s1 [V1 [-> Hs1]]]] := Hsvd n 1%N v n0 isT.
have [U2 [s2 [V2 [-> Hs2]]]] := Hsvd n 1%N x n0 isT; rewrite !rbind_okE.
rewrite [dim (vec v) 0]/= [dim (vec x) 0]/= eqxx [if ~~ true then _ else _]/=.
rewrite (mxgetE V1 0 0) (mxgetE V2 0 0) np_scale_mat np_T_mat np_matmul_mm.
have [i1 [a [Ev Ea aa Ei1]]] := svd_col n0 Hs1; have [i2 [b [Ex Eb bb Ei2]]] := svd_col n0 Hs2.
have Ei : i2 = i1 by apply: val_inj; rewrite /= Ei1 Ei2.
have [HU1 _ _ _ _] := Hs1; have [HU2 _ _ _ _] := Hs2.
exists ((V1 0 0 * V2 0 0) *: U1 *m U2^T); rewrite Ea Eb; split=> //.
  have tZ (k : R) (M : 'M[R]_n) : (k *: M)^T = k *: M^T by apply/matrixP => i j; rewrite !mxE.
  rewrite /orthog -(scalemxAl (a * b)) tZ -scalemxAl -scalemxAr scalerA.
  have -> : a * b * (a * b) = 1 by rewrite mulrACA aa bb mulr1.
  rewrite scale1r; exact: (orthogM HU1 (orthogT HU2)).
rewrite {1}Ex Ei [in RHS]Ev.
rewrite -!scalemxAl -!scalemxAr !scalerA -mulmxA colE (mulmxA U2^T) HU2 mul1mx -colE.
congr (_ *: _); transitivity (len v * len x * a * (b * b)); first by ring.
by rewrite bb; ring.
Qed.

Lemma valign_one (v x : 'cV[R]_1) va xa : holds v va -> holds x xa -> ell_valign la va xa = IndexError.
Proof.
move=> Hv Hx; rewrite /ell_valign.
have [-> ->] := holds_max (isT : (0 < 1)%N) Hv; have [-> ->] := holds_max (isT : (0 < 1)%N) Hx.
rewrite !rbind_okE eqxx [if ~~ true then _ else _]/=.
by case: Hv; case: Hx.
Qed.

(** is_bigger *)
Lemma is_bigger_run e1 e2 n (c1 c2 : 'cV[R]_n) (Q1 Q2 : 'M[R]_n) t1 t2 : linalg_ok la -> (0 < n)%N ->
  repr e1 c1 Q1 t1 -> repr e2 c2 Q2 t2 -> (forall x, x != 0 -> t1 * sqn x < qf Q1 x) -> wellcond Q1 ->
  exists2 b, is_bigger la e1 e2 = Ok b & (b <-> forall x, x != 0 -> qf Q2 x < (1 + t1) * qf Q1 x).
Proof.
move=> [Heh [Hev [_ [Hsvd [Hsv [_ [_ [_ [_ [Hls _]]]]]]]]]] n0 Hr1 Hr2 Hpd Hw.
have [[Ec1 Es1 Et1 t10] [HQ1 Hp1 _]] := Hr1; have [[Ec2 Es2 Et2 t20] [HQ2 Hp2 _]] := Hr2.
rewrite /is_bigger.
have Erank : exists2 r, matrix_rank la (mat Q2) = Ok r & (r <= n)%N.
  have [U [s [V [r [_ E rk _]]]]] := matrix_rank_run Q2 Hsv n0 n0.
  by exists r => //; apply: leq_trans rk (rank_leq_row _).
case: Erank => r2 E2 r2n.
have -> : dimension_rank la (Arr [:: 2%N] [:: e1; e2]) = Ok (Arr [:: 2%N] [:: n; n], Arr [:: 2%N] [:: n; r2]).
  rewrite /dimension_rank /= Es1 Es2 (rank_full n0 HQ1 Hp1 Hw Hsv) E2 /=.
  by rewrite (repr_dim Hr1) (repr_dim Hr2).
rewrite rbind_okE ifF; last by rewrite /= eqxx.
rewrite ifF; last by rewrite /= ltnNge r2n.
have -> : reg_shape la e1 (e_abs e1) = Ok (mat Q1).
  rewrite /reg_shape; have [b -> Hb] := degenerate1_run Hev n0 Hr1.
  by rewrite rbind_okE (Hb.2 Hpd) Es1.
rewrite rbind_okE.
have -> : get_abs_tol_by (@np_min R) (Arr [:: 2%N] [:: e1; e2]) = Ok (Fin (Num.min t1 t2)).
  by rewrite /get_abs_tol_by /get_abs_tol_arr /= /e_abs Et1 Et2 /np_min /= xminE.
rewrite rbind_okE Es2.
have m0 : 0 <= Num.min t1 t2 by rewrite le_minr !ltW.
have Hpd' x : x != 0 -> Num.min t1 t2 * sqn x < qf Q1 x.
  move=> x0; apply: le_lt_trans (Hpd x x0); rewrite ler_wpmul2r ?sqn_ge0 //.
  by rewrite le_minl lexx.
have [T [d [-> EP EB d0]]] := sim_diag_psd Hev Heh Hsvd Hls n0 m0 HQ1 Hpd' HQ2 Hp2.
rewrite rbind_okE np_matmul_mm rbind_okE np_T_mat np_matmul_mm rbind_okE EB np_diag_mat rbind_okE.
have -> : np_abs (vec (\col_i diagv d i i)) = vec d.
  by apply: vec_map => i; rewrite mxE diagvE eqxx mulr1n /= ger0_norm.
have [i -> Hi] := np_max_vec d n0; rewrite rbind_okE /e_abs Et1 /=.
eexists; first by [].
have uT : T^T \in unitmx.
  have : T *m Q1 *m T^T \in unitmx by rewrite EP unitmx1.
  by rewrite !unitmx_mul => /andP[].
have E1 z : qf Q1 (T^T *m z) = sqn z by rewrite -qf_conj EP /qf mul1mx.
have E2' z : qf Q2 (T^T *m z) = \sum_i d i 0 * z i 0 ^+ 2 by rewrite -qf_conj EB qf_diagv.
split=> [h x xn0|h].
  have zn0 : invmx T^T *m x != 0.
    by apply: contra xn0 => /eqP z; rewrite -(mulKVmx uT x) z mulmx0.
  rewrite -(mulKVmx uT x) E1 E2'; move: (invmx _ *m x) zn0 => z zn0.
  apply: le_lt_trans (_ : d i 0 * sqn z < _); last by rewrite ltr_pmul2r ?sqn_gt0.
  rewrite mulr_sumr; apply: ler_sum => j _; rewrite -expr2; apply: ler_wpmul2r; rewrite ?sqr_ge0 //.
have := h (T^T *m delta_mx i 0); rewrite E1 -qf_conj EB qf_delta diagvE eqxx mulr1n.
have -> : sqn (delta_mx i 0 : 'cV[R]_n) = 1.
  by have := qf_delta (1%:M : 'M[R]_n) i; rewrite /qf mul1mx mxE eqxx.
rewrite mulr1; apply; apply: contraT => /negPn/eqP Z.
have : T^T *m (delta_mx i 0 : 'cV[R]_n) = T^T *m 0 by rewrite Z mulmx0.
move/(can_inj (mulKmx uT)) => /matrixP/(_ i 0); rewrite !mxE !eqxx => /eqP.
by rewrite oner_eq0.
Qed.

(** containment in between: E2 in E1 implies True, True implies E2 in sqrt(1 + abs_tol) E1 *)
Lemma is_bigger_contains e1 e2 n (c1 c2 : 'cV[R]_n) (Q1 Q2 : 'M[R]_n) t1 t2 : linalg_ok la -> (0 < n)%N ->
  repr e1 c1 Q1 t1 -> repr e2 c2 Q2 t2 -> (forall x, x != 0 -> t1 * sqn x < qf Q1 x) -> wellcond Q1 ->
  exists2 b, is_bigger la e1 e2 = Ok b &
    ((forall x, in_ell 0 Q2 x -> in_ell 0 Q1 x) -> b = true) /\
    (b = true -> forall x, in_ell 0 Q2 x -> in_ell 0 ((1 + t1) *: Q1) x).
Proof.
move=> Hla n0 Hr1 Hr2 Hpd Hw; have [b -> Hb] := is_bigger_run Hla n0 Hr1 Hr2 Hpd Hw; exists b => //.
have [[_ _ _ t10] [HQ1 Hp1 _]] := Hr1; have [[_ _ _ t20] [HQ2 Hp2 _]] := Hr2.
have p1 x : x != 0 -> 0 < qf Q1 x.
  by move=> x0; apply: le_lt_trans (Hpd x x0); rewrite mulr_ge0 ?sqn_ge0 ?ltW.
split=> [/(ell_subset_center 0 HQ2 Hp2 HQ1 Hp1) H|bt].
  apply/Hb => x x0; apply: le_lt_trans (_ : qf Q1 x < _).
    by have := H x; rewrite qfD qfN subr_ge0.
  by rewrite mulrDl mul1r ltr_addl mulr_gt0 ?p1.
have qz x : qf ((1 + t1) *: Q1) x = (1 + t1) * qf Q1 x by rewrite /qf -scalemxAl dotvZr.
have t11 : 0 <= 1 + t1 by rewrite addr_ge0 ?ler01 ?ltW.
apply/ell_subset_center => //.
- by apply/matrixP => i j; rewrite !mxE -{1}HQ1 mxE.
- by move=> x; rewrite qz mulr_ge0.
move=> x; rewrite qfD qfN subr_ge0 qz.
have [->|x0] := eqVneq x 0; first by rewrite /qf !mulmx0 dotv0r mulr0.
by apply: ltW; apply: Hb.1.
Qed.

Lemma is_bigger_dims e1 e2 n m (c1 : 'cV[R]_n) (c2 : 'cV[R]_m) Q1 Q2 t1 t2 : svdvals_ok la ->
  (0 < n)%N -> (0 < m)%N -> repr e1 c1 Q1 t1 -> repr e2 c2 Q2 t2 -> n != m ->
  is_bigger la e1 e2 = throw "wrongInput".
Proof.
move=> Hsv n0 m0 Hr1 Hr2 nm; have [[_ Es1 _ _] _] := Hr1; have [[_ Es2 _ _] _] := Hr2.
rewrite /is_bigger /dimension_rank /= Es1 Es2.
have [U1 [s1 [V1 [r1 [_ -> _ _]]]]] := matrix_rank_run Q1 Hsv n0 n0.
have [U2 [s2 [V2 [r2 [_ -> _ _]]]]] := matrix_rank_run Q2 Hsv m0 m0.
by rewrite /= (repr_dim Hr1) (repr_dim Hr2) nm.
Qed.

(** a lower reported rank gives False *)
Lemma is_bigger_rank e1 e2 n (c1 c2 : 'cV[R]_n) (Q1 Q2 : 'M[R]_n) t1 t2 r1 r2 :
  repr e1 c1 Q1 t1 -> repr e2 c2 Q2 t2 ->
  matrix_rank la (mat Q1) = Ok r1 -> matrix_rank la (mat Q2) = Ok r2 -> (r1 < r2)%N ->
  is_bigger la e1 e2 = Ok false.
Proof.
move=> Hr1 Hr2 E1 E2 lt; have [[_ Es1 _ _] _] := Hr1; have [[_ Es2 _ _] _] := Hr2.
by rewrite /is_bigger /dimension_rank /= Es1 Es2 E1 E2 /= (repr_dim Hr1) (repr_dim Hr2) eqxx /= lt.
Qed.

End Core.
