(** Proofs about equality of ellipsoids and hyperplanes. *)
Require Import Coq.Lists.List.
From mathcomp Require Import all_ssreflect all_algebra.
From mathcomp.zify Require Import zify.
Require Import Coq.Strings.String.
From Verif.Model Require Import Py NP NP3 Linalg La Core EllGeom Ellipsoid Hyperplane Compare Dict EllEq.
From Verif.Spec Require Import MatSpec LinalgSpec CompareSpec DictSpec EllSpec EllipsoidSpec HypSpec EllEqSpec.
From Verif.Proof Require Import MatLib NPLib LaBasic EllLib CompareProof CoreProof HypOps DictProof.
Set Implicit Arguments.
Unset Strict Implicit.
Unset Printing Implicit Defensive.
Import Order.Theory GRing.Theory Num.Theory.
Local Open Scope ring_scope.

(** ** The positive semidefinite square root is unique *)
Section Root.
Variable R : rcfType.

Lemma trace_qf n (D S : 'M[R]_n) : symm D -> \tr (D *m S *m D) = \sum_j qf S (col j D).
Proof.
move=> HD; apply: eq_bigr => j _; rewrite /qf /dotv -mulmxA mxE; apply: eq_bigr => k _.
have -> : D j k = D k j by rewrite -[in LHS]HD mxE.
by congr (_ * _); rewrite ?mxE //; apply: eq_bigr => l _; rewrite mxE.
Qed.

Lemma root_uniq n (S T : 'M[R]_n) : symm S -> psd S -> symm T -> psd T -> S *m S = T *m T -> S = T.
Proof.
move=> HS PS HT PT E; pose D := S - T.
have HD : symm D by rewrite /symm /D linearB /= HS HT.
have E0 : S *m D + D *m T = 0.
  by rewrite /D mulmxBr mulmxBl E addrA subrK subrr.
have Ht : \tr (D *m S *m D) + \tr (D *m T *m D) = 0.
  have : \tr (D *m (S *m D + D *m T)) = 0 by rewrite E0 mulmx0 mxtrace0.
  by rewrite mulmxDr mxtraceD !mulmxA => <-; congr (_ + _); rewrite mxtrace_mulC !mulmxA.
have Hz U : symm U -> psd U -> \sum_j qf U (col j D) = 0 -> forall j, U *m col j D = 0.
  move=> HU PU H j; apply: psd_ker => //; apply/eqP; move/eqP: H.
  by rewrite psumr_eq0 => [/allP/(_ j)|i _]; [rewrite mem_index_enum => /(_ isT)|exact: PU].
have Hn U : psd U -> 0 <= \sum_j qf U (col j D) by move=> PU; apply: sumr_ge0 => j _; apply: PU.
move: Ht; rewrite !trace_qf // => /eqP; rewrite paddr_eq0 ?Hn // => /andP[/eqP/(Hz S HS PS) ZS /eqP/(Hz T HT PT) ZT].
have ZD j : D *m col j D = 0 by rewrite {1}/D mulmxBl ZS ZT subrr.
apply/eqP; rewrite -subr_eq0 -/D; apply/eqP/matrixP => i j; rewrite [RHS]mxE.
have : sqn (col j D) = 0.
  by rewrite /sqn {1}colE dotv_mull HD ZD dotv0r.
by move/eqP; rewrite sqn_eq0 => /eqP/colP/(_ i); rewrite !mxE.
Qed.
End Root.

Section Gen.
Variable R : rcfType.
Notation A := (arr (xnum R)).

Lemma least_run (s : seq (xnum R)) : (0 < size s)%N -> (forall i, (i < size s)%N -> exists2 x : R, nth NaN s i = Fin x & 0 < x) ->
  exists m, [/\ np_min (Arr [:: size s] s) = Ok (Fin m), least s m & 0 < m].
Proof.
move=> s0 H.
have [r Er] : exists r : seq R, s = map (@Fin R) r.
  elim: s {s0} H => [|x s IH] H; first by exists [::].
  have [y /= -> _] := H 0%N isT; have [r ->] := IH (fun i => H i.+1); by exists (y :: r).
case: r Er s0 H => [-> //|a r -> _ H]; have [H1 H2] := foldl_min_spec a r.
exists (foldl Num.min a r); split.
- by rewrite /np_min /= foldl_min.
- split; first by exists (seq.index (foldl Num.min a r) (a :: r)); rewrite ?size_map ?index_mem // (nth_map 0) ?index_mem // nth_index.
  by move=> i; rewrite size_map => Hi; exists (nth 0 (a :: r) i); [rewrite (nth_map 0)|apply: H2; apply: mem_nth].
- have := H (seq.index (foldl Num.min a r) (a :: r)); rewrite size_map index_mem => /(_ H1) [x].
  by rewrite (nth_map 0) ?index_mem // nth_index // => -[->].
Qed.

Lemma mapM_ex T U (f : T -> res U) (Q : T -> U -> Prop) s : (forall x, List.In x s -> exists2 y, f x = Ok y & Q x y) ->
  exists2 ys, mapM f s = Ok ys & size ys = size s /\ forall i x0 y0, (i < size s)%N -> Q (nth x0 s i) (nth y0 ys i).
Proof.
elim: s => [|x s IH] H; first by exists [::].
have [y Ey Hy] := H x (or_introl erefl); have [ys Eys [Hs Hys]] := IH (fun z Hz => H z (or_intror Hz)).
rewrite /= Ey /= Eys /=; exists (y :: ys) => //; split; first by rewrite /= Hs.
by case=> [|i] x0 y0 Hi //=; apply: Hys.
Qed.

Lemma prodn1 s : prodn s = 1%N -> s = nseq (size s) 1%N.
Proof. by elim: s => //= n s IH /eqP; rewrite muln_eq1 => /andP[/eqP -> /eqP/IH {1}->]. Qed.
Lemma tile_one s r : prodn s = 1%N -> (size s <= size r)%N -> tile_shape s r = r.
Proof.
move=> /prodn1 E Hs; rewrite /tile_shape (maxn_idPr Hs) /pad1 subnn /= E.
have -> : (nseq (size r - size (nseq (size s) 1)) 1 ++ nseq (size s) 1)%SEQ%N = nseq (size r) 1%N.
  by rewrite size_nseq cat_nseq /ncons; have {2}<- := subnK Hs; rewrite nseqD /ncons; elim: (size r - size s)%N => //= n ->.
by elim: r {Hs} => //= n r IH; rewrite mul1n IH.
Qed.

Lemma flatten_nseq1 T n (x : T) : flatten (nseq n [:: x]) = nseq n x.
Proof. by elim: n => //= n ->. Qed.
End Gen.

(** ** The comparison of arrays of objects with two fields *)
Section Main.
Variables (R : rcfType) (T : Type) (c : cls R T) (P : T -> Prop) (k1 k2 ty2 : string).
Notation A := (arr (xnum R)).
Variable V : T -> A -> A -> Prop.
Definition pair2 (a1 a2 : A) : seq (string * value R) := [:: (k1, VNum "numpy.ndarray" KF a1); (k2, VNum ty2 KF a2)].
Hypothesis K12 : k1 <> k2.
Hypothesis Hty : plain_type ty2.
Hypothesis Htol : forall x, P x -> (exists2 t : R, cl_abs c x = Fin t & 0 < t) /\ (exists2 t : R, cl_rel c x = Fin t & 0 < t).
Hypothesis Hrun : forall t x, 0 < t -> P x -> exists d a1 a2, [/\ cl_dict c false x = Ok d,
  form_comp_dict d (cl_nice c false) (cl_trans c (Fin t)) = Ok (pair2 a1 a2), wf_arr a1, wf_arr a2 & V x a1 a2].

Definition same_arr (at_ rt : R) (a b : A) : Prop :=
  shape a = shape b /\ forall i, close (Fin at_) (Some (Fin rt)) (nth NaN (data a) i) (nth NaN (data b) i).

Lemma agree_pair at_ rt a1 a2 b1 b2 : agree (Fin at_) (Some (Fin rt)) (VDict (pair2 a1 a2)) (VDict (pair2 b1 b2)) <->
  same_arr at_ rt a1 b1 /\ same_arr at_ rt a2 b2.
Proof.
have E1 x y : dget (pair2 x y) k1 = Some (VNum "numpy.ndarray" KF x) by rewrite /= String.eqb_refl.
have E2 x y : dget (pair2 x y) k2 = Some (VNum ty2 KF y).
  by rewrite /=; case: String.eqb_spec => [e|_]; [case: K12|rewrite String.eqb_refl].
split=> [H|[[S1 C1] [S2 C2]]].
  inversion H as [| | | | |? ? _ Hd]; subst.
  have H1 := Hd _ _ _ (E1 _ _) (E1 _ _); have H2 := Hd _ _ _ (E2 _ _) (E2 _ _).
  by inversion H1; subst; inversion H2; subst.
constructor=> // k v w.
rewrite /=; case: String.eqb_spec => _; first by move=> [<-] [<-]; constructor.
by case: String.eqb_spec => _ // [<-] [<-]; constructor.
Qed.

Lemma ok_pair a1 a2 : wf_arr a1 -> wf_arr a2 -> ok_value (@no_lists R) (VDict (pair2 a1 a2)).
Proof.
move=> W1 W2; constructor; first by constructor=> [[/esym|]//|]; constructor=> //; constructor.
move=> k v /=; case: String.eqb_spec => _; first by move=> [<-]; constructor.
by case: String.eqb_spec => _ // [<-]; constructor.
Qed.
Lemma aligned_pair a1 a2 b1 b2 : aligned (VDict (pair2 a1 a2)) (VDict (pair2 b1 b2)).
Proof.
constructor=> k v w /=; case: String.eqb_spec => _; first by move=> [<-] [<-]; apply: al_flat.
by case: String.eqb_spec => _ // [<-] [<-]; apply: al_flat.
Qed.

Lemma is_equal_run (a b : arr T) : comparable a b -> (forall x, In x (data a) -> P x) -> (forall x, In x (data b) -> P x) ->
  exists at_ rt bs r,
    [/\ is_equal c a b false = Ok (Arr (common_shape a b) bs, r), size bs = prodn (common_shape a b),
        no_report r = all id bs &
        [/\ least [seq cl_abs c x | x <- (data a ++ data b)%SEQ] at_, least [seq cl_rel c x | x <- (data a ++ data b)%SEQ] rt, 0 < at_, 0 < rt &
        forall i x0, (i < prodn (common_shape a b))%N -> exists a1 a2 b1 b2,
          [/\ V (elt x0 a i) a1 a2, V (elt x0 b i) b1 b2 & (nth false bs i <-> same_arr at_ rt a1 b1 /\ same_arr at_ rt a2 b2)]]].
Proof.
case=> [[Wa Wb na nb] Hsh] Pa Pb; rewrite /is_equal /is_equal_internal.
rewrite !gtn_eqF //= -if_neg.
have Pab x : In x (data a ++ data b)%SEQ -> P x by move/(in_app_or (data a)) => [/Pa|/Pb].
have tol (f : T -> xnum R) : (forall x, P x -> exists2 t : R, f x = Fin t & 0 < t) ->
  exists m, [/\ np_min (Arr [:: size (data a ++ data b)] [seq f x | x <- (data a ++ data b)%SEQ]) = Ok (Fin m), least [seq f x | x <- (data a ++ data b)%SEQ] m & 0 < m].
  move=> Hf; have := @least_run R [seq f x | x <- (data a ++ data b)%SEQ]; rewrite size_map; apply.
    by rewrite size_cat addn_gt0 na.
  elim: (data a ++ data b)%SEQ Pab => // x s IH H [_|i Hi]; first by apply: Hf; apply: H; left.
  by apply: IH => // y Hy; apply: H; right.
have [at_ [Ea La a0]] := tol _ (fun x Hx => (Htol Hx).1).
have [rt [Er Lr r0]] := tol _ (fun x Hx => (Htol Hx).2).
have run s : (forall x, In x s -> P x) -> exists2 ds, mapM (cl_dict c false) s = Ok ds & exists2 cs,
  mapM (fun d => form_comp_dict d (cl_nice c false) (cl_trans c (Fin at_))) ds = Ok cs & size cs = size s /\
  forall i x0 d0, (i < size s)%N -> exists a1 a2, [/\ nth d0 cs i = pair2 a1 a2, wf_arr a1, wf_arr a2 & V (nth x0 s i) a1 a2].
  move=> Ps; elim: s Ps => [|x s IH] Ps; first by exists [::] => //; exists [::].
  have [d [a1 [a2 [E1 E2 W1 W2 HV]]]] := Hrun a0 (Ps x (or_introl erefl)).
  have [ds Eds [cs Ecs [Hz H]]] := IH (fun y Hy => Ps y (or_intror Hy)).
  exists (d :: ds); first by rewrite /= E1 /= Eds.
  exists (pair2 a1 a2 :: cs); first by rewrite /= E2 /= Ecs.
  split; first by rewrite /= Hz.
  by case=> [|i] x0 d0 Hi /=; [exists a1, a2|apply: H].
have [da Eda [ca Eca [Hca HA]]] := run _ Pa; have [db Edb [cb Ecb [Hcb HB]]] := run _ Pb.
move: (Wa) (Wb) => /eqP Wa' /eqP Wb'.
have -> : (1 < size (data a))%N && (1 < size (data b))%N && (shape a != shape b) = false.
  by case: Hsh => [->|[-> _]|[-> _ _]]; rewrite ?eqxx ?andbF ?ltnn //.
rewrite Ea /= Er /= Eda /= Edb /= Eca /= Ecb /=.
set ca' := (if ~~ _ then flatten _ else ca); set cb' := (if _ && _ then flatten _ else cb); set out := (if (1 < _)%N then shape a else shape b).
have Eout : out = common_shape a b by [].
have one s : size s = 1%N -> s = [:: nth [::] s 0] :> seq (dict (value R)) by case: s => [|x []].
have Hca' : size ca' = prodn out /\ forall i d0, (i < prodn out)%N -> nth d0 ca' i = nth d0 ca (if size (data a) == 1%N then 0%N else i).
  rewrite /ca' /out; case: ltnP => Hn /=; first by rewrite Hca Wa' (gtn_eqF _) // -Wa'.
  have E1 : size (data a) = 1%N by lia.
  rewrite E1 eqxx (one ca) ?Hca // flatten_nseq1 size_nseq; split=> // i d0 Hi.
  by rewrite nth_nseq Hi.
have Hcb' : size cb' = prodn out /\ forall i d0, (i < prodn out)%N -> nth d0 cb' i = nth d0 cb (if size (data b) == 1%N then 0%N else i).
  rewrite /cb' /out; case: (ltnP 1 (size (data a))) => Hn /=; last first.
    rewrite Hcb Wb'; split=> // i d0 Hi; case: eqP => // E; congr nth; lia.
  case: (ltnP 1 (size (data b))) => Hm /=.
    rewrite Hcb Wb'; split; last by move=> i d0 _; rewrite gtn_eqF -?Wb'.
    by case: Hsh => [->//|[E _]|[E _ _]]; lia.
  have E1 : size (data b) = 1%N by lia.
  rewrite E1 eqxx (one cb) ?Hcb // flatten_nseq1 size_nseq; split=> // i d0 Hi.
  by rewrite nth_nseq Hi.
have -> : ((if ~~ (1 < size (data a))%N then tile_shape (shape a) (shape b) else shape a)
   != (if (1 < size (data a))%N && ~~ (1 < size (data b))%N then tile_shape (shape b) (shape a) else shape b)) = false.
  apply/negbTE; rewrite negbK; apply/eqP; case: (ltnP 1 (size (data a))) => Hn /=.
    case: (ltnP 1 (size (data b))) => Hm /=; first by case: Hsh => [//|[E _]|[E _ _]]; lia.
    by rewrite tile_one //; [lia|case: Hsh => [->//|[E _]|[E _ ->//]]; lia].
  by rewrite tile_one //; [lia|case: Hsh => [->//|[E ->//]|[E E' _]]; lia].
move: Hca' Hcb' => [Sa Na] [Sb Nb]; clearbody ca' cb'.
pose AA i := agree (Fin at_) (Some (Fin rt)) (VDict (nth [::] ca' i)) (VDict (nth [::] cb' i)).
have out0 : (0 < prodn out)%N by rewrite /out; case: ifP => _; rewrite -?Wa' -?Wb'.
have Hel : forall i x0, (i < prodn out)%N -> exists a1 a2 b1 b2, [/\ nth [::] ca' i = pair2 a1 a2, nth [::] cb' i = pair2 b1 b2,
    wf_arr a1 /\ wf_arr a2, wf_arr b1 /\ wf_arr b2 & V (elt x0 a i) a1 a2 /\ V (elt x0 b i) b1 b2].
  move=> i x0 Hi; rewrite Na // Nb // /elt.
  have Hia : ((if size (data a) == 1%N then 0%N else i) < size (data a))%N.
    case: eqP => [->//|/eqP N]; move: Hi; rewrite /out; case: (ltnP 1 (size (data a))) => H; rewrite -?Wa' // => _; lia.
  have Hib : ((if size (data b) == 1%N then 0%N else i) < size (data b))%N.
    case: eqP => [->//|/eqP N]; move: Hi; rewrite /out; case: (ltnP 1 (size (data a))) => H; rewrite ?Wb' //.
    by case: Hsh => [->//|[E _]|[E _ _]]; lia.
  have [a1 [a2 [E1 W1 W2 V1]]] := HA _ x0 [::] Hia; have [b1 [b2 [E2 W3 W4 V2]]] := HB _ x0 [::] Hib.
  by exists a1, a2, b1, b2.
rewrite /dict_compare_vec !size_map Sa Sb eqxx /=.
have x0 : T by case: (data a) na => [//|x _ _]; exact: x.
have := @dicts_good R [seq close_over (@no_lists R) (TVal (Fin at_)) (TVal (Fin rt)) (VDict d) | d <- ca'] [seq VDict d | d <- cb'] AA.
rewrite !size_map Sa Sb => /(_ erefl) [].
  move=> i Hi; have [a1 [a2 [b1 [b2 [E1 E2 [W1 W2] [W3 W4] _]]]]] := Hel i x0 Hi.
  rewrite /AA /el (nth_map [::]) ?Sa // (nth_map [::]) ?Sb // E1 E2 [c_scalar _]/=.
  have HR : TVal (Fin rt) = TNone /\ Some (Fin rt) = None \/ exists2 t, TVal (Fin rt) = TVal t /\ Some (Fin rt) = Some t & legal_tol t.
    by right; exists (Fin rt) => //; apply: ltW.
  apply: (comp_fun_main (lkind := @no_lists R) (rt := TVal (Fin rt)) (rt' := Some (Fin rt)) (at_ := Fin at_) (ltW a0) HR _ (ok_pair W1 W2) (ok_pair W3 W4) (aligned_pair _ _ _ _)).2 => //.
move=> os [-> So HO Hall] /=.
case: os So HO Hall => [So|o os So HO Hall]; first by rewrite -So in out0.
set rows := flatten _; have Hrows : nilp rows = all id [seq o.1 | o <- o :: os] := rows_nil 0 Hall.
rewrite [rbind _ _]/= size_map -[(size os).+1]/(size (o :: os)) So eqxx.
exists at_, rt, [seq o.1 | o <- o :: os], (if rows is [::] then @R0 R else RRows rows); split=> //.
- by rewrite size_map So.
- by rewrite -Hrows; case: (rows).
split=> // i x1; rewrite -Eout => Hi; have [a1 [a2 [b1 [b2 [E1 E2 _ _ [V1 V2]]]]]] := Hel i x1 Hi.
exists a1, a2, b1, b2; split=> //; rewrite (nth_map (false, [::])) ?So //.
by rewrite -agree_pair -E1 -E2; exact: HO.
Qed.
End Main.

(** ** Entries *)
Section Entries.
Variable R : rcfType.

Lemma same_vecP at_ rt n (u v : 'cV[R]_n) : same_arr at_ rt (vec u) (vec v) <-> close_mx at_ rt u v.
Proof.
have N (w : 'cV[R]_n) (i : 'I_n) : nth NaN (data (vec w)) i = Fin (w i 0).
  by rewrite data_vec (nth_map 0%N) ?size_iota // nth_iota // add0n -(mxgetE w i 0).
split=> [[_ H] i j|H]; first by rewrite (ord1 j); have := H (val i); rewrite !N.
split=> // i; case: (ltnP i n) => Hi; last by rewrite !nth_default // data_vec size_map size_iota.
by have := H (Ordinal Hi) 0; rewrite -!N.
Qed.

Lemma same_matP at_ rt m n (A B : 'M[R]_(m, n)) : same_arr at_ rt (mat A) (mat B) <-> close_mx at_ rt A B.
Proof.
have N (M : 'M[R]_(m, n)) (i : 'I_m) (j : 'I_n) : nth NaN (data (mat M)) (i * n + j) = Fin (M i j).
  by have := get_mat M i j NaN; rewrite /getn /= !muln1 addn0.
split=> [[_ H] i j|H]; first by have := H (i * n + j)%N; rewrite !N.
split=> // k; case: (ltnP k (m * n)) => Hk; last by rewrite !nth_default // size_mkn /= muln1.
have n0 : (0 < n)%N by case: n Hk {A B H N} => //; rewrite muln0.
have Hi : (k %/ n < m)%N by rewrite ltn_divLR.
have Hj : (k %% n < n)%N by rewrite ltn_mod.
by have := H (Ordinal Hi) (Ordinal Hj); rewrite -!N /= -divn_eq.
Qed.

Lemma same_scalP at_ rt (x y : R) : same_arr at_ rt (np_scalar (Fin x)) (np_scalar (Fin y)) <-> close (Fin at_) (Some (Fin rt)) (Fin x) (Fin y).
Proof. by split=> [[_ /(_ 0%N)]|H] //; split=> // -[|[|i]]. Qed.

Lemma close_mx_refl at_ rt m n (A : 'M[R]_(m, n)) : 0 <= at_ -> close_mx at_ rt A A.
Proof. by move=> H i j; left; rewrite subrr normr0. Qed.
Lemma close_symm at_ rt (x y : R) : close (Fin at_) (Some (Fin rt)) (Fin x) (Fin y) -> close (Fin at_) (Some (Fin rt)) (Fin y) (Fin x).
Proof.
move=> [H|[t Et H]]; first by left; rewrite distrC.
by right; exists t => //; rewrite distrC [`|y| + _]addrC.
Qed.
Lemma close_mx_sym at_ rt m n (A B : 'M[R]_(m, n)) : close_mx at_ rt A B -> close_mx at_ rt B A.
Proof. by move=> H i j; apply: close_symm. Qed.

Lemma same_ell_sym at_ rt e1 e2 : same_ell at_ rt e1 e2 -> same_ell (R := R) at_ rt e2 e1.
Proof. by move=> [n [c1 [c2 [S1 [S2 [[? ? ? ?] [? ? /close_mx_sym ? /close_mx_sym ?]]]]]]]; exists n, c2, c1, S2, S1. Qed.
Lemma same_hp_sym at_ rt e1 e2 : same_hp at_ rt e1 e2 -> same_hp (R := R) at_ rt e2 e1.
Proof. by move=> [n [v1 [v2 [s1 [s2 [[? ? ? ?] [/close_mx_sym ? /close_symm ?]]]]]]]; exists n, v2, v1, s2, s1. Qed.
Lemma same_ell_refl at_ rt e : valid e -> 0 <= at_ -> same_ell (R := R) at_ rt e e.
Proof.
move=> [n [c [Q [t [[Ec EQ _ _] [HQ PQ _]]]]]] a0; have [S [HS PS ES]] := psd_root HQ PQ.
by exists n, c, c, S, S; rewrite ES; split=> //; split=> //; apply: close_mx_refl.
Qed.
Lemma same_hp_refl at_ rt h : proper_hp h -> 0 <= at_ -> same_hp (R := R) at_ rt h h.
Proof.
move=> [n [v [s [t [[Ev Es _ _ _] _ _]]]]] a0; exists n, v, v, s, s; split=> //; split; first exact: close_mx_refl.
by left; rewrite subrr normr0.
Qed.

Lemma shape_vec_inj m n (u : 'cV[R]_m) (v : 'cV[R]_n) : vec u = vec v -> m = n.
Proof. by move/(congr1 (@shape _)) => -[]. Qed.

(** ** Ellipsoids *)
Definition V_ell (e : ell R) (a1 a2 : arr (xnum R)) : Prop := exists n (c : 'cV[R]_n) (S : 'M[R]_n),
  [/\ e_center e = vec c, e_shape e = mat (S *m S), symm S, psd S & a1 = (if n == 0%N then np_zeros R [:: 0%N] else mat S) /\ a2 = vec c].

Lemma V_ell_same at_ rt e e' a1 a2 b1 b2 : V_ell e a1 a2 -> V_ell e' b1 b2 ->
  same_arr at_ rt a1 b1 /\ same_arr at_ rt a2 b2 <-> same_ell at_ rt e e'.
Proof.
move=> [n [c [S [Ec EQ HS PS [-> ->]]]]] [n' [c' [S' [Ec' EQ' HS' PS' [-> ->]]]]].
split=> [[H1 H2]|[m [d1 [d2 [T1 [T2 [[D1 D2 D3 D4] [[HT1 PT1] [HT2 PT2] C1 C2]]]]]]]].
  case: (H2) => -[En] _; subst n'; exists n, c, c', S, S'; split=> //; split=> //; first exact/same_vecP.
  case: eqP H1 => [E _|_ /same_matP//]; subst n; by move=> [].
rewrite D1 in Ec; rewrite D2 in Ec'; have En := shape_vec_inj Ec; have En' := shape_vec_inj Ec'; subst n n'.
rewrite D3 in EQ; rewrite D4 in EQ'; rewrite -(vec_inj Ec) -(vec_inj Ec').
have ES := root_uniq HT1 PT1 HS PS (mat_inj EQ); have ES' := root_uniq HT2 PT2 HS' PS' (mat_inj EQ'); subst T1 T2.
by split; [case: eqP => _; [split=> // i; rewrite nth_nil|exact/same_matP]|exact/same_vecP].
Qed.

Lemma ell_run la t e : eigh_ok (R := R) la -> 0 < t -> valid e -> exists d a1 a2, [/\ cl_dict (ell_cls la) false e = Ok d,
  form_comp_dict d (cl_nice (ell_cls la) false) (cl_trans (ell_cls la) (Fin t)) = Ok (pair2 "QSqrt" "q" "numpy.ndarray" a1 a2), wf_arr a1, wf_arr a2 & V_ell e a1 a2].
Proof.
move=> Hla t0 [n [c [Q [t' [[Ec EQ _ _] [HQ PQ _]]]]]].
exists (ell_2_dict e false); case: (posnP n) => [E|n0].
  subst n; have [S [HS PS ES]] := psd_root HQ PQ; exists (np_zeros R [:: 0%N]), (vec c); split=> //.
    by rewrite /= EQ Ec.
  by exists 0%N, c, S; rewrite ES.
have [S [E HS PS ES]] := sqrtm_pos_exact_tol Hla n0 (ltW t0) HQ PQ; exists (mat S), (vec c); split=> //.
- have Z1 : np_size (mat Q) == 0%N = false by rewrite /np_size /= muln1 muln_eq0 (gtn_eqF n0).
  have Z2 : np_size (vec c) == 0%N = false by rewrite /np_size /= muln1 (gtn_eqF n0).
  by rewrite /= EQ Ec Z1 Z2 E.
- exact: wf_mkn.
- exact: wf_mkn.
- by exists n, c, S; rewrite ES (gtn_eqF n0).
Qed.

Lemma valid_tol la (e : ell R) : valid e -> (exists2 t : R, cl_abs (ell_cls la) e = Fin t & 0 < t) /\ (exists2 t : R, cl_rel (ell_cls la) e = Fin t & 0 < t).
Proof. by move=> [n [c [Q [t [[_ _ Ht t0] [_ _ Hr]]]]]]; split=> //; exists t. Qed.

Lemma ell_verdict la (a b : arr (ell R)) : eigh_ok la -> comparable a b -> (forall x, In x (data a) -> valid x) -> (forall x, In x (data b) -> valid x) ->
  exists at_ rt bs r,
    [/\ is_equal (ell_cls la) a b false = Ok (Arr (common_shape a b) bs, r), size bs = prodn (common_shape a b),
        no_report r = all id bs &
        [/\ least [seq p_abs (e_props e) | e <- (data a ++ data b)%SEQ] at_, least [seq p_rel (e_props e) | e <- (data a ++ data b)%SEQ] rt, 0 < at_, 0 < rt &
        forall i e0, (i < prodn (common_shape a b))%N -> nth false bs i <-> same_ell at_ rt (elt e0 a i) (elt e0 b i)]].
Proof.
move=> Hla Hc Pa Pb.
have [|//|at_ [rt [bs [r [H1 H2 H3 [H4 H5 H6 H7 H]]]]]] := is_equal_run (k1 := "QSqrt") (k2 := "q") (ty2 := "numpy.ndarray") (V := V_ell) _ _ (@valid_tol la) (fun t x t0 Hx => ell_run Hla t0 Hx) Hc Pa Pb; first by [].
exists at_, rt, bs, r; split=> //; split=> // i e0 Hi.
have [a1 [a2 [b1 [b2 [V1 V2 ->]]]]] := H i e0 Hi; exact: V_ell_same.
Qed.

(** ** Hyperplanes *)
Definition V_hp (h : hp R) (a1 a2 : arr (xnum R)) : Prop := exists n (v : 'cV[R]_n) s,
  [/\ h_normal h = vec v, h_shift h = Fin s, a1 = vec (canon_normal v s) & a2 = np_scalar (Fin (canon_shift v s))].

Lemma V_hp_same at_ rt e e' a1 a2 b1 b2 : V_hp e a1 a2 -> V_hp e' b1 b2 ->
  same_arr at_ rt a1 b1 /\ same_arr at_ rt a2 b2 <-> same_hp at_ rt e e'.
Proof.
move=> [n [v [s [Ev Es -> ->]]]] [n' [v' [s' [Ev' Es' -> ->]]]].
split=> [[H1 /same_scalP H2]|[m [u1 [u2 [t1 [t2 [[D1 D2 D3 D4] [C1 C2]]]]]]]].
  by case: (H1) => -[En] _; subst n'; exists n, v, v', s, s'; split=> //; split=> //; exact/same_vecP.
rewrite D1 in Ev; rewrite D2 in Ev'; have En := shape_vec_inj Ev; have En' := shape_vec_inj Ev'; subst n n'.
rewrite D3 in Es; rewrite D4 in Es'; case: Es => <-; case: Es' => <-; rewrite -(vec_inj Ev) -(vec_inj Ev').
by split; [exact/same_vecP|exact/same_scalP].
Qed.

Lemma hp_run t h : 0 < t -> proper_hp h -> exists d a1 a2, [/\ cl_dict (hp_cls R) false h = Ok d,
  form_comp_dict d (cl_nice (hp_cls R) false) (cl_trans (hp_cls R) (Fin t)) = Ok (pair2 "normal" "shift" "numpy.float64" a1 a2), wf_arr a1, wf_arr a2 & V_hp h a1 a2].
Proof.
move=> t0 [n [v [s [t' [Hr v0 Hs]]]]].
have n0 : (0 < n)%N by case: n v Hr v0 Hs => // v _ /eqP[]; apply/matrixP => -[].
have [r Er _] : exists2 r : R, h_rel h = Fin r & 0 < r by case: Hr.
eexists; exists (vec (canon_normal v s)), (np_scalar (Fin (canon_shift v s))); split.
- by rewrite /= (hp_2_dict_run false n0 Hr Er Hs v0).
- have Z2 : np_size (vec (canon_normal v s)) == 0%N = false by rewrite /np_size /= muln1 (gtn_eqF n0).
  by rewrite /= Z2.
- exact: wf_mkn.
- by [].
- by case: Hr => Ev Es _ _ _; exists n, v, s.
Qed.

Lemma hp_tol (h : hp R) : proper_hp h -> (exists2 t : R, cl_abs (hp_cls R) h = Fin t & 0 < t) /\ (exists2 t : R, cl_rel (hp_cls R) h = Fin t & 0 < t).
Proof. by move=> [n [v [s [t [[_ _ Ht t0 Hr] _ _]]]]]; split=> //; exists t. Qed.

Lemma hp_verdict (a b : arr (hp R)) : comparable a b -> (forall x, In x (data a) -> proper_hp x) -> (forall x, In x (data b) -> proper_hp x) ->
  exists at_ rt bs r,
    [/\ is_equal (hp_cls R) a b false = Ok (Arr (common_shape a b) bs, r), size bs = prodn (common_shape a b),
        no_report r = all id bs &
        [/\ least [seq h_abs e | e <- (data a ++ data b)%SEQ] at_, least [seq h_rel e | e <- (data a ++ data b)%SEQ] rt, 0 < at_, 0 < rt &
        forall i e0, (i < prodn (common_shape a b))%N -> nth false bs i <-> same_hp at_ rt (elt e0 a i) (elt e0 b i)]].
Proof.
move=> Hc Pa Pb.
have [|//|at_ [rt [bs [r [H1 H2 H3 [H4 H5 H6 H7 H]]]]]] := is_equal_run (k1 := "normal") (k2 := "shift") (ty2 := "numpy.float64") (V := V_hp) _ _ hp_tol hp_run Hc Pa Pb; first by [].
exists at_, rt, bs, r; split=> //; split=> // i e0 Hi.
have [a1 [a2 [b1 [b2 [V1 V2 ->]]]]] := H i e0 Hi; exact: V_hp_same.
Qed.

(** ** Reflexivity and symmetry *)
Lemma all_true (bs : seq bool) n : size bs = n -> (forall i, (i < n)%N -> nth false bs i) -> bs = nseq n true.
Proof. by elim: bs n => [|b bs IH] [|n] //= [Hs] H; rewrite -(IH n) //; [have := H 0%N isT => /= ->|move=> i; exact: (H i.+1)]. Qed.

Lemma comparable_refl T (a : arr T) : wf_arr a -> (0 < size (data a))%N -> comparable a a.
Proof. by move=> Wa na; split=> //; apply: Or31. Qed.
Lemma elt_in T x0 (a : arr T) i : wf_arr a -> (0 < size (data a))%N -> (i < size (data a))%N -> In (elt x0 a i) (data a).
Proof.
move=> _ na; rewrite /elt; case: eqP => [_ _|_]; first by case: (data a) na => // x s _; left.
elim: (data a) i {na} => // x s IH [_|i Hi]; [by left|by right; apply: IH].
Qed.
Lemma common_refl T (a : arr T) : common_shape a a = shape a.
Proof. by rewrite /common_shape if_same. Qed.

Lemma ell_refl la (a : arr (ell R)) : eigh_ok la -> wf_arr a -> (0 < size (data a))%N -> (forall x, In x (data a) -> valid x) ->
  exists2 r, is_equal (ell_cls la) a a false = Ok (Arr (shape a) (nseq (size (data a)) true), r) & no_report r.
Proof.
move=> Hla Wa na Pa; have [at_ [rt [bs [r [E Sb Hr [_ _ a0 _ H]]]]]] := ell_verdict Hla (comparable_refl Wa na) Pa Pa.
move: E Sb Hr H; rewrite !common_refl -(eqP Wa) => E Sb Hr H.
have Eb : bs = nseq (size (data a)) true.
  apply: all_true => // i Hi; have e0 : ell R by case: (data a) na => // x _ _; exact: x.
  by apply/(H i e0 Hi)/same_ell_refl; [apply/Pa/elt_in|apply: ltW].
by exists r; rewrite -?Eb // Hr Eb all_nseq orbT.
Qed.
Lemma hp_refl (a : arr (hp R)) : wf_arr a -> (0 < size (data a))%N -> (forall x, In x (data a) -> proper_hp x) ->
  exists2 r, is_equal (hp_cls R) a a false = Ok (Arr (shape a) (nseq (size (data a)) true), r) & no_report r.
Proof.
move=> Wa na Pa; have [at_ [rt [bs [r [E Sb Hr [_ _ a0 _ H]]]]]] := hp_verdict (comparable_refl Wa na) Pa Pa.
move: E Sb Hr H; rewrite !common_refl -(eqP Wa) => E Sb Hr H.
have Eb : bs = nseq (size (data a)) true.
  apply: all_true => // i Hi; have e0 : hp R by case: (data a) na => // x _ _; exact: x.
  by apply/(H i e0 Hi)/same_hp_refl; [apply/Pa/elt_in|apply: ltW].
by exists r; rewrite -?Eb // Hr Eb all_nseq orbT.
Qed.

Lemma least_swap T (f : T -> xnum R) s t m m' : least [seq f x | x <- (s ++ t)%SEQ] m -> least [seq f x | x <- (t ++ s)%SEQ] m' -> m = m'.
Proof.
have sub (u w : seq (xnum R)) (i : nat) : (i < size (u ++ w)%SEQ)%N -> exists2 j, (j < size (w ++ u)%SEQ)%N & nth NaN (w ++ u)%SEQ j = nth NaN (u ++ w)%SEQ i.
  rewrite !size_cat => Hi; case: (ltnP i (size u)) => H.
    by exists (size w + i)%N; [lia|rewrite !nth_cat H ltnNge leq_addr /= addKn].
  by exists (i - size u)%N; [lia|rewrite !nth_cat [(i < size u)%N]ltnNge H ifT //; lia].
have le u w (p q : R) : least (u ++ w)%SEQ p -> least (w ++ u)%SEQ q -> p <= q.
  move=> [_ H] [[i Hi Ei] _]; have [j Hj Ej] := sub _ _ _ Hi; have [x Ex Hx] := H j Hj.
  by move: Ex; rewrite Ej Ei => -[->].
by rewrite !map_cat => H H'; apply/eqP; rewrite eq_le (le _ _ _ _ H H') (le _ _ _ _ H' H).
Qed.

Lemma common_sym T (a b : arr T) : comparable a b -> comparable b a -> common_shape a b = common_shape b a.
Proof.
rewrite /common_shape => -[[/eqP Wa /eqP Wb na nb] H] [_ H'].
case: (ltnP 1 (size (data a))) => Ha; case: (ltnP 1 (size (data b))) => Hb //.
  by case: H => [//|[E _]|[E _ _]]; lia.
case: H => [->//|[E L]|[E L _]]; last by lia.
case: H' => [->//|[E' L']|[E' L' _]]; last by lia.
have P1 : prodn (shape a) = 1%N by lia.
have P2 : prodn (shape b) = 1%N by lia.
by rewrite (prodn1 P1) (prodn1 P2); congr nseq; apply/eqP; rewrite eqn_leq L L'.
Qed.

Lemma seq_iff (bs bs' : seq bool) n : size bs = n -> size bs' = n -> (forall i, (i < n)%N -> nth false bs i <-> nth false bs' i) -> bs = bs'.
Proof.
move=> S1 S2 H; apply: (@eq_from_nth _ false); first by rewrite S1.
by rewrite S1 => i Hi; apply/idP/idP => /(H i Hi).
Qed.

Lemma ell_sym la (a b : arr (ell R)) : eigh_ok la -> comparable a b -> comparable b a -> (forall x, In x (data a) -> valid x) -> (forall x, In x (data b) -> valid x) ->
  exists e r r', is_equal (ell_cls la) a b false = Ok (e, r) /\ is_equal (ell_cls la) b a false = Ok (e, r').
Proof.
move=> Hla Hab Hba Pa Pb; have [at_ [rt [bs [r [E S _ [La Lr _ _ H]]]]]] := ell_verdict Hla Hab Pa Pb.
have [at' [rt' [bs' [r' [E' S' _ [La' Lr' _ _ H']]]]]] := ell_verdict Hla Hba Pb Pa.
rewrite -(least_swap La La') -(least_swap Lr Lr') -(common_sym Hab Hba) in H' S' E'.
exists (Arr (common_shape a b) bs), r, r'; rewrite E E'; split=> //; congr (Ok (Arr _ _, _)); apply: seq_iff S' S _ => i Hi.
have e0 : ell R by case: Hab => -[_ _]; case: (data a) => // x _ _ _ _; exact: x.
by split=> [/(H' i e0 Hi)/same_ell_sym/(H i e0 Hi)|/(H i e0 Hi)/same_ell_sym/(H' i e0 Hi)].
Qed.
Lemma hp_sym (a b : arr (hp R)) : comparable a b -> comparable b a -> (forall x, In x (data a) -> proper_hp x) -> (forall x, In x (data b) -> proper_hp x) ->
  exists e r r', is_equal (hp_cls R) a b false = Ok (e, r) /\ is_equal (hp_cls R) b a false = Ok (e, r').
Proof.
move=> Hab Hba Pa Pb; have [at_ [rt [bs [r [E S _ [La Lr _ _ H]]]]]] := hp_verdict Hab Pa Pb.
have [at' [rt' [bs' [r' [E' S' _ [La' Lr' _ _ H']]]]]] := hp_verdict Hba Pb Pa.
rewrite -(least_swap La La') -(least_swap Lr Lr') -(common_sym Hab Hba) in H' S' E'.
exists (Arr (common_shape a b) bs), r, r'; rewrite E E'; split=> //; congr (Ok (Arr _ _, _)); apply: seq_iff S' S _ => i Hi.
have e0 : hp R by case: Hab => -[_ _]; case: (data a) => // x _ _ _ _; exact: x.
by split=> [/(H' i e0 Hi)/same_hp_sym/(H i e0 Hi)|/(H i e0 Hi)/same_hp_sym/(H' i e0 Hi)].
Qed.
End Entries.
