(** Proofs about abs_rel_compare (Model/Compare.v). *)
From mathcomp Require Import all_ssreflect all_algebra ring.
Require Import Coq.Strings.String.
From Verif.Model Require Import Py NP Compare.
From Verif.Spec Require Import CompareSpec.
From Verif.Proof Require Import NPLib.
Set Implicit Arguments.
Unset Strict Implicit.
Unset Printing Implicit Defensive.
Import Order.Theory GRing.Theory Num.Theory.
Local Open Scope ring_scope.

Section CP.
Variable R : rcfType.
Notation X := (xnum R).
Notation A := (arr X).

Lemma rbind_ok T U (x : T) (f : T -> res U) : rbind (Ok x) f = f x.
Proof. by []. Qed.

Lemma xle_within (d : R) (t : X) : legal_tol t -> reflect (within d t) (xle (Fin d) t).
Proof.
case: t => [t| | |] //= _; first by rewrite xleE; apply: idP.
by apply: (iffP idP).
Qed.

Lemma xgt_within (d : R) (t : X) : legal_tol t -> xgt (Fin d) t = ~~ xle (Fin d) t.
Proof. by case: t => [t| | |] //= _; rewrite xleE /xgt /= ltNge. Qed.

Lemma xge_legal (t : X) : xge t x0 -> legal_tol t.
Proof. by case: t => [t| | |] //=; rewrite /xge xleE. Qed.
Lemma legal_xge (t : X) : legal_tol t -> xge t x0.
Proof. by case: t => [t| | |] //=; rewrite /xge xleE. Qed.

Lemma xle_max (a b : R) (t : X) :
  xle (Fin (Num.max a b)) t = xle (Fin a) t && xle (Fin b) t.
Proof.
case: t => [t| | |] //=; first by rewrite !xleE le_maxl.
Qed.

Lemma amax_fin_cons (a : R) s : amax [seq Fin x | x <- a :: s] = Fin (foldl Num.max a s).
Proof.
rewrite /=; elim: s a => //= b s IH a; by rewrite xmaxE IH.
Qed.

Lemma amax_le (s : seq R) (t : X) : s != [::] ->
  xle (amax [seq Fin x | x <- s]) t = all (fun x => xle (Fin x) t) s.
Proof.
case: s => // a s _; rewrite amax_fin_cons /=.
elim: s a => [|b s IH] a /=; first by rewrite andbT.
by rewrite IH xle_max andbA.
Qed.

Lemma amax_fin (s : seq R) : s != [::] -> exists2 x, amax [seq Fin x | x <- s] = Fin x &
  x \in s /\ forall y, y \in s -> y <= x.
Proof.
case: s => // a s _; rewrite amax_fin_cons; exists (foldl Num.max a s) => //.
elim: s a => [|b s IH] a /=.
  by rewrite inE eqxx; split=> // y; rewrite inE => /eqP->.
have [H1 H2] := IH (Num.max a b); split.
  move: H1; rewrite !inE => /orP[/eqP->|->]; last by rewrite !orbT.
  by case: leP => _; rewrite eqxx ?orbT.
move=> y; rewrite !inE => /or3P[/eqP->|/eqP->|y_in].
- by apply: le_trans (H2 _ (mem_head _ _)); rewrite le_maxr lexx.
- by apply: le_trans (H2 _ (mem_head _ _)); rewrite le_maxr lexx orbT.
- by apply: H2; rewrite inE y_in orbT.
Qed.

(** ------------------------------------------------- arrays of the same shape as pair lists *)
Lemma data_mkn2 (f : X -> X -> X) (l r : A) : wf_arr l -> wf_arr r -> shape l = shape r ->
  data (mkn (shape l) (fun idx => f (getn NaN l idx) (getn NaN r idx))) =
  [seq f p.1 p.2 | p <- zip (data l) (data r)].
Proof.
move=> wl wr E; apply: (@eq_from_nth _ NaN).
  by rewrite size_mkn size_map size_zip (eqP wl) (eqP wr) -E minnn.
move=> k; rewrite size_mkn => lt_k.
rewrite (nth_map [::]) ?size_indices // (nth_map (NaN, NaN)); last first.
  by rewrite size_zip (eqP wl) (eqP wr) -E minnn.
by rewrite nth_zip ?(eqP wl) ?(eqP wr) -?E // /getn -?E indices_ravel.
Qed.

Lemma np_bin_zip (f : X -> X -> X) (l r : A) : wf_arr l -> wf_arr r -> shape l = shape r ->
  np_bin f l r = Ok (Arr (shape l) [seq f p.1 p.2 | p <- zip (data l) (data r)]).
Proof. by move=> wl wr E; rewrite np_bin_same // -(data_mkn2 f wl wr E). Qed.

(** pointwise statement over multi-indices = statement over the data lists *)
Lemma forall_idx (P : X -> X -> Prop) (l r : A) : wf_arr l -> wf_arr r -> shape l = shape r ->
  (forall idx, valid_idx (shape l) idx -> P (getn NaN l idx) (getn NaN r idx)) <->
  (forall k, (k < size (data l))%N -> P (nth NaN (data l) k) (nth NaN (data r) k)).
Proof.
move=> wl wr E; split=> H.
  move=> k lt_k; have lt_k' : (k < prodn (shape l))%N by rewrite -(eqP wl).
  have := H (nth [::] (indices (shape l)) k); rewrite /getn -E indices_ravel //; apply.
  by rewrite -indices_valid mem_nth // size_indices.
by move=> idx Hv; rewrite /getn -E; apply: H; rewrite (eqP wl); apply: valid_ravel.
Qed.

(** the finite representatives: non-finite entries are replaced by 0 *)
Definition fval (x : X) : R := if x is Fin a then a else 0.

Definition pairs (l r : A) : seq (R * R) :=
  [seq (fval p.1, fval p.2) | p <- zip (data l) (data r)].

Lemma masks_same_kind (l r : A) : size (data l) = size (data r) ->
  [&& same_mask (@xis_nan R) l r, same_mask (@xis_fin R) l r, same_mask (@is_pinf R) l r &
      same_mask (@is_ninf R) l r] = all (fun p => same_kind p.1 p.2) (zip (data l) (data r)).
Proof.
rewrite /same_mask; elim: (data l) (data r) => [|x s IH] [|y t] //= [/IH <-].
by case: x => [x| | |]; case: y => [y| | |] //=;
   rewrite ?eqseq_cons /= ?andbF ?andFb.
Qed.

Lemma zero_data (l r : A) : size (data l) = size (data r) ->
  all (fun p => same_kind p.1 p.2) (zip (data l) (data r)) ->
  let m := [seq ~~ xis_fin x | x <- data l] in
  (if has id m then zero_at m l else l) = Arr (shape l) [seq Fin (fval x) | x <- data l] /\
  (if has id m then zero_at m r else r) = Arr (shape r) [seq Fin (fval x) | x <- data r].
Proof.
move=> Es Hk m.
have Hz (s : seq X) : [seq (if p.1 then x0 else p.2) | p <- zip [seq ~~ xis_fin x | x <- s] s] =
    [seq Fin (fval x) | x <- s].
  by elim: s => //= x s ->; case: x.
have Hz2 : [seq (if p.1 then x0 else p.2) | p <- zip m (data r)] =
    [seq Fin (fval x) | x <- data r].
  rewrite /m; move: Es Hk; rewrite /=; elim: (data l) (data r) => [|x s IH] [|y t] //= [Es] /andP[Hxy Hk].
  by rewrite IH //; case: x y Hxy => [x| | |] [y| | |].
case: ifP => Hm.
  by rewrite /zero_at Hz2 /m Hz; case: (l); case: (r).
have Hf : all (@xis_fin R) (data l).
  by move/negbT: Hm; rewrite -all_predC /m all_map; apply: sub_all => x /=; rewrite negbK.
have Hf2 : all (@xis_fin R) (data r).
  move: Es Hk Hf; rewrite /=; elim: (data l) (data r) => [|x s IH] [|y t] //= [Es] /andP[Hxy Hk] /andP[Hx Hs].
  by rewrite IH // andbT; case: x y Hxy Hx => [x| | |] [y| | |].
have Hid (s : seq X) : all (@xis_fin R) s -> [seq Fin (fval x) | x <- s] = s.
  by elim: s => //= -[x| | |] s IH //= /IH->.
by rewrite !Hid //; case: (l); case: (r).
Qed.

(** verdict on pairs of reals *)
Definition pair_ok (at_ : X) (rt : option X) (p : R * R) : bool :=
  xle (Fin `|p.1 - p.2|) at_ ||
  (if rt is Some t then xle (Fin (`|p.1 - p.2| / ((`|p.1| + `|p.2|) / 2%:R))) t else false).

Lemma dist_le_sum (a b : R) : `|a - b| <= `|a| + `|b|.
Proof. by rewrite -[`|b|]normrN; apply: ler_norm_add. Qed.

Lemma compare_finite_spec (l r : A) (at_ : X) (rt : option X) :
  wf_arr l -> wf_arr r -> shape l = shape r ->
  all (fun p => same_kind p.1 p.2) (zip (data l) (data r)) ->
  legal_tol at_ -> (forall t, rt = Some t -> legal_tol t) ->
  exists o, compare_finite l r at_ rt (fun a => Ok (np_abs a)) = Ok o /\
    co_equal o = all (pair_ok at_ rt) (pairs l r) /\
    (co_equal o -> co_report o = RepNone) /\ (~~ co_equal o -> co_report o <> RepNone) /\
    co_abs_diff o = (if pairs l r is [::] then None
                     else Some (amax [seq Fin `|p.1 - p.2| | p <- pairs l r])).
Proof.
move=> wl wr E Hk Ha Hr.
have Es : size (data l) = size (data r) by rewrite (eqP wl) (eqP wr) E.
rewrite /compare_finite.
have [-> ->] := zero_data Es Hk.
set l' := Arr (shape l) _; set r' := Arr (shape r) _.
have wl' : wf_arr l' by rewrite /wf_arr /= size_map.
have wr' : wf_arr r' by rewrite /wf_arr /= size_map.
have El' : shape l' = shape r' by [].
rewrite /np_sub np_bin_zip // !rbind_ok; cbv beta zeta.
set diff := np_abs _.
have Ed : data diff = [seq Fin x | x <- [seq `|p.1 - p.2| | p <- pairs l r]].
  rewrite /diff /np_abs /= /pairs -!map_comp.
  by elim: (data l) (data r) {Es Hk wl wr E l' r' wl' wr' El' diff} => [|x s IH] [|y t] //=; rewrite IH.
have Sp : size (pairs l r) = size (data l) by rewrite size_map size_zip -Es minnn.
have Ene : (np_size diff != 0%N) = (pairs l r != [::]).
  by rewrite /np_size /= -(eqP wl) -Sp; case: (pairs l r).
rewrite Ed Ene.
set ds := [seq `|p.1 - p.2| | p <- pairs l r].
have eq0 : (if pairs l r != [::] then xle (amax [seq Fin x | x <- ds]) at_ else true) =
   all (fun p => xle (Fin `|p.1 - p.2|) at_) (pairs l r).
  case: ifP => [ne|/negbT]; last by rewrite negbK => /eqP->.
  by rewrite amax_le /ds ?all_map //; case: (pairs l r) ne.
rewrite eq0.
have Hads : (if pairs l r != [::] then Some (amax [seq Fin x | x <- ds]) else None) =
   (if pairs l r is [::] then None else Some (amax [seq Fin `|p.1 - p.2| | p <- pairs l r])).
  by rewrite /ds -map_comp; case: (pairs l r).
rewrite Hads.
have fin_eq (e : bool) (ad : option X) tr rd am : 
   e = all (pair_ok at_ rt) (pairs l r) ->
   ad = (if pairs l r is [::] then None else Some (amax [seq Fin `|p.1 - p.2| | p <- pairs l r])) ->
   exists o, Ok (CmpOut e ad tr rd am (if e then RepNone
       else if tr then RepRel rd (odflt NaN rt) am at_ else RepAbs ad at_)) = Ok o /\
    co_equal o = all (pair_ok at_ rt) (pairs l r) /\
    (co_equal o -> co_report o = RepNone) /\ (~~ co_equal o -> co_report o <> RepNone) /\
    co_abs_diff o = (if pairs l r is [::] then None
                     else Some (amax [seq Fin `|p.1 - p.2| | p <- pairs l r])).
  move=> He Had; eexists; split; first by reflexivity.
  split=> //=; split; first by move=> ->.
  by split=> // /negbTE->; case: tr.
case: rt Hr fin_eq => [t|] Hr fin_eq; last first.
  apply: fin_eq => //; apply: eq_all => p; by rewrite /pair_ok orbF.
case: ifP => [ne|/negbT]; last first.
  rewrite negbK => /eqP Enil; apply: fin_eq => //; by rewrite Enil.
have Ht := Hr t erefl.
case: ifP => [Htrig|/negbT Htrig]; last first.
  apply: fin_eq => //.
  have Hall : all (fun p => xle (Fin `|p.1 - p.2|) at_) (pairs l r).
    move: Htrig; rewrite -all_predC all_map /= all_map /ds all_map; apply: sub_all => p /=.
    by rewrite xgt_within // negbK.
  rewrite Hall; apply/esym; move: Hall; apply: sub_all => p; by rewrite /pair_ok => ->.
rewrite !rbind_ok; cbv beta zeta.
rewrite /np_add np_bin_zip; first last.
- by [].
- by rewrite /wf_arr /= !size_map.
- by rewrite /wf_arr /= !size_map.
rewrite !rbind_ok; cbv beta zeta.
set sm := map _ (zip _ _).
have Esm : sm = [seq Fin x | x <- [seq `|p.1| + `|p.2| | p <- pairs l r]].
  rewrite /sm /pairs /= -!map_comp.
  by elim: (data l) (data r) {Es Hk wl wr E l' r' wl' wr' El' diff Ed Sp Ene ds eq0 Hads fin_eq ne Htrig sm} => [|x s IH] [|y u] //=; rewrite IH.
rewrite eqxx Esm.
set trig := map _ (zip _ _).
have Etrig : trig = [seq ~~ xle (Fin `|p.1 - p.2|) at_ | p <- pairs l r].
  rewrite /trig /ds; elim: (pairs l r) => //= p s ->; congr (_ :: _).
  rewrite !xgt_within //; case: (boolP (xle (Fin `|p.1 - p.2|) at_)) => //= Hn.
  apply/negP => Hs; case/negP: Hn; apply/xle_within => //.
  move/xle_within: Hs => /(_ Ha); case: (at_) Ha => //= a _; apply: le_trans; exact: dist_le_sum.
have -> : has id trig.
  move: Htrig; rewrite Etrig /ds; elim: (pairs l r) => //= p s IH.
  by case/orP=> [|/IH ->]; rewrite ?orbT // xgt_within // => ->.
rewrite !rbind_ok; cbv beta zeta.
apply: fin_eq => //.
have Ew1 : where0 (map negb trig) [seq Fin x | x <- ds] =
    [seq Fin x | x <- [seq (if xle (Fin `|p.1 - p.2|) at_ then `|p.1 - p.2| else 0) | p <- pairs l r]].
  rewrite Etrig /where0 /ds; elim: (pairs l r) => //= p s ->; congr (_ :: _).
  by rewrite negbK; case: ifP.
have Ew2 : where0 trig [seq xdiv (xmul (Fin 2%:R) p.1) p.2 | p <- zip [seq Fin x | x <- ds]
     [seq Fin x | x <- [seq `|p.1| + `|p.2| | p <- pairs l r]]] =
   [seq Fin x | x <- [seq (if xle (Fin `|p.1 - p.2|) at_ then 0
                           else `|p.1 - p.2| / ((`|p.1| + `|p.2|) / 2%:R)) | p <- pairs l r]].
  rewrite Etrig /where0 /ds; elim: (pairs l r) => //= p s ->; congr (_ :: _).
  case: (boolP (xle (Fin `|p.1 - p.2|) at_)) => //= Hn.
  rewrite ifN; last first.
    apply/eqP => H0; case/negP: Hn; apply/xle_within => //.
    have Hd : `|p.1 - p.2| <= 0 by rewrite -H0; exact: dist_le_sum.
    by case: (at_) Ha => //= a Ha; apply: le_trans Ha.
  by congr Fin; rewrite invf_div mulrCA mulrA.
rewrite Ew1 Ew2 !amax_le; first last.
- by case: (pairs l r) ne.
- by case: (pairs l r) ne.
elim: (pairs l r) => //= p s <-; rewrite andbACA; congr (_ && _); rewrite /pair_ok.
case: (boolP (xle (Fin `|p.1 - p.2|) at_)) => [->|Hn] /=.
  by apply/xle_within => //; case: (t) Ht.
by rewrite andbC; case: xle => //=; apply/xle_within => //; case: (at_) Ha.
Qed.

(** ------------------------------------------------- C06: the verdict *)
Lemma close_pair (at_ : X) rt (x y : X) :
  legal_tol at_ -> (forall t, rt = Some t -> legal_tol t) ->
  reflect (close at_ rt x y) (same_kind x y && pair_ok at_ rt (fval x, fval y)).
Proof.
move=> Ha Hr; apply: (iffP idP).
  case: x y => [a| | |] [b| | |] //=; rewrite /pair_ok /= => /orP[/xle_within H|].
    by left; apply: H.
  case: rt Hr => // t Hr /xle_within H; right; exists t => //; exact: H (Hr _ erefl).
have tr : pair_ok at_ rt (0, 0).
  by rewrite /pair_ok /= subrr normr0; apply/orP; left; apply/xle_within => //; case: (at_) Ha.
case: x y => [a| | |] [b| | |] //= [H|[t Et H]]; rewrite /pair_ok /=.
  by apply/orP; left; apply/xle_within.
by apply/orP; right; rewrite Et; apply/xle_within => //; apply: Hr.
Qed.

Lemma compare_verdict (l r : A) (at_ : X) (rt : tolarg R) rt' :
  wf_arr l -> wf_arr r -> shape l = shape r -> legal_tol at_ ->
  (rt = TNone /\ rt' = None \/ exists2 t, rt = TVal t /\ rt' = Some t & legal_tol t) ->
  exists2 o, abs_rel_compare l r (TVal at_) rt (abs_op R) = Ok o &
    (co_equal o <->
     forall idx, valid_idx (shape l) idx -> close at_ rt' (getn NaN l idx) (getn NaN r idx)) /\
    (co_equal o <-> co_report o = RepNone).
Proof.
move=> wl wr E Ha Hrt.
have Es : size (data l) = size (data r) by rewrite (eqP wl) (eqP wr) E.
have Hr : forall t, rt' = Some t -> legal_tol t.
  by case: Hrt => [[_ ->]|[t [_ ->] Ht]] // u [<-].
have -> : abs_rel_compare l r (TVal at_) rt (abs_op R) =
  (let fail rep := Ok (CmpOut false (Some NaN) false (Some NaN) (Some NaN) rep) in
      if ~~ same_mask (@xis_nan R) l r then fail RepNan
      else if ~~ same_mask (@xis_fin R) l r then fail RepFinite
      else if ~~ (same_mask (@is_pinf R) l r && same_mask (@is_ninf R) l r) then fail RepInf
      else compare_finite l r at_ rt' (fun a => Ok (np_abs a))).
  rewrite /abs_rel_compare E eqxx /= legal_xge //=.
  by case: Hrt => [[-> ->]|[t [-> ->] /legal_xge Ht]] //=; rewrite Ht.
have Hall : (forall idx, valid_idx (shape l) idx -> close at_ rt' (getn NaN l idx) (getn NaN r idx))
  <-> all (fun p => same_kind p.1 p.2) (zip (data l) (data r)) && all (pair_ok at_ rt') (pairs l r).
  rewrite (forall_idx (close at_ rt')) // /pairs all_map -all_predI.
  split=> H.
    apply/(all_nthP (NaN, NaN)) => k; rewrite size_zip -Es minnn => lt_k; rewrite nth_zip //=.
    by apply/close_pair => //; apply: H.
  move=> k lt_k; apply/close_pair => //; move/(all_nthP (NaN, NaN)): H => /(_ k).
  by rewrite size_zip -Es minnn nth_zip //= => ->.
suff [o Ho [H1 H2]] : exists2 o, (let fail rep := Ok (CmpOut false (Some NaN) false (Some NaN) (Some NaN) rep) in
      if ~~ same_mask (@xis_nan R) l r then fail RepNan
      else if ~~ same_mask (@xis_fin R) l r then fail RepFinite
      else if ~~ (same_mask (@is_pinf R) l r && same_mask (@is_ninf R) l r) then fail RepInf
      else compare_finite l r at_ rt' (fun a => Ok (np_abs a))) = Ok o &
    (co_equal o <-> all (fun p => same_kind p.1 p.2) (zip (data l) (data r)) &&
       all (pair_ok at_ rt') (pairs l r)) /\ (co_equal o <-> co_report o = RepNone).
  by exists o => //; split=> //; rewrite H1 Hall.
rewrite -masks_same_kind //.
case: (boolP (same_mask (@xis_nan R) l r)) => M1 //=; last by eexists; [reflexivity|].
case: (boolP (same_mask (@xis_fin R) l r)) => M2 //=; last by eexists; [reflexivity|].
case: (boolP (same_mask (@is_pinf R) l r)) => M3 //=; last by eexists; [reflexivity|].
case: (boolP (same_mask (@is_ninf R) l r)) => M4 //=; last by eexists; [reflexivity|].
have Hk : all (fun p => same_kind p.1 p.2) (zip (data l) (data r)).
  by rewrite -masks_same_kind // M1 M2 M3 M4.
have [o [-> [He [H1 [H2 _]]]]] := compare_finite_spec wl wr E Hk Ha Hr.
exists o => //; rewrite He; split=> //; rewrite -He; split=> // Hn.
by apply: contraT => /H2.
Qed.

(** the reported absolute difference is the largest |a-b| over the finite entries *)
Lemma compare_abs_diff (l r : A) (at_ : X) (rt : tolarg R) o :
  wf_arr l -> wf_arr r -> shape l = shape r -> data l <> [::] ->
  (forall idx, valid_idx (shape l) idx -> same_kind (getn NaN l idx) (getn NaN r idx)) ->
  abs_rel_compare l r (TVal at_) rt (abs_op R) = Ok o ->
  exists2 d, co_abs_diff o = Some (Fin d) &
   (forall idx a b, valid_idx (shape l) idx -> getn NaN l idx = Fin a -> getn NaN r idx = Fin b ->
      `|a - b| <= d) /\
   (d = 0 \/ exists idx a b, [/\ valid_idx (shape l) idx, getn NaN l idx = Fin a,
      getn NaN r idx = Fin b & d = `|a - b|]).
Proof.
move=> wl wr E Hne Hsk.
have Es : size (data l) = size (data r) by rewrite (eqP wl) (eqP wr) E.
have Hk : all (fun p => same_kind p.1 p.2) (zip (data l) (data r)).
  move/(forall_idx (fun x y => is_true (same_kind x y)) wl wr E): Hsk => Hsk.
  by apply/(all_nthP (NaN, NaN)) => k; rewrite size_zip -Es minnn => lt_k; rewrite nth_zip //=; apply: Hsk.
have := Hk; rewrite -masks_same_kind // => /and4P[M1 M2 M3 M4].
rewrite /abs_rel_compare E eqxx /=; case: ifP => // /negbFE/xge_legal Ha.
case Ert : (match rt with TNone => _ | TBad => _ | TVal v => _ end) => [rt'|] //=.
rewrite M1 M2 M3 M4 /= => Ho.
have Hr : forall t, rt' = Some t -> legal_tol t.
  case: rt Ert => [|//|v] /=; first by case=> <-.
  by case: ifP => // /negbFE/xge_legal Hv [<-] t [<-].
have [o' []] := compare_finite_spec wl wr E Hk Ha Hr.
rewrite Ho => -[<-] [_ [_ [_ ->]]].
have Sp : size (pairs l r) = size (data l) by rewrite size_map size_zip -Es minnn.
have Pne : [seq `|p.1 - p.2| | p <- pairs l r] != [::].
  by move: Hne Sp; case: (data l) => // x s _; case: (pairs l r).
have [d Hd [d_in d_max]] := amax_fin Pne.
have -> : (match pairs l r with [::] => None | _ :: _ => Some (amax [seq Fin `|p.1 - p.2| | p <- pairs l r]) end)
   = Some (Fin d).
  move: Pne Hd; case: (pairs l r) => //= p s _; by rewrite -map_comp => ->.
rewrite -E; exists d => //; split.
  move=> idx a b Hv Ea Eb; apply: d_max; apply/mapP; exists (a, b) => //.
  apply/(nthP (0, 0)); exists (ravel (shape l) idx).
    by rewrite Sp (eqP wl); apply: valid_ravel.
  rewrite (nth_map (NaN, NaN)); last by rewrite size_zip -Es minnn (eqP wl); apply: valid_ravel.
  by rewrite nth_zip //; move: Ea Eb; rewrite /getn -E => -> ->.
case/mapP: d_in => p /(nthP (0, 0))[k]; rewrite Sp => lt_k <- ->.
rewrite (nth_map (NaN, NaN)) ?size_zip -?Es ?minnn // nth_zip //=.
have := all_nthP (NaN, NaN) Hk k; rewrite size_zip -Es minnn nth_zip //= => /(_ lt_k).
case El : (nth NaN (data l) k) => [a| | |]; case Er : (nth NaN (data r) k) => [b| | |] //= _;
  try by left; rewrite subrr normr0.
right; exists (nth [::] (indices (shape l)) k), a, b.
have lt_k' : (k < prodn (shape l))%N by rewrite -(eqP wl).
by split=> //; rewrite ?/getn -?E ?indices_ravel // -indices_valid mem_nth // size_indices.
Qed.

Lemma compare_shape (l r : A) at_ rt f : shape l <> shape r ->
  abs_rel_compare l r at_ rt f = throw "wrongInput:wrongArgs".
Proof. by move=> /eqP/negbTE Hs; rewrite /abs_rel_compare Hs. Qed.

Lemma compare_bad_tol (l r : A) at_ rt f : shape l = shape r ->
  (forall t, at_ = TVal t -> ~ legal_tol t) ->
  abs_rel_compare l r at_ rt f = throw "wrongInput:wrongAbsTol".
Proof.
move=> Hs Ha; rewrite /abs_rel_compare Hs eqxx /=; case: at_ Ha => // t /(_ t erefl) Hn.
by case: ifP => // /negbFE/xge_legal.
Qed.

Lemma compare_bad_rel (l r : A) at_ rt f : shape l = shape r -> legal_tol at_ ->
  rt <> TNone -> (forall t, rt = TVal t -> ~ legal_tol t) ->
  abs_rel_compare l r (TVal at_) rt f = throw "wrongInput:wrongRelTol".
Proof.
move=> Hs /legal_xge Ha Hn Hr; rewrite /abs_rel_compare Hs eqxx /= Ha /=.
case: rt Hn Hr => // t _ /(_ t erefl) Hn.
by case: ifP => //= /negbFE/xge_legal.
Qed.

(** ------------------------------------------------- C07 *)
Lemma xabs_subC (x y : X) : xabs (xsub x y) = xabs (xsub y x).
Proof. by case: x y => [x| | |] [y| | |] //; rewrite !xsubE /= distrC. Qed.

Lemma xaddC (x y : X) : xadd x y = xadd y x.
Proof. by case: x y => [x| | |] [y| | |] //=; rewrite addrC. Qed.

Lemma wf_zero_at m (a : A) : size m = size (data a) -> wf_arr a -> wf_arr (zero_at m a).
Proof. by move=> Em wa; rewrite /wf_arr /= size_map size_zip Em minnn. Qed.

Lemma map_zipC (f : X -> X -> X) (s t : seq X) : (forall x y, f x y = f y x) ->
  [seq f p.1 p.2 | p <- zip s t] = [seq f p.1 p.2 | p <- zip t s].
Proof. by move=> fC; elim: s t => [|x s IH] [|y t] //=; rewrite IH fC. Qed.

Lemma compare_sym (l r : A) at_ rt :
  wf_arr l -> wf_arr r ->
  abs_rel_compare l r at_ rt (abs_op R) = abs_rel_compare r l at_ rt (abs_op R).
Proof.
move=> wl wr; rewrite /abs_rel_compare /same_mask.
case: (eqVneq (shape l) (shape r)) => [E|Hne]; last by [].
case: at_ => [//|//|at_]; case: ifP => // _.
case: (match rt with TNone => _ | TBad => _ | TVal v => _ end) => [rt'|] //=.
rewrite [map _ (data r) == _]eq_sym; case: ifP => // _.
rewrite [map _ (data r) == _]eq_sym; case: (eqVneq (map (@xis_fin R) (data l)) _) => //= Mf.
rewrite [map _ (data r) == map (@is_pinf R) _]eq_sym [map _ (data r) == map (@is_ninf R) _]eq_sym.
case: ifP => // _.
rewrite /compare_finite.
have -> : [seq ~~ xis_fin x | x <- data l] = [seq ~~ xis_fin x | x <- data r].
  by rewrite !(map_comp negb (@xis_fin R)) Mf.
have Es : size (data l) = size (data r) by rewrite (eqP wl) (eqP wr) E.
set m := [seq ~~ xis_fin x | x <- data r].
set l' := if has id m then _ else _; set r' := if has id m then zero_at m r else r.
have El' : shape l' = shape r' by rewrite /l' /r'; case: ifP.
have wl' : wf_arr l' by rewrite /l'; case: ifP => // _; apply: wf_zero_at => //; rewrite size_map.
have wr' : wf_arr r' by rewrite /r'; case: ifP => // _; apply: wf_zero_at => //; rewrite size_map.
rewrite /np_sub !np_bin_zip // !rbind_ok.
set dl := np_abs (Arr (shape l') _); set dr := np_abs (Arr (shape r') _).
have -> : dr = dl.
  rewrite /dl /dr /np_abs /np_map /= El' -!map_comp; congr Arr.
  move: (data l') (data r'); elim=> [|x s IH] [|y t] //=.
  by rewrite IH [in LHS]xabs_subC.
case: rt' => [t|] //; rewrite !rbind_ok.
have -> : np_add (np_abs r') (np_abs l') = np_add (np_abs l') (np_abs r').
  rewrite /np_add !np_bin_zip ?/wf_arr ?size_map //=.
  by rewrite El' (@map_zipC (@xadd R)) //; exact: xaddC.
by [].
Qed.

Lemma close_refl at_ rt (x : X) : legal_tol at_ -> close at_ rt x x.
Proof. by case: x => //= a Ha; left; rewrite subrr normr0; case: at_ Ha. Qed.

Lemma compare_refl (l : A) at_ rt : wf_arr l -> legal_tol at_ ->
  (rt = TNone \/ exists2 t, rt = TVal t & legal_tol t) ->
  exists2 o, abs_rel_compare l l (TVal at_) rt (abs_op R) = Ok o &
     co_equal o /\ co_report o = RepNone.
Proof.
move=> wl Ha Hrt.
have [rt' Hrt'] : exists rt', rt = TNone /\ rt' = None \/ exists2 t, rt = TVal t /\ rt' = Some t & legal_tol t.
  by case: Hrt => [->|[t -> Ht]]; [exists None; left|exists (Some t); right; exists t].
have [o Ho [H1 H2]] := compare_verdict wl wl erefl Ha Hrt'.
have He : co_equal o by apply/H1 => idx _; apply: close_refl.
by exists o => //; split=> //; apply/H2.
Qed.

Lemma within_le d (s t : X) : tol_le s t -> within d s -> within d t.
Proof. by case: s t => [s| | |] [t| | |] //= Hst Hd; apply: le_trans Hst. Qed.

Lemma compare_mono (l r : A) at1 at2 rt1 rt2 o1 :
  wf_arr l -> wf_arr r -> tol_le at1 at2 -> 
  match rt1, rt2 with
  | TNone, TNone => True | TNone, TVal t => legal_tol t
  | TVal s, TVal t => tol_le s t | _, _ => False end ->
  abs_rel_compare l r (TVal at1) rt1 (abs_op R) = Ok o1 -> co_equal o1 ->
  exists2 o2, abs_rel_compare l r (TVal at2) rt2 (abs_op R) = Ok o2 & co_equal o2.
Proof.
move=> wl wr Hat Hrt H1 He1.
have E : shape l = shape r.
  by apply/eqP; apply: contraT => Hs; move: H1; rewrite /abs_rel_compare Hs.
have L1 : legal_tol at1.
  by move: H1; rewrite /abs_rel_compare E eqxx /=; case: ifP => // /negbFE/xge_legal.
have L2 : legal_tol at2 by move: Hat L1; case: (at1) (at2) => [a| | |] [b| | |] //= Hab Ha; apply: le_trans Hab.
have Hb1 : rt1 <> TBad by move=> Hb; move: Hrt; rewrite Hb.
have [rt1' Hr1] : exists rt', rt1 = TNone /\ rt' = None \/ exists2 t, rt1 = TVal t /\ rt' = Some t & legal_tol t.
  case: rt1 H1 Hb1 {Hrt} => [|//|t] H1 _; first by exists None; left.
  exists (Some t); right; exists t => //; move: H1; rewrite /abs_rel_compare E eqxx /= legal_xge //=.
  by case: ifP => // /negbFE/xge_legal.
have Hr2 : exists2 rt', rt2 = TNone /\ rt' = None \/ (exists2 t, rt2 = TVal t /\ rt' = Some t & legal_tol t)
   & forall d t, rt1' = Some t -> within d t -> exists2 u, rt' = Some u & within d u.
  case: Hr1 Hrt => [[-> ->]|[t [-> ->] Ht]]; case: rt2 => [|//|u] // Hu.
  - by exists None => //; left.
  - by exists (Some u) => //; right; exists u.
  - exists (Some u); last by move=> d v [<-] /(within_le Hu) Hd; exists u.
    right; exists u => //; by case: (t) (u) Hu Ht => [a| | |] [b| | |] //= Hab Ha; apply: le_trans Hab.
have [rt2' Hr2' Hsub] := Hr2.
have [o1' H1' [V1 _]] := compare_verdict wl wr E L1 Hr1.
have [o2 H2' [V2 _]] := compare_verdict wl wr E L2 Hr2'.
exists o2 => //; apply/V2 => idx Hv.
have : co_equal o1' by move: H1'; rewrite H1 => -[<-].
move/V1 => /(_ idx Hv); rewrite /close.
case: (getn NaN l idx) (getn NaN r idx) => [a| | |] [b| | |] // [H|[t Et Ht]].
  by left; apply: within_le H.
by right; have [u Eu Hu] := Hsub _ _ Et Ht; exists u.
Qed.

End CP.
