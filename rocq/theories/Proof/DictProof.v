(** Proofs about dict_compare. *)
Require Import Coq.Lists.List Coq.Sorting.Permutation.
From mathcomp Require Import all_ssreflect all_algebra.
From mathcomp.zify Require Import zify.
Require Import Coq.Strings.String.
From Verif.Model Require Import Py NP Compare Dict.
From Verif.Spec Require Import CompareSpec DictSpec.
From Verif.Proof Require Import NPLib CompareProof.
Set Implicit Arguments.
Unset Strict Implicit.
Unset Printing Implicit Defensive.
Import Order.Theory GRing.Theory Num.Theory.
Local Open Scope ring_scope.

Section DictP.
Variable R : rcfType.
Notation value := (value R).
Notation el := (@el R).
Implicit Types (v w x y : value) (d : seq (string * value)) (l : seq value).

Lemma vind (P : value -> Prop) :
  (forall ty k a, P (VNum ty k a)) -> (forall s, P (VStr _ s)) -> (forall ty i, P (VOther _ ty i)) ->
  (forall l, (forall i, (i < size l)%N -> P (el l i)) -> P (VList l)) ->
  (forall sh l, (forall i, (i < size l)%N -> P (el l i)) -> P (VObj sh l)) ->
  (forall d, (forall k v, dget d k = Some v -> P v) -> P (VDict d)) -> forall v, P v.
Proof.
move=> Hn Hs Ho Hl Hb Hd; fix IH 1; case=> [ty k a|s|ty i|l|sh l|d]; [exact: Hn|exact: Hs|exact: Ho| | |].
- apply: Hl; elim: l => [i H|v l IHl [_|i Hi]]; [discriminate H|exact: (IH v)|exact: (IHl i Hi)].
- apply: Hb; elim: l => [i H|v l IHl [_|i Hi]]; [discriminate H|exact: (IH v)|exact: (IHl i Hi)].
- apply: Hd; elim: d => [k v H|[k v] d IHd k' v' /=]; first by discriminate H.
  case: String.eqb => [[<-]|H]; [exact: (IH v)|exact: (IHd _ _ H)].
Qed.

(** ** Results with a verdict *)
Definition good (A : Prop) (o : res (out R)) : Prop := exists b r, o = Ok (b, r) /\ (b <-> A) /\ b = no_report r.
Definition goods (A : Prop) (o : res (bool * seq (rep R))) : Prop := exists b r, o = Ok (b, r) /\ (b <-> A) /\ b = nilp r.

Lemma good_false (A : Prop) r : ~ A -> no_report r = false -> good A (Ok (false, r)).
Proof. by move=> HA Hr; exists false, r; rewrite Hr. Qed.
Lemma good_true (A : Prop) : A -> good A (Ok (true, @R0 R)).
Proof. by move=> HA; exists true, (@R0 R). Qed.
Lemma good_iff (A B : Prop) o : (A <-> B) -> good A o -> good B o.
Proof. by move=> E [b [r [-> [H1 H2]]]]; exists b, r; rewrite -E. Qed.

Lemma kind_eqbP a b : reflect (a = b) (kind_eqb a b).
Proof. by apply: (iffP idP); case: a; case: b. Qed.

(** ** Numbers *)
Lemma getn1 (s : seq (xnum R)) i : (i < size s)%N -> getn NaN (Arr [:: size s] s) [:: i] = nth NaN s i.
Proof. by move=> Hi; rewrite /getn /ravel /= ?Hi ?muln1 ?addn0. Qed.

Section Tol.
Variables (lkind : seq value -> res kind) (at_ : xnum R) (rt : tolarg R) (rt' : option (xnum R)).
Hypothesis Ha : legal_tol at_.
Hypothesis Hr : rt = TNone /\ rt' = None \/ exists2 t, rt = TVal t /\ rt' = Some t & legal_tol t.
Notation agr := (agree at_ rt').
Notation cf := (comp_fun lkind (TVal at_) rt).

Lemma num_good ty k (a b : arr (xnum R)) : (match k with KI | KU | KF => true | _ => false end) -> wf_arr a -> wf_arr b ->
  good (agr (VNum ty k a) (VNum ty k b)) (num_compare (TVal at_) rt k a b).
Proof.
move=> Hk Wa Wb; rewrite /num_compare; case: eqP => [Hs|Hs] /=; last first.
  by apply: good_false => // H; inversion H; case: Hs.
have Wf (c : arr (xnum R)) : wf_arr c -> wf_arr (np_flatten c) by move=> _; rewrite /wf_arr /np_flatten /= muln1 eqxx.
have Hss : size (data a) = size (data b) by move/eqP: Wa => ->; move/eqP: Wb => ->; rewrite Hs.
have Hsh : shape (np_flatten a) = shape (np_flatten b) by rewrite /= Hss.
have [o -> [V Hre]] := compare_verdict (Wf _ Wa) (Wf _ Wb) Hsh Ha Hr.
have E : co_equal o <-> agr (VNum ty k a) (VNum ty k b).
  rewrite V; split=> H.
    constructor=> // i; have [Hi|Hi] := ltnP i (size (data a)); last by rewrite !nth_default // -Hss.
    have := H [:: i]; rewrite /= Hi => /(_ isT).
    by rewrite /np_flatten !getn1 // -?Hss.
  inversion H as [ty' k' a' b' _ Hc| | | | |].
  case=> [|i [|j s]] //=; rewrite ?andbF // andbT => Hi; rewrite /np_flatten !getn1 -?Hss //; exact: Hc.
rewrite /=; case: k Hk E => // _ E; case: (co_equal o) E => E.
all: try (by apply: good_true; apply/E).
all: by apply: good_false => // /E.
Qed.

(** ** Lists and arrays *)
Lemma items_good fs y i (A : nat -> Prop) :
  (forall j, (j < size fs)%N -> exists2 v, item y (i + j) = Ok v & good (A (i + j)%N) (nth (fun=> IndexError) fs j v)) ->
  good (forall j, (j < size fs)%N -> A (i + j)%N) (comp_items fs y i).
Proof.
elim: fs i => [|f fs IH] i H /=; first exact: good_true.
have [v] := H 0%N isT; rewrite addn0 => -> /= [b [r [-> [Hb Hre]]]] /=.
case: b Hb Hre => Hb Hre; last first.
  by apply: good_false => // HA; suff: false by []; apply/Hb; have := HA 0%N isT; rewrite addn0.
have A0 : A i by apply/Hb.
case: fs IH H => [|g fs] IH H.
  by exists true, r; split => //; split => //; split => // _ [|j] //; rewrite addn0.
apply: good_iff (IH i.+1 _).
  split=> HA; last by move=> j Hj; rewrite addSnnS; apply: HA.
  by case=> [|j] Hj; rewrite ?addn0 // -addSnnS; apply: HA.
by move=> j Hj; have [v' E1 E2] := H j.+1 Hj; exists v'; rewrite ?addSnnS.
Qed.

Lemma obj_good sh cs ys (A : nat -> Prop) : size cs = prodn sh -> size ys = prodn sh -> ~~ nilp sh -> ~~ has (@c_dict R) cs ->
  (forall i, (i < size cs)%N -> good (A i) (c_comp (nth (clo0 R) cs i) (el ys i))) ->
  good (forall i, (i < size cs)%N -> A i) (comp_obj sh cs (VObj sh ys)).
Proof.
elim: sh cs ys A => [//|n sh IH] cs ys A Hc Hy _ Hd H.
have -> : comp_obj (n :: sh) cs (VObj (n :: sh) ys) =
  comp_items [seq (if sh is [::] then c_comp (nth (clo0 R) cs i) else comp_obj sh (take (prodn sh) (drop (i * prodn sh) cs))) | i <- iota 0 n] (VObj (n :: sh) ys) 0.
  by case: cs Hd {Hc H} => [|c cs] //=; case: (c_dict c).
pose p := prodn sh; have Hn : size cs = (n * p)%N by rewrite Hc.
apply: (@good_iff (forall i, (i < size [seq (if sh is [::] then c_comp (nth (clo0 R) cs i) else comp_obj sh (take (prodn sh) (drop (i * prodn sh) cs))) | i <- iota 0 n])%N -> forall j, (j < p)%N -> A ((0 + i) * p + j)%N)).
  rewrite size_map size_iota Hn; split=> HA.
    move=> i Hi; have Hp : (0 < p)%N by move: Hi; case: (p) => //; rewrite muln0.
    by rewrite (divn_eq i p) -[(i %/ p)%N]add0n; apply: HA; rewrite ?ltn_divLR ?ltn_mod.
  move=> i Hi j Hj; apply: HA; rewrite add0n.
  apply: leq_trans (_ : (i.+1 * p <= _)%N); first by rewrite mulSn addnC ltn_add2r.
  by rewrite leq_mul2r Hi orbT.
apply: (items_good (A := fun i => forall j, (j < p)%N -> A (i * p + j)%N)) => i; rewrite size_map size_iota add0n => Hi.
rewrite /= Hi (nth_map 0%N) ?size_iota // nth_iota // add0n.
have HiB j : (j < p)%N -> (i * p + j < size cs)%N.
  move=> Hj; rewrite Hn; apply: leq_trans (_ : (i.+1 * p <= _)%N); first by rewrite mulSn addnC ltn_add2r.
  by rewrite leq_mul2r Hi orbT.
have [E|E] := altP (sh =P [::]).
  have Ep : p = 1%N by rewrite /p E.
  move: Hn HiB; rewrite Ep => Hn HiB; rewrite E; exists (el ys i).
    by congr Ok; apply: set_nth_default; rewrite Hy E /= muln1.
  apply: good_iff (H i _); last by have := HiB 0%N isT; rewrite muln1 addn0.
  by split=> [HA [|j] // _|/(_ 0%N isT)]; rewrite muln1 addn0.
exists (VObj sh (take p (drop (i * p) ys))); first by rewrite /p; case: (sh) E.
have -> : (match sh with [::] => c_comp (nth (clo0 R) cs i) | _ :: _ => comp_obj sh (take (prodn sh) (drop (i * prodn sh) cs)) end) = comp_obj sh (take p (drop (i * p) cs)) by rewrite /p; case: (sh) E.
have Hsz T (l : seq T) : size l = prodn (n :: sh) -> size (take p (drop (i * p) l)) = p.
  move=> Hl; rewrite size_take size_drop Hl /= -/p -mulnBl.
  case: ltnP => // H1; apply/eqP; rewrite eqn_leq H1 /=; apply: leq_pmull; by rewrite subn_gt0.
have Hcs := Hsz _ _ Hc; have Hys := Hsz _ _ Hy.
apply: (@good_iff (forall j, (j < size (take p (drop (i * p) cs)))%N -> A (i * p + j)%N)); first by rewrite Hcs.
apply: IH => //; first by case: (sh) E.
  move: Hd; rewrite -!all_predC -{1}(cat_take_drop (i * p) cs) -{1}(cat_take_drop p (drop (i * p) cs)) !all_cat.
  by case/and3P.
by move=> j; rewrite Hcs => Hj; rewrite /el !nth_take // !nth_drop; exact: (H _ (HiB _ Hj)).
Qed.

(** ** Arrays of dicts *)
Lemma dicts_good cs ys (A : nat -> Prop) : size cs = size ys ->
  (forall i, (i < size cs)%N -> goods (A i) (c_scalar (nth (clo0 R) cs i) (el ys i))) ->
  exists os, [/\ comp_dicts cs ys = Ok os, size os = size cs, forall i, (i < size cs)%N -> (nth (false, [::]) os i).1 <-> A i &
    all (fun o => o.1 == nilp o.2) os].
Proof.
elim: cs ys A => [|c cs IH] [|y ys] A //=; first by exists [::].
case=> Hs H; have [b [r [E0 [Hb Hn]]]] := H 0%N isT.
have [os [-> Hz HA Hall]] := IH ys (fun i => A i.+1) Hs (fun i => H i.+1).
rewrite /= in E0; rewrite E0 /=; exists ((b, r) :: os); split=> //=; first by rewrite Hz.
- by case=> [|i] Hi //=; apply: HA.
- by rewrite Hn eqxx.
Qed.

Lemma rows_nil m (os : seq (bool * seq (rep R))) : all (fun o => o.1 == nilp o.2) os ->
  nilp (flatten [seq (if p.2.1 then [::] else [seq (p.1, r) | r <- p.2.2]) | p <- zip (iota m (size os)) os]) = all id [seq o.1 | o <- os].
Proof.
elim: os m => [//|[b r] os IH] m /= /andP[/eqP /= Hb /IH E].
rewrite /nilp size_cat addn_eq0 -!/(nilp _) E; case: b Hb => //= Hb.
by rewrite /nilp size_map -/(nilp r) -Hb.
Qed.

Lemma arr_good sh sh' cs ys (A : nat -> Prop) : size cs = prodn sh -> size ys = prodn sh' ->
  ~~ nilp cs -> all (@c_dict R) cs -> all (@is_dict R) ys ->
  (sh = sh' -> forall i, (i < size cs)%N -> goods (A i) (c_scalar (nth (clo0 R) cs i) (el ys i))) ->
  good (sh = sh' /\ forall i, (i < size cs)%N -> A i) (dict_compare_arr sh cs sh' ys).
Proof.
move=> Hc Hy Hn Dc Dy H; rewrite /dict_compare_arr.
have -> : (if cs is c :: _ then c_dict c else true) = true by case: cs Dc {Hc Hn H} => //= c cs /andP[].
have -> : (if ys is y :: _ then is_dict y else true) = true by case: ys Dy {Hy H} => //= y ys /andP[].
rewrite /=; case: eqP => [E|E]; last by apply: good_false => // -[].
have Es : size cs = size ys by rewrite Hc Hy E.
have [os [Ho Hz HA Hall]] := dicts_good Es (H E).
rewrite /= /dict_compare_vec Es eqxx /= Ho /=.
case: os Ho Hz HA Hall => [|o os] Ho Hz HA Hall; first by rewrite /nilp -Hz in Hn.
set rows := flatten _; have Hrows : nilp rows = all id [seq o.1 | o <- o :: os] := rows_nil 0 Hall.
rewrite [rbind _ _]/=; exists (all id [seq o0.1 | o0 <- o :: os]), (if rows is [::] then @R0 R else RRows rows).
split=> //; split; last by rewrite -Hrows; case: (rows).
have EA : all id [seq o.1 | o <- o :: os] <-> forall i, (i < size cs)%N -> A i.
  rewrite -Hz; split=> [/(all_nthP false) H1 i Hi|H1].
    by apply/HA; rewrite -?Hz //; have := H1 i; rewrite size_map (nth_map (false, [::])) //; apply.
  apply/(all_nthP false) => i; rewrite size_map => Hi; rewrite (nth_map (false, [::])) //.
  by apply/HA; rewrite -?Hz //; apply: H1.
by rewrite -Es EA; split=> [HAll|[]].
Qed.

(** ** Dicts *)
Lemma In_sort T (le : rel T) (s : seq T) z : In z (sort le s) <-> In z s.
Proof.
case: s => [//|a s0]; set s := a :: s0.
have E : s = [seq nth a s i | i <- iota 0 (size s)] by rewrite -/(mkseq _ _) mkseq_nth.
rewrite [in sort _ _]E sort_map; set q := sort _ _.
have Hq : q =i iota 0 (size s) by move=> i; rewrite mem_sort.
have M (t : seq nat) u : In u [seq nth a s i | i <- t] <-> exists2 i, i \in t & u = nth a s i.
  elim: t => [|i t IH] /=; first by split=> [[]|[]].
  rewrite IH; split=> [[<-|[j Hj ->]]|[j]].
  - by exists i => //; rewrite mem_head.
  - by exists j => //; rewrite inE Hj orbT.
  - by rewrite inE => /orP[/eqP -> ->|Hj ->]; [left|right; exists j].
by rewrite M {2}E M; split=> -[i Hi ->]; exists i; rewrite // ?Hq // -Hq.
Qed.

Lemma fields_good fs nested dy (A : string -> Prop) :
  (forall k f, In (k, f) fs -> exists2 v, dget dy k = Some v & good (A k) (f v)) ->
  goods (forall k, In k [seq p.1 | p <- fs] -> A k) (comp_fields (R := R) fs nested dy).
Proof.
elim: fs => [|[k f] fs IH] H /=; first by exists true, [::].
have [v -> [b [r [-> [Hb Hn]]]]] := H k f (or_introl erefl).
have [b' [r' [-> [Hb' Hn']]]] := IH (fun k f Hi => H k f (or_intror Hi)).
case: b Hb Hn => Hb Hn /=.
  exists b', r'; split=> //; split=> //; rewrite Hb'; split=> HA.
    by move=> k' [<-|]; [apply/Hb|apply: HA].
  by move=> k' Hk; apply: HA; right.
exists false; eexists; split; first by [].
by split=> //; split=> // HA; apply/Hb; apply: HA; left.
Qed.

Lemma kmemP k ks : reflect (In k ks) (kmem k ks).
Proof.
apply: (iffP idP); elim: ks => //= a ks IH.
  by case/orP => [/String.eqb_spec ->|/IH]; [left|right].
by case=> [->|/IH ->]; rewrite ?String.eqb_refl ?orbT.
Qed.

Lemma filter_nilP k1 k2 : reflect (forall k, In k k1 -> In k k2) (nilp [seq k <- k1 | ~~ kmem k k2]).
Proof.
rewrite /nilp size_filter -leqn0 leqNgt -has_count -all_predC.
apply: (iffP idP); elim: k1 => //= a k1 IH.
  by rewrite negbK => /andP[/kmemP Hka /IH H] k [<-|/H].
by move=> H; rewrite negbK IH ?andbT; [apply/kmemP; apply: H; left|move=> k Hk; apply: H; right].
Qed.

Lemma dget_In T (d : seq (string * T)) k (v : T) : dget d k = Some v -> In (k, v) d.
Proof. by elim: d => [//|[k' v'] d IH] /=; case: String.eqb_spec => [-> [->]|_ /IH]; [left|right]. Qed.
Lemma In_dget T (d : seq (string * T)) k (v : T) : NoDup [seq p.1 | p <- d] -> In (k, v) d -> dget d k = Some v.
Proof.
elim: d => [//|[k' v'] d IH] /= H; inversion H as [|? ? H1 H2]; subst.
case=> [[-> ->]|Hi]; first by rewrite String.eqb_refl.
case: String.eqb_spec => [E|_]; last exact: IH.
by case: H1; rewrite -E; elim: d Hi {IH H H2} => //= p d IH [->|/IH]; [left|right].
Qed.
Lemma key_dget T (d : seq (string * T)) k : In k [seq p.1 | p <- d] <-> exists u, dget d k = Some u.
Proof.
split; last by case=> u E; have {E} := dget_In E; elim: d => [|p d IH] //= [->|/IH H]; [left|right].
elim: d => [//|[k' v'] d IH] /=; case: String.eqb_spec => [->|N]; first by exists v'.
by case=> [E|/IH]; [case: N|].
Qed.
Lemma dget_map T U (f : T -> U) (d : seq (string * T)) k : dget [seq (p.1, f p.2) | p <- d] k = omap f (dget d k).
Proof. by elim: d => [//|[k' v'] d IH] /=; case: String.eqb. Qed.
Lemma keys_map T U (f : T -> U) (d : seq (string * T)) : [seq p.1 | p <- [seq (p.1, f p.2) | p <- d]] = [seq p.1 | p <- d].
Proof. by rewrite -map_comp. Qed.

Lemma scalar_good d d' nested : NoDup (keys d) ->
  (forall k v w, dget d k = Some v -> dget d' k = Some w -> good (agr v w) (cf v w)) ->
  goods (agr (VDict d) (VDict d')) (comp_scalar [seq (p.1, cf p.2) | p <- d] nested (VDict d')).
Proof.
move=> Nd H; rewrite /comp_scalar keys_map.
have K : (forall k, In k (keys d) <-> In k (keys d')) <-> nilp [seq k <- keys d | ~~ kmem k (keys d')] && nilp [seq k <- keys d' | ~~ kmem k (keys d)].
  split=> [E|/andP[/filter_nilP H1 /filter_nilP H2] k]; last by split; [apply: H1|apply: H2].
  by apply/andP; split; apply/filter_nilP => k; apply E.
rewrite -/(keys d) -/(keys d'); case: ifP K => [_|_] K; last first.
  exists false; eexists; split; first by []; split=> //; split=> // Hag.
  by inversion Hag as [| | | | |? ? E]; apply/K.
have Ek := K.2 isT.
pose A k := forall v w, dget d k = Some v -> dget d' k = Some w -> agr v w.
have [] := @fields_good (key_sort [seq (p.1, cf p.2) | p <- d]) nested d' A.
  move=> k f /In_sort /(In_dget _); rewrite keys_map => /(_ Nd); rewrite dget_map.
  case E: (dget d k) => [v|//] [<-].
  have /key_dget[w Ew] : In k (keys d') by apply/Ek/key_dget; exists v.
  exists w => //; apply: good_iff (H k v w E Ew).
  by split=> [Hg v' w'|]; [rewrite E Ew => -[<-] [<-]|apply].
move=> b [r [-> [Hb Hn]]]; exists b, r; split=> //; split=> //; rewrite Hb; split=> HA.
  constructor=> // k v w Ev Ew; apply: (HA k) => //.
  have : In (k, cf v) (key_sort [seq (p.1, cf p.2) | p <- d]) by apply/In_sort/dget_In; rewrite dget_map Ev.
  by elim: (key_sort _) => //= p s IH [->|/IH]; [left|right].
by move=> k _; inversion HA as [| | | | |? ? _ E]; subst => v w; apply: E.
Qed.

Lemma agree_sort x y : agr x y -> same_sort x y.
Proof. by elim=> *; constructor. Qed.

Hypothesis Hl : lkind_ok lkind.

Lemma scalar_eq v w d d' : v = VDict d -> w = VDict d' ->
  dict_compare_scalar lkind (TVal at_) rt v w = comp_scalar [seq (p.1, cf p.2) | p <- d] (fun k => if dget d k is Some u then is_dict u else false) (VDict d').
Proof. by move=> -> ->. Qed.

Definition body x y : res (out R) :=
  match x with
  | VNum _ k a => if y is VNum _ _ b then num_compare (TVal at_) rt k a b else Ok (false, @RTypes R)
  | VStr s => if y is VStr t then (if String.eqb s t then Ok (true, @R0 R) else Ok (false, @RValues R)) else Ok (false, @RTypes R)
  | VOther _ i => if y is VOther _ j then (if i == j then Ok (true, @R0 R) else Ok (false, @RValues R)) else Ok (false, @RTypes R)
  | VList l => comp_items [seq cf v | v <- l] y 0
  | VObj sh l => comp_obj sh [seq close_over lkind (TVal at_) rt v | v <- l] y
  | VDict d => dict_compare_arr [:: 1%N] [:: Clo true (fun _ => IndexError) (dict_compare_scalar lkind (TVal at_) rt x)] [:: 1%N] [:: y]
  end.
Lemma cf_cases x y kx ky (A : Prop) : kind_of lkind x = Ok kx -> kind_of lkind y = Ok ky ->
  (A -> type_of x = type_of y /\ kx = ky) -> (type_of x = type_of y -> kx = ky -> good A (body x y)) -> good A (cf x y).
Proof.
move=> Ex Ey H1 H2.
have -> : cf x y = if ~~ (String.eqb (type_of x) (type_of y) && kind_eqb kx ky) then Ok (false, @RTypes R) else body x y.
  transitivity (let* kx := kind_of lkind x in let* ky := kind_of lkind y in if ~~ (String.eqb (type_of x) (type_of y) && kind_eqb kx ky) then Ok (false, @RTypes R) else body x y); first by case: (x).
  by rewrite Ex Ey.
case: String.eqb_spec => [E|N]; last by apply: good_false => // /H1 [].
by case: kind_eqbP => [E'|N]; [apply: H2|apply: good_false => // /H1 []].
Qed.

Lemma comp_fun_main x : forall y, ok_value lkind x -> ok_value lkind y -> aligned x y ->
  good (agr x y) (cf x y) /\ (is_dict x -> is_dict y -> goods (agr x y) (dict_compare_scalar lkind (TVal at_) rt x y)).
Proof.
have NT y : ok_value lkind y -> exists k, kind_of lkind y = Ok k.
  by case=> [ty k a _ _ _|s|ty i _|k l E _|sh l _ _ _|d _ _] /=; eexists; first [exact: E|reflexivity].
elim/vind: x => [ty k a|s|ty i|l IH|sh l IH|d IH] y Ox Oy Al; split=> //.
- have [ky Ek] := NT _ Oy; inversion Ox as [ty0 k0 a0 Hp Hk Wa | | | | | ]; subst.
  apply: (cf_cases _ Ek) => [//|H|E1 E2]; first by inversion H; subst; case: Ek.
  rewrite /body.
  case: y Oy Al Ek E1 => [ty' k' b|s|ty' i|l|sh l|d] Oy Al Ek E1; try by apply: good_false => // H; inversion H.
  move: Ek E1 => /= [Ek] E1; subst; inversion Oy as [ty0 k0 a0 Hp' Hk' Wb | | | | | ]; subst.
  exact: num_good.
- have [ky Ek] := NT _ Oy.
  apply: (cf_cases _ Ek) => [//|H|E1 E2]; first by inversion H; subst; case: Ek.
  rewrite /body.
  case: y Oy Al Ek E1 => [ty' k' b|t|ty' i|l|sh l|d] Oy Al Ek E1; try by apply: good_false => // H; inversion H.
  case: String.eqb_spec => [->|N]; first by apply: good_true; constructor.
  by apply: good_false => // H; inversion H; case: N.
- have [ky Ek] := NT _ Oy.
  apply: (cf_cases _ Ek) => [//|H|E1 E2]; first by inversion H; subst; case: Ek.
  rewrite /body.
  case: y Oy Al Ek E1 => [ty' k' b|t|ty' j|l|sh l|d] Oy Al Ek E1; try by apply: good_false => // H; inversion H.
  rewrite /= in E1; subst ty'; case: eqP => [->|N]; first by apply: good_true; constructor.
  by apply: good_false => // H; inversion H; case: N.
- have [ky Ek] := NT _ Oy; inversion Ox as [ | | |kx l0 Elx Hx | | ]; subst.
  apply: (@cf_cases (VList l) y kx ky _ Elx Ek) => [H|E1 E2].
    inversion H as [| | |l1 l2 Hs Hag | |]; subst; move: Ek => /=.
    by rewrite -(Hl Hs (fun i Hi => agree_sort (Hag i Hi))) Elx => -[<-].
  rewrite /body.
  case: y Oy Al Ek E1 => [ty' k' b|t|ty' j|l'|sh l'|d] Oy Al Ek E1 //.
  + by inversion Oy as [? ? ? Hp| | | | |]; subst; move: Hp E1 => /= Hp E1; rewrite /plain_type -E1 in Hp.
  + by inversion Oy as [| |? ? Hp| | |]; subst; move: Hp E1 => /= Hp E1; rewrite /plain_type -E1 in Hp.
  inversion Oy as [ | | |ky' l0 Ely Hy | | ]; subst.
  inversion Al as [l1 l2 Hs Ha'| | | |x1 x2 Hc|x1 x2 Hc]; subst; try discriminate Hc.
  apply: (@good_iff (forall j, (j < size [seq cf v | v <- l])%N -> agr (el l (0 + j)) (el l' (0 + j)))).
    by rewrite size_map; split=> [H|H]; [constructor|inversion H].
  apply: (items_good (A := fun j => agr (el l j) (el l' j))) => j; rewrite size_map add0n => Hj.
  exists (el l' j); first by rewrite /= -Hs Hj; congr Ok; apply: set_nth_default; rewrite -Hs.
  rewrite (nth_map (v0 R)) //; apply: (IH j Hj (el l' j) _ _ _).1; [exact: Hx|by apply: Hy; rewrite -Hs|exact: Ha'].
- have [ky Ek] := NT _ Oy; inversion Ox as [ | | | |sh0 l0 Hsz Hx Hd | ]; subst.
  apply: (cf_cases _ Ek) => [//|H|E1 E2]; first by inversion H; subst; case: Ek.
  rewrite /body.
  case: y Oy Al Ek E1 => [ty' k' b|t|ty' j|l'|sh' l'|d] Oy Al Ek E1 //; try by (case: (sh) => [|? ?] /=; apply: good_false => // H; inversion H).
  set cs := [seq _ | v <- l].
  have Ecs : cs = [seq close_over lkind (TVal at_) rt v | v <- l] by [].
  have Scs : size cs = size l by rewrite size_map.
  have Dcs (p : pred bool) : all (fun c => p (c_dict c)) cs = all (fun v => p (is_dict v)) l by rewrite Ecs all_map.
  inversion Oy as [ | | | |sh0 l0 Hsz' Hy Hd' | ]; subst.
  have Sc i : (i < size l)%N -> nth (clo0 R) cs i = close_over lkind (TVal at_) rt (el l i) by move=> Hi; rewrite Ecs (nth_map (v0 R)).
  inversion Al as [ |sh0 l1 l2 Hs Hn Hn' Ha'|sh1 sh2 l1 l2 D1 D2 Ha'| |x1 x2 Hc|x1 x2 Hc]; subst; try discriminate Hc.
  + apply: (@good_iff (forall i, (i < size cs)%N -> agr (el l i) (el l' i))).
      by rewrite Scs; split=> [H|H]; [constructor|inversion H].
    apply: obj_good; rewrite ?Scs //.
    * move: Hd; rewrite Hn andbT; case/orP => [/andP[H1 H2]|//]; move: Hn.
      by case: (l) H1 H2 => //= v l1 _ /andP[->].
    * by rewrite -all_predC (Dcs negb) all_predC.
    * move=> i Hi; rewrite Sc //; apply: (IH i Hi (el l' i) _ _ _).1; [exact: Hx|by apply: Hy; rewrite -Hs|exact: Ha'].
  case/andP: D1 => N1 D1; case/andP: D2 => N2 D2.
  have -> : comp_obj sh cs (VObj sh' l') = dict_compare_arr sh cs sh' l'.
    have : (if cs is c :: _ then c_dict c else false) = true by rewrite Ecs; case: (l) N1 D1 => //= v l1 _ /andP[].
    by case: (sh) => [|n s] /= ->.
  apply: (@good_iff (sh = sh' /\ forall i, (i < size cs)%N -> agr (el l i) (el l' i))).
    rewrite Scs; split=> [[E H]|H]; first by rewrite -E in Hsz' *; apply: ag_obj => //; rewrite Hsz Hsz'.
    by inversion H.
  apply: arr_good; rewrite ?Scs //; first by rewrite /nilp Scs.
    by rewrite (Dcs id).
  move=> E i Hi; rewrite Sc //=; have Hi' : (i < size l')%N by rewrite Hsz' -E -Hsz.
  apply: (IH i Hi (el l' i) _ _ _).2; [exact: Hx|exact: Hy|exact: Ha'| |].
    by move/(all_nthP (v0 R)): D1; apply.
  by move/(all_nthP (v0 R)): D2; apply.
- have [ky Ek] := NT _ Oy; inversion Ox as [ | | | | |d0 Nd Hx ]; subst.
  apply: (cf_cases _ Ek) => [//|H|E1 E2]; first by inversion H; subst; case: Ek.
  rewrite /body.
  case: y Oy Al Ek E1 => [ty' k' b|t|ty' j|l'|sh' l'|d'] Oy Al Ek E1 //.
  + by inversion Oy as [? ? ? Hp| | | | |]; subst; move: Hp E1 => /= Hp E1; rewrite /plain_type -E1 in Hp.
  + by inversion Oy as [| |? ? Hp| | |]; subst; move: Hp E1 => /= Hp E1; rewrite /plain_type -E1 in Hp.
  inversion Oy as [ | | | | |d0 Nd' Hy ]; subst.
  inversion Al as [ | | |d1 d2 Ha'|x1 x2 Hc|x1 x2 Hc]; subst; try discriminate Hc.
  apply: (@good_iff ([:: 1%N] = [:: 1%N] /\ forall i, (i < 1)%N -> agr (VDict d) (VDict d'))).
    by split=> [[_ H]|H]; [exact: (H 0%N)|].
  apply: (arr_good (A := fun=> agr (VDict d) (VDict d'))) => // _ [|//] _ /=.
  apply: scalar_good => // k v w Ev Ew; apply: (IH k v Ev w _ _ _).1; [exact: Hx Ev|exact: Hy Ew|exact: Ha' Ev Ew].
- move=> _; case: y Oy Al => // d' Oy Al _.
  inversion Ox as [ | | | | |d0 Nd Hx ]; subst; inversion Oy as [ | | | | |d0 Nd' Hy ]; subst.
  inversion Al as [ | | |d1 d2 Ha'|x1 x2 Hc|x1 x2 Hc]; subst; try discriminate Hc.
  apply: scalar_good => // k v w Ev Ew; apply: (IH k v Ev w _ _ _).1; [exact: Hx Ev|exact: Hy Ew|exact: Ha' Ev Ew].
Qed.
Lemma cf_dicts (x y : dict_arg R) : dict_like x -> dict_like y -> ok_value lkind (as_array x) -> ok_value lkind (as_array y) ->
  cf (as_array x) (as_array y) = dict_compare lkind (TVal at_) rt x y.
Proof.
have E sh l sh' l' : ~~ nilp l && all (@is_dict R) l -> cf (VObj sh l) (VObj sh' l') = dict_compare_arr sh [seq close_over lkind (TVal at_) rt v | v <- l] sh' l'.
  case: l => [//|v l] /andP[_ /andP[Hv _]].
  have -> : cf (VObj sh (v :: l)) (VObj sh' l') = comp_obj sh [seq close_over lkind (TVal at_) rt v | v <- v :: l] (VObj sh' l') by [].
  have Hc : c_dict (close_over lkind (TVal at_) rt v) by [].
  by rewrite [map _ _]/=; move: (close_over _ _ _ v) Hc => c Hc; case: sh => [|n sh]; rewrite /comp_obj Hc.
by case: x => [d|sh l|] // Hx; case: y => [d'|sh' l'|] // Hy _ _; apply: E.
Qed.

Lemma dict_compare_main (x y : dict_arg R) : dict_like x -> dict_like y ->
  ok_value lkind (as_array x) -> ok_value lkind (as_array y) -> aligned (as_array x) (as_array y) ->
  exists b r, dict_compare lkind (TVal at_) rt x y = Ok (b, r) /\ (b <-> agr (as_array x) (as_array y)) /\ b = no_report r.
Proof. by move=> Dx Dy Ox Oy Al; rewrite -cf_dicts //; exact: (comp_fun_main Ox Oy Al).1. Qed.

(** ** Reflexivity and symmetry *)
Lemma agree_refl x : agr x x.
Proof.
elim/vind: x => [ty k a|s|ty i|l IH|sh l IH|d IH]; constructor=> //.
  by move=> i; apply: close_refl.
by move=> k v w E; rewrite E => -[<-]; apply: IH E.
Qed.
Lemma close_sym a b : close at_ rt' a b -> close at_ rt' b a.
Proof. by case: a b => [a| | |] [b| | |] //=; rewrite distrC [`|b| + _]addrC. Qed.
Lemma agree_sym x y : agr x y -> agr y x.
Proof.
elim=> [ty k a b Hs Hc|s|ty i|l l' Hs _ IH|sh l l' Hs _ IH|d d' Hk _ IH]; try by constructor.
- by constructor=> // i; apply: close_sym.
- by constructor=> // i; rewrite -Hs; apply: IH.
- by constructor=> // i; rewrite -Hs; apply: IH.
- by constructor=> [k|k v w E E']; [rewrite Hk|apply: IH E' E].
Qed.
Lemma aligned_refl x : ok_value lkind x -> aligned x x.
Proof.
elim=> [ty k a _ _ _|s|ty i _|k l _ _ IH|sh l Hs _ IH /orP[Hd|/andP[_ Hd]]|d Nd _ IH].
- exact: al_flat.
- exact: al_flat.
- exact: al_flat.
- exact: al_list.
- by apply: al_dicts => // i Hi _; apply: IH.
- exact: al_obj.
- by apply: al_dict => k v w E; rewrite E => -[<-]; apply: IH E.
Qed.
Lemma aligned_sym x y : aligned x y -> aligned y x.
Proof.
elim=> [l l' Hs _ IH|sh l l' Hs H1 H2 _ IH|sh sh' l l' H1 H2 _ IH|d d' _ IH|? ? H|? ? H1 H2].
- by apply: al_list => // i; rewrite -Hs; apply: IH.
- by apply: al_obj => // i; rewrite -Hs; apply: IH.
- by apply: al_dicts => // i H3 H4; apply: IH.
- by apply: al_dict => k v w E E'; apply: IH E' E.
- by apply: al_other; rewrite eq_sym.
- exact: al_flat.
Qed.
End Tol.

(** ** The order of keys *)
Section Reorder.
Variables (lkind : seq value -> res kind) (at_ rt : tolarg R).
Hypothesis Hl : lkind_ok lkind.
Notation cf := (comp_fun lkind at_ rt).

Lemma leb_trans : transitive String.leb.
Proof.
move=> b a c; rewrite /String.leb; elim: a b c => [|c1 a IH] [|c2 b] [|c3 c] //=.
rewrite /Ascii.compare; move: (Ascii.N_of_ascii c1) (Ascii.N_of_ascii c2) (Ascii.N_of_ascii c3) => n1 n2 n3.
case: (BinNat.N.compare_spec n1 n2); case: (BinNat.N.compare_spec n2 n3); case: (BinNat.N.compare_spec n1 n3) => // H1 H2 H3; try exact: IH; try lia.
Qed.
Definition string_eqMixin := EqMixin String.eqb_spec.
Canonical string_eqType := Eval hnf in EqType string string_eqMixin.
Lemma Perm_eq (s t : seq string) : Permutation s t -> perm_eq s t.
Proof.
elim=> [|a s1 s2 _ IH|a b s1|s1 s2 s3 _ H1 _ H2] //; first by rewrite perm_cons.
  by rewrite (perm_catCA [:: b] [:: a] s1).
exact: perm_trans H1 H2.
Qed.
Lemma sort_Perm s t : Permutation s t -> sort String.leb s = sort String.leb t.
Proof.
move=> /Perm_eq H; apply/perm_sortP => //.
- by move=> a b; case: (String.leb_total a b) => ->; rewrite ?orbT.
- exact: leb_trans.
- by move=> a b /andP[]; exact: String.leb_antisym.
Qed.
Lemma filter_Perm (p q : pred string) s t : p =1 q -> Permutation s t -> Permutation [seq k <- s | p k] [seq k <- t | q k].
Proof.
move=> Epq; elim=> [|a s1 s2 _ IH|a b s1|s1 s2 s3 H1 IH1 H2 IH2] //=.
- by rewrite -Epq; case: (p a); [apply: perm_skip|].
- rewrite -!Epq -(eq_filter Epq); case: (p a); case: (p b) => //; exact: perm_swap.
- by apply: Permutation_trans IH1 _; rewrite -!(eq_filter Epq) in IH2 *.
Qed.
Lemma nilp_Perm (s t : seq string) : Permutation s t -> nilp s = nilp t.
Proof. by move/Perm_eq/perm_size; rewrite /nilp => ->. Qed.
Lemma kmem_Perm s t k : Permutation s t -> kmem k s = kmem k t.
Proof. by move=> H; apply/kmemP/kmemP; apply: Permutation_in => //; exact: Permutation_sym. Qed.

Definition frel (f f' : value -> res (out R)) := forall v v', reordered v v' -> f v = f' v'.
Lemma fields_ext fs fs' nested nested' dy dy' : [seq p.1 | p <- fs] = [seq p.1 | p <- fs'] ->
  (forall i, (i < size fs)%N -> frel (nth (""%string, fun=> TypeError) fs i).2 (nth (""%string, fun=> TypeError) fs' i).2) ->
  nested =1 nested' -> reordered (VDict dy) (VDict dy') ->
  comp_fields (R := R) fs nested dy = comp_fields fs' nested' dy'.
Proof.
move=> Ek Ef En Hd; inversion Hd as [| | | | |d1 d2 Hp Hv]; subst.
elim: fs fs' Ek Ef => [|[k f] fs IH] [|[k' f'] fs'] //= [<-] Ek Ef.
case E: (dget dy k) => [v|]; case E': (dget dy' k) => [v'|] //.
- have /= -> := Ef 0%N isT v v' (Hv _ _ _ E E').
  by rewrite (IH fs' Ek (fun i => Ef i.+1)) En.
- have : In k (keys dy) by apply/key_dget; exists v.
  by move/(Permutation_in _ Hp)/key_dget => [u]; rewrite E'.
- have : In k (keys dy') by apply/key_dget; exists v'.
  by move/(Permutation_in _ (Permutation_sym Hp))/key_dget => [u]; rewrite E.
Qed.

Lemma scalar_ext fs fs' nested nested' y y' :
  Permutation [seq p.1 | p <- fs] [seq p.1 | p <- fs'] -> NoDup [seq p.1 | p <- fs] ->
  (forall k f f', dget fs k = Some f -> dget fs' k = Some f' -> frel f f') ->
  nested =1 nested' -> reordered y y' -> comp_scalar fs nested y = comp_scalar fs' nested' y'.
Proof.
move=> Hp Nd Hf En Hy.
inversion Hy as [| | | | |dy dy' Hpy Hv]; subst; try by [].
rewrite /comp_scalar -/(keys dy) -/(keys dy').
set ks := [seq p.1 | p <- fs] in Hp Nd *; set ks' := [seq p.1 | p <- fs'] in Hp *.
have P1 : Permutation [seq k <- ks | ~~ kmem k (keys dy)] [seq k <- ks' | ~~ kmem k (keys dy')].
  by apply: filter_Perm => // k; rewrite (kmem_Perm _ Hpy).
have P2 : Permutation [seq k <- keys dy | ~~ kmem k ks] [seq k <- keys dy' | ~~ kmem k ks'].
  by apply: filter_Perm => // k; rewrite (kmem_Perm _ Hp).
rewrite (nilp_Perm P1) (nilp_Perm P2) (sort_Perm P1) (sort_Perm P2); case: ifP => // _.
have K (T : Type) (s : seq (string * T)) : [seq p.1 | p <- key_sort s] = sort String.leb [seq p.1 | p <- s].
  by rewrite sort_map.
have EK : [seq p.1 | p <- key_sort fs] = [seq p.1 | p <- key_sort fs'] by rewrite !K; apply: sort_Perm.
apply: fields_ext => // i Hi.
set z := (""%string, _); set a := nth z _ i; set b := nth z _ i.
have Hi' : (i < size (key_sort fs'))%N by move: (congr1 size EK); rewrite !size_map => <-.
have Eab : a.1 = b.1.
  by have := congr1 (fun s => nth ""%string s i) EK; rewrite !(nth_map z).
have In_nth T (s : seq T) z0 j : (j < size s)%N -> In (nth z0 s j) s.
  by elim: s j => [//|u s IH] [|j] Hj /=; [left|right; apply: IH].
apply: (Hf a.1).
  by apply: In_dget => //; rewrite -surjective_pairing; apply/(In_sort (fun a b => String.leb a.1 b.1)); apply: In_nth.
rewrite Eab; apply: In_dget; first by apply: Permutation_NoDup Hp Nd.
by rewrite -surjective_pairing; apply/(In_sort (fun a b => String.leb a.1 b.1)); apply: In_nth.
Qed.

Lemma reordered_sort x y : reordered x y -> same_sort x y.
Proof. by elim=> *; constructor. Qed.

Definition crel (c c' : clo R) :=
  [/\ c_dict c = c_dict c', frel (c_comp c) (c_comp c') & forall v v', reordered v v' -> c_scalar c v = c_scalar c' v'].

Lemma reordered_obj sh l l' : size l = size l' -> (forall i, (i < size l)%N -> reordered (el l i) (el l' i)) -> reordered (VObj sh l) (VObj sh l').
Proof. by move=> H1 H2; constructor. Qed.

Lemma items_ext fs fs' y y' i : size fs = size fs' -> (forall j, (j < size fs)%N -> frel (nth (fun=> IndexError) fs j) (nth (fun=> IndexError) fs' j)) ->
  reordered y y' -> comp_items fs y i = comp_items fs' y' i.
Proof.
move=> Hs Hf Hy.
pose rr (a b : res value) : Prop := match a, b with Ok v, Ok v' => reordered v v' | Err e, Err e' => e = e' | _, _ => False end.
have HI j : rr (item y j) (item y' j).
  inversion Hy as [| | |l l' Hsl H|sh l l' Hsl H|]; subst; try by [].
    rewrite /= -Hsl; case: ifP => // Hj.
    by rewrite (set_nth_default (v0 R)) // [nth (VList l') _ _](set_nth_default (v0 R)) -?Hsl //; apply: H.
  case: sh Hy => [//|n sh] Hy /=; case: ifP => // Hj; case: sh Hy => [|m sh] Hy.
    have [Hjs|Hjs] := ltnP j (size l); last by rewrite !nth_default -?Hsl.
    by rewrite (set_nth_default (v0 R)) // [nth (VObj _ l') _ _](set_nth_default (v0 R)) -?Hsl //; apply: H.
  apply: reordered_obj; first by rewrite !size_take !size_drop Hsl.
  move=> i0 Hi0; have Hi1 : (i0 < prodn (m :: sh))%N by apply: leq_trans Hi0 _; rewrite size_take; case: ltnP.
  have Hi2 : (j * prodn (m :: sh) + i0 < size l)%N.
    move: Hi0 Hi1; rewrite size_take size_drop; change (m * prodn sh)%N with (prodn (m :: sh)).
    move: (prodn (m :: sh)) (size l) => p q; move: (j * p)%N => r; case: (ltnP p (q - r)) => H0 H1 H2; lia.
  by rewrite /el !nth_take // !nth_drop; apply: H.
elim: fs fs' i Hs Hf => [|f fs IH] [|f' fs'] i //= [Hs] Hf.
move: (HI i); case: (item y i) => [v|e]; case: (item y' i) => [v'|e'] //=; last by move->.
move=> Hv; have /= -> := Hf 0%N isT v v' Hv; case: (f' v') => [[b r]|e] //=.
case: b => //; rewrite (IH fs' i.+1 Hs (fun j => Hf j.+1)).
by case: (fs) (fs') Hs => [|? ?] [|? ?].
Qed.

Lemma dicts_ext cs cs' ys ys' : size cs = size cs' -> size ys = size ys' -> (forall j, (j < size cs)%N -> crel (nth (clo0 R) cs j) (nth (clo0 R) cs' j)) ->
  (forall i, (i < size ys)%N -> reordered (el ys i) (el ys' i)) -> comp_dicts cs ys = comp_dicts cs' ys'.
Proof.
elim: cs cs' ys ys' => [|c cs IH] [|c' cs'] [|y ys] [|y' ys'] //= [Hs] [Hs'] Hc Hy.
have [_ _ H] := Hc 0%N isT; rewrite (H y y' (Hy 0%N isT)) /=.
by rewrite (IH cs' ys ys' Hs Hs' (fun j => Hc j.+1) (fun j => Hy j.+1)).
Qed.

Lemma arr_ext sh cs cs' sh' ys ys' : size cs = size cs' -> size ys = size ys' -> (forall j, (j < size cs)%N -> crel (nth (clo0 R) cs j) (nth (clo0 R) cs' j)) ->
  (forall i, (i < size ys)%N -> reordered (el ys i) (el ys' i)) -> dict_compare_arr sh cs sh' ys = dict_compare_arr sh cs' sh' ys'.
Proof.
move=> Hs Hs' Hc Hy; rewrite /dict_compare_arr /dict_compare_vec (dicts_ext Hs Hs' Hc Hy) Hs Hs'.
have -> : (if cs is c :: _ then c_dict c else true) = (if cs' is c :: _ then c_dict c else true).
  by case: cs cs' Hs Hc => [|c cs] [|c' cs'] // _ /(_ 0%N isT) [].
have -> // : (if ys is y :: _ then is_dict y else true) = (if ys' is y :: _ then is_dict y else true).
case: ys ys' Hs' Hy => [|y ys] [|y' ys'] // _ /(_ 0%N isT) /= H.
by inversion H.
Qed.

Lemma obj_ext sh cs cs' y y' : size cs = size cs' -> (forall j, (j < size cs)%N -> crel (nth (clo0 R) cs j) (nth (clo0 R) cs' j)) ->
  reordered y y' -> comp_obj sh cs y = comp_obj sh cs' y'.
Proof.
elim: sh cs cs' y y' => [|n sh IH] cs cs' y y' Hs Hc Hy.
all: have Ed : (if cs is c :: _ then c_dict c else false) = (if cs' is c :: _ then c_dict c else false)
  by case: cs cs' Hs Hc => [|c cs] [|c' cs'] // _ /(_ 0%N isT) [].
  inversion Hy as [| | | |sh0 l l' Hsl H|]; subst; try by [].
  by rewrite /= Ed (arr_ext _ _ Hs Hsl Hc H).
rewrite [LHS]/= [RHS]/= Ed.
have E : comp_items [seq (if sh is [::] then c_comp (nth (clo0 R) cs i) else comp_obj sh (take (prodn sh) (drop (i * prodn sh) cs))) | i <- iota 0 n] y 0 =
  comp_items [seq (if sh is [::] then c_comp (nth (clo0 R) cs' i) else comp_obj sh (take (prodn sh) (drop (i * prodn sh) cs'))) | i <- iota 0 n] y' 0.
  apply: items_ext => //; rewrite ?size_map // => j; rewrite size_iota => Hj v v' Hv.
  rewrite !(nth_map 0%N) ?size_iota // !nth_iota // !add0n.
  have [Esh|Esh] := altP (sh =P [::]).
    rewrite Esh; have [Hjs|Hjs] := ltnP j (size cs); last by rewrite !nth_default -?Hs.
    by have [_ Hcomp _] := Hc j Hjs; apply: Hcomp.
  set p := prodn sh.
  suff IH' : comp_obj sh (take p (drop (j * p) cs)) v = comp_obj sh (take p (drop (j * p) cs')) v' by case: (sh) Esh IH'.
  apply: IH => //; first by rewrite !size_take !size_drop Hs.
  move=> i0 Hi0; have Hi1 : (i0 < p)%N by apply: leq_trans Hi0 _; rewrite size_take; case: ltnP.
  have Hi2 : (j * p + i0 < size cs)%N by (move: Hi0 Hi1; rewrite size_take size_drop; move: (p) (size cs) => p' q; move: (j * p')%N => r; case: (ltnP p' (q - r)) => H0 H1 H2; lia).
  by rewrite !nth_take // !nth_drop; apply: Hc.
inversion Hy as [| | | |sh0 l l' Hsl H|]; subst; try by [].
by rewrite (arr_ext _ _ Hs Hsl Hc H) E.
Qed.

Lemma reordered_keys d d' : reordered (VDict d) (VDict d') -> (forall k, dget d k = None <-> dget d' k = None).
Proof.
move=> H k; inversion H as [| | | | |? ? Hp _]; subst.
have E (e : seq (string * value)) : dget e k = None <-> ~ In k (keys e).
  rewrite key_dget; case: (dget e k) => [u|]; split=> //; first by case; exists u.
  by move=> _ [u].
by rewrite !E; split=> Hn Hi; apply: Hn; apply: Permutation_in Hi => //; apply: Permutation_sym.
Qed.

Lemma reordered_is_dict x x' : reordered x x' -> is_dict x = is_dict x'.
Proof. by case. Qed.

Lemma reorder_main x : forall x' y y', ok_value lkind x -> reordered x x' -> reordered y y' ->
  cf x y = cf x' y' /\ dict_compare_scalar lkind at_ rt x y = dict_compare_scalar lkind at_ rt x' y'.
Proof.
pose body x y : res (out R) :=
  match x with
  | VNum _ k a => if y is VNum _ _ b then num_compare at_ rt k a b else Ok (false, @RTypes R)
  | VStr s => if y is VStr t then (if String.eqb s t then Ok (true, @R0 R) else Ok (false, @RValues R)) else Ok (false, @RTypes R)
  | VOther _ i => if y is VOther _ j then (if i == j then Ok (true, @R0 R) else Ok (false, @RValues R)) else Ok (false, @RTypes R)
  | VList l => comp_items [seq cf v | v <- l] y 0
  | VObj sh l => comp_obj sh [seq close_over lkind at_ rt v | v <- l] y
  | VDict d => dict_compare_arr [:: 1%N] [:: Clo true (fun _ => IndexError) (dict_compare_scalar lkind at_ rt x)] [:: 1%N] [:: y]
  end.
have cfE x0 y : cf x0 y = let* kx := kind_of lkind x0 in let* ky := kind_of lkind y in if ~~ (String.eqb (type_of x0) (type_of y) && kind_eqb kx ky) then Ok (false, @RTypes R) else body x0 y by case: x0.
have KE v v' : reordered v v' -> kind_of lkind v = kind_of lkind v'.
  by case=> //= l l' Hs H; apply: Hl => // i Hi; apply/reordered_sort/H.
have TE v v' : reordered v v' -> type_of v = type_of v' by case.
have cfX x0 x0' y y' : reordered x0 x0' -> reordered y y' -> body x0 y = body x0' y' -> cf x0 y = cf x0' y'.
  by move=> Hx Hy E; rewrite !cfE (KE _ _ Hx) (KE _ _ Hy) (TE _ _ Hx) (TE _ _ Hy) E.
elim/vind: x => [ty k a|s|ty i|l IH|sh l IH|d IH] x' y y' Ox Hx Hy.
- by split; [apply: cfX => //|]; inversion Hx; subst => //; inversion Hy; subst.
- by split; [apply: cfX => //|]; inversion Hx; subst => //; inversion Hy; subst.
- by split; [apply: cfX => //|]; inversion Hx; subst => //; inversion Hy; subst.
- inversion Hx as [| | |l1 l' Hs Hr| |]; subst; split=> //; apply: cfX => //=.
  inversion Ox as [| | |k l1 _ Ho| |]; subst.
  apply: items_ext => //; rewrite ?size_map // => j Hj v v' Hv; rewrite !(nth_map (v0 R)) -?Hs //.
  by apply: (IH j Hj (el l' j) v v' _ _ _).1; [apply: Ho|apply: Hr|].
- inversion Hx as [| | | |sh1 l1 l' Hs Hr|]; subst; split=> //; apply: cfX => //.
  inversion Ox as [| | | |sh1 l1 _ Ho _|]; subst.
  apply: obj_ext => //; rewrite ?size_map // => j Hj; rewrite !(nth_map (v0 R)) -?Hs //.
  split=> /=; first by apply: reordered_is_dict; apply: Hr.
    by move=> v v' Hv; apply: (IH j Hj (el l' j) v v' _ _ _).1; [apply: Ho|apply: Hr|].
  by move=> v v' Hv; apply: (IH j Hj (el l' j) v v' _ _ _).2; [apply: Ho|apply: Hr|].
- inversion Hx as [| | | | |d1 d' Hp Hr]; subst.
  inversion Ox as [| | | | |d1 Nd Ho]; subst.
  have S v v' : reordered v v' -> dict_compare_scalar lkind at_ rt (VDict d) v = dict_compare_scalar lkind at_ rt (VDict d') v'.
    move=> Hv; apply: scalar_ext; rewrite ?keys_map //.
      move=> k f f'; rewrite !dget_map; case E: (dget d k) => [u|//] [<-]; case E': (dget d' k) => [u'|//] [<-] w w' Hw.
      by apply: (IH k u E u' w w' _ _ _).1; [apply: Ho E|apply: Hr E E'|].
    move=> k; case E: (dget d k) => [u|]; case E': (dget d' k) => [u'|] //.
    + by apply: reordered_is_dict; apply: Hr E E'.
    + by move/(reordered_keys Hx): E'; rewrite E.
    + by move/(reordered_keys Hx): E; rewrite E'.
  split; last exact: S.
  apply: cfX => //; apply: arr_ext => // -[|//] _ //=.
Qed.

Lemma dict_compare_reorder (x x' y y' : dict_arg R) : ok_value lkind (as_array x) ->
  reordered (as_array x) (as_array x') -> reordered (as_array y) (as_array y') ->
  dict_compare lkind at_ rt x y = dict_compare lkind at_ rt x' y'.
Proof.
move=> Ox Hx Hy.
have A (a a' : dict_arg R) : reordered (as_array a) (as_array a') -> a = AOther _ /\ a' = AOther _ \/
  [/\ a <> AOther _, a' <> AOther _, shape_of a = shape_of a', size (elems a) = size (elems a') & forall i, (i < size (elems a))%N -> reordered (el (elems a) i) (el (elems a') i)].
  by case: a => [d|sh l|]; case: a' => [d'|sh' l'|] H; rewrite /= /v0 in H; inversion H; subst; try (by left); right; split.
have O (a : dict_arg R) : ok_value lkind (as_array a) -> forall i, (i < size (elems a))%N -> ok_value lkind (el (elems a) i).
  by case: a => [d|sh l|] H //; inversion H.
case: (A _ _ Hy) => [[-> ->]|[y1 y2 Ey Sy Ry]]; case: (A _ _ Hx) => [[-> ->] //|[x1 x2 Ex Sx Rx]].
  have E : (if elems x is v :: _ then is_dict v else true) = (if elems x' is v :: _ then is_dict v else true).
    case: (elems x) (elems x') Sx Rx => [|v l] [|v' l'] // _ /(_ 0%N isT) H.
    exact: reordered_is_dict.
  have F (a : dict_arg R) : a <> AOther _ -> dict_compare lkind at_ rt a (AOther _) =
    if ~~ (if elems a is v :: _ then is_dict v else true) then throw "wrongInput:dict_x" else throw "wrongInput:dict_y" by case: a.
  by rewrite !F // E.
have -> : dict_compare lkind at_ rt x y = dict_compare_arr (shape_of x) [seq close_over lkind at_ rt v | v <- elems x] (shape_of y) (elems y).
  by case: (x) x1 => //; case: (y) y1.
have -> : dict_compare lkind at_ rt x' y' = dict_compare_arr (shape_of x') [seq close_over lkind at_ rt v | v <- elems x'] (shape_of y') (elems y').
  by case: (x') x2 => //; case: (y') y2.
rewrite -Ex -Ey; apply: arr_ext; rewrite ?size_map // => j Hj; rewrite !(nth_map (v0 R)) -?Sx //.
split=> /=; first by apply: reordered_is_dict; apply: Rx.
  by move=> v v' Hv; apply: (reorder_main _ _ Hv).1; [apply: O|apply: Rx].
by move=> v v' Hv; apply: (reorder_main _ _ Hv).2; [apply: O|apply: Rx].
Qed.
End Reorder.

Lemma tol_case (rt : tolarg R) : (rt = TNone \/ exists2 t, rt = TVal t & legal_tol t) ->
  exists rt', rt = TNone /\ rt' = None \/ exists2 t, rt = TVal t /\ rt' = Some t & legal_tol t.
Proof. by case=> [->|[t -> Ht]]; [exists None; left|exists (Some t); right; exists t]. Qed.

Lemma dict_compare_refl lkind (at_ : xnum R) (rt : tolarg R) :
  legal_tol at_ -> (rt = TNone \/ exists2 t, rt = TVal t & legal_tol t) -> lkind_ok lkind ->
  forall x : dict_arg R, dict_like x -> ok_value lkind (as_array x) ->
    exists2 r, dict_compare lkind (TVal at_) rt x x = Ok (true, r) & no_report r.
Proof.
move=> Ha /tol_case[rt' Hr] Hl x Dx Ox.
have [b [r [E [Hb Hn]]]] := dict_compare_main Ha Hr Hl Dx Dx Ox Ox (aligned_refl Ox).
have Eb : b by apply/Hb; apply: agree_refl.
by rewrite Eb in E Hn; exists r.
Qed.

Lemma dict_compare_sym lkind (at_ : xnum R) (rt : tolarg R) :
  legal_tol at_ -> (rt = TNone \/ exists2 t, rt = TVal t & legal_tol t) -> lkind_ok lkind ->
  forall x y : dict_arg R, dict_like x -> dict_like y ->
    ok_value lkind (as_array x) -> ok_value lkind (as_array y) -> aligned (as_array x) (as_array y) ->
    exists b r r', dict_compare lkind (TVal at_) rt x y = Ok (b, r) /\ dict_compare lkind (TVal at_) rt y x = Ok (b, r').
Proof.
move=> Ha /tol_case[rt' Hr] Hl x y Dx Dy Ox Oy Al.
have [b [r [E [Hb _]]]] := dict_compare_main Ha Hr Hl Dx Dy Ox Oy Al.
have [b' [r' [E' [Hb' _]]]] := dict_compare_main Ha Hr Hl Dy Dx Oy Ox (aligned_sym Al).
exists b, r, r'; split=> //; rewrite E'; congr (Ok (_, _)).
by apply/idP/idP => [/Hb'/agree_sym/Hb|/Hb/agree_sym/Hb'].
Qed.

Lemma dict_shapes lkind at_ rt (x y : dict_arg R) : dict_like x -> dict_like y -> shape_of x <> shape_of y ->
  dict_compare lkind at_ rt x y = Ok (false, RDictSizes R).
Proof.
have E (a b : dict_arg R) : dict_like a -> dict_like b -> dict_compare lkind at_ rt a b = dict_compare_arr (shape_of a) [seq close_over lkind at_ rt v | v <- elems a] (shape_of b) (elems b).
  by case: a => //; case: b.
move=> Dx Dy Hs; rewrite E // /dict_compare_arr.
have -> : (if [seq close_over lkind at_ rt v | v <- elems x] is c :: _ then c_dict c else true) = true.
  by case/andP: Dx => _; case: (elems x) => //= v l /andP[].
have -> : (if elems y is v :: _ then is_dict v else true) = true by case/andP: Dy => _; case: (elems y) => //= v l /andP[].
by rewrite (introF eqP Hs).
Qed.

Lemma bool_refuted lkind (b : R) :
  dict_compare lkind (TVal (Fin 0)) TNone (ADict [:: ("a"%string, VNum "bool" KB (Arr [::] [:: Fin b]))]) (ADict [:: ("a"%string, VNum "bool" KB (Arr [::] [:: Fin b]))]) = TypeError.
Proof.
set a := Arr _ _.
have -> : dict_compare lkind (TVal (Fin 0)) TNone (ADict [:: ("a"%string, VNum "bool" KB a)]) (ADict [:: ("a"%string, VNum "bool" KB a)]) =
  let* o := abs_rel_compare (np_flatten a) (np_flatten a) (TVal (Fin 0)) TNone (abs_op R) in TypeError.
  by rewrite /dict_compare /dict_compare_arr /dict_compare_vec /= /num_compare eqxx /=; case: abs_rel_compare.
have [o -> _] := @compare_refl R (np_flatten a) (Fin 0) TNone isT (lexx _) (or_introl erefl).
by [].
Qed.

Lemma str_lkind_ok k : lkind_ok (fun _ : seq value => Ok k).
Proof. by []. Qed.
Lemma ok_strs (k : kind) (ks : seq string) : ok_value (fun=> Ok k) (VDict [:: ("a"%string, VList [seq VStr R s | s <- ks])]).
Proof.
constructor; first by constructor; [case|constructor].
move=> k' v /=; case: String.eqb => // -[<-]; apply: (@ok_list R _ k) => // i; rewrite size_map => Hi.
by rewrite /el (nth_map ""%string) //; constructor.
Qed.
End DictP.

Lemma lists_refuted :
  forall R : rcfType, exists (x y : seq (string * value R)) (lkind : seq (value R) -> res kind),
    [/\ lkind_ok lkind, ok_value lkind (VDict x), ok_value lkind (VDict y),
      dict_compare lkind (TVal (Fin 0)) TNone (ADict x) (ADict y) = Ok (true, R0 R) &
      dict_compare lkind (TVal (Fin 0)) TNone (ADict y) (ADict x) = IndexError].
Proof.
move=> R; exists [:: ("a"%string, VList [seq VStr _ s | s <- [:: "a"%string]])], [:: ("a"%string, VList [seq VStr _ s | s <- [:: "a"%string; "b"%string]])], (fun=> Ok KStr).
split; [exact: str_lkind_ok|exact: ok_strs|exact: ok_strs|by []|by []].
Qed.
Lemma prefix_refuted :
  forall R : rcfType, exists (x y : seq (string * value R)) (lkind : seq (value R) -> res kind),
    [/\ lkind_ok lkind, ok_value lkind (VDict x), ok_value lkind (VDict y), ~ agree (Fin 0) None (VDict x) (VDict y) &
      dict_compare lkind (TVal (Fin 0)) TNone (ADict x) (ADict y) = Ok (true, R0 R)].
Proof.
move=> R; exists [:: ("a"%string, VList [seq VStr _ s | s <- [:: "a"%string]])], [:: ("a"%string, VList [seq VStr _ s | s <- [:: "a"%string; "b"%string]])], (fun=> Ok KStr).
split; [exact: str_lkind_ok|exact: ok_strs|exact: ok_strs| |by []].
move=> H; inversion H as [| | | | |? ? _ E]; subst.
by have {}E := E "a"%string _ _ erefl erefl; inversion E.
Qed.

(** ** Examples *)
Section Ex.
Variable R : rcfType.
Definition lk_ex (l : seq (value R)) : res kind := Ok KStr.
Definition in_ex : seq (string * value R) := [:: ("n"%string, VNum "float" KF (Arr [::] [:: Fin 1])); ("s"%string, VList [:: VStr _ "u"; VStr _ "v"])].
Definition in_ex2 : seq (string * value R) := [:: ("s"%string, VList [:: VStr _ "u"; VStr _ "v"]); ("n"%string, VNum "float" KF (Arr [::] [:: Fin 1]))].
Definition d_ex : seq (string * value R) := [:: ("a"%string, VNum "numpy.ndarray" KF (Arr [:: 2%N] [:: Fin 2%:R; NaN])); ("b"%string, VDict in_ex)].
Definition d_ex2 : seq (string * value R) := [:: ("b"%string, VDict in_ex2); ("a"%string, VNum "numpy.ndarray" KF (Arr [:: 2%N] [:: Fin 2%:R; NaN]))].
Definition d_ex3 : seq (string * value R) := [:: ("b"%string, VDict in_ex2); ("a"%string, VNum "numpy.ndarray" KF (Arr [:: 2%N] [:: Fin 2%:R; NaN])); ("c"%string, VStr _ "w")].

Lemma ok_one d : ok_value lk_ex (VDict d) -> ok_value lk_ex (as_array (ADict d)).
Proof. by move=> H; constructor=> //= -[|//] _. Qed.
Lemma ok_in : ok_value lk_ex (VDict in_ex).
Proof.
constructor; first by repeat (constructor; first by (move=> H; simpl in H; intuition discriminate)); constructor.
move=> k v /=; case: String.eqb => [[<-]|]; first by constructor.
case: String.eqb => // -[<-]; apply: (@ok_list R lk_ex KStr) => // -[|[|//]] _; constructor.
Qed.
Lemma ok_in2 : ok_value lk_ex (VDict in_ex2).
Proof.
constructor; first by repeat (constructor; first by (move=> H; simpl in H; intuition discriminate)); constructor.
move=> k v /=; case: String.eqb => [[<-]|]; last by case: String.eqb => // -[<-]; constructor.
by apply: (@ok_list R lk_ex KStr) => // -[|[|//]] _; constructor.
Qed.
Lemma re_same (v : value R) : reordered v v.
Proof.
elim/vind: v => [ty k a|s|ty i|l IH|sh l IH|d IH]; constructor=> //.
by move=> k v w E; rewrite E => -[<-]; apply: IH E.
Qed.
Lemma re_swap2 k1 k2 (v1 v2 w1 w2 : value R) : k1 <> k2 -> reordered v1 w1 -> reordered v2 w2 ->
  reordered (VDict [:: (k1, v1); (k2, v2)]) (VDict [:: (k2, w2); (k1, w1)]).
Proof.
move=> N H1 H2; constructor; first exact: perm_swap.
move=> k v w /=; case: (String.eqb_spec k k1) => [->|N1].
  by rewrite (introF (String.eqb_spec k1 k2) N) => -[<-] [<-].
by case: String.eqb => // -[<-] [<-].
Qed.
Lemma dict_examples :
  [/\ lkind_ok lk_ex, dict_like (ADict d_ex), ok_value lk_ex (as_array (ADict d_ex)),
      reordered (as_array (ADict d_ex)) (as_array (ADict d_ex2)) & d_ex <> d_ex2] /\
  [/\ ok_value lk_ex (as_array (ADict d_ex3)), aligned (as_array (ADict d_ex)) (as_array (ADict d_ex3)) &
      ~ agree (Fin 0) None (as_array (ADict d_ex)) (as_array (ADict d_ex3))].
Proof.
split; split=> //.
- apply: ok_one; constructor; first by repeat (constructor; first by (move=> H; simpl in H; intuition discriminate)); constructor.
  move=> k v /=; case: String.eqb => [[<-]|]; first by constructor.
  by case: String.eqb => // -[<-]; exact: ok_in.
- constructor=> // -[|//] _; apply: re_swap2 => //; first exact: re_same.
  by apply: re_swap2 => //; exact: re_same.
- apply: ok_one; constructor; first by repeat (constructor; first by (move=> H; simpl in H; intuition discriminate)); constructor.
  move=> k v /=; case: String.eqb => [[<-]|]; first exact: ok_in2.
  case: String.eqb => [[<-]|]; first by constructor.
  by case: String.eqb => // -[<-]; constructor.
- apply: al_dicts => // -[|//] _ _; apply: al_dict => k v w /=.
  case: (String.eqb_spec k "a") => [E|_]; first by rewrite E /= => -[<-] [<-]; apply: al_flat.
  case: (String.eqb_spec k "b") => [_|//] [<-] [<-]; apply: al_dict => k' v' w' /=.
  case: (String.eqb_spec k' "n") => [E|_]; first by rewrite E /= => -[<-] [<-]; apply: al_flat.
  case: (String.eqb_spec k' "s") => [_|//] [<-] [<-]; apply: al_list => // -[|[|//]] _; exact: al_flat.
- move=> H; inversion H as [| | | |? ? ? _ E|]; subst.
  have {}E := E 0%N isT; inversion E as [| | | | |? ? K _]; subst.
  have /= := (K "c"%string).2 (or_intror (or_intror (or_introl erefl))).
  by intuition discriminate.
Qed.
End Ex.
