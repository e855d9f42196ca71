(** Proofs about Model/EllHeap.v: the heap operations, get_copy, rep_mat, histories of calls. *)
Require Import Coq.Lists.List.
From mathcomp Require Import all_ssreflect all_algebra.
Require Import Coq.Strings.String.
From Verif.Model Require Import Py NP NP3 Linalg La Core EllGeom Ellipsoid EllHeap.
From Verif.Spec Require Import MatSpec LinalgSpec EllSpec EllipsoidSpec EllHeapSpec.
From Verif.Proof Require Import NPLib EllScalProof.
Set Implicit Arguments.
Unset Strict Implicit.
Unset Printing Implicit Defensive.
Import Order.Theory GRing.Theory Num.Theory.
Local Open Scope ring_scope.

Section Generic.
Variable T : Type.
Implicit Types h : seq T.

Lemma nth_ohead h r : List.nth_error h r = ohead (drop r h).
Proof. by elim: h r => [|x h IH] [|r] //=. Qed.
Lemma obj_read h r v : obj h r v -> hread r h = (h, Ok v).
Proof.
move=> H; rewrite /hread -(nth_ohead h r); move: H; by rewrite /obj => ->.
Qed.
Lemma hread_inv r h h' x : hread r h = (h', x) -> h' = h.
Proof. by case. Qed.
Lemma hread_obj r h h' v : hread r h = (h', Ok v) -> obj h r v.
Proof. by rewrite /hread -nth_ohead /obj; case: (List.nth_error h r) => [w|] // [_ ->]. Qed.
Lemma obj_lt h r v : obj h r v -> (r < size h)%N.
Proof. by rewrite /obj; elim: h r => [|x h IH] [|r] //= /IH. Qed.
Lemma lt_obj h r : (r < size h)%N -> exists v, obj h r v.
Proof. by rewrite /obj; elim: h r => [|x h IH] [|r] //=; [exists x | apply: IH]. Qed.
Lemma obj_inj h r v w : obj h r v -> obj h r w -> v = w.
Proof. by rewrite /obj => -> []. Qed.

Lemma obj_rcons h r v w : obj h r v -> obj (rcons h w) r v.
Proof. by rewrite /obj; elim: h r => [|x h IH] [|r] //=; apply: IH. Qed.
Lemma obj_last h v : obj (rcons h v) (size h) v.
Proof. by rewrite /obj; elim: h. Qed.
Lemma preserved_refl h : preserved h h. Proof. by []. Qed.
Lemma preserved_trans h1 h2 h3 : preserved h1 h2 -> preserved h2 h3 -> preserved h1 h3.
Proof. by move=> H1 H2 r v /H1 /H2. Qed.
Lemma preserved_rcons h v : preserved h (rcons h v).
Proof. move=> r w; exact: obj_rcons. Qed.
Lemma objs_preserved h h' rs vs : preserved h h' -> objs h rs vs -> objs h' rs vs.
Proof. by move=> Hp; elim=> [|r v l l' H _ IH]; constructor=> //; apply: Hp. Qed.
Lemma preserved_size h h' : preserved h h' -> (size h <= size h')%N.
Proof.
case: (posnP (size h)) => [-> //|h0] Hp; have [|v Hv] := @lt_obj h (size h).-1; first by rewrite prednK.
by have := obj_lt (Hp _ _ Hv); rewrite prednK.
Qed.

Lemma obj_write h r v q w : obj h q w -> q != r -> obj (set_nth v h r v) q w.
Proof. by rewrite /obj; elim: h r q => [|x h IH] [|r] [|q] //=; rewrite eqSS; apply: IH. Qed.
Lemma obj_written h r v : (r < size h)%N -> obj (set_nth v h r v) r v.
Proof. by rewrite /obj; elim: h r => [|x h IH] [|r] //=; apply: IH. Qed.

(** reading a list of objects *)
Lemma hread_list h rs vs : objs h rs vs -> hmapM (@hread T) rs h = (h, Ok vs).
Proof.
elim=> [|r v l l' H _ IH] //=; rewrite /hbind (obj_read H) IH //.
Qed.

Variable copy1 : T -> res T.

Lemma hcopy1_ok h r v w : obj h r v -> copy1 v = Ok w -> hcopy1 copy1 r h = (rcons h w, Ok (size h)).
Proof. by move=> H E; rewrite /hcopy1 /hbind (obj_read H) /hlift E. Qed.

(** an allocation-only call keeps every object *)
Lemma hcopy1_keeps h r : preserved h (hcopy1 copy1 r h).1.
Proof.
rewrite /hcopy1 /hbind; case Er : (hread r h) => [h1 [v|e]]; rewrite (hread_inv Er) //.
by rewrite /hlift; case: (copy1 v) => [w|e] //=; apply: preserved_rcons.
Qed.

Lemma hmapM_keeps U V (f : U -> hres T V) s h : (forall x h, preserved h (f x h).1) ->
  preserved h (hmapM f s h).1.
Proof.
move=> Hf; elim: s h => [|x s IH] h //=; rewrite /hbind.
have := Hf x h; case: (f x h) => [h1 [y|e]] //= H1.
have := IH h1; case: (hmapM f s h1) => [h2 [ys|e]] //= H2; exact: preserved_trans H1 H2.
Qed.

Lemma get_copy_keeps a h : preserved h (get_copy copy1 a h).1.
Proof.
rewrite /get_copy; case: (data a) => [|r [|r' s]] //.
  rewrite /hbind; have := @hcopy1_keeps h r; by case: (hcopy1 copy1 r h) => [h1 [x|e]].
set rs := r :: _; rewrite /hbind; have := @hmapM_keeps _ _ (hcopy1 copy1) rs h (fun x h => @hcopy1_keeps h x).
by case: (hmapM _ rs h) => [h1 [x|e]].
Qed.

Lemma rep_mat_keeps r s h : preserved h (rep_mat copy1 r s h).1.
Proof.
rewrite /rep_mat /hbind /hlift; case: (rep_sizes s) => [sh|e] //=.
have := @hmapM_keeps _ _ (fun _ => hcopy1 copy1 r) (iota 0 (prodn sh)) h (fun _ h => @hcopy1_keeps h r).
by case: (hmapM _ _ h) => [h1 [x|e]].
Qed.

(** copying a list of objects: the new objects are the next ones of the heap *)
Lemma hcopy_list (P : T -> T -> Prop) h0 rs vs : objs h0 rs vs -> forall h, preserved h0 h ->
  List.Forall (fun v => exists2 w, copy1 v = Ok w & P v w) vs ->
  exists ws, [/\ hmapM (hcopy1 copy1) rs h = (h ++ ws, Ok (iota (size h) (size rs))) & List.Forall2 P vs ws].
Proof.
elim=> [|r v l l' Hr _ IH] h Hp Hc.
  by exists [::]; rewrite cats0; split=> //; constructor.
have [w Ew Pw] := List.Forall_inv Hc.
have [|ws [E F]] := IH (rcons h w) _ (List.Forall_inv_tail Hc); first exact: (preserved_trans Hp (@preserved_rcons h w)).
exists (w :: ws); split; last by constructor.
by rewrite /= {1}/hbind (hcopy1_ok (Hp _ _ Hr) Ew) /= /hbind E size_rcons cat_rcons.
Qed.

Lemma rep_list h r v w k : obj h r v -> copy1 v = Ok w ->
  forall m, hmapM (fun _ => hcopy1 copy1 r) (iota m k) h = (h ++ nseq k w, Ok (iota (size h) k)).
Proof.
elim: k h => [|k IH] h Hr Ew m /=; first by rewrite cats0.
by rewrite {1}/hbind (hcopy1_ok Hr Ew) /hbind (IH _ (obj_rcons _ Hr) Ew) size_rcons cat_rcons.
Qed.

Lemma preserved_cat h ws : preserved h (h ++ ws).
Proof. by rewrite /preserved /obj => r v; elim: h r => [|x h IH] [|r] //=; apply: IH. Qed.

Lemma fresh_iota h n : fresh h (iota (size h) n).
Proof. by split=> [|r]; rewrite ?iota_uniq // mem_iota => /andP[]. Qed.

Lemma objs_iota h ws : objs (h ++ ws) (iota (size h) (size ws)) ws.
Proof.
elim: ws h => [|w ws IH] h /=; first by constructor.
constructor; first by rewrite -cat_rcons; apply: preserved_cat; apply: obj_last.
by have := IH (rcons h w); rewrite size_rcons cat_rcons.
Qed.

Lemma objs_size h rs vs : objs h rs vs -> size rs = size vs.
Proof. by elim=> //= r v l l' _ _ ->. Qed.

(** get_copy *)
Lemma get_copy_run (P : T -> T -> Prop) h a vs : objs h (data a) vs ->
  List.Forall (fun v => exists2 w, copy1 v = Ok w & P v w) vs ->
  exists h' b ws, [/\ get_copy copy1 a h = (h', Ok b), preserved h h', fresh h (data b),
    objs h' (data b) ws & List.Forall2 P vs ws] /\
    shape b = if size (data a) == 1%N then [::] else shape a.
Proof.
move=> Ho Hc; rewrite /get_copy; case E : (data a) Ho => [|r [|r' s]] Ho.
- have -> : vs = [::] by inversion Ho.
  exists h, a, [::]; rewrite E; split=> //; split=> //; constructor.
- have [v Ev Hv] : exists2 v, vs = [:: v] & obj h r v.
    by inversion Ho as [|? v ? ? H1 H2]; inversion H2; subst; exists v.
  subst vs; have [w Ew Pw] := List.Forall_inv Hc.
  exists (rcons h w), (Arr [::] [:: size h]), [:: w]; split=> //; split.
  + by rewrite /hbind (hcopy1_ok Hv Ew).
  + exact: preserved_rcons.
  + by split=> // q; rewrite inE => /eqP ->.
  + by constructor; [exact: obj_last | constructor].
  + by constructor; [exact: Pw | constructor].
set rs := r :: _ in Ho *; have [ws [E1 F]] := hcopy_list Ho (@preserved_refl h) Hc.
exists (h ++ ws), (Arr (shape a) (iota (size h) (size rs))), ws; split=> //; split=> //.
- by rewrite /hbind E1.
- exact: preserved_cat.
- exact: fresh_iota.
- have -> : size rs = size ws by rewrite (objs_size Ho); elim: F => //= x y l l' _ _ ->.
  exact: objs_iota.
Qed.

Lemma max_shape1 (n : nat) (d : seq int) : max_shape (Arr [:: n] d) = Ok n.
Proof. by []. Qed.

Lemma rep_mat_run h r v w (sh : seq nat) : (0 < size sh)%N -> obj h r v -> copy1 v = Ok w ->
  exists h' b, [/\ rep_mat copy1 r (SInt (Arr [:: size sh] (map Posz sh))) h = (h', Ok b), preserved h h',
    fresh h (data b), objs h' (data b) (nseq (prodn sh) w) & shape b = sh].
Proof.
move=> s0 Hr Ew; exists (h ++ nseq (prodn sh) w), (Arr sh (iota (size h) (prodn sh))).
split=> //; last first.
- by have := objs_iota h (nseq (prodn sh) w); rewrite size_nseq.
- exact: fresh_iota.
- exact: preserved_cat.
rewrite /rep_mat /rep_sizes max_shape1 /np_size /= muln1 -[size sh == 0%N]negbK -lt0n s0 /= eqxx /=.
have -> : all (fun z : int => (0 <= z)%R) [seq Posz i | i <- sh] by apply/allP => z /mapP[i _ ->].
rewrite /= -map_comp (@eq_map _ _ _ id) // map_id /hlift /hbind.
by rewrite (rep_list _ Hr Ew).
Qed.

End Generic.

Section Ell.
Variable R : rcfType.
Variable la : linalg R.
Variable cfg : props R.
Implicit Types h : seq (ell R).

(** the call m leaves the object q alone *)
Definition spares U (q : nat) (m : hres (ell R) U) : Prop := forall h v, obj h q v -> obj (m h).1 q v.

Lemma spares_bind U V q (m : hres (ell R) U) (f : U -> hres (ell R) V) :
  spares q m -> (forall x, spares q (f x)) -> spares q (hbind m f).
Proof.
move=> Hm Hf h v Hv; rewrite /hbind; have := Hm h v Hv; case: (m h) => [h1 [x|e]] //= H1; exact: Hf.
Qed.
Lemma spares_lift U q (x : res U) : spares q (@hlift (ell R) U x). Proof. by []. Qed.
Lemma spares_read q r : spares q (@hread (ell R) r). Proof. by []. Qed.
Lemma spares_ret U q (x : U) : spares q (@hret (ell R) U x). Proof. by []. Qed.
Lemma spares_write q r v : q != r -> spares q (@hwrite (ell R) r v).
Proof. by move=> qr h w Hw; rewrite /hwrite; case: ifP => // _; apply: obj_write. Qed.
Lemma spares_alloc q v : spares q (@halloc (ell R) v).
Proof. by move=> h w; apply: preserved_rcons. Qed.
Lemma spares_map U V q (f : U -> hres (ell R) V) s : (forall x, List.In x s -> spares q (f x)) -> spares q (hmapM f s).
Proof.
elim: s => [|x s IH] Hf /=; first exact: spares_ret.
apply: spares_bind => [|y]; first by apply: Hf; left.
by apply: spares_bind => [|ys]; [apply: IH => z Hz; apply: Hf; right | exact: spares_ret].
Qed.

Lemma spares_shape q r x : q != r -> spares q (write_shape la r x).
Proof.
by move=> qr; apply: spares_bind => [|e]; [exact: spares_read | apply: spares_bind => [|sh]]; [exact: spares_lift | exact: spares_write].
Qed.
Lemma spares_center q r x : q != r -> spares q (@write_center R r x).
Proof.
by move=> qr; apply: spares_bind => [|e]; [exact: spares_read | apply: spares_bind => [|sh]]; [exact: spares_lift | exact: spares_write].
Qed.
Lemma spares_projection1 q b r : q != r -> spares q (projection1 la b r).
Proof.
move=> qr; do 5!(apply: spares_bind => [|?]; try first [exact: spares_read | exact: spares_lift | exact: spares_shape]).
exact: spares_center.
Qed.
Lemma in_mem (T : eqType) (x : T) s : List.In x s -> x \in s.
Proof. by elim: s => //= y s IH [->|/IH H]; rewrite inE ?eqxx // H orbT. Qed.
Lemma mem_in (T : eqType) (x : T) s : x \in s -> List.In x s.
Proof. by elim: s => //= y s IH; rewrite inE => /orP[/eqP ->|/IH]; [left|right]. Qed.

Lemma spares_projection q a b : q \notin data a -> spares q (projection la a b).
Proof.
move=> qa; rewrite /projection; case: ifP => _; first exact: spares_ret.
apply: spares_bind => [|es]; first by apply: spares_map => r _; exact: spares_read.
apply: spares_bind => [|ort]; first exact: spares_lift.
apply: spares_bind => [|_]; last exact: spares_ret.
by apply: spares_map => r /in_mem ra; apply: spares_projection1; apply: contraNneq qa => ->.
Qed.

Lemma spares_keeps U q (m : hres (ell R) U) : (forall h, preserved h (m h).1) -> spares q m.
Proof. by move=> H h v; apply: H. Qed.

(** get_projection changes only objects it has created *)
Lemma get_copy_new a h h' b : get_copy (single_copy la cfg) a h = (h', Ok b) -> fresh h (data b) /\ (forall r, r \in data b -> (r < size h')%N).
Proof.
rewrite /get_copy; have Hc r h1 h2 q : hcopy1 (single_copy la cfg) r h1 = (h2, Ok q) -> q = size h1 /\ size h2 = (size h1).+1.
  rewrite /hcopy1 /hbind; case Er : (hread r h1) => [h3 [v|e]] //; rewrite (hread_inv Er) /hlift.
  by case: (single_copy la cfg v) => [w|e] //= [<- <-]; rewrite size_rcons.
have Hm rs : forall h1 h2 qs, hmapM (hcopy1 (single_copy la cfg)) rs h1 = (h2, Ok qs) ->
    [/\ uniq qs, forall q, q \in qs -> (size h1 <= q < size h2)%N & (size h1 <= size h2)%N].
  elim: rs => [|r rs IH] h1 h2 qs /=; first by case=> <- <-.
  rewrite {1}/hbind; case E1 : (hcopy1 _ r h1) => [h3 [q|e]] //; have [Eq E3] := Hc _ _ _ _ E1.
  rewrite /hbind; case E2 : (hmapM _ rs h3) => [h4 [qs'|e]] //= [<- <-].
  have [U H L] := IH _ _ _ E2; rewrite E3 in H L; split=> //=.
  - by rewrite U andbT; apply/negP => /H; rewrite Eq ltnn.
  - by move=> p; rewrite inE => /orP[/eqP ->|/H /andP[p1 ->]]; rewrite ?Eq ?leqnn ?L //= andbT ltnW.
  - exact: ltnW.
case E : (data a) => [|r [|r' s]].
- by case=> _ <-; rewrite E.
- rewrite /hbind; case E1 : (hcopy1 _ r h) => [h3 [q|e]] // [<- <-]; have [-> E3] := Hc _ _ _ _ E1.
  by split; [split=> // | ] => p; rewrite inE => /eqP ->; rewrite ?E3.
set rs := r :: _; rewrite /hbind; case E1 : (hmapM _ rs h) => [h3 [qs|e]] //= [<- <-].
have [U H L] := Hm _ _ _ _ E1; split; first by split=> // p /H /andP[].
by move=> p /H /andP[].
Qed.

Lemma spares_get_projection q a b h v : obj h q v -> obj (get_projection la cfg a b h).1 q v.
Proof.
move=> Hv; rewrite /get_projection /hbind.
have := @get_copy_keeps _ (single_copy la cfg) a h q v Hv.
case E : (get_copy _ a h) => [h1 [c|e]] //= H1; apply: spares_projection H1.
have [[_ F] _] := get_copy_new E; apply/negP => /F; rewrite leqNgt; by rewrite (obj_lt Hv).
Qed.

(** a history of calls changes only the objects it is meant to change *)
Lemma run_call_spares c h q v : q \notin targets c -> obj h q v -> obj (run_call la cfg c h) q v.
Proof.
case: c => [a b|a b|a|r s|args k|r x|r x] /=; rewrite /hvoid.
- by move=> Hq; apply: spares_projection.
- by move=> _; apply: spares_get_projection.
- by move=> _; apply: get_copy_keeps.
- by move=> _; apply: rep_mat_keeps.
- by move=> _; apply: spares_bind => [|e]; [exact: spares_lift | exact: spares_alloc].
- by rewrite inE => Hq; apply: spares_shape.
- by rewrite inE => Hq; apply: spares_center.
Qed.

Lemma history_spares cs h q v : untouched cs q -> obj h q v -> obj (run_calls la cfg cs h) q v.
Proof.
rewrite /run_calls => H; elim: H h => [|c l Hc _ IH] h //= Hv; apply: IH; exact: run_call_spares.
Qed.

Lemma copy_all_valid vs : eigvalsh_ok la -> List.Forall (@valid R) vs ->
  List.Forall (fun v => exists2 w, single_copy la cfg v = Ok w & v = w) vs.
Proof. move=> Hla; apply: List.Forall_impl => v Hv; exists v => //; exact: single_copy_run. Qed.

Lemma Forall2_eq T (s r : seq T) : List.Forall2 eq s r -> s = r.
Proof. by elim=> // x y l l' -> _ ->. Qed.

Lemma ell_copy_run h a vs : eigvalsh_ok la -> objs h (data a) vs -> List.Forall (@valid R) vs ->
  exists h' b, [/\ get_copy (single_copy la cfg) a h = (h', Ok b), preserved h h', fresh h (data b),
    objs h' (data b) vs & shape b = if size (data a) == 1%N then [::] else shape a].
Proof.
move=> Hla Ho Hv; have [h' [b [ws [[E1 E2 E3 E4 /Forall2_eq E5] E6]]]] := get_copy_run Ho (copy_all_valid Hla Hv).
by exists h', b; split=> //; rewrite E5.
Qed.

Lemma ell_rep_run h r v (sh : seq nat) : eigvalsh_ok la -> valid v -> obj h r v -> (0 < size sh)%N ->
  exists h' b, [/\ rep_mat (single_copy la cfg) r (SInt (Arr [:: size sh] (map Posz sh))) h = (h', Ok b),
    preserved h h', fresh h (data b), objs h' (data b) (nseq (prodn sh) v) & shape b = sh].
Proof. by move=> Hla Hv Hr s0; apply: (rep_mat_run s0 Hr); apply: single_copy_run. Qed.

End Ell.
