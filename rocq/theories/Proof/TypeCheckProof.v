(** The type checks on arbitrary arguments. *)
Require Import Coq.Lists.List.
From mathcomp Require Import all_ssreflect.
Require Import Coq.Strings.String.
From Verif.Model Require Import Py NP TypeCheck.
From Verif.Spec Require Import TypeCheckSpec.
Set Implicit Arguments.
Unset Strict Implicit.
Unset Printing Implicit Defensive.

Section TypeCheck.
Variable T : Type.
Implicit Types (v u : nested T) (l : seq (nested T)).

Fixpoint nested_deep (Q : nested T -> Prop) (h1 : forall x, Q (Obj x)) (h2 : forall l, (forall u, In u l -> Q u) -> Q (Lst l)) v : Q v :=
  match v with
  | Obj x => h1 x
  | Lst l => h2 l ((fix go l : forall u, In u l -> Q u :=
      match l with
      | [::] => fun u (H : False) => match H with end
      | w :: l' => fun u (H : w = u \/ In u l') =>
          match H with or_introl E => eq_ind w Q (nested_deep h1 h2 w) u E | or_intror H' => go l' u H' end
      end) l)
  end.

(** common prefixes *)
Lemma lcp_takel s t : exists k, lcp s t = take k s.
Proof.
elim: s t => [|a s IH] [|b t] /=; try by exists 0%N.
case: eqP => _; last by exists 0%N.
by have [k ->] := IH t; exists k.+1.
Qed.
Lemma lcpC s t : lcp s t = lcp t s.
Proof. elim: s t => [|a s IH] [|b t] //=; rewrite eq_sym; case: eqP => // <-; by rewrite IH. Qed.
Lemma lcpss s : lcp s s = s.
Proof. by elim: s => //= a s ->; rewrite eqxx. Qed.
Definition prefixed (p s : seq nat) : Prop := take (size p) s = p.
Lemma prefixed_trans p q s : prefixed p q -> prefixed q s -> prefixed p s.
Proof.
rewrite /prefixed => H1 H2; rewrite -{2}H1 -{1}H2 take_take //.
by rewrite -H1 size_take; case: ltnP => // /ltnW.
Qed.
Lemma lcp_prefixed s t : prefixed (lcp s t) s /\ prefixed (lcp s t) t.
Proof.
have H a b : prefixed (lcp a b) a.
  by have [k ->] := lcp_takel a b; rewrite /prefixed size_take; case: ltnP => // h; rewrite !take_oversize.
by split=> //; rewrite lcpC.
Qed.
Lemma foldl_lcp ss s : prefixed (foldl lcp s ss) s /\ forall t, In t ss -> prefixed (foldl lcp s ss) t.
Proof.
elim: ss s => [|a ss IH] s /=; first by rewrite /prefixed take_size.
have [h1 h2] := IH (lcp s a); have [h3 h4] := lcp_prefixed s a; split; first exact: prefixed_trans h1 h3.
by move=> t [<-|]; [exact: prefixed_trans h1 h4|exact: h2].
Qed.
Lemma common_prefixed ss s : In s ss -> prefixed (common ss) s.
Proof. by case: ss => //= a ss [<-|H]; have [h1 h2] := foldl_lcp ss a; [|exact: h2]. Qed.
Lemma common_same ss s : ss <> [::] -> (forall t, In t ss -> t = s) -> common ss = s.
Proof.
case: ss => // a ss _ H; have -> : a = s by apply: H; left.
have H' t : In t ss -> t = s by move=> h; apply: H; right.
by elim: ss H' {H} => //= b ss IH H; rewrite (H b) ?lcpss; [apply: IH => t h; apply: H; right|left].
Qed.
Lemma in_map (A B : Type) (f : A -> B) x s : In x s -> In (f x) (map f s).
Proof. by elim: s => //= a s IH [<-|/IH]; [left|right]. Qed.
Lemma map_in (A B : Type) (f : A -> B) y s : In y (map f s) -> exists2 x, In x s & f x = y.
Proof. by elim: s => //= a s IH [<-|/IH [x h <-]]; [exists a => //; left|exists x => //; right]. Qed.

(** np.array sees exactly the rectangular lists *)
Lemma rect_shape P s v : rect P s v -> np_shape v = s.
Proof.
elim/nested_deep: v s => [x|l IH] s; first by move=> H; inversion H.
move=> H; inversion H as [|E1|s' v l' H' E1 E2]; subst=> //; rewrite [LHS]/= -/(np_shape v); congr cons.
apply: (@common_same (map (@np_shape T) (v :: l'))) => // t ht; have [u hu <-] := map_in ht; exact: IH (hu) _ (H' u hu).
Qed.
Lemma all_flatten_map (a : nested T -> bool) (f : nested T -> seq (nested T)) l :
  all a (flatten (map f l)) <-> forall u, In u l -> all a (f u).
Proof.
elim: l => //= u l [h1 h2]; rewrite all_cat; split.
  by case/andP=> p1 /h1 p2 w [<-|/p2].
by move=> H; rewrite H ?h2 //; [move=> w hw; apply: H; right|left].
Qed.
Lemma rect_entries (inst : T -> bool) s v : rect inst s v -> all (isinst inst) (np_entries (size s) v) /\ size (np_entries (size s) v) = prodn s.
Proof.
elim/nested_deep: v s => [x|l IH] s; first by move=> H; inversion H; subst; split=> //=; rewrite andbT.
move=> H; inversion H as [|E1|s' v l' H' E1 E2]; subst=> //; split.
  by apply/all_flatten_map => u hu; have [] := IH u hu s' (H' u hu).
rewrite /= -/(np_entries (size s') v) size_cat.
have -> : size (np_entries (size s') v) = prodn s' by have [] := IH v (or_introl erefl) s' (H' v (or_introl erefl)).
rewrite mulSn; congr (_ + _)%N.
have {H' IH} : forall u, In u l' -> size (np_entries (size s') u) = prodn s'.
  by move=> u hu; have [] := IH u (or_intror hu) s' (H' u (or_intror hu)).
by elim: l' {H} => //= w l' IH H; rewrite size_cat H ?mulSn ?IH //; [move=> u hu; apply: H; right|left].
Qed.
Lemma entries_rect (inst : T -> bool) v d : (d <= size (np_shape v))%N -> all (isinst inst) (np_entries d v) -> rect inst (take d (np_shape v)) v.
Proof.
elim/nested_deep: v d => [x|l IH] [|d] //.
  by move=> _ /=; rewrite andbT => h; exact: RectObj.
case: l IH => [|v l] IH; first by move=> _ _; exact: RectNil.
move=> hd /all_flatten_map H; rewrite [np_shape _]/= [take _ _]/= -/(np_shape v); apply: RectLst => u hu.
have hp := common_prefixed (in_map (@np_shape T) hu).
have hs : (size (common (map (@np_shape T) (v :: l))) <= size (np_shape u))%N.
  by rewrite -{1}hp size_take; case: ltnP => // /ltnW.
have hd' : (d <= size (common (map (@np_shape T) (v :: l))))%N by exact: hd.
have := IH u hu d (leq_trans hd' hs) (H u hu).
have E c : prefixed c (np_shape u) -> (d <= size c)%N -> take d (np_shape u) = take d c by move=> pc h; rewrite -{1}pc take_take.
by rewrite (E _ hp hd').
Qed.
Lemma array_rect (inst : T -> bool) v :
  all (isinst inst) (np_entries (size (np_shape v)) v) <-> exists s, rect inst s v.
Proof.
split=> [H|[s H]]; last by rewrite (rect_shape H); have [] := rect_entries H.
by exists (np_shape v); have := entries_rect (leqnn _) H; rewrite take_size.
Qed.
Lemma all_obj (inst : T -> bool) (d : seq T) : all (isinst inst) (map Obj d) <-> forall x, In x d -> inst x.
Proof.
elim: d => //= a d [h1 h2]; split; first by case/andP=> p /h1 q x [<-|/q].
by move=> H; rewrite H ?h2 //; [move=> x h; apply: H; right|left].
Qed.
Lemma data_ok (inst : T -> bool) (v : arg T) : all (isinst inst) (data (np_array v)) <-> exists s, arr_of inst s v.
Proof.
case: v => [v|a] /=; first exact: array_rect.
rewrite all_obj; split=> [H|[s [_ H]]] //; by exists (shape a).
Qed.

Lemma check_loop_run (inst : T -> bool) tag es : check_loop inst tag es = if all (isinst inst) es then Ok tt else throw tag.
Proof. by elim: es => //= e es ->; case: isinst. Qed.

Lemma check_is_me_run (inst iter : T -> bool) (v : arg T) (var tag : string) :
  check_is_me inst iter v var tag = if all (isinst inst) (data (np_array v)) then Ok tt
    else throw (if String.eqb var "" then tag else (tag ++ ":" ++ var)%string).
Proof.
rewrite /check_is_me; set t := (if ~~ _ then _ else _).
have -> : (if String.eqb var "" then tag else (tag ++ ":" ++ var)%string) = t by rewrite /t; case: String.eqb.
case: ifP => [_|]; first by rewrite check_loop_run; case: (data _).
by case: v => [[x|l]|a] //= _; rewrite andbT; case: inst.
Qed.
Theorem check_is_me_spec (inst iter : T -> bool) (v : arg T) (var tag : string) :
  ((exists s, arr_of inst s v) -> check_is_me inst iter v var tag = Ok tt) /\
  (~ (exists s, arr_of inst s v) ->
     check_is_me inst iter v var tag = throw (if String.eqb var "" then tag else (tag ++ ":" ++ var)%string)).
Proof.
rewrite check_is_me_run; split; first by move/data_ok ->.
by case: ifP => // /data_ok.
Qed.

Lemma prodn1 s : prodn s = 1%N -> s = nseq (size s) 1%N.
Proof. by elim: s => //= a s IH /eqP; rewrite muln_eq1 => /andP[/eqP -> /eqP/IH <-]. Qed.
Lemma scalar_run (inst iter : T -> bool) (v : arg T) :
  check_if_scalar inst iter v =
    if (size (data (np_array v)) == 1%N) && all (isinst inst) (data (np_array v)) then Ok tt else throw "wrongInput:ell_arr".
Proof.
rewrite /check_if_scalar; case: ifP => [_|].
  by case: (data _) => [|e [|e' l]] //=; rewrite andbT; case: isinst.
by case: v => [[x|l]|a] //= _; rewrite andbT; case: inst.
Qed.
Theorem check_if_scalar_spec (inst iter : T -> bool) (v : arg T) : (if v is AArr a then wf_arr a else true) ->
  ((exists k, arr_of inst (nseq k 1%N) v) -> check_if_scalar inst iter v = Ok tt) /\
  (~ (exists k, arr_of inst (nseq k 1%N) v) -> check_if_scalar inst iter v = throw "wrongInput:ell_arr").
Proof.
move=> W; rewrite scalar_run.
have E s : arr_of inst s v -> size (data (np_array v)) = prodn s.
  case: v W => [v _ H|a /eqP W [<- _]] /=; last by rewrite size_map.
  by rewrite (rect_shape H); have [] := rect_entries H.
have p1 k : prodn (nseq k 1%N) = 1%N by elim: k => //= k ->.
split=> [[k H]|H].
  by rewrite (E _ H) p1 eqxx /=; have /data_ok -> : exists s, arr_of inst s v by exists (nseq k 1%N).
case: ifP => // /andP[/eqP e1 /data_ok [s hs]]; case: H; exists (size s); rewrite -prodn1 //.
by rewrite -e1 (E _ hs).
Qed.

(** the array holds the objects of the list at their places *)
Lemma nth_error_cat (A : Type) (s t : seq A) i : nth_error (s ++ t) i = if (i < size s)%N then nth_error s i else nth_error t (i - size s).
Proof. by elim: s i => [|a s IH] [|i] //=; rewrite ?subn0 // IH ltnS subSS. Qed.
Lemma in_nth_error (A : Type) (s : seq A) i x : nth_error s i = Some x -> In x s.
Proof. by elim: s i => [|a s IH] [|i] //=; [move=> [->]; left|move/IH; right]. Qed.
Lemma nth_error_lt (A : Type) (s : seq A) i : (i < size s)%N -> exists x, nth_error s i = Some x.
Proof. by elim: s i => [|a s IH] [|i] //= h; [exists a|exact: IH]. Qed.
Lemma flatten_nth (f : nested T -> seq (nested T)) p l i j u : (forall w, In w l -> size (f w) = p) ->
  nth_error l i = Some u -> (j < p)%N -> nth_error (flatten (map f l)) (i * p + j) = nth_error (f u) j.
Proof.
elim: l i => [|w l IH] [|i] //= H; rewrite nth_error_cat.
  by move=> [<-] h; rewrite add0n (H w) ?h //; left.
move=> E h; rewrite (H w); last by left.
rewrite mulSn -addnA ltnNge leq_addr /= addKn; apply: IH => // w' hw; apply: H; by right.
Qed.
Lemma ravel_lt s idx : valid_idx s idx -> (ravel s idx < prodn s)%N.
Proof.
elim: s idx => [|n s IH] [|i idx] //= /andP[h1 /IH h2].
apply: (@leq_trans (i * prodn s + prodn s)); first by rewrite ltn_add2l.
by rewrite addnC -mulSn leq_mul2r h1 orbT.
Qed.
Theorem np_array_spec (inst : T -> bool) s v : rect inst s v ->
  [/\ shape (np_array (ANest v)) = s, wf_arr (np_array (ANest v)) &
      forall idx, valid_idx s idx -> exists x, [/\ at_idx v idx = Some x, inst x & nth_error (data (np_array (ANest v))) (ravel s idx) = Some (Obj x)]].
Proof.
move=> H; have Es := rect_shape H; have [_ Ez] := rect_entries H.
split; [exact: Es|by rewrite /wf_arr /= Es Ez|].
rewrite /= Es; elim/nested_deep: v s H {Es Ez} => [x|l IH] s.
  by move=> H; inversion H; subst=> -[|//] _; exists x.
move=> H; inversion H as [|E1|s' v l' H' E1 E2]; subst; first by case.
case=> // i idx /andP[hi hv]; have [u hu] := nth_error_lt hi; have hin := in_nth_error hu.
have [x [h1 h2 h3]] := IH u hin s' (H' u hin) idx hv; exists x; split=> //; first by rewrite [LHS]/= hu.
rewrite -h3; apply: (@flatten_nth (np_entries (size s')) (prodn s') (v :: l') i _ u) => //; last exact: ravel_lt.
by move=> w hw; have [] := rect_entries (H' w hw).
Qed.

(** an object next to a list is refused whatever the objects are *)
Theorem ragged_refused (inst iter : T -> bool) x l l1 l2 (tag : string) :
  check_is_me inst iter (ANest (Lst (l1 ++ Obj x :: l2 ++ [:: Lst l]))) "" tag = throw tag.
Proof.
have [_] := check_is_me_spec inst iter (ANest (Lst (l1 ++ Obj x :: l2 ++ [:: Lst l]))) "" tag; apply=> -[s /= H].
have H0 s' : (forall u, In u (l1 ++ Obj x :: l2 ++ [:: Lst l]) -> rect inst s' u) -> False.
  move=> h; have h1 : rect inst s' (Obj x) by apply: h; apply: in_or_app; right; left.
  have h2 : rect inst s' (Lst l) by apply: h; apply: in_or_app; right; right; apply: in_or_app; right; left.
  by move: h2; inversion h1; subst=> h2; inversion h2.
inversion H as [|E1 E2|s' v l' H' E1 E2]; first by case: (l1) E2.
by apply: (H0 s'); rewrite -E2.
Qed.
End TypeCheck.
