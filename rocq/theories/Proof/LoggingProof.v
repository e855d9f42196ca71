(** How often a message is written. *)
Require Import Coq.Strings.String Coq.Strings.Ascii.
From mathcomp Require Import all_ssreflect.
From mathcomp.zify Require Import zify.
From Verif.Model Require Import Throw Logging.
From Verif.Spec Require Import ThrowSpec LoggingSpec.
From Verif.Proof Require Import ThrowProof.
Set Implicit Arguments.
Unset Strict Implicit.
Unset Printing Implicit Defensive.
Local Open Scope string_scope.

Lemma string_eqP : Equality.axiom String.eqb.
Proof. by move=> a b; apply: (iffP idP); [move/String.eqb_eq|move/String.eqb_eq]. Qed.
Definition string_eqMixin := EqMixin string_eqP.
Canonical string_eqType := Eval hnf in EqType string string_eqMixin.

Lemma dot_prefixesP n p : reflect (exists t, n = p ++ "." ++ t) (p \in dot_prefixes n).
Proof.
elim: n p => [|c n IH] p /=; first by right; case=> t; case: p.
rewrite mem_cat; apply: (iffP orP) => [[]|].
- by case: (Ascii.eqb_spec c "."%char) => // ->; rewrite inE => /eqP ->; exists n.
- by case/mapP=> q /IH [t ->] ->; exists t.
- case=> t; case: p => [|d p] /= [-> E]; first by left; rewrite inE.
  by right; apply/mapP; exists p => //; apply/IH; exists t.
Qed.
Lemma dot_prefixes_uniq n : uniq (dot_prefixes n).
Proof.
elim: n => //= c n IH; rewrite cat_uniq map_inj_uniq ?IH ?andbT; last by move=> a b [].
case: (Ascii.eqb c "."%char) => //=; by apply/hasPn => x /mapP [q _ ->].
Qed.
Lemma self_prefix n : n \notin dot_prefixes n.
Proof.
apply/dot_prefixesP => -[t] /(congr1 String.length).
have L a b : String.length (a ++ b) = (String.length a + String.length b)%N by elim: a => //= c a ->.
by rewrite !L /=; lia.
Qed.
Lemma ancestors_uniq n : uniq (ancestors n).
Proof.
rewrite /ancestors -/(eq_op n "") ; case: ifP => //= /negbT n0.
rewrite mem_cat mem_rev mem_filter inE (negbTE (self_prefix n)) andbF /= n0 /=.
by rewrite cat_uniq rev_uniq filter_uniq ?dot_prefixes_uniq //= orbF mem_rev mem_filter.
Qed.
Lemma ancestorsP n a : reflect (above a n) (a \in ancestors n).
Proof.
rewrite /ancestors; case: ifP => [/String.eqb_eq ->|n0].
  rewrite inE; apply: (iffP eqP) => [->|[//|[//|[t]]]]; [by left|by case: a].
rewrite inE mem_cat mem_rev mem_filter inE; apply: (iffP or3P) => [[]|].
- by move/eqP=> ->; left.
- by case/andP=> _ /dot_prefixesP h; right; right.
- by move/eqP=> ->; right; left.
case=> [->|[->|h]]; [by constructor 1|by constructor 3|].
have [->|a0] := eqVneq a ""; first by constructor 3.
by constructor 2; rewrite a0; apply/dot_prefixesP.
Qed.

Lemma sum_count (T : eqType) (s t : seq T) : uniq s -> sumn [seq count (eq_op a) t | a <- s] = count (fun x => x \in s) t.
Proof.
move=> U; elim: t => [|x t IH] /=; first by elim: (s) => //= a s' ->.
rewrite -IH; transitivity (sumn [seq (a == x) + count (eq_op a) t | a <- s])%N; first by [].
have -> : (x \in s) = count (fun a => a == x) s :> nat.
  by rewrite -/(count_mem x s) count_uniq_mem.
by elim: (s) => //= a s' ->; lia.
Qed.
Lemma flatten_nseq (T : Type) (x : T) (ns : seq nat) : flatten [seq nseq n x | n <- ns] = nseq (sumn ns) x.
Proof. by elim: ns => //= n ns ->; rewrite nseqD. Qed.

Lemma info_run now st name msg : name \in debug st ->
  info now st name msg = nseq (count (fun h => h \in ancestors name) (handlers st)) (line now name msg).
Proof.
move=> H; rewrite /info; have -> : enabled st name.
  apply/hasP; exists name; first by apply/ancestorsP; left.
  by apply/hasP; exists name => //; apply/String.eqb_eq.
rewrite -(sum_count _ (ancestors_uniq name)) -flatten_nseq -map_comp; by [].
Qed.

(** the name of the caller *)
Definition cname (callers : seq frame) : string :=
  match get_caller_name (Frame (Some "ellipy.gen.logging.logging") None "get_logger" :: callers) 2 "full" with
  | Returned n => n | Raised _ => "" end.
Lemma get_logger_run callers st : get_logger callers st = Returned (cname callers, Logs (rcons (handlers st) (cname callers)) (rcons (debug st) (cname callers))).
Proof.
rewrite /get_logger /cname; by have [name [-> _]] := name_run (Frame (Some "ellipy.gen.logging.logging") None "get_logger" :: callers) 2.
Qed.
Lemma cname_qualified f st : named f -> qualified f (cname (f :: st)).
Proof.
rewrite /cname; have [name [-> H]] := name_run (Frame (Some "ellipy.gen.logging.logging") None "get_logger" :: f :: st) 2.
exact: H.
Qed.

Definition lines now (hs : seq string) (w : seq frame * seq string) : seq string :=
  flatten [seq nseq (count (fun h => h \in ancestors (cname w.1)) hs) (line now (cname w.1) m) | m <- w.2].
Lemma warn_run now callers msgs st : warn now callers msgs st =
  Returned (lines now (rcons (handlers st) (cname callers)) (callers, msgs), Logs (rcons (handlers st) (cname callers)) (rcons (debug st) (cname callers))).
Proof.
rewrite /warn get_logger_run /lines; congr (Returned (flatten _, _)); apply: eq_map => m /=.
by rewrite info_run //= mem_rcons mem_head.
Qed.
Lemma warns_run now ws st : exists outs st', warns now ws st = Returned (outs, st') /\ size outs = size ws /\
  forall i, (i < size ws)%N -> nth [::] outs i =
    lines now (handlers st ++ [seq cname w.1 | w <- take i.+1 ws])%SEQ (nth ([::], [::]) ws i).
Proof.
elim: ws st => [|[callers msgs] ws IH] st /=; first by exists [::], st.
rewrite warn_run; set st1 := Logs _ _.
have [outs [st' [-> [Hs H]]]] := IH st1; eexists _, _; split; first by [].
split=> [|[|i] hi] /=; first by rewrite Hs.
  by rewrite take0 /= cats1.
by rewrite H // cat_rcons.
Qed.

Theorem warns_lines now ws : (forall i, (i < size ws)%N -> exists f st, (nth ([::], [::]) ws i).1 = f :: st /\ named f) ->
  exists names outs st, [/\ caller_names ws names, warns now ws no_logs = Returned (outs, st), size outs = size ws &
    forall i, (i < size ws)%N -> exists2 N, nth [::] outs i = flatten [seq nseq N (line now (nth "" names i) m) | m <- (nth ([::], [::]) ws i).2] &
      exists js, [/\ uniq js, size js = N & forall j, j \in js <-> (j <= i)%N /\ above (nth "" names j) (nth "" names i)]].
Proof.
move=> Hn; have [outs [st [E [Hs H]]]] := warns_run now ws no_logs.
exists [seq cname w.1 | w <- ws], outs, st; split=> //.
  split; first by rewrite size_map.
  move=> i hi; have [f [s [Ef nf]]] := Hn i hi; exists f, s; split=> // _.
  by rewrite (nth_map ([::], [::])) // Ef; exact: cname_qualified.
move=> i hi; rewrite H // /lines (nth_map ([::], [::])) //= map_take; set names := [seq cname w.1 | w <- ws].
eexists; first by reflexivity.
have sz : size names = size ws by rewrite size_map.
exists [seq j <- iota 0 i.+1 | nth "" names j \in ancestors (cname (nth ([::], [::]) ws i).1)]; split.
- by rewrite filter_uniq ?iota_uniq.
- rewrite size_filter; have -> : take i.+1 names = [seq nth "" names j | j <- iota 0 i.+1].
    apply: (@eq_from_nth _ "") => [|j]; rewrite size_takel ?sz ?size_map ?size_iota // => hj.
    by rewrite nth_take // (nth_map 0%N) ?size_iota // nth_iota.
  by rewrite count_map.
- move=> j; rewrite mem_filter mem_iota add0n ltnS /=; split; first by case/andP=> /ancestorsP.
  by case=> -> h; rewrite andbT; apply/ancestorsP.
Qed.

(** the same function warns k times *)
Theorem warns_same now callers msgs k :
  exists outs st, warns now (nseq k (callers, msgs)) no_logs = Returned (outs, st) /\
    (size (flatten outs)).*2 = (size msgs * (k * k.+1))%N.
Proof.
have [outs [st [E [Hs H]]]] := warns_run now (nseq k (callers, msgs)) no_logs; exists outs, st; split=> //.
rewrite size_nseq in Hs H.
have L i : (i < k)%N -> size (nth [::] outs i) = (size msgs * i.+1)%N.
  move=> hi; rewrite H // nth_nseq hi /lines /= size_flatten /shape -map_comp.
  have -> : count (fun h => h \in ancestors (cname callers)) [seq cname w.1 | w <- take i.+1 (nseq k (callers, msgs))] = i.+1.
    have -> : take i.+1 (nseq k (callers, msgs)) = nseq i.+1 (callers, msgs).
      by rewrite -(subnKC hi) nseqD take_size_cat ?size_nseq.
    have A : cname callers \in ancestors (cname callers) by apply/ancestorsP; left.
    by rewrite map_nseq count_nseq /= A mul1n.
  by elim: (msgs) => //= m ms ->; rewrite size_nseq mulSn.
rewrite size_flatten /shape; have -> : map size outs = [seq (size msgs * i.+1)%N | i <- iota 0 k].
  apply: (@eq_from_nth _ 0%N) => [|i]; rewrite !size_map ?size_iota // => hi.
  by rewrite !(nth_map [::]) // (nth_map 0%N) ?size_iota -?Hs // nth_iota // L // -Hs.
have S a n : (sumn [seq (a * i.+1)%N | i <- iota 0 n]).*2 = (a * (n * n.+1))%N.
  elim: n => [|n IH]; first by rewrite muln0.
  by rewrite -addn1 iotaD map_cat sumn_cat doubleD IH /= add0n addn0 -muln2; lia.
exact: S.
Qed.

Theorem warns_once now ws : (forall i, (i < size ws)%N -> exists f st, (nth ([::], [::]) ws i).1 = f :: st /\ named f) ->
  exists names outs st, [/\ caller_names ws names, warns now ws no_logs = Returned (outs, st) &
    forall i, (i < size ws)%N -> (forall j, (j < i)%N -> ~ above (nth "" names j) (nth "" names i)) ->
      nth [::] outs i = [seq line now (nth "" names i) m | m <- (nth ([::], [::]) ws i).2]].
Proof.
move=> Hn; have [names [outs [st [h1 h2 h3 H]]]] := warns_lines now Hn; exists names, outs, st; split=> // i hi Hj.
have [N -> [js [U Sz Hjs]]] := H i hi; have N1 : N = 1%N.
  rewrite -Sz; have/perm_size -> // : perm_eq js [:: i].
  apply: uniq_perm => // j; rewrite inE; apply/idP/eqP => [/Hjs [le ab]|->]; last by apply/Hjs; split=> //; left.
  by move: le; rewrite leq_eqVlt => /predU1P[//|/Hj []].
by rewrite N1; elim: (_.2) => //= m ms ->.
Qed.
