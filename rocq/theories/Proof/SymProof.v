(** Proofs about Model/Sym.v. *)
Require Import Coq.Lists.List.
From mathcomp Require Import all_ssreflect.
Require Import Coq.Strings.String Coq.Strings.Ascii.
From Verif.Model Require Import Py NP La Sym.
From Verif.Spec Require Import SymSpec.
Set Implicit Arguments.
Unset Strict Implicit.
Unset Printing Implicit Defensive.

Section SymProof.
Variable alnum : nat -> bool.
Hypothesis Hal : alnum_ok alnum.
Notation word := (word alnum).
Notation wchar := (wchar alnum).
Notation rx_ends := (rx_ends alnum).

Lemma word_wchar c : word c = wchar c. Proof. by []. Qed.
Lemma newline_not_word : word newline = false.
Proof. by rewrite /Sym.word Hal. Qed.

(** positions, from the middle of the string *)
Definition stands_at (c : nat) (l s : str) : Prop :=
  exists a b, [/\ s = a ++ c :: b, (if catrev a l is d :: _ then ~~ wchar d else True) &
    (if b is d :: _ then ~~ wchar d else True)].

Definition some (p : seq pos) : bool := if p is [::] then false else true.
Lemma some_neq p : (p != [::]) = some p. Proof. by case: p. Qed.
Lemma some_cat p q : some (p ++ q) = some p || some q. Proof. by case: p. Qed.
Lemma some_flatten T (f : T -> seq pos) l : some (flatten [seq f q | q <- l]) = has (fun q => some (f q)) l.
Proof. by elim: l => [|x l IH] //=; rewrite some_cat IH. Qed.
Lemma some_Cat r1 r2 p : some (rx_ends (Cat r1 r2) p) = has (fun q => some (rx_ends r2 q)) (rx_ends r1 p).
Proof. exact: some_flatten. Qed.
Lemma some_Alt r1 r2 p : some (rx_ends (Alt r1 r2) p) = some (rx_ends r1 p) || some (rx_ends r2 p).
Proof. exact: some_cat. Qed.

Definition okw (s : str) : bool := if s is d :: _ then ~~ wchar d else true.
(** after the variable *)
Lemma after_var l b : some (rx_ends NonWord (l, b)) || some (rx_ends Eol (l, b)) = okw b.
Proof.
case: b => [|d b] //=; rewrite /= -word_wchar; case E : (word d) => //=.
case: eqP => // -[Ed _]; by rewrite Ed newline_not_word in E.
Qed.
Lemma some_Ch c r l s : some (rx_ends (Cat (Ch c) r) (l, s)) =
  (if s is d :: s' then (c == d) && some (rx_ends r (d :: l, s')) else false).
Proof. by rewrite some_Cat; case: s => [|d s] //=; case: eqP => // _ /=; rewrite orbF. Qed.
Lemma some_NonWord r l s : some (rx_ends (Cat NonWord r) (l, s)) =
  (if s is d :: s' then ~~ word d && some (rx_ends r (d :: l, s')) else false).
Proof. by rewrite some_Cat; case: s => [|d s] //=; case: (word d) => //=; rewrite orbF. Qed.
Lemma some_Bol r l s : some (rx_ends (Cat Bol r) (l, s)) = (if l is [::] then some (rx_ends r (l, s)) else false).
Proof. by rewrite some_Cat; case: l => [|d l] //=; rewrite orbF. Qed.

(** l is the text before, reversed: a match starts one character before the variable or at the start *)
Definition var_at (c : nat) (s : str) : bool := if s is d :: b then (c == d) && okw b else false.
Lemma dep_here c l s : some (rx_ends (dep_rx c) (l, s)) =
  (if l is [::] then var_at c s else false) || (if s is d :: s' then ~~ wchar d && var_at c s' else false).
Proof.
rewrite /dep_rx !some_Alt !some_NonWord !some_Bol.
case: s => [|d s]; first by case: l => //=; rewrite !some_Ch.
rewrite !some_Ch /=.
have V l' : (if s is e :: s' then (c == e) && some (rx_ends NonWord (e :: l', s')) else false)
         || (if s is e :: s' then (c == e) && some (rx_ends Eol (e :: l', s')) else false) = var_at c s.
  by case: s => [|e s] //=; rewrite -andb_orr after_var.
have R (a b x y : bool) : a || (x || (b || y)) = (x || y) || (a || b) by case: a b x y => [] [] [] [].
have R' (a b : bool) : a || (false || (b || false)) = false || (a || b) by case: a b => [] [].
rewrite -word_wchar -(V (d :: l)) andb_orr; case: l => [|x l]; last exact: R'.
have Va : (c == d) && okw s = (c == d) && some (rx_ends NonWord ([:: d], s)) || (c == d) && some (rx_ends Eol ([:: d], s)).
  by rewrite -andb_orr after_var.
by rewrite Va; exact: R.
Qed.

Lemma search_stands c l s : search_from alnum (dep_rx c) l s <->
  ((if l is [::] then var_at c s else false) : bool) \/ (exists a d b, [/\ s = a ++ [:: d, c & b], ~~ wchar d & okw b]).
Proof.
elim: s l => [|x s IH] l.
  rewrite -[search_from _ _ _ _]/((rx_ends (dep_rx c) (l, [::]) != [::]) || false) some_neq dep_here !orbF.
  by case: l => [|y l]; split=> // -[//|[[|z a] [d [b []]]]].
have -> : search_from alnum (dep_rx c) l (x :: s) =
  (rx_ends (dep_rx c) (l, x :: s) != [::]) || search_from alnum (dep_rx c) (x :: l) s by [].
rewrite some_neq dep_here; split.
  case/orP => [/orP[H|/andP[Hx H]]|]; first by left.
    right; exists [::], x; move: H; case: (s) => [|e b] //= /andP[/eqP<- Hb]; by exists b.
  move/IH => [//|[a [d [b [-> Hd Hb]]]]]; right; by exists (x :: a), d, b.
case=> [H|[[|y a] [d [b [/= [Ex Es] Hd Hb]]]]].
- by rewrite H.
- by rewrite Ex Es /var_at Hd eqxx Hb /= orbT.
- by apply/orP; right; apply/IH; right; exists a, d, b.
Qed.

Lemma searchP c s : search alnum (dep_rx c) s <-> stands_alone alnum c s.
Proof.
rewrite /search search_stands; split.
  case=> [|[a [d [b [-> Hd Hb]]]]].
    case: s => [|e b] //= /andP[/eqP<- Hb]; exists [::], b; split=> //; first by left.
    by case: b Hb => [|d b] /= Hb; [left|right; exists d, b].
  exists (rcons a d), b; split; first by rewrite cat_rcons.
    by right; exists a, d.
  by case: b Hb => [|e b] /= Hb; [left|right; exists e, b].
move=> [a [b [-> Ha Hb]]].
have {}Hb : okw b by case: Hb => [->//|[d [b' [->]]]].
case: Ha => [->|[a' [d [-> Hd]]]]; first by left; rewrite /= eqxx.
by right; exists a', d, b; rewrite cat_rcons.
Qed.

Theorem is_dependent_spec m dis : data m <> [::] ->
  exists b, is_dependent alnum m dis = Ok b /\
  (b = true <-> exists e, In e (data m) /\ stands_alone alnum (if dis then 107 else 116) (text1 e)).
Proof.
move=> Hm; rewrite /is_dependent; case E : (size (data m) == 0); first by move/eqP/size0nil: E.
eexists; split; first by [].
have -> : (if dis then cp "k" else cp "t") = (if dis then 107 else 116) by case: dis.
move: (if dis then _ else _) => c.
elim: (data m) => [|e l IH] /=; first by split=> // -[e []].
split=> [/orP[/searchP He|/IH[e' [H1 H2]]]|[e' [[->|H1] H2]]].
- by exists e; split; [left|].
- by exists e'; split; [right|].
- by apply/orP; left; apply/searchP.
- by apply/orP; right; apply/IH; exists e'.
Qed.

(** ** var_replace *)
Notation pieces := (pieces alnum).
Variable f value : str.
Hypothesis Hf : f <> [::].
Hypothesis Hw : all word f.
Notation r := (word_rx f).
Notation wordb := (wordb alnum).

(** the end of a literal match *)
Lemma ends_lit (w : str) l s : rx_ends (foldr (fun c r => Cat (Ch c) r) WordB w) (l, s) =
  (if (take (size w) s == w) && (wordb (catrev w l) != wordb (drop (size w) s)) then
   [:: (catrev w l, drop (size w) s)] else [::]).
Proof.
elim: w l s => [|c w IH] l s /=; first by rewrite take0 drop0 eqxx.
case: s => [|d s] //=; rewrite eqseq_cons (eq_sym c d); case: eqP => [->|_] //=.
by rewrite cats0 IH.
Qed.
Lemma ends_word l s : rx_ends r (l, s) =
  (if [&& wordb l != wordb s, take (size f) s == f & wordb (catrev f l) != wordb (drop (size f) s)] then
   [:: (catrev f l, drop (size f) s)] else [::]).
Proof. by rewrite /word_rx /=; case: (_ != _) => //=; rewrite cats0 ends_lit. Qed.
Lemma wordb_catrev l : wordb (catrev f l) = true.
Proof.
rewrite catrevE; move: Hf Hw; case: (lastP f) => // w c _.
by rewrite all_rcons rev_rcons => /andP[].
Qed.
Lemma f_size : (0 < size f)%N. Proof. by move: Hf; case: f. Qed.
Lemma f_head s : take (size f) s == f -> wordb s.
Proof. by move: Hf Hw; case: f => [|c w] //= _ /andP[Hc _]; case: s => [|d s] //= /eqP[-> _]. Qed.

Definition out (ps : seq str) : str := flatten [seq if p == f then value else p | p <- ps].

(** inside a piece nothing matches *)
Lemma loop_inside n p l s : (size (p ++ s) < n)%N -> wordb l = all word p -> all word p || all (fun c => ~~ word c) p ->
  p <> [::] -> l <> [::] -> sub_loop alnum n r value l (p ++ s) = p ++ sub_loop alnum (n - size p) r value (catrev p l) s.
Proof.
elim: p n l => [|c p IH] // [|n] // l; rewrite [size _]/= ltnS => Hn Hl Hc _ Hne.
have -> : sub_loop alnum n.+1 r value l ((c :: p) ++ s) = c :: sub_loop alnum n r value (c :: l) (p ++ s).
  rewrite /sub_loop -/sub_loop cat_cons ends_word; case: ifP => // /and3P[Hb Ht _].
  have Wc : word c by move: (f_head Ht).
  move: Hl Hb Hc => -> /=; rewrite Wc /= orbF; by case: (all word p).
case: p IH Hn Hl Hc => [|d p] IH Hn Hl Hc; first by rewrite /= subSS subn0.
rewrite cat_cons IH //=.
- by case/orP: Hc => /= /and3P[Wc Wd Wp]; rewrite ?Wc ?Wd ?Wp // (negbTE Wc) (negbTE Wd).
- by move: Hc; case/orP=> /= /and3P[_ -> ->] //; rewrite orbT.
Qed.

Definition kind (p : str) : bool := all word p.
(** the piece that starts here *)
Lemma loop_piece n p l s ps : (size (p ++ s) < n)%N -> p != [::] -> all word p || all (fun c => ~~ word c) p ->
  (if s is c :: _ then word c != word (head 0 p) else True) ->
  (if l is c :: _ then word c != word (head 0 p) else True) ->
  (forall n' l', (size s < n')%N -> (if s is c :: _ then wordb l' != word c else True) -> l' <> [::] ->
     sub_loop alnum n' r value l' s = out ps) ->
  sub_loop alnum n r value l (p ++ s) = out (p :: ps).
Proof.
move=> Hn Hp Hk Hs Hl Hnext; rewrite /out /= -/(out ps).
case: n Hn => // n; rewrite ltnS => Hn.
case: p Hp Hk Hs Hl Hn => // c p _ Hk Hs Hl Hn.
have Hends : (rx_ends r (l, (c :: p) ++ s) == [::]) = ((c :: p) != f).
  rewrite ends_word wordb_catrev; case: ifP => [/and3P[Hb Ht He]|Hc].
    symmetry; apply/negbTE; rewrite negbK.
    have Wc : word c by move: (f_head Ht).
    have Hk' : all word (c :: p) by case/orP: Hk => //= /andP[]; rewrite Wc.
    move/eqP: Ht; rewrite take_cat; case: ltnP => [Hlt Et|Hge].
      exfalso; move: He; rewrite drop_cat Hlt.
      have := drop_nth 0 Hlt; move: (drop _ _) => q ->; rewrite /=.
      by rewrite (allP Hk' _ (mem_nth 0 Hlt)).
    case E : (size f - size (c :: p))%N => [|m].
      by rewrite take0 cats0 => <-.
    case: s Hs He {Hb Hn Hnext} => [|d s] Hs He; first by rewrite cats0 => <-.
    move=> /= Et; exfalso; move: Hs => /=; rewrite Wc.
    have : word d by apply: (allP Hw); rewrite -Et /= inE mem_cat inE eqxx !orbT.
    by move=> ->.
  symmetry; apply/negP => /eqP Ef; move: Hc; rewrite -Ef take_size_cat // drop_size_cat // eqxx /=.
  have Wc : word c by move: Hw; rewrite -Ef => /andP[].
  case: s Hs {Hn Hnext} => [|d s] /= Hs; rewrite ?andbT.
    by move: Hl; rewrite /= Wc; case: l => [|e l] //= ->.
  move: Hs; rewrite Wc; case: (word d) => //= _.
  by move: Hl; rewrite /= Wc; case: l => [|e l] //= ->.
have -> : sub_loop alnum n.+1 r value l ((c :: p) ++ s) = (if rx_ends r (l, (c :: p) ++ s) is q :: _ then
    value ++ sub_loop alnum n r value q.1 q.2 else c :: sub_loop alnum n r value (c :: l) (p ++ s)).
  by rewrite /sub_loop -/sub_loop; case: (rx_ends _ _).
case: (@eqP _ (c :: p) f) Hends => [Ef|Nf].
  rewrite ends_word; case: ifP => // _ _ /=; congr (_ ++ _).
  have Ed : drop (size f) (c :: p ++ s) = s by rewrite -Ef -cat_cons drop_size_cat.
  rewrite Ed; apply: Hnext.
  - by move: Hn; rewrite size_cat /= => Hn; apply: leq_trans Hn; rewrite addSn ltnS leq_addl.
  - rewrite wordb_catrev; case: s Hs {Hn Ed} => // d s /=.
    have Wc : word c by move: Hw; rewrite -Ef => /andP[].
    by rewrite Wc; case: (word d).
  - by rewrite -Ef /=; rewrite catrevE; case: (rev p).
case: (rx_ends _ _) => // _; rewrite cat_cons; congr (_ :: _).
case: p Hk Hs Hl Hn Nf => [|d p] Hk Hs Hl Hn Nf.
  apply: Hnext => //; case: s Hs {Hn} => // e s /=; by rewrite eq_sym.
rewrite -[RHS](cat_cons d) loop_inside //=.
- rewrite -cat_cons; congr (_ ++ _); apply: Hnext.
  + by move: Hn; rewrite /= size_cat /= => Hn; rewrite ltn_subRL; apply: leq_trans Hn; rewrite addSn.
  + case: s Hs {Hn} => // e s /= He; rewrite eq_sym.
    have -> : wordb (catrev p (d :: c :: l)) = word c => //.
    case: (lastP p) Hk => [|q z]; first by rewrite /=; case/orP => /and3P[]; do 2![case: (word _) => //].
    rewrite catrevE rev_rcons /=; case/orP => /= /and3P[Hc Hd]; rewrite all_rcons => /andP[Hz _].
      by rewrite Hc Hz.
    by rewrite (negbTE Hc) (negbTE Hz).
  + by rewrite catrevE; case: (rev p).
- by move: Hk; case/orP => /= /and3P[Hc Hd Hq]; rewrite ?Hc ?Hd ?Hq // (negbTE Hc) (negbTE Hd).
- by move: Hk; case/orP => /= /and3P[Hc Hd Hq]; rewrite Hd Hq ?orbT.
Qed.

Lemma loop_pieces s ps : pieces s ps -> forall n l, (size s < n)%N ->
  (if s is c :: _ then l = [::] \/ wordb l != word c else True) ->
  sub_loop alnum n r value l s = out ps.
Proof.
elim=> [|p s' qs Hp Hk Hs Hps IH] n l Hn Hl.
  case: n Hn => // n _; rewrite /sub_loop -/sub_loop ends_word; case: ifP => // /and3P[_ Ht _].
  by move: (f_head Ht).
apply: (loop_piece (n := n) (ps := qs)) => //.
  case: p Hp {Hk Hs Hn} Hl => // c p _ /=; case: l => // d l [//|] /=; by rewrite eq_sym.
move=> n' l' Hn' Hl' _; apply: IH => //; by case: (s') Hl' => // ? ? ?; right.
Qed.

Lemma re_sub_pieces s ps : pieces s ps -> re_sub alnum r value s = out ps.
Proof. by move=> H; apply: (loop_pieces H) => //; case: (s) => // ? ?; left. Qed.

End SymProof.

(** every string can be cut *)
Section Pieces.
Variable alnum : nat -> bool.
Notation wchar := (wchar alnum).
Fixpoint cut (s : str) : seq str :=
  if s is c :: s' then
    match cut s' with
    | (d :: p) :: ps => if wchar c == wchar d then (c :: d :: p) :: ps else [:: c] :: (d :: p) :: ps
    | ps => [:: c] :: ps
    end
  else [::].
Lemma cut_pieces s : pieces alnum s (cut s).
Proof.
elim: s => [|c s IH] /=; first exact: PNil.
move: IH; case E : (cut s) => [|[|d p] ps] IH.
- inversion IH; subst; apply: (@PCons alnum [:: c] [::] [::]) => //=; first by rewrite !andbT orbN.
- by inversion IH.
- inversion IH; subst; case: eqP => [Ec|Nc].
    apply: (@PCons alnum (c :: d :: p)) => //.
      by move: H2 => /=; rewrite Ec; case/orP => /= /andP[-> ->]; rewrite ?orbT.
    by case: s0 H4 {E IH H5} => // e s /=; rewrite Ec.
  apply: (@PCons alnum [:: c]) => //=; first by rewrite !andbT orbN.
  by rewrite eq_sym; apply/eqP.
Qed.
Lemma pieces_nonempty s ps : pieces alnum s ps -> [::] \notin ps.
Proof. by elim=> // p s' qs Hp _ _ _ IH; rewrite inE negb_or IH andbT eq_sym. Qed.
Lemma pieces_flatten s ps : pieces alnum s ps -> flatten ps = s.
Proof. by elim=> // p s' qs _ _ _ _ /= ->. Qed.

Lemma piece_occurs w s ps : identifier alnum w -> pieces alnum s ps -> w \in ps -> word_in alnum w s.
Proof.
move=> [Hw0 Hw] H; elim: H => // p s' qs Hp Hk Hs Hps IH; rewrite inE => /orP[/eqP Ew|/IH[a [b [Es Ha Hb]]]].
  subst p; exists [::], s'; split=> //; first by left.
  case: s' Hs {Hps IH} => [|c s'] Hs; [by left|right; exists c, s'; split=> //].
  by move: Hs Hw0 Hw; case: (w) => //= d v Hs _ /andP[Wd _]; move: Hs; rewrite Wd; case: (wchar c).
exists (p ++ a), b; split=> //; first by rewrite Es -!catA.
case: Ha => [Ea|[a' [d [-> Hd]]]]; last by right; exists (p ++ a'), d; rewrite rcons_cat.
right; subst a; move: Hs; rewrite Es /=; case: w Hw0 Hw {IH Es} => // c w _ /= /andP[Wc _] Hs.
case: (lastP p) Hp Hk Hs => // q z _ Hk Hs; exists q, z; split; first by rewrite cats0.
case/orP: Hk => [Hk|]; last by rewrite all_rcons => /andP[].
exfalso; move: Hs; rewrite Wc; case: q Hk => [|e q] /=; first by rewrite andbT => ->.
by case/andP => ->.
Qed.
Lemma occurs_piece w s ps : identifier alnum w -> pieces alnum s ps -> word_in alnum w s -> w \in ps.
Proof.
move=> [Hw0 Hw] H; elim: H => [|p s' qs Hp Hk Hs Hps IH] [a [b [Es Ha Hb]]].
  by case: a Es {Ha} => //; case: w Hw0 {Hw}.
rewrite inE; case: (leqP (size p) (size a)) => Hpa.
  have Ea : a = p ++ drop (size p) a.
    rewrite -{1}(cat_take_drop (size p) a); congr (_ ++ _).
    have : take (size p) (p ++ s') = take (size p) (a ++ w ++ b) by rewrite Es.
    rewrite take_size_cat // => Ep; rewrite {2}Ep take_cat; case: ltnP => // Hap.
    have E0 : size p = size a by apply/eqP; rewrite eqn_leq Hpa.
    by rewrite E0 subnn take0 cats0 take_size.
  apply/orP; right; apply: IH; exists (drop (size p) a), b; split=> //.
    have : drop (size p) (p ++ s') = drop (size p) ((p ++ drop (size p) a) ++ w ++ b) by rewrite -Ea Es.
    by rewrite -catA !drop_size_cat.
  case: Ha => [->|[a' [d [Ea' Hd]]]]; first by left.
  case: (lastP (drop (size p) a)) Ea => [_|q z Eq]; [by left|right; exists q, z; split=> //].
  by move: Eq; rewrite Ea' -rcons_cat => /rcons_inj[_ <-].
apply/orP; left.
(* the first character of w lies in p *)
have Hin : wchar (nth 0 p (size a)).
  have : nth 0 (p ++ s') (size a) = nth 0 (a ++ w ++ b) (size a) by rewrite Es.
  rewrite (nth_cat 0 p) Hpa (nth_cat 0 a) ltnn subnn => ->; by case: w Hw0 Hw {Es IH} => //= c w _ /andP[].
have Hkp : all wchar p.
  by case/orP: Hk => // Hk; move: (allP Hk _ (mem_nth 0 Hpa)); rewrite Hin.
case: Ha => [Ea|[a' [d [Ea Hd]]]]; last first.
  have : nth 0 (p ++ s') (size a') = nth 0 (a ++ w ++ b) (size a') by rewrite Es.
  have Ha' : (size a' < size a)%N by rewrite Ea size_rcons.
  rewrite (nth_cat 0 p) (ltn_trans Ha' Hpa) (nth_cat 0 a) Ha' Ea nth_rcons ltnn eqxx => E.
  by move: (allP Hkp _ (mem_nth 0 (ltn_trans Ha' Hpa))); rewrite E (negbTE Hd).
subst a; rewrite /= in Es Hpa *.
case: (ltngtP (size w) (size p)) => Hwp.
- exfalso; have : nth 0 (p ++ s') (size w) = nth 0 (w ++ b) (size w) by rewrite Es.
  rewrite (nth_cat 0 p) Hwp (nth_cat 0 w) ltnn subnn => E.
  move: (allP Hkp _ (mem_nth 0 Hwp)); rewrite E.
  case: Hb => [Eb|[d [b' [-> Hd]]]]; last by rewrite (negbTE Hd).
  by move: (congr1 size Es) Hwp; rewrite Eb cats0 size_cat => <-; rewrite ltnNge leq_addr.
- exfalso; have : nth 0 (p ++ s') (size p) = nth 0 (w ++ b) (size p) by rewrite Es.
  rewrite (nth_cat 0 p) ltnn subnn (nth_cat 0 w) Hwp => E.
  have := allP Hw _ (mem_nth 0 Hwp); rewrite -E.
  have : s' <> [::].
    by move=> E'; move: (congr1 size Es) Hwp; rewrite E' cats0 size_cat => ->; rewrite ltnNge leq_addr.
  case: s' Hs {IH Hps Es E} => // c s' Hs _ /=; move: Hs.
  by case: p Hp Hkp {Hk Hin Hpa Hwp} => //= e p _ /andP[->] _; case: (wchar c).
- by have := congr1 (take (size p)) Es; rewrite take_size_cat // -Hwp take_size_cat // => ->.
Qed.
End Pieces.

Lemma template_plain s : cp "\" \notin s -> template s = Ok s.
Proof.
elim: s => // c s IH; rewrite inE negb_or => /andP[Hc Hs] /=.
by rewrite eq_sym (negbTE Hc) IH.
Qed.

Section Replace.
Variable alnum : nat -> bool.

Theorem var_replace_spec m f t : np_size m <> 0 -> identifier alnum f -> 92 \notin t ->
  exists o, [/\ var_replace alnum m (Name f) (Name t) = Ok o, shape o = shape m &
    Forall2 (fun e s => forall ps, pieces alnum (no_blanks (text2 e)) ps ->
      s = flatten [seq if p == f then lit "(" ++ t ++ lit ")" else p | p <- ps]) (data m) (data o)].
Proof.
move=> Hm [Hf Hw] Ht; rewrite /var_replace; case: eqP => // _.
have -> : (f == [::]) || ~~ all (word alnum) f = false.
  by rewrite -[all (word alnum) f]/(all (wchar alnum) f) Hw orbF; apply/eqP.
rewrite template_plain /=; last by rewrite inE mem_cat negb_or /= negb_or Ht.
eexists; split=> //=; elim: (data m) => [|e l IH] /=; constructor=> // ps Hps.
exact: (re_sub_pieces _ Hf Hw Hps).
Qed.
End Replace.

Section Replace2.
Variable alnum : nat -> bool.

Theorem var_replace_unchanged m f t : np_size m <> 0 -> identifier alnum f -> 92 \notin t ->
  exists o, var_replace alnum m (Name f) (Name t) = Ok o /\
    Forall2 (fun e s => ~ word_in alnum f (no_blanks (text2 e)) -> s = no_blanks (text2 e)) (data m) (data o).
Proof.
move=> Hm Hf Ht; have [o [Ho _ H]] := var_replace_spec Hm Hf Ht; exists o; split=> //.
elim: H => [|e s l1 l2 He _ IH]; constructor=> // Hn.
rewrite (He _ (cut_pieces alnum _)) -[RHS](pieces_flatten (cut_pieces alnum _)).
congr flatten; have : f \notin cut alnum (no_blanks (text2 e)).
  by apply/negP => /(piece_occurs Hf (cut_pieces alnum _)).
elim: (cut _ _) => //= p ps IH'; rewrite inE negb_or => /andP[Hp /IH' ->].
by rewrite eq_sym (negbTE Hp).
Qed.
Theorem var_replace_rejects m from to : (np_size m = 0 -> var_replace alnum m from to = throw "wrongInput:m_mat") /\
  (np_size m <> 0 -> (from = NotStr -> var_replace alnum m from to = throw "wrongInput:from_var_name") /\
    (from <> NotStr -> to = NotStr -> var_replace alnum m from to = throw "wrongInput:to_var_name")).
Proof.
rewrite /var_replace; split; first by move=> ->.
by move/eqP/negbTE => ->; split=> [->//|]; case: from => // f _ ->.
Qed.
End Replace2.

(** ** Concrete strings *)
Lemma ascii_ok : alnum_ok ascii_alnum. Proof. by []. Qed.
Definition one (s : string) : arr entry := Arr [:: 1; 1] [:: Text (lit s)].
Lemma stands_ex s c l r : s = l ++ c :: r -> okw ascii_alnum (rev l) -> okw ascii_alnum r -> stands_alone ascii_alnum c s.
Proof.
move=> -> Hl Hr; exists l, r; split=> //.
  case: (lastP l) Hl => [|q z]; [by left|rewrite rev_rcons => Hz; right; by exists q, z].
by case: r Hr => [|z q] Hr; [left|right; exists z, q].
Qed.
Lemma word_ex w s l r : s = l ++ w ++ r -> okw ascii_alnum (rev l) -> okw ascii_alnum r -> word_in ascii_alnum w s.
Proof.
move=> -> Hl Hr; exists l, r; split=> //.
  case: (lastP l) Hl => [|q z]; [by left|rewrite rev_rcons => Hz; right; by exists q, z].
by case: r Hr => [|z q] Hr; [left|right; exists z, q].
Qed.

(** blanks go first: "a t" becomes one word, and "a b" becomes the word ab *)
Theorem var_replace_merges :
  (word_in ascii_alnum (lit "t") (lit "a t") /\
   var_replace ascii_alnum (one "a t") (Name (lit "t")) (Name (lit "x")) = Ok (Arr [:: 1; 1] [:: lit "at"])) /\
  (~ word_in ascii_alnum (lit "ab") (lit "a b") /\
   var_replace ascii_alnum (one "a b") (Name (lit "ab")) (Name (lit "x")) = Ok (Arr [:: 1; 1] [:: lit "(x)"])).
Proof.
split; split; try by vm_compute.
  by apply: (@word_ex _ _ (lit "a ") [::]).
move=> [a [b [E _ _]]]; case: a E => [|c1 [|c2 [|c3 [|]]]] //=.
Qed.
Theorem var_replace_backslash :
  exists m t, var_replace ascii_alnum m (Name (lit "t")) (Name t) = Err (PyExc "re.error"%string).
Proof. exists (one "t"), (lit "\d"); by vm_compute. Qed.
