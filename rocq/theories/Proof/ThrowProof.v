(** Proofs about the texts of errors. *)
Require Import Coq.Strings.String Coq.Strings.Ascii.
From mathcomp Require Import all_ssreflect.
From mathcomp.zify Require Import zify.
From Verif.Model Require Import Throw.
From Verif.Spec Require Import ThrowSpec.
Set Implicit Arguments.
Unset Strict Implicit.
Unset Printing Implicit Defensive.
Local Open Scope string_scope.

Lemma appA (a b c : string) : (a ++ b) ++ c = a ++ b ++ c.
Proof. by elim: a => //= x a ->. Qed.

Lemma up_capital a : Ascii.eqb a "."%char = false -> capital a (up a).
Proof.
move=> _; rewrite /up; case: ifP => [/andP[H1 H2]|H]; [left|right].
  exists (nat_of_ascii a - 97)%N; first by lia.
  by split; [rewrite subnKC // ascii_nat_embedding|congr ascii_of_nat; lia].
split=> // -[i Hi E]; move/negP: H; apply; rewrite E nat_ascii_embedding; last by apply/ltP; lia.
by lia.
Qed.

Lemma get_smap f s i : String.get i (smap f s) = omap f (String.get i s).
Proof. by elim: s i => [|c s IH] [|i] //=. Qed.
Lemma length_smap f s : String.length (smap f s) = String.length s.
Proof. by elim: s => //= c s ->. Qed.

Lemma heading_run s : heading s (upper (colons s)).
Proof.
split; first by rewrite /upper /colons !length_smap.
move=> i a b; rewrite /upper /colons !get_smap => -> /= [<-].
by case: (Ascii.eqb a "."%char) (@up_capital a) => // H; exact: H.
Qed.

(** the name of the frame [skip] levels up *)
Lemma name_run (st : seq frame) skip : 
  exists name, get_caller_name st skip "full" = Returned name /\
    match skip with
    | 0 => name = "ellipy.gen.common.common.get_caller_name"
    | k.+1 => if (k < size st)%N then named (nth (common_frame "") st k) -> qualified (nth (common_frame "") st k) name else name = ""
    end.
Proof.
case: skip => [|k]; first by eexists; split; [reflexivity|].
rewrite /get_caller_name /get_caller_name_ext [size _]/= !addn1 !ltnS.
case: (leqP (size st) k) => H; first by eexists; split; [reflexivity|].
rewrite /=.
case: (nth _ _ _) => m c code /=; eexists; split; first by reflexivity.
move=> [/= N1 N2]; rewrite /qualified /code_name /=.
case: m c N1 N2 => [m|] [c|] N1 N2 //=.
- by case: m N1 => [//|x m] _ /=; rewrite appA.
- by case: m N1 => [//|x m] _ /=.
- by case: c N2 => [//|x m] _ /=.
Qed.

Lemma throw_run (st : seq frame) tag msg steps b :
  exists name head, [/\ heading name head,
    throw_error st tag msg steps b = (if b then Raised (head ++ ":" ++ tag ++ ":" ++ msg) else Returned (head ++ ":" ++ tag ++ ":" ++ msg)) &
    match steps with
    | 0 => name = "ellipy.gen.common.common.throw_error"
    | k.+1 => if (k < size st)%N then named (nth (common_frame "") st k) -> qualified (nth (common_frame "") st k) name else name = ""
    end].
Proof.
have [name [E H]] := name_run (common_frame "throw_error" :: st) (steps + 1).
exists name, (upper (colons name)); split; first exact: heading_run.
  by rewrite /throw_error E.
case: steps {E} H => [|k]; rewrite addn1 //= => H; by apply: H; split.
Qed.

Lemma warn_run (st : seq frame) tag msg :
  exists name head, [/\ heading name head, throw_warn st tag msg = Returned (head ++ ":" ++ tag ++ ":" ++ msg) &
    match st with [::] => name = "" | f :: _ => named f -> qualified f name end].
Proof.
have [name [E H]] := name_run (common_frame "throw_warn" :: st) 2.
exists name, (upper (colons name)); split; [exact: heading_run|by rewrite /throw_warn E|by case: st E H].
Qed.

(** a heading determines neither more nor less than the name up to case and dots *)
Lemma heading_uniq s t t' : heading s t -> heading s t' -> t = t'.
Proof.
elim: s t t' => [|a s IH] [|b t] [|b' t'] [L H] [L' H'] //; move: L L' => /= [L] [L'].
have C (x y z : ascii) : capital x y -> capital x z -> y = z.
  move=> [[i Hi [E1 ->]]|[N ->]] [[j Hj [E2 ->]]|[M ->]] //; last 1 first.
  - by case: N; exists j.
  - have B k : (k < 26)%N -> nat_of_ascii (ascii_of_nat (97 + k)) = (97 + k)%N.
      by move=> Hk; apply: nat_ascii_embedding; apply/ltP; lia.
    by have := B i Hi; rewrite -E1 E2 B // => /addnI ->.
  - by case: M; exists i.
congr String.
  have := H 0 a b erefl erefl; have := H' 0 a b' erefl erefl.
  by case: Ascii.eqb => [-> ->|/C C1 /C1].
by apply: IH; split=> // i; [apply: (H i.+1)|apply: (H' i.+1)].
Qed.

Lemma mode_run (st : seq frame) skip mode : mode <> "default" -> mode <> "full" ->
  get_caller_name st skip mode = Raised ("ELLIPY.GEN.COMMON.COMMON.GET_CALLER_NAMEwrongInput: Unknown mode: " ++ mode).
Proof. by move=> /String.eqb_neq H1 /String.eqb_neq H2; rewrite /get_caller_name H1 H2; case: get_caller_name_ext. Qed.

Lemma default_run (st : seq frame) k : exists2 name, get_caller_name st k.+1 "default" = Returned name &
  if (k < size st)%N then named (nth (common_frame "") st k) -> owner (nth (common_frame "") st k) name else name = "".
Proof.
rewrite /get_caller_name /get_caller_name_ext [size _]/= !addn1 !ltnS.
case: (leqP (size st) k) => H; first by eexists; [reflexivity|].
rewrite /=; case: (nth _ _ _) => m c code; eexists; first by reflexivity.
move=> [/= N1 N2]; rewrite /owner /code_name /=.
by case: m c N1 N2 => [[|? ?]|] [[|? ?]|] N1 N2.
Qed.
