(** shrink_face_tri: theorems about calls. *)
From mathcomp Require Import all_ssreflect all_algebra.
From mathcomp Require Import ring.
From Verif.Model Require Import Py NP Tri.
From Verif.Spec Require Import TriSpec.
From Verif.Proof Require Import NPLib TriMap TriStep TriRefine TriFull TriLoop TriShrink.
From mathcomp.zify Require Import zify.
Set Implicit Arguments.
Unset Strict Implicit.
Unset Printing Implicit Defensive.
Import Order.Theory GRing.Theory Num.Theory.

Section Top.
Variables (R : rcfType) (d : nat) (argsort : seq nat -> seq nat) (m : R).
Hypothesis Harg : argsortn_ok argsort.
Implicit Types (vs : seq 'rV[R]_d) (t : tri R d) (s : stats R).
Notation plain := (@Ok (seq 'rV[R]_d)).

Definition mesh t : Prop := consistent (t_e t) (t_f t) (t_f2e t) (t_dir t) /\ measured t.

Lemma full_mesh adjust t t' : (forall x y, adjust x = Ok y -> size y = size x) -> mesh t -> all (fun l => (m < l)%R) (t_len t) ->
  step m adjust t = Ok t' -> mesh t'.
Proof.
move=> Ha [Hc Hm] Hf St; have Sl := len_size Hm; split.
  by apply/(step_consistent Sl Hc _ St); [case: Hm|exact: full_uniform].
exact: (step_measured (strict_of m Hc) Hm Ha St).
Qed.

Lemma full_lens t t' (B : R) : mesh t -> all (fun l => (m < l)%R) (t_len t) -> all (fun l => (B < l)%R) (t_len t) ->
  step m plain t = Ok t' -> all (fun l => (2%:R^-1 * B < l)%R) (t_len t').
Proof.
move=> [Hc Hm] Hf HB /stepI[vn [<-] ->] /=; have Sl := len_size Hm.
rewrite /sLen (full_kept Hc Sl Hf) mask_falseE /=.
apply/allP => l /mapP[e /(new_half (strict_of m Hc) Hm)[l0 Hl ->] ->].
by rewrite ltr_pmul2l ?invr_gt0 ?ltr0n //; exact: (allP HB).
Qed.
Lemma mesh_edge t : mesh t -> 0 < size (t_f t) -> t_len t != [::].
Proof.
move=> [[_ _ H] Hm] /H/and3P[/andP[h1 _] _ _]; rewrite -size_eq0 len_size //; by case: (size _) h1.
Qed.
Lemma full_faces_pos adjust t t' : mesh t -> all (fun l => (m < l)%R) (t_len t) -> 0 < size (t_f t) -> step m adjust t = Ok t' -> 0 < size (t_f t').
Proof.
move=> [Hc Hm] Hf H0 /stepI[vn _ ->] /=; have [_ _ ->] := full_sizes Hc (len_size Hm) Hf; lia.
Qed.

Lemma plain_run n t : mesh t -> 0 < size (t_f t) -> (0 <= m)%R -> all (fun l => (m * 2%:R ^+ n < 2%:R * l)%R) (t_len t) ->
  exists t', full_run m plain n t t'.
Proof.
elim: n t => [|n IH] t Ht H0 m0 Hl; first by exists t.
have Hf : all (fun l => (m < l)%R) (t_len t).
  apply: sub_all Hl => l /=; rewrite exprS mulrCA ltr_pmul2l ?ltr0n //; apply: le_lt_trans.
  by rewrite -[X in (X <= _)%R]mulr1; apply: ler_wpmul2l => //; apply: exprn_ege1; rewrite ler1n.
have St := @stepE R d m plain t _ (erefl _).
have Ht1 := full_mesh (@ok_size _ _) Ht Hf St; have H1 := full_faces_pos Ht Hf H0 St.
have HB : all (fun l => (m * 2%:R ^+ n < l)%R) (t_len t).
  by apply: sub_all Hl => l /=; rewrite exprS mulrCA ltr_pmul2l ?ltr0n.
have HB1 := full_lens Ht Hf HB St.
have [|t' Hr] := IH _ Ht1 H1 m0.
  apply: sub_all HB1 => l /=; by rewrite ltr_pdivr_mull ?ltr0n.
by exists t'; split=> //; [exact: mesh_edge|eexists; [exact: St|]].
Qed.

Lemma edge_side fs e : e \in edges_of fs -> exists f e', [/\ f \in fs, e' \in sides f & e = e' \/ e = flip e'].
Proof.
rewrite mem_edges mem_pos => /hasP[f Hf H]; exists f.
have W (s : nat) : e == sorted_side s f -> s < 3 -> exists e', [/\ f \in fs, e' \in sides f & e = e' \/ e = flip e'].
  move=> /eqP -> Hs; exists (side s f); split=> //; first by case: s Hs => [|[|[|]]] //; rewrite !inE eqxx ?orbT.
  by rewrite sorted_sideE; case: ifP => _; [left|right].
by case/or3P: H => /W; apply.
Qed.
Lemma start_lens vs fm t (P : R -> bool) : t_v t = vs -> t_e t = edges_of (faces_of fm) -> measured t ->
  (forall f e, f \in faces_of fm -> e \in sides f -> P (edge_len vs e)) -> all P (t_len t).
Proof.
move=> Ev Ee [-> _] H; apply/allP => l /mapP[e]; rewrite Ee Ev => /edge_side[f [e' [Hf He' E]]] ->.
by case: E => ->; rewrite ?edge_len_flip; exact: H He'.
Qed.

(** every pass is full when the edges are long enough *)
Theorem shrink_full fuel vs fm n : good_faces (size vs) fm -> ~~ one_row fm -> (0 <= m)%R ->
  (forall f e, f \in faces_of fm -> e \in sides f -> (m * 2%:R ^+ n < 2%:R * edge_len vs e)%R) -> n <= fuel ->
  exists t s, [/\ shrink_face_tri argsort m plain fuel vs fm (Some n) = Some (Ok (t, s)), s_steps s = n,
    consistent (t_e t) (t_f t) (t_f2e t) (t_dir t) &
    closed (faces_of fm) -> simple (faces_of fm) ->
    [/\ closed (t_f t), simple (t_f t), size (t_f t) = 4 ^ n * size (faces_of fm), 2 * size (t_e t) = 3 * size (t_f t) &
        2 * size (t_v t) = 2 * size vs + (4 ^ n - 1) * size (faces_of fm)]].
Proof.
move=> Hg H1 m0 Hl Hn; have [t0 [Es [Ev Ef Ee] Hc Hm]] := start m plain Harg Hg.
have Ht : mesh t0 by [].
have F0 : 0 < size (t_f t0) by rewrite Ef; case/and4P: Hg; case: (faces_of fm).
have [t Hr] := plain_run (n := n) Ht F0 m0 (start_lens Ev Ee Hm Hl).
have [s' Er Hs] := loop_full (k := 0) (s := stats0 t0) Hn (erefl _) Hr.
exists t, s'; rewrite Es (negbTE H1) Er; split=> //.
  have : mesh t by apply: (full_run_inv _ Ht Hr) => x y Hx Hxl; exact: full_mesh (@ok_size _ _) Hx Hxl.
  by case.
move=> Hcl Hsi; have [_ _ Hp _] := and4P Hg.
have C0 : closed_mesh t0.
  by split=> //; rewrite ?Ef //; split; [case: Hcl|rewrite Ee; exact: edges_of_once].
have [C1 F1 _ V1] := full_run_closed (@ok_size _ _) C0 Hr.
have [_ _ _ Hs1 [Hu1 Ho1]] := C1; have D0 := closed_count C0; have D1 := closed_count C1.
rewrite Ef in F1 D0; rewrite Ev in V1; split=> //; first exact: once_closed Ho1 Hu1.
have P4 : 0 < 4 ^ n by rewrite expn_gt0.
apply/eqP; rewrite -(eqn_pmul2l (m := 3)) //; apply/eqP; nia.
Qed.

(** ------------------------------------------------------------------ vertices *)
Theorem shrink_keeps adjust fuel vs fm n_max t s : good_faces (size vs) fm ->
  shrink_face_tri argsort m adjust fuel vs fm n_max = Some (Ok (t, s)) -> exists w, t_v t = vs ++ w.
Proof.
move=> Hg; have [t0 [-> [Ev _ _] _ _]] := start m adjust Harg Hg => Hl.
have HI : forall x y : tri R d, (exists w, t_v x = vs ++ w) -> step m adjust x = Ok y -> exists w, t_v y = vs ++ w.
  by move=> x y [w Hw] /stepI[vn _ ->] /=; exists (w ++ vn); rewrite Hw catA.
have I0 : exists w, t_v t0 = vs ++ w by exists [::]; rewrite cats0.
by have [] := loop_inv HI (s := stats0 t0) (ltn0Sn 0) (erefl _) I0 Hl.
Qed.

(** without adjustment: an early return leaves no long side *)
Theorem shrink_done fuel vs fm n_max t s : good_faces (size vs) fm ->
  shrink_face_tri argsort m plain fuel vs fm n_max = Some (Ok (t, s)) ->
  (forall n, n_max = Some n -> s_steps s < n) ->
  forall f e, f \in t_f t -> e \in sides f -> (edge_len (t_v t) e <= m)%R.
Proof.
move=> Hg; have [t0 [-> [Ev _ _] Hc Hm]] := start m plain Harg Hg => Hr Hn f e.
have [Hl [Ha|[n En Hle]]] := loop_inv (I := loose_mesh m) (@loose_step _ _ m) (s := stats0 t0) (ltn0Sn 0) (erefl _) (mesh_loose m Hc Hm) Hr.
  exact: loose_short.
by have := Hn n En; rewrite ltnNge Hle.
Qed.

Lemma loopS adjust fuel i n_max t s t' : step m adjust t = Ok t' ->
  shrink_loop m adjust fuel.+1 i n_max false t s =
  if has id (is_long m t) && (if n_max is Some m then (i <= m)%N else true) then shrink_loop m adjust fuel i.+1 n_max false t'
          (Stats i (rcons (s_vert s) (size (t_v t'))) (rcons (s_face s) (size (t_f t'))) (rcons (s_edge s) (size (t_e t')))
             (rcons (s_shrink s) (count id (split_edges m t))) (rcons (s_max s) (rmax (t_len t)))) else Some (Ok (t, s)).
Proof. by move=> St; rewrite {1}/shrink_loop -/shrink_loop St. Qed.

(** without adjustment: the lengths halve, so the loop ends *)
Lemma plain_loop k : forall i fuel t s, (0 < m)%R -> loose_mesh m t -> all (fun l => (l <= 2%:R ^+ k * m)%R) (t_len t) -> k <= fuel ->
  s_steps s = i -> exists t' s', shrink_loop m plain fuel i.+1 None false t s = Some (Ok (t', s')) /\ s_steps s' <= i + k.
Proof.
elim: k => [|k IH] i fuel t s m0 Ht Hl Hk Hi.
  exists t, s; rewrite Hi addn0; split=> //.
  suff E : has id (is_long m t) = false by case: fuel {Hk} => [|fuel] /=; rewrite E.
  apply/hasPn => b /mapP[l Hl' ->]; have := allP Hl l Hl'; by rewrite expr0 mul1r leNgt.
case: fuel Hk => // fuel Hk; have St := @stepE R d m plain t _ (erefl _); rewrite (loopS _ _ _ _ St).
case: ifP => _; last by exists t, s; rewrite Hi leq_addr.
rewrite -addSnnS; apply: IH => //; first exact: loose_step St.
have [Hm _] := Ht; have := step_lens (loose_strict Ht) Hm _ Hl St.
rewrite exprS -mulrA mulKf ?pnatr_eq0 //; apply.
by rewrite -[X in (X <= _)%R]mul1r; apply: ler_wpmul2r; [exact: ltW|apply: exprn_ege1; rewrite ler1n].
Qed.
Theorem shrink_terminates k vs fm : good_faces (size vs) fm -> ~~ one_row fm -> (0 < m)%R ->
  (forall f e, f \in faces_of fm -> e \in sides f -> (edge_len vs e <= 2%:R ^+ k * m)%R) ->
  exists t s, shrink_face_tri argsort m plain k vs fm None = Some (Ok (t, s)) /\ s_steps s <= k.
Proof.
move=> Hg H1 m0 Hl; have [t0 [-> [Ev Ef Ee] Hc Hm]] := start m plain Harg Hg; rewrite (negbTE H1).
by apply: plain_loop => //; [exact: mesh_loose|exact: (start_lens Ev Ee Hm Hl)].
Qed.

(** a matrix of one row *)
Theorem shrink_one_row adjust fuel vs f n_max : good_faces (size vs) (Rows [:: f]) -> (if n_max is Some n then 0 < n else true) ->
  (exists2 e, e \in sides f & (m < edge_len vs e)%R) -> 0 < fuel ->
  shrink_face_tri argsort m adjust fuel vs (Rows [:: f]) n_max = Some IndexError.
Proof.
move=> Hg Hn [e He Hl] Hf; have [t0 [-> [Ev Ef Ee] [_ _ Hc] Hm]] := start m adjust Harg Hg.
case: fuel Hf => // fuel _ /=.
have -> : has id (is_long m t0).
  rewrite Ef in Hc; have /and3P[h1 h2 h3] := Hc 0 isT.
  have [k [b Hr]] : exists k b, records (t_e t0) k b e by move: He; rewrite !inE => /or3P[] /eqP ->; do 2!eexists; eassumption.
  have Hk : k < size (t_e t0) by case/andP: Hr.
  rewrite has_map; apply/hasP; exists (nth 0%R (t_len t0) k); first by rewrite mem_nth // len_size.
  by rewrite /= nth_len // (edge_len_rec _ Hr) Ev.
by case: n_max Hn => [n|] //= ->.
Qed.
End Top.
