(** shrink_face_tri: a call as a chain of passes; consistency and closedness for every adjusting function. *)
From mathcomp Require Import all_ssreflect all_algebra.
From Verif.Model Require Import Py NP Tri.
From Verif.Spec Require Import TriSpec.
From Verif.Proof Require Import NPLib TriMap TriStep TriRefine TriFull TriLoop TriShrink TriTop.
From mathcomp.zify Require Import zify.
Set Implicit Arguments.
Unset Strict Implicit.
Unset Printing Implicit Defensive.
Import Order.Theory GRing.Theory Num.Theory.

Section Run.
Variables (R : rcfType) (d : nat) (m : R) (adjust : seq 'rV[R]_d -> res (seq 'rV[R]_d)).
Implicit Types (t : tri R d) (s : stats R).

(** n passes *)
Fixpoint passes (n : nat) t t' : Prop :=
  if n is k.+1 then exists2 t1, passes k t t1 & has id (is_long m t1) /\ step m adjust t1 = Ok t' else t' = t.
Lemma passes_cons n t t1 t' : has id (is_long m t) -> step m adjust t = Ok t1 -> passes n t1 t' -> passes n.+1 t t'.
Proof.
move=> Hl St; elim: n t' => [|n IH] t' /=; first by move=> ->; exists t.
by move=> [t2 /IH H [H1 H2]]; exists t2.
Qed.
Lemma loop_passes fuel : forall i n_max t s t' s', s_steps s = i -> shrink_loop m adjust fuel i.+1 n_max false t s = Some (Ok (t', s')) ->
  exists2 n, s_steps s' = i + n & n <= fuel /\ passes n t t'.
Proof.
elim: fuel => [|fuel IH] i n_max t s t' s' Es /=; first by case: ifP => // _ [<- <-]; exists 0; rewrite ?addn0.
case: ifP => [/andP[Hl _]|_ [<- <-]]; last by exists 0; rewrite ?addn0.
case St: (step m adjust t) => [t1|] // /IH[] // n -> [Hn Hp]; exists n.+1; rewrite ?addSnnS //; split=> //.
exact: passes_cons Hp.
Qed.
Lemma passes_split n t t' : passes n.+1 t t' -> has id (is_long m t) /\ exists2 t1, step m adjust t = Ok t1 & passes n t1 t'.
Proof.
elim: n t' => [|n IH] t'; first by move=> [t1 /= -> [Hl St]]; split=> //; exists t'.
by move=> [t1 /IH[Hl [t2 H2 Hp]] Hq]; split=> //; exists t2 => //; exists t1.
Qed.
Lemma passes_loop n : forall fuel i t s t', n <= fuel -> s_steps s = i -> passes n t t' ->
  exists2 s', shrink_loop m adjust fuel i.+1 (Some (i + n)) false t s = Some (Ok (t', s')) & s_steps s' = i + n.
Proof.
elim: n => [|n IH] fuel i t s t' Hf Es.
  by move=> ->; rewrite addn0; exists s => //; case: fuel Hf => [|fuel] _ /=; rewrite ltnn andbF.
case: fuel Hf => // fuel Hf /passes_split[Hl [t1 St Hp]].
rewrite (loopS _ _ _ _ St) Hl addnS ltnS leq_addr /= -addSn; exact: IH.
Qed.
Lemma passes_sub n k t t' : passes n t t' -> k <= n -> exists2 tk, passes k t tk & passes (n - k) tk t'.
Proof.
elim: n t' => [|n IH] t'; first by rewrite leqn0 => -> /eqP ->; exists t.
move=> Hp; case: (ltngtP k n.+1) => // [|->] Hk; last by exists t'; rewrite ?subnn.
case: Hp => t1 /IH/(_ Hk)[tk H1 H2] H3 _; exists tk => //; rewrite subSn //; by exists t1.
Qed.
End Run.

Section Calls.
Variables (R : rcfType) (d : nat) (argsort : seq nat -> seq nat) (m : R).
Variable adjust : seq 'rV[R]_d -> res (seq 'rV[R]_d).
Hypothesis Harg : argsortn_ok argsort.
Hypothesis Hadj : forall x y, adjust x = Ok y -> size y = size x.
Implicit Types (vs : seq 'rV[R]_d) (t : tri R d) (s : stats R).
Notation call := (shrink_face_tri argsort m adjust).

(** a call that made n passes is the call limited to n passes *)
Lemma call_passes fuel vs fm n_max t s : good_faces (size vs) fm -> call fuel vs fm n_max = Some (Ok (t, s)) -> 0 < s_steps s ->
  exists t0, [/\ [/\ t_v t0 = vs, t_f t0 = faces_of fm & t_e t0 = edges_of (faces_of fm)], mesh t0, passes m adjust (s_steps s) t0 t &
    forall k, k <= s_steps s -> forall tk, passes m adjust k t0 tk -> exists2 sk, call fuel vs fm (Some k) = Some (Ok (tk, sk)) & s_steps sk = k].
Proof.
move=> Hg; have [t0 [Es Ee Hc Hm]] := start m adjust Harg Hg; rewrite Es.
case H1: (one_row fm).
  case: fuel => [|fuel] /=; first by case: ifP => // _ [_ <-].
  by case: ifP => // _ [_ <-].
move=> Hl Hs; exists t0; have [n En [Hf Hp]] := loop_passes (i := 0) (s := stats0 t0) (erefl _) Hl; rewrite add0n in En.
rewrite En; split=> // k Hk tk Hpk; rewrite Es H1.
by have [sk Ek Sk] := passes_loop (i := 0) (s := stats0 t0) (leq_trans Hk Hf) (erefl _) Hpk; exists sk; rewrite // Ek.
Qed.

Theorem shrink_uniform fuel vs fm n_max t s : good_faces (size vs) fm -> call fuel vs fm n_max = Some (Ok (t, s)) ->
  (forall k tk sk, k < s_steps s -> call fuel vs fm (Some k) = Some (Ok (tk, sk)) -> uniform m (t_len tk) (t_f2e tk)) ->
  consistent (t_e t) (t_f t) (t_f2e t) (t_dir t).
Proof.
move=> Hg Hcall Hu; case: (posnP (s_steps s)) => [S0|S0].
  have [t0 [Es _ Hc Hm]] := start m adjust Harg Hg; move: Hcall; rewrite Es; case H1: (one_row fm).
    by case: fuel {Hu} => [|fuel] /=; case: ifP => // _ [<- _].
  by move=> /(loop_passes (i := 0) (s := stats0 t0) (erefl _))[n]; rewrite S0 add0n => <- [_ /= ->].
have [t0 [_ Ht0 Hp Hk]] := call_passes Hg Hcall S0.
suff H n tn : n <= s_steps s -> passes m adjust n t0 tn -> mesh tn by have [] := H _ t (leqnn _) Hp.
elim: n tn => [|n IH] tn Hn; first by move=> ->.
move=> [t1 Hp1 [_ St]]; have [Hc Hm] := IH t1 (ltnW Hn) Hp1; have Sl := len_size Hm.
have [sk Ek _] := Hk n (ltnW Hn) t1 Hp1; split.
  by apply/(step_consistent Sl Hc _ St); [case: Hm|exact: Hu Ek].
exact: (step_measured (strict_of m Hc) Hm Hadj St).
Qed.

Theorem shrink_uniform_iff fuel vs fm k tk sk t s : good_faces (size vs) fm ->
  call fuel vs fm (Some k) = Some (Ok (tk, sk)) -> call fuel vs fm (Some k.+1) = Some (Ok (t, s)) -> s_steps s = k.+1 ->
  (forall j tj sj, j < k -> call fuel vs fm (Some j) = Some (Ok (tj, sj)) -> uniform m (t_len tj) (t_f2e tj)) ->
  (consistent (t_e t) (t_f t) (t_f2e t) (t_dir t) <-> uniform m (t_len tk) (t_f2e tk)).
Proof.
move=> Hg Hk Hc Hs Hu; have S0 : 0 < s_steps s by rewrite Hs.
have [t0 [_ Ht0 Hp Hall]] := call_passes Hg Hc S0; rewrite Hs in Hp Hall.
have [t1 Hp1 [Hl St]] := Hp; have [s1] := Hall k (leqnSn k) t1 Hp1; rewrite Hk => -[E0 E1] S1.
have {}Hu j tj sj : j < s_steps s1 -> call fuel vs fm (Some j) = Some (Ok (tj, sj)) -> uniform m (t_len tj) (t_f2e tj).
  by rewrite S1; exact: Hu.
rewrite E0 E1 in Hk *; have Hck := shrink_uniform Hg Hk Hu.
suff Hm1 : measured t1 by exact: (step_consistent (len_size Hm1) Hck (proj2 Hm1) St).
suff H n tn : n <= k -> passes m adjust n t0 tn -> mesh tn by have [] := H k t1 (leqnn _) Hp1.
elim: n tn => [|n IH] tn Hn; first by move=> ->.
move=> [t2 Hp2 [_ St2]]; have [Hc2 Hm2] := IH t2 (ltnW Hn) Hp2; have Sl := len_size Hm2.
have [sn En _] := Hall n (leqW (ltnW Hn)) t2 Hp2; split; last exact: (step_measured (strict_of m Hc2) Hm2 Hadj St2).
by apply/(step_consistent Sl Hc2 _ St2); [case: Hm2|apply: Hu En; rewrite S1].
Qed.

(** full passes keep a surface closed *)
Theorem shrink_closed fuel vs fm n_max t s : good_faces (size vs) fm -> closed (faces_of fm) -> simple (faces_of fm) ->
  call fuel vs fm n_max = Some (Ok (t, s)) ->
  (forall k tk sk, k < s_steps s -> call fuel vs fm (Some k) = Some (Ok (tk, sk)) -> all (fun l => (m < l)%R) (t_len tk)) ->
  [/\ closed (t_f t), simple (t_f t), size (t_f t) = 4 ^ s_steps s * size (faces_of fm), 2 * size (t_e t) = 3 * size (t_f t) &
      2 * size (t_v t) = 2 * size vs + (4 ^ s_steps s - 1) * size (faces_of fm)].
Proof.
move=> Hg Hcl Hsi Hcall Hu; have [_ _ Hpr _] := and4P Hg.
have C0 t0 : t_f t0 = faces_of fm -> t_e t0 = edges_of (faces_of fm) -> mesh t0 -> closed_mesh t0.
  move=> Ef Ee [Hc Hm]; split=> //; rewrite ?Ef //; split; [by case: Hcl|rewrite Ee; exact: edges_of_once].
case: (posnP (s_steps s)) => [S0|S0].
  have [t0 [Es [Ev Ef Ee] Hc Hm]] := start m adjust Harg Hg; rewrite S0 expn0 mul1n subnn mul0n addn0.
  suff -> : t = t0 by rewrite (closed_count (C0 t0 Ef Ee (conj Hc Hm))) Ef Ev.
  move: Hcall; rewrite Es; case H1: (one_row fm).
    by case: fuel {Hu} => [|fuel] /=; case: ifP => // _ [<- _].
  by move=> /(loop_passes (i := 0) (s := stats0 t0) (erefl _))[n]; rewrite S0 add0n => <- [_ /= ->].
have [t0 [[Ev Ef Ee] Ht0 Hp Hk]] := call_passes Hg Hcall S0.
have C := C0 t0 Ef Ee Ht0; have D0 := closed_count C.
have H n tn : n <= s_steps s -> passes m adjust n t0 tn -> [/\ closed_mesh tn, size (t_f tn) = 4 ^ n * size (t_f t0) &
   3 * size (t_v tn) = 3 * size (t_v t0) + (4 ^ n - 1) * size (t_e t0)].
  elim: n tn => [|n IH] tn Hn; first by move=> ->; rewrite expn0 mul1n subnn mul0n addn0.
  move=> [t1 Hp1 [_ St]]; have [C1 F1 V1] := IH t1 (ltnW Hn) Hp1; have [sk Ek _] := Hk n (ltnW Hn) t1 Hp1.
  have [C2 V2 E2 F2] := full_step Hadj C1 (Hu n t1 sk Hn Ek) St; have D1 := closed_count C1.
  split=> //; first by rewrite F2 F1 expnS mulnA.
  rewrite V2 mulnDr V1 -addnA; congr addn.
  have P4 : 0 < 4 ^ n by rewrite expn_gt0.
  rewrite F1 in D1; rewrite expnS; nia.
have [C1 F1 V1] := H _ t (leqnn _) Hp; have [_ _ _ Hs1 [Hu1 Ho1]] := C1; have D1 := closed_count C1.
rewrite Ef in F1 D0; rewrite Ev in V1; split=> //; first exact: once_closed Ho1 Hu1.
have P4 : 0 < 4 ^ s_steps s by rewrite expn_gt0.
apply/eqP; rewrite -(eqn_pmul2l (m := 3)) //; apply/eqP; nia.
Qed.

(** consistent results have no long side when the call ended early *)
Theorem shrink_done_uniform fuel vs fm n_max t s : good_faces (size vs) fm -> call fuel vs fm n_max = Some (Ok (t, s)) ->
  (forall n, n_max = Some n -> s_steps s < n) ->
  (forall k tk sk, k < s_steps s -> call fuel vs fm (Some k) = Some (Ok (tk, sk)) -> uniform m (t_len tk) (t_f2e tk)) ->
  forall f e, f \in t_f t -> e \in sides f -> (edge_len (t_v t) e <= m)%R.
Proof.
move=> Hg Hcall Hn Hu f e.
have Hc := shrink_uniform Hg Hcall Hu.
have [Hm Hall] : measured t /\ all (fun l => (l <= m)%R) (t_len t).
  have [t0 [Es _ Hc0 Hm0]] := start m adjust Harg Hg.
  have Hcall' := Hcall; rewrite Es in Hcall'.
  split; last first.
    have [_ [//|[n En Hle]]] := loop_inv (I := fun _ => True) (fun _ _ _ _ => I) (s := stats0 t0) (ltn0Sn 0) (erefl _) I Hcall'.
    by have := Hn n En; rewrite ltnNge Hle.
  case: (posnP (s_steps s)) => [S0|S0].
    move: Hcall'; case H1: (one_row fm).
      by case: (fuel) => [|k] /=; case: ifP => // _ [<- _].
    by move=> /(loop_passes (i := 0) (s := stats0 t0) (erefl _))[n]; rewrite S0 add0n => <- [_ /= ->].
  have [t1 [_ Ht1 Hp Hk]] := call_passes Hg Hcall S0.
  suff H n tn : n <= s_steps s -> passes m adjust n t1 tn -> mesh tn by have [] := H _ t (leqnn _) Hp.
  elim: n tn => [|n IH] tn Hle; first by move=> ->.
  move=> [t2 Hp2 [_ St]]; have [Hc2 Hm2] := IH t2 (ltnW Hle) Hp2; have Sl := len_size Hm2.
  have [sk Ek _] := Hk n (ltnW Hle) t2 Hp2; split.
    by apply/(step_consistent Sl Hc2 _ St); [case: Hm2|exact: Hu Ek].
  exact: (step_measured (strict_of m Hc2) Hm2 Hadj St).
move=> /(nthP f_def)[i Hi <-] He; have [_ _ /(_ i Hi)/and3P[h1 h2 h3]] := Hc.
have [k [b Hr]] : exists k b, records (t_e t) k b e by move: He; rewrite !inE => /or3P[] /eqP ->; do 2!eexists; eassumption.
have Hk : k < size (t_e t) by case/andP: Hr.
by rewrite -(edge_len_rec _ Hr) -nth_len //; apply: (allP Hall); rewrite mem_nth // len_size.
Qed.
End Calls.
