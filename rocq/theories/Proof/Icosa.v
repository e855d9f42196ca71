(** The icosahedron, sphere_tri and sphere_tri_ext. *)
From mathcomp Require Import all_ssreflect all_algebra.
From mathcomp Require Import ring.
Require Import Coq.Strings.String.
From Verif.Model Require Import Py NP Tri Sphere.
From Verif.Spec Require Import TriSpec SphereSpec.
From Verif.Proof Require Import NPLib MatLib TriMap TriStep TriRefine TriFull TriLoop TriShrink TriTop TriDec SphereProof.
From mathcomp.zify Require Import zify.
Set Implicit Arguments.
Unset Strict Implicit.
Unset Printing Implicit Defensive.
Import Order.Theory GRing.Theory Num.Theory.
Local Open Scope ring_scope.

Section Grid.
Variables (R : rcfType) (tr : trig R) (h : R) (n : nat).
Hypothesis Hg : angle_ok tr h n.
Definition Cg (i : int) : R := t_cos tr (i%:~R * h).
Definition Sg (i : int) : R := t_sin tr (i%:~R * h).

Lemma Cg0 : Cg 0 = 1. Proof. by rewrite /Cg mul0r (ang_cos0 Hg). Qed.
Lemma Sg0 : Sg 0 = 0.
Proof. have := ang_sinN Hg 0; rewrite /Sg mul0r oppr0 => /eqP; by rewrite -addr_eq0 -mulr2n mulrn_eq0 => /eqP. Qed.
Lemma CgN i : Cg (- i) = Cg i. Proof. by rewrite /Cg rmorphN mulNr (ang_cosN Hg). Qed.
Lemma SgN i : Sg (- i) = - Sg i. Proof. by rewrite /Sg rmorphN mulNr (ang_sinN Hg). Qed.
Lemma CgD i j : Cg (i + j) = Cg i * Cg j - Sg i * Sg j. Proof. exact: ang_cosD Hg i j. Qed.
Lemma SgD i j : Sg (i + j) = Sg i * Cg j + Cg i * Sg j. Proof. exact: ang_sinD Hg i j. Qed.
Lemma pyth i : Cg i ^+ 2 + Sg i ^+ 2 = 1.
Proof. by rewrite -Cg0 -(subrr i) CgD CgN SgN mulrN opprK !expr2. Qed.
Lemma Cgn : Cg n = 1. Proof. exact: ang_full Hg. Qed.
Lemma Sgn : Sg n = 0.
Proof. by have := pyth n; rewrite Cgn expr1n => /(canRL (addKr _)); rewrite addNr => /eqP; rewrite sqrf_eq0 => /eqP. Qed.
Lemma Sg_per i : Sg (i + n%:Z) = Sg i. Proof. by rewrite SgD Cgn Sgn mulr1 mulr0 addr0. Qed.
Lemma Cg_per i : Cg (i + n%:Z) = Cg i. Proof. by rewrite CgD Cgn Sgn mulr1 mulr0 subr0. Qed.
Lemma Sg_pos (i : nat) : (0 < i)%N -> (2 * i < n)%N -> 0 < Sg i. Proof. exact: ang_pos Hg i. Qed.

(** points of a horizontal circle *)
Definition pg (a z : R) (i : int) : 'rV[R]_3 := row3 (a * Cg i) (a * Sg i) z.
Lemma triple_pg a z i a' z' j a'' z'' k : triple (pg a z i) (pg a' z' j) (pg a'' z'' k) =
  z * a' * a'' * Sg (k - j) + z' * a'' * a * Sg (i - k) + z'' * a * a' * Sg (j - i).
Proof. by rewrite triple_row !SgD !SgN !CgN; ring. Qed.
Lemma unit_pg a z i : a ^+ 2 + z ^+ 2 = 1 -> unit_vec (pg a z i).
Proof.
move=> H; rewrite /unit_vec sum3; have [-> -> ->] := row3E (a * Cg i) (a * Sg i) z.
by rewrite !exprMn -mulrDr pyth mulr1.
Qed.
End Grid.

Section Ico.
Variables (R : rcfType) (tr : trig R).
Hypothesis Hg : angle_ok tr (t_pi tr / 5%:R) 10.
Notation h := (t_pi tr / 5%:R).
Notation q := (Num.sqrt (5%:R : R)).

Lemma q2 : q ^+ 2 = 5%:R. Proof. by rewrite sqr_sqrtr ?ler0n. Qed.
Lemma q0 : 0 < q. Proof. by rewrite sqrtr_gt0 ltr0n. Qed.
Lemma rE : ico_r R = q / 2%:R.
Proof. by rewrite /ico_r /ico_tau; field. Qed.
Let a := 2%:R / q.
Let z := q^-1.
Lemma az : a ^+ 2 + z ^+ 2 = 1.
Proof. have := q2; have := lt0r_neq0 q0; rewrite /a /z; move: q => x x0 x2; have -> : (2%:R / x) ^+ 2 + x^-1 ^+ 2 = 5%:R / x ^+ 2 :> R by field.
by rewrite x2 divff ?pnatr_eq0. Qed.

Definition ico_list : seq 'rV[R]_3 := pg tr h 0 1 0 :: [seq pg tr h a z ((k * 2)%N%:Z - 1) | k <- iota 0 5] ++ [seq pg tr h a (- z) (k * 2)%N%:Z | k <- iota 0 5] ++ [:: pg tr h 0 (-1) 0].
Lemma icoE : ico_verts tr = ico_list.
Proof.
have q_0 := lt0r_neq0 q0.
have ca (x : R) : x / ico_r R = a * x by rewrite rE /a; field.
have ha : 2%:R^-1 / ico_r R = z by rewrite rE /z; field.
rewrite /ico_verts /ico_list /pg !mul0r; congr (_ :: _ ++ _ ++ _).
- apply: eq_map => k; rewrite ha !ca /Cg /Sg.
  suff -> : ico_alpha tr k = ((k * 2)%N%:Z - 1)%:~R * h by [].
  by rewrite /ico_alpha rmorphB /= -[(k * 2)%N%:Z%:~R]/((k * 2)%N%:R) natrM; field.
- apply: eq_map => k; rewrite mulNr ha !ca /Cg /Sg.
  suff -> : ico_beta tr k = ((k * 2)%N%:Z)%:~R * h by [].
  by rewrite /ico_beta -[(k * 2)%N%:Z%:~R]/((k * 2)%N%:R) natrM; field.
Qed.

Lemma a0 : 0 < a. Proof. by rewrite divr_gt0 ?ltr0n ?q0. Qed.
Lemma z0 : 0 < z. Proof. by rewrite invr_gt0 q0. Qed.
Lemma S1 : 0 < Sg tr h 1%N. Proof. exact: (Sg_pos Hg). Qed.
Lemma S2 : 0 < Sg tr h 2%N. Proof. exact: (Sg_pos Hg). Qed.
Lemma S8 : Sg tr h 8%N = - Sg tr h 2%N. Proof. by rewrite -(SgN Hg) -[8%N%:Z]/(- 2%N%:Z + 10%N%:Z) (Sg_per Hg). Qed.
Lemma S9 : Sg tr h 9%N = - Sg tr h 1%N. Proof. by rewrite -(SgN Hg) -[9%N%:Z]/(- 1%N%:Z + 10%N%:Z) (Sg_per Hg). Qed.
Lemma Sneg k : Sg tr h (Negz k) = - Sg tr h k.+1. Proof. by rewrite NegzE (SgN Hg). Qed.

Lemma ico_outward f : f \in ico_faces -> outward (ico_verts tr) f.
Proof.
rewrite icoE; have A := a0; have Z := z0; have s1 := S1; have s2 := S2.
rewrite /ico_faces !inE; repeat (case/predU1P => [->|]); last move/eqP->.
all: rewrite /outward /f0 /f1 /f2 /= (triple_pg Hg).
all: repeat match goal with |- context[Sg tr h (@GRing.add ?V ?x ?y)] => let w := eval vm_compute in (@GRing.add V x y) in change (@GRing.add V x y) with w end.
all: rewrite ?Sneg ?S8 ?S9 ?(mulr0, mul0r, add0r, addr0, mulrN, mulNr, opprK, mul1r, subr0, oppr0, sub0r).
all: by rewrite ?addr_gt0 ?mulr_gt0 ?invr_gt0 ?ltr0n ?q0.
Qed.

Lemma ico_unit x : x \in ico_verts tr -> unit_vec x.
Proof.
have H := az; have H' : a ^+ 2 + (- z) ^+ 2 = 1 by rewrite sqrrN.
rewrite icoE /ico_list in_cons !mem_cat mem_seq1 => /or4P[/eqP->|/mapP[k _ ->]|/mapP[k _ ->]|/eqP->]; apply: (unit_pg Hg) => //.
  by rewrite expr0n expr1n add0r.
by rewrite expr0n sqrrN expr1n add0r.
Qed.
Lemma ico_size : size (ico_verts tr) = 12%N. Proof. by []. Qed.
Lemma ico_closed : closed ico_faces. Proof. exact/closedP. Qed.
Lemma ico_simple : simple ico_faces. Proof. exact/simpleP. Qed.

Variable argsort : seq nat -> seq nat.
Hypothesis Harg : argsortn_ok argsort.

Lemma ico_good : good_faces (size (ico_verts tr)) (Rows ico_faces). Proof. by []. Qed.

Lemma ico_start : exists t0, [/\ forall fuel n_max, shrink_face_tri argsort 0 (@normvert R) fuel (ico_verts tr) (Rows ico_faces) n_max =
      shrink_loop 0 (@normvert R) fuel 1 n_max false t0 (stats0 t0), ball t0, t_v t0 = ico_verts tr, t_f t0 = ico_faces & t_len t0 != [::]].
Proof.
have [t0 [Es [Ev Ef Ee] Hc Hm]] := start 0 (@normvert R) Harg ico_good; exists t0; split=> //.
- split; rewrite ?Ev ?Ef; [|exact: ico_unit|exact: ico_outward].
  split=> //; rewrite ?Ef //; [exact: ico_simple|split; first by case: ico_closed].
  by rewrite Ee; apply: edges_of_once => //; exact: ico_closed.
- by apply: (mesh_edge (conj Hc Hm)); rewrite Ef.
Qed.

Lemma darts_size (fs : seq face) : size (all_darts fs) = (3 * size fs)%N.
Proof. by rewrite /all_darts; elim: fs => //= f l ->; lia. Qed.

Lemma run_mesh d t0 t : ball t0 -> t_v t0 = ico_verts tr -> t_f t0 = ico_faces -> full_run 0 (@normvert R) d t0 t -> ball t ->
  sphere_mesh d (t_v t) (t_f t).
Proof.
move=> [C0 _ _] Ev Ef Hr [C1 Hu Ho].
have [_ F1 E1 V1] := full_run_closed (@normvert_size R) C0 Hr; have [_ [_ Hrg] Hp Hs [Hd Ho1]] := C1.
have D0 := closed_count C0; rewrite Ef in F1 D0; rewrite Ev ico_size in V1.
have P4 : (0 < 4 ^ d)%N by rewrite expn_gt0.
have D0' : (size (t_e t0) = 30)%N by apply/eqP; rewrite -(eqn_pmul2l (m := 2)) // D0.
rewrite D0' in V1; have F1' : size (t_f t) = (20 * 4 ^ d)%N by rewrite F1 mulnC.
have V1' : size (t_v t) = sphere_size d by rewrite /sphere_size; lia.
split=> //; last by case/andP: Hrg.
  by rewrite darts_size F1' V1' /sphere_size; split=> //; lia.
by split=> //; exact: once_closed Ho1 Hd.
Qed.

Theorem sphere_tri_ok fuel d : (d <= fuel)%N -> exists vs fs, sphere_tri tr argsort fuel (IInt d%:Z) = Some (Ok (vs, fs)) /\ sphere_mesh d vs fs.
Proof.
move=> Hd; have [t0 [Es Hb Ev Ef L0]] := ico_start.
have [t Hr Hbt] := ball_run d Hb L0.
have [s' El _] := loop_full (k := 0%N) (s := stats0 t0) Hd (erefl _) Hr.
exists (t_v t), (t_f t); split; last exact: run_mesh Hr Hbt.
by rewrite /sphere_tri /= Es El.
Qed.

Theorem sphere_tri_grows fuel d vs fs vs' fs' : (d < fuel)%N -> sphere_tri tr argsort fuel (IInt d%:Z) = Some (Ok (vs, fs)) ->
  sphere_tri tr argsort fuel (IInt d.+1%:Z) = Some (Ok (vs', fs')) -> take (size vs) vs' = vs.
Proof.
move=> Hd; have [t0 [Es Hb Ev Ef L0]] := ico_start.
have [t Hr Hbt] := ball_run d Hb L0.
have [s' El _] := loop_full (k := 0%N) (s := stats0 t0) (ltnW Hd) (erefl _) Hr.
have L1 : t_len t != [::].
  have [_ F1 E1 _] := full_run_closed (@normvert_size R) (let: And3 H _ _ := Hb in H) Hr.
  have [[_ Hm _ _ _] _ _] := Hbt; have [[_ Hm0 _ _ _] _ _] := Hb.
  rewrite -size_eq0 (len_size Hm) E1 muln_eq0 negb_or -!lt0n expn_gt0 /=.
  by move: L0; rewrite -size_eq0 (len_size Hm0) -lt0n.
have [t1 St Hb1] := ball_step Hbt.
have Hr1 : full_run 0 (@normvert R) d.+1 t0 t1.
  elim: (d) (t0) Hr => [|k IH] u /=.
    by move=> <-; split=> //; [exact: ball_long|exists t1].
  by move=> [A B [u1 Su /IH H]]; split=> //; exists u1.
have [s1 El1 _] := loop_full (k := 0%N) (s := stats0 t0) Hd (erefl _) Hr1.
rewrite /sphere_tri /= !Es El El1 => -[<- _] [<- _].
by have [vn _ ->] := stepI St; rewrite /= take_size_cat.
Qed.

Theorem sphere_tri_inf fuel : sphere_tri tr argsort fuel (IInf false) = None.
Proof.
have [t0 [Es Hb Ev Ef L0]] := ico_start; rewrite /sphere_tri /= Es.
suff -> : forall k i t s, ball t -> t_len t != [::] -> shrink_loop 0 (@normvert R) k i None false t s = None by [].
elim=> [|k IH] i t s Hbt Lt /=; have Hl := ball_long Hbt.
  by have -> : has id (is_long 0 t) by rewrite has_map; case: (t_len t) Lt Hl => //= l L _ /andP[-> _].
have -> : has id (is_long 0 t) by rewrite has_map; case: (t_len t) Lt Hl => //= l L _ /andP[-> _].
have [t1 St Hb1] := ball_step Hbt; rewrite /= St; apply: IH => //.
have [C _ _] := Hbt; have [[_ Hm1 _ _ _] _ E1 _] := full_step (@normvert_size R) C Hl St; have [_ Hm _ _ _] := C.
by move: Lt; rewrite -!size_eq0 (len_size Hm1) (len_size Hm) E1; lia.
Qed.
End Ico.

Theorem sphere_tri_reject (R : rcfType) (tr : trig R) argsort fuel depth :
  (match depth with IInt z => z < 0 | IInf neg => neg | IOther => true end) ->
  sphere_tri tr argsort fuel depth = Some (throw "wrong_input"%string).
Proof. by case: depth => [[n|n]|[]|]. Qed.

(** ------------------------------------------------------------------ depth *)
Lemma calc_depth_from_ok n : forall fuel d, (0 < fuel)%N -> (n <= d + fuel)%N ->
  exists2 D, calc_depth_from fuel d (sphere_size d) (30 * 4 ^ d) (20 * 4 ^ d) (Some n) = Some D &
    [/\ (d < D <= d + fuel)%N, (n <= sphere_size D)%N & forall k, (d < k < D)%N -> (sphere_size k < n)%N].
Proof.
elim=> // fuel IH d _ Hn /=.
have P4 : (0 < 4 ^ d)%N by rewrite expn_gt0.
have -> : (sphere_size d + 30 * 4 ^ d = sphere_size d.+1)%N by rewrite /sphere_size expnS; lia.
have -> : (2 * (30 * 4 ^ d) + 3 * (20 * 4 ^ d) = 30 * 4 ^ d.+1)%N by rewrite expnS; lia.
have -> : (4 * (20 * 4 ^ d) = 20 * 4 ^ d.+1)%N by rewrite expnS; lia.
case: leqP => H; first by exists d.+1 => //; split=> //; [lia|move=> k; lia].
have G : (d.+1 < sphere_size d.+1)%N by rewrite /sphere_size; have := ltn_expl d.+1 (isT : (1 < 4)%N); lia.
have [||D -> [H1 H2 H3]] := IH d.+1; [lia|lia|].
exists D => //; split=> //; first lia.
move=> k /andP[h1 h2]; case: (ltngtP d.+1 k) => hk; [apply: H3; lia|lia|by rewrite -hk].
Qed.
Theorem calc_depth_ok fuel n : (n <= fuel)%N -> (0 < fuel)%N ->
  exists2 D, calc_depth fuel (Some n) = Some D & [/\ (0 < D <= fuel)%N, (n <= sphere_size D)%N & forall k, (0 < k < D)%N -> (sphere_size k < n)%N].
Proof.
move=> H1 H2; have [D E [H Ha Hb]] := @calc_depth_from_ok n fuel 0 H2 H1.
by exists D; rewrite -?E.
Qed.
Lemma calc_depth_inf fuel d v e f : calc_depth_from fuel d v e f None = None.
Proof. by elim: fuel d v e f => //= k IH *; exact: IH. Qed.
