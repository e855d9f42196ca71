(** shrink_face_tri: the whole function. *)
From mathcomp Require Import all_ssreflect all_algebra.
From mathcomp Require Import ring.
From Verif.Model Require Import Py NP Tri.
From Verif.Spec Require Import TriSpec.
From Verif.Proof Require Import NPLib TriMap TriStep TriRefine TriFull TriLoop.
From mathcomp.zify Require Import zify.
Set Implicit Arguments.
Unset Strict Implicit.
Unset Printing Implicit Defensive.
Import Order.Theory GRing.Theory Num.Theory.

Section Start.
Variables (R : rcfType) (d : nat) (argsort : seq nat -> seq nat) (m : R).
Variable adjust : seq 'rV[R]_d -> res (seq 'rV[R]_d).
Hypothesis Harg : argsortn_ok argsort.
Implicit Types (vs : seq 'rV[R]_d) (fs : seq face) (t : tri R d).

Definition stats0 (t : tri R d) : stats R := Stats 0 [:: size (t_v t)] [:: size (t_f t)] [:: size (t_e t)] [::] [::].

Lemma start vs fm : good_faces (size vs) fm -> exists t0, [/\
  forall fuel n_max, shrink_face_tri argsort m adjust fuel vs fm n_max = shrink_loop m adjust fuel 1 n_max (one_row fm) t0 (stats0 t0),
  [/\ t_v t0 = vs, t_f t0 = faces_of fm & t_e t0 = edges_of (faces_of fm)], consistent (t_e t0) (t_f t0) (t_f2e t0) (t_dir t0) & measured t0].
Proof.
move=> /and4P[Hb H0 Hp Hv].
have [es [f2e [dir [Em _ _ Hc]]]] := map_spec Harg Hp H0.
have Em' := map_run Harg Hp H0.
have Ef : map_face_2_edge argsort fm = Ok (es, f2e, dir) by case: (fm) Hb Em.
have Ee : es = edges_of (faces_of fm) by move: Em'; rewrite Em => -[].
pose t0 := Tri vs es (faces_of fm) f2e dir [seq edge_len vs e | e <- es].
have Hr : in_range (size vs) es (faces_of fm).
  apply/andP; split=> //; apply/allP => e; rewrite Ee mem_edges mem_pos => /hasP[f Hf H].
  have /and4P[v0 v1 v2 _] : all (fun v => v < size vs) (verts f) by exact: (allP Hv f Hf).
  by case/or3P: H => /eqP ->; rewrite /sorted_side /sort2 /=; case: ifP => _ /=; rewrite ?v0 ?v1 ?v2.
exists t0; split=> // fuel n_max; rewrite /shrink_face_tri Ef.
have -> : has (fun e : edge => size vs <= maxn e.1 e.2) es = false.
  apply/negbTE/hasPn => e He; rewrite -ltnNge gtn_max; by case/andP: Hr => /allP/(_ e He).
by rewrite /t0 /stats0 /one_row; case: (fm) Hb => [f||] //= [|f [|g l]].
Qed.

(** ------------------------------------------------------------------ the loop *)
Lemma loop_inv (I : tri R d -> Prop) : (forall t t', I t -> step m adjust t = Ok t' -> I t') ->
  forall fuel i n_max one t s t' s', 0 < i -> s_steps s = i.-1 -> I t -> shrink_loop m adjust fuel i n_max one t s = Some (Ok (t', s')) ->
  I t' /\ (all (fun l => (l <= m)%R) (t_len t') \/ exists2 n, n_max = Some n & n <= s_steps s').
Proof.
move=> HI; elim=> [|fuel IH] i n_max one t s t' s' i0 Es It /=.
  case: ifP => // /nandP H [<- <-]; split=> //; case: H => H.
    by left; apply/allP => l Hl; move: H; rewrite has_map -all_predC => /allP/(_ l Hl) /=; rewrite -leNgt.
  by right; case: (n_max) H => // n; rewrite -ltnNge => H; exists n => //; lia.
case: ifP => [_|/nandP H [<- <-]]; last first.
  split=> //; case: H => H.
    by left; apply/allP => l Hl; move: H; rewrite has_map -all_predC => /allP/(_ l Hl) /=; rewrite -leNgt.
  by right; case: (n_max) H => // n; rewrite -ltnNge => H; exists n => //; lia.
case: one => //; case St: (step m adjust t) => [t1|e] //; apply: IH => //=; exact: HI St.
Qed.

(** passes that are all full *)
Fixpoint full_run (n : nat) (t t' : tri R d) : Prop :=
  if n is k.+1 then [/\ t_len t != [::], all (fun l => (m < l)%R) (t_len t) & exists2 t1, step m adjust t = Ok t1 & full_run k t1 t']
  else t' = t.

Lemma loop_full n : forall k fuel t s t', n <= fuel -> s_steps s = k -> full_run n t t' ->
  exists2 s', shrink_loop m adjust fuel k.+1 (Some (k + n)) false t s = Some (Ok (t', s')) & s_steps s' = k + n.
Proof.
elim: n => [|n IH] k fuel t s t' Hf Hk.
  move=> -> ; rewrite addn0; case: fuel {Hf} => [|fuel] /=; rewrite ltnn andbF; by exists s.
case: fuel Hf => // fuel Hf [L0 Hl [t1 St Hr]] /=.
have -> : has id (is_long m t) by rewrite has_map; case: (t_len t) L0 Hl => //= l L _ /andP[-> _].
rewrite -addSnnS; have -> : k < k.+1 + n by lia.
by rewrite St; apply: (IH k.+1).
Qed.

Lemma full_run_inv (I : tri R d -> Prop) n t t' : (forall t t', I t -> all (fun l => (m < l)%R) (t_len t) -> step m adjust t = Ok t' -> I t') ->
  I t -> full_run n t t' -> I t'.
Proof.
move=> HI; elim: n t => [|n IH] t It /=; first by move=> ->.
by move=> [_ Hl [t1 St]]; apply: IH; exact: HI St.
Qed.

Hypothesis Hadj : forall s s', adjust s = Ok s' -> size s' = size s.
Lemma closed_count t : closed_mesh t -> 2 * size (t_e t) = 3 * size (t_f t).
Proof.
move=> [_ _ _ _ [_ /perm_size]]; rewrite size_cat size_map => Ho.
have : size (all_darts (t_f t)) = 3 * size (t_f t) by rewrite /all_darts; elim: (t_f t) => //= f l; move=> ->; lia.
by rewrite mul2n -addnn => <-; rewrite Ho.
Qed.
Lemma full_run_closed n t t' : closed_mesh t -> full_run n t t' -> [/\ closed_mesh t', size (t_f t') = 4 ^ n * size (t_f t),
  size (t_e t') = 4 ^ n * size (t_e t) & 3 * size (t_v t') = 3 * size (t_v t) + (4 ^ n - 1) * size (t_e t)].
Proof.
elim: n t => [|n IH] t Ht /=; first by move=> ->; rewrite expn0 !mul1n subnn mul0n addn0.
move=> [_ Hl [t1 St Hr]]; have [H1 Ev Ee Ef] := full_step Hadj Ht Hl St; have C := closed_count Ht.
have [H2 F2 E2 V2] := IH _ H1 Hr; have Ee' : size (t_e t1) = 4 * size (t_e t) by lia.
have P4 : 0 < 4 ^ n by rewrite expn_gt0.
by split=> //; rewrite ?F2 ?E2 ?V2 ?Ef ?Ee' ?Ev expnSr; nia.
Qed.
End Start.

(** ------------------------------------------------------------------ passes without adjustment *)
Section Plain.
Variables (R : rcfType) (d : nat) (m : R).
Implicit Types (t : tri R d).
Let ok : seq 'rV[R]_d -> res (seq 'rV[R]_d) := @Ok _.

Lemma ok_size (s s' : seq 'rV[R]_d) : ok s = Ok s' -> size s' = size s. Proof. by case=> ->. Qed.

(** the three edges of a row are the sides of the face, in some order *)
Definition loose (es : seq edge) (f : face) (k : nat * nat * nat) : bool :=
  [&& k.1.1 < size es, k.1.2 < size es, k.2 < size es &
      all (fun e => has (fun j => (nth e_def es j == e) || (nth e_def es j == flip e)) [:: k.1.1; k.1.2; k.2]) (sides f)].

Lemma rec_loose es f k b : rec3 es f k b -> loose es f k.
Proof.
move=> /and3P[/andP[h1 /eqP e1] /andP[h2 /eqP e2] /andP[h3 /eqP e3]]; rewrite /loose h1 h2 h3 /=.
have W (c : bool) (x : edge) : ((if c then x else flip x) == x) || ((if c then x else flip x) == flip x) by case: c; rewrite eqxx ?orbT.
by rewrite e1 e2 e3 !W ?orbT.
Qed.

(** a property of every row *)
Definition rows (Q : face -> nat * nat * nat -> bool * bool * bool -> Prop) fs ks bs : Prop :=
  [/\ size ks = size fs, size bs = size fs & forall i, i < size fs -> Q (nth f_def fs i) (nth f_def ks i) (nth d_def bs i)].
Lemma rows_cat Q fs fs' ks ks' bs bs' : rows Q fs ks bs -> rows Q fs' ks' bs' -> rows Q (fs ++ fs') (ks ++ ks') (bs ++ bs').
Proof.
move=> [E1 E2 H] [E1' E2' H']; split; rewrite ?size_cat ?E1 ?E2 ?E1' ?E2' // => i Hi.
rewrite !nth_cat E1 E2; case: ltnP => Hl; first exact: H.
by apply: H'; lia.
Qed.
Lemma rows_sub (Q Q' : face -> nat * nat * nat -> bool * bool * bool -> Prop) fs ks bs : (forall f k b, Q f k b -> Q' f k b) -> rows Q fs ks bs -> rows Q' fs ks bs.
Proof. by move=> HQ [E1 E2 H]; split=> // i Hi; apply: HQ; exact: H. Qed.

Definition row_ok (es : seq edge) (len : seq R) (f : face) (k : nat * nat * nat) (b : bool * bool * bool) : Prop :=
  rec3 es f k b \/ (loose es f k /\ ~~ over m len k).
Definition loose_mesh t : Prop := measured t /\ rows (row_ok (t_e t) (t_len t)) (t_f t) (t_f2e t) (t_dir t).

Lemma mesh_loose t : consistent (t_e t) (t_f t) (t_f2e t) (t_dir t) -> measured t -> loose_mesh t.
Proof. by move=> [E1 E2 H] Hm; split=> //; split=> // i Hi; left; exact: H. Qed.

Lemma loose_row es len f k b : row_ok es len f k b -> loose es f k.
Proof. by case=> [/rec_loose|[]]. Qed.
Lemma loose_strict t : loose_mesh t -> strict_split m t.
Proof.
move=> [Hm [E1 E2 H]]; have Sl := len_size Hm.
have Hb i k : i < size (t_f t) -> in3 k (nth f_def (t_f2e t) i) -> k < size (t_e t).
  by move=> /H/loose_row/and4P[h1 h2 h3 _] /or3P[] /eqP ->.
split=> // i Hi; have Hs : i < size (t_f t) by have := nth_true Hi; rewrite size_map E1.
case: (H i Hs) => // -[_]; move: Hi; rewrite (nth_map f_def) ?E1 // /at3 /over !is_long_nth //; try by apply: (Hb i) => //; rewrite /in3 eqxx ?orbT.
by move=> ->.
Qed.

Lemma kept_edge t i k : strict_split m t -> nth false (negs (split_faces m t)) i -> in3 k (nth f_def (t_f2e t) i) -> k < size (t_e t) ->
  let k' := nth 0 [seq x.-1 | x <- cumsum [seq nat_of_bool b | b <- kept_edges m t]] k in
  k' < size (sE m t) /\ nth e_def (sE m t) k' = nth e_def (t_e t) k.
Proof.
move=> Hs Hi Hk Hl; have Hr : records (t_e t) k true (nth e_def (t_e t) k) by rewrite /records Hl eqxx.
by have /andP[h1 /eqP h2] := kept_rec Hs Hi Hk Hr.
Qed.

Lemma loose_step t t' : loose_mesh t -> step m ok t = Ok t' -> loose_mesh t'.
Proof.
move=> Ht St; have Hs := loose_strict Ht; have [Hm [E1 E2 H]] := Ht.
have Hm' := step_measured Hs Hm ok_size St; split=> //.
have [vn [Hv] Et] := stepI St; rewrite -{vn}Hv in Et.
have Sl' : size (t_len t') = size (t_e t') by exact: len_size.
have len' k : k < size (sE m t) -> nth 0%R (t_len t') k = edge_len (t_v t ++ midpoints m t) (nth e_def (sE m t) k).
  by move=> Hk; rewrite (nth_len Hm') Et.
move: len'; set L := t_len t' => len'; rewrite Et [t_e _]/= [t_f _]/= [t_f2e _]/= [t_dir _]/=.
have Hh : (0 <= 2%:R^-1 :> R)%R by rewrite invr_ge0 ler0n.
have old e : e \in t_e t -> edge_len (t_v t ++ midpoints m t) e = edge_len (t_v t) e.
  by move=> /(edge_lt Hm)/andP[a b]; rewrite edge_len_cat.
apply: rows_cat; last apply: rows_cat; last apply: rows_cat.
- have [k1 k2 k3] := size_kept Hs; split=> // j /(kept_row Hs)[i [Hi Hs' -> -> ->]].
  have Hk k : in3 k (nth f_def (t_f2e t) i) -> k < size (t_e t).
    by move: (loose_row (H i Hs')) => /and4P[h1 h2 h3 _] /or3P[] /eqP ->.
  have I1 : in3 (nth f_def (t_f2e t) i).1.1 (nth f_def (t_f2e t) i) by rewrite /in3 eqxx.
  have I2 : in3 (nth f_def (t_f2e t) i).1.2 (nth f_def (t_f2e t) i) by rewrite /in3 eqxx orbT.
  have I3 : in3 (nth f_def (t_f2e t) i).2 (nth f_def (t_f2e t) i) by rewrite /in3 eqxx !orbT.
  case: (H i Hs') => [/and3P[h1 h2 h3]|[Hl Ho]].
    by left; apply/and3P; split; apply: (kept_rec Hs Hi).
  have [g1 e1] := kept_edge Hs Hi I1 (Hk _ I1); have [g2 e2] := kept_edge Hs Hi I2 (Hk _ I2); have [g3 e3] := kept_edge Hs Hi I3 (Hk _ I3).
  right; split.
    by move: Hl; rewrite /loose /at3 /= g1 g2 g3 e1 e2 e3 => /and4P[].
  by move: Ho; rewrite /over /at3 /= !len' // e1 e2 e3 !old ?mem_nth ?Hk // !(nth_len Hm) ?Hk.
- apply: (@rows_sub (fun f k b => rec3 (sE m t) f k b)); [by move=> f k b; left|exact: group1 Hs].
- apply: (@rows_sub (fun f k b => rec3 (sE m t) f k b)); [by move=> f k b; left|exact: group2 Hs].
have [A B] := size_group3 m t; split; rewrite ?A ?size_nseq // => j /group3_row[i [He Hk -> -> Hr]].
have [Hi Hli] := kept_not_long Hs Hm Hk.
have h0 := half_rec Hs false He; have h1 := half_rec Hs true He.
move: h0 h1 Hr => /andP[h0 /eqP f0] /andP[h1 /eqP f1] /andP[h2 /eqP f2]; right.
split.
  rewrite /loose h0 h1 h2 /= f0 f1 f2 /side12 /side23 /side13 /Tri.f0 /Tri.f1 /Tri.f2 /flip /=.
  by rewrite -surjective_pairing !eqxx ?orbT.
rewrite /over /= !len' // f0 f1 f2 /= !negb_or -!leNgt (old (nth e_def (t_e t) i)) ?mem_nth // -(nth_len Hm) // Hli andbT.
have ge0 : (0 <= nth 0 (t_len t) i)%R by rewrite nth_len // vlen_ge0.
have hl : (2%:R^-1 * nth 0 (t_len t) i <= m)%R.
  apply: le_trans Hli; rewrite -[X in (_ <= X)%R]mul1r; apply: ler_wpmul2r => //.
  by rewrite invf_le1 ?ltr0n // ler1n.
have Hv := mid_vert He; have /andP[a b] := edge_lt Hm (mem_nth e_def Hi).
rewrite /edge_len Hv /= !nth_cat a b half_left half_right !vlenZ //.
by rewrite -/(edge_len (t_v t) (nth e_def (t_e t) i)) -(nth_len Hm) // hl.
Qed.

Lemma loose_short t f e : loose_mesh t -> all (fun l => (l <= m)%R) (t_len t) -> f \in t_f t -> e \in sides f -> (edge_len (t_v t) e <= m)%R.
Proof.
move=> [Hm [_ _ H]] Hl /(nthP f_def)[i Hi <-] He; have /and4P[h1 h2 h3 /allP/(_ e He)/hasP[j Hj Ej]] := loose_row (H i Hi).
have Hj' : j < size (t_e t) by move: Hj; rewrite !inE => /or3P[] /eqP ->.
have -> : edge_len (t_v t) e = edge_len (t_v t) (nth e_def (t_e t) j).
  by case/orP: Ej => /eqP -> //; rewrite edge_len_flip.
by rewrite -(nth_len Hm) //; apply: (all_nthP 0%R Hl); rewrite len_size.
Qed.

(** lengths halve, until they are within the limit *)
Lemma step_lens t t' (B : R) : strict_split m t -> measured t -> (m <= 2%:R^-1 * B)%R -> all (fun l => (l <= B)%R) (t_len t) ->
  step m ok t = Ok t' -> all (fun l => (l <= 2%:R^-1 * B)%R) (t_len t').
Proof.
move=> Hs Hm mB HB /stepI[vn [<-] ->] /=.
have Hh : (0 <= 2%:R^-1 :> R)%R by rewrite invr_ge0 ler0n.
rewrite /sLen all_cat; apply/andP; split.
  apply/(all_nthP 0%R) => j; rewrite size_mask; last by rewrite size_isk len_size.
  move=> /rk_inv[k Hk <-]; have [Hk1 Hk2] := kept_not_long Hs Hm Hk.
  by rewrite nth_mask ?len_size // (le_trans Hk2).
apply/allP => l /mapP[e /(new_half Hs Hm)[l0 Hl ->] ->].
by apply: ler_wpmul2l => //; exact: (allP HB).
Qed.
End Plain.
