(** Proofs for get_property and from_rep_mat. *)
Require Import Coq.Lists.List.
From mathcomp Require Import all_ssreflect all_algebra.
Require Import Coq.Strings.String.
From Verif.Model Require Import Py NP Linalg La Ellipsoid Hyperplane EllHeap GetProp.
From Verif.Spec Require Import MatSpec LinalgSpec EllSpec EllipsoidSpec HypSpec EllHeapSpec GetPropSpec.
From Verif.Proof Require Import NPLib LaBasic EllipsoidProof EllScalProof HypOps HypEx EllHeapProof.
Set Implicit Arguments.
Unset Strict Implicit.
Unset Printing Implicit Defensive.
Import Order.Theory GRing.Theory Num.Theory.
Local Open Scope ring_scope.

(** ------------------------------------------------------------------ the dictionaries *)
Definition ell_attr_of (k : ell_kind) : string :=
  match k with KAbs => "_abs_tol" | KRel => "_rel_tol" | KPlot2 => "_n_plot_2d_points" | KPlot3 => "_n_plot_3d_points" end%string.
Definition hp_attr_of (k : hp_kind) : string :=
  match k with HAbs => "_abs_tol" | HRel => "_rel_tol" | HShift => "_shift" end%string.

Ltac in_cases := repeat (case=> [<-|]; first by []); by [].
Lemma ell_lookup k name : In name (ell_names k) -> lookup ell_aliases name = Some (ell_attr_of k).
Proof. by case: k => /= -[<-|[<-|[<-|]]]. Qed.
Lemma center_lookup name : In name center_names -> lookup ell_aliases name = Some "_center_vec"%string.
Proof. by move=> /= -[<-|[<-|[<-|]]]. Qed.
Lemma shape_lookup name : In name shape_names -> lookup ell_aliases name = Some "_shape_mat"%string.
Proof. by move=> /= -[<-|[<-|[<-|]]]. Qed.
Lemma hp_lookup k name : In name (hp_names k) -> lookup hp_aliases name = Some (hp_attr_of k).
Proof. by case: k => /= -[<-|[<-|]] //; case=> [<-|]. Qed.
Lemma normal_lookup name : In name normal_names -> lookup hp_aliases name = Some "_normal_vec"%string.
Proof. by move=> /= -[<-|[<-|[<-|[<-|[<-|]]]]]. Qed.

Lemma lookup_none d name : (forall p, In p d -> p.1 <> name) -> lookup d name = None.
Proof.
rewrite /lookup; elim: d => [|p d IH] //= H.
have -> : String.eqb p.1 name = false by apply/String.eqb_neq; apply: H; left.
by apply: IH => q Hq; apply: H; right.
Qed.
Lemma ell_lookup_none name : ell_unknown name -> lookup ell_aliases name = None.
Proof.
move=> [Hk [Hc Hs]]; apply: lookup_none => p Hp E; move: Hk Hc Hs; rewrite -E => Hk Hc Hs.
move: Hp Hc Hs (Hk KAbs) (Hk KRel) (Hk KPlot2) (Hk KPlot3) => /=.
by do 18!(case=> [<- /=|]; first by tauto).
Qed.
Lemma hp_lookup_none name : hp_unknown name -> lookup hp_aliases name = None.
Proof.
move=> [Hk Hc]; apply: lookup_none => p Hp E; move: Hk Hc; rewrite -E => Hk Hc.
move: Hp Hc (Hk HAbs) (Hk HRel) (Hk HShift) => /=.
by do 13!(case=> [<- /=|]; first by tauto).
Qed.

Section GetPropP.
Variable R : rcfType.
Notation X := (xnum R).
Notation A := (arr X).

Section Generic.
Variables (T : Type) (aliases : seq (string * string)) (attr : T -> string -> res (pval R)).

Lemma get_property_run (a : arr T) name p (val : T -> X) f : lookup aliases name = Some p -> data a <> [::] ->
  (forall x, attr x p = Ok (PNum (val x))) ->
  get_property aliases attr a name f =
  (if f is Some g then let* v := g (Arr [:: size (data a)] (map val (data a))) in Ok (Arr [:: size (data a)] (map val (data a)), Some v)
   else Ok (Arr [:: size (data a)] (map val (data a)), None)).
Proof.
move=> El; rewrite /get_property; case: (data a) => [|x s] // _ Ha; rewrite El.
have -> : mapM (fun y => let* v := attr y p in store v) (x :: s) = Ok (map val (x :: s)).
  by apply: (mapM_Forall (P := fun _ => True)); [apply/Forall_forall | move=> y _; rewrite Ha].
by rewrite rbind_okE.
Qed.
Lemma get_property_empty (a : arr T) name f : data a = [::] ->
  get_property aliases attr a name f = Ok (Arr [:: 0%N] [::], if f is Some _ then Some NaN else None).
Proof. by rewrite /get_property => ->. Qed.
Lemma get_property_key (a : arr T) name f : data a <> [::] -> lookup aliases name = None ->
  get_property aliases attr a name f = KeyError.
Proof. by rewrite /get_property => + ->; case: (data a). Qed.

Lemma mapM_arr p (val : T -> A) s : (forall x, attr x p = Ok (PArr (val x))) ->
  mapM (fun y => let* v := attr y p in store v) s =
  if all (fun x => size (data (val x)) == 1%N) s then Ok (map (fun x => head x0 (data (val x))) s) else ValueError.
Proof.
move=> Ha; elim: s => [|x s IH] //=; rewrite Ha rbind_okE IH /=.
by case: (data (val x)) => [|y [|z l]] //=; case: (all _ s).
Qed.
Lemma get_property_arr (a : arr T) name p (val : T -> A) : lookup aliases name = Some p -> data a <> [::] ->
  (forall x, attr x p = Ok (PArr (val x))) ->
  (forall f, ~~ all (fun x => size (data (val x)) == 1%N) (data a) -> get_property aliases attr a name f = ValueError) /\
  (all (fun x => size (data (val x)) == 1%N) (data a) ->
   get_property aliases attr a name None = Ok (Arr [:: size (data a)] (map (fun x => head x0 (data (val x))) (data a)), None)).
Proof.
move=> El; rewrite /get_property; case: (data a) => [|x s] // _ Ha; rewrite El (mapM_arr _ Ha).
by case: (all _ _).
Qed.
Lemma get_property_shape (a : arr T) name f v w : get_property aliases attr a name f = Ok (v, w) -> shape v = [:: size (data a)].
Proof.
rewrite /get_property; case: (data a) => [|x s]; first by case=> <-.
case: lookup => [p|] //; case: (mapM _ _) => [vs|] //; rewrite rbind_okE.
by case: f => [g|]; [case: (g _) => [y|] //; rewrite rbind_okE => -[<-] | case=> <-].
Qed.
End Generic.

Lemma np_min_least (vs : seq X) s : vs <> [::] -> (forall x, In x vs -> exists r, x = Fin r) ->
  exists2 x, np_min (Arr s vs) = Ok x & least vs x.
Proof.
move=> v0 Hf; have [rs Er] : exists rs : seq R, vs = map (@Fin R) rs.
  elim: vs {v0} Hf => [|x vs IH] Hf; first by exists [::].
  have [|rs ->] := IH; first by move=> y Hy; apply: Hf; right.
  by have [r ->] := Hf x (or_introl (erefl _)); exists (r :: rs).
case: rs Er v0 => [-> //|r rs] -> _; rewrite /np_min; have [H1 H2] := foldl_min_spec r rs.
eexists; first by rewrite /= foldl_min.
eexists; first by reflexivity.
split; first exact: (in_map (@Fin R) (r :: rs) _ (mem_in H1)).
by move=> y /(in_map_iff (@Fin R) (r :: rs) (Fin y)).1 [z [[<-] /in_mem /H2]].
Qed.

Lemma ell_attr_num k e : ell_attr e (ell_attr_of k) = Ok (PNum (@ell_value R k e)). Proof. by case: k. Qed.
Lemma hp_attr_num k h : hp_attr h (hp_attr_of k) = Ok (PNum (@hp_value R k h)). Proof. by case: k. Qed.

Lemma ell_property_run (a : arr (ell R)) k name f : In name (ell_names k) -> data a <> [::] ->
  ell_property a name f =
  (if f is Some g then let* v := g (Arr [:: size (data a)] (map (ell_value k) (data a))) in Ok (Arr [:: size (data a)] (map (ell_value k) (data a)), Some v)
   else Ok (Arr [:: size (data a)] (map (ell_value k) (data a)), None)).
Proof. by move=> /ell_lookup El a0; apply: get_property_run El a0 _ => e; apply: ell_attr_num. Qed.
Lemma hp_property_run (a : arr (hp R)) k name f : In name (hp_names k) -> data a <> [::] ->
  hp_property a name f =
  (if f is Some g then let* v := g (Arr [:: size (data a)] (map (hp_value k) (data a))) in Ok (Arr [:: size (data a)] (map (hp_value k) (data a)), Some v)
   else Ok (Arr [:: size (data a)] (map (hp_value k) (data a)), None)).
Proof. by move=> /hp_lookup El a0; apply: get_property_run El a0 _ => e; apply: hp_attr_num. Qed.

Lemma map_fin_all T (val : T -> X) (l : seq T) : (forall e, In e l -> exists r, val e = Fin r) ->
  forall x, In x (map val l) -> exists r, x = Fin r.
Proof. by move=> H x /in_map_iff [e [<- /H]]. Qed.

Lemma ell_property_min (a : arr (ell R)) k name : In name (ell_names k) -> data a <> [::] ->
  (forall e, In e (data a) -> exists r, ell_value k e = Fin r) ->
  exists2 x, ell_property a name (Some (@np_min R)) = Ok (Arr [:: size (data a)] (map (ell_value k) (data a)), Some x) &
    least (map (ell_value k) (data a)) x.
Proof.
move=> Hn a0 Hf; rewrite (ell_property_run _ Hn a0).
have [||x -> Hx] := np_min_least [:: size (data a)] (vs := map (ell_value k) (data a)); last by exists x; rewrite ?rbind_okE.
- by case: (data a) a0.
- exact: map_fin_all.
Qed.
Lemma hp_property_min (a : arr (hp R)) k name : In name (hp_names k) -> data a <> [::] ->
  (forall e, In e (data a) -> exists r, hp_value k e = Fin r) ->
  exists2 x, hp_property a name (Some (@np_min R)) = Ok (Arr [:: size (data a)] (map (hp_value k) (data a)), Some x) &
    least (map (hp_value k) (data a)) x.
Proof.
move=> Hn a0 Hf; rewrite (hp_property_run _ Hn a0).
have [||x -> Hx] := np_min_least [:: size (data a)] (vs := map (hp_value k) (data a)); last by exists x; rewrite ?rbind_okE.
- by case: (data a) a0.
- exact: map_fin_all.
Qed.

Lemma center_data n (c : 'cV[R]_n) : size (data (vec c)) = n.
Proof. by have /eqP -> := NPLib.wf_vec c; rewrite /= muln1. Qed.
Lemma shape_data n (Q : 'M[R]_n) : (size (data (mat Q)) == 1%N) = (n == 1%N).
Proof. by have /eqP -> := NPLib.wf_mat Q; rewrite /= muln1 muln_eq1 andbb. Qed.

(** the vectors and matrices: only dimension 1 *)
Lemma repr_dim n (e : ell R) (c : 'cV[R]_n) Q t : repr e c Q t ->
  (size (data (e_center e)) == 1%N) = (n == 1%N) /\ (size (data (e_shape e)) == 1%N) = (n == 1%N).
Proof. by move=> [[-> -> _ _] _]; rewrite center_data shape_data. Qed.

Lemma vec_property_bad (a : arr (ell R)) e n (c : 'cV[R]_n) Q t name f : In name center_names \/ In name shape_names ->
  In e (data a) -> repr e c Q t -> n <> 1%N -> ell_property a name f = ValueError.
Proof.
move=> Hn He Hr n1; have [H1 H2] := repr_dim Hr; have a0 : data a <> [::] by case: (data a) He.
have key (val : ell R -> A) : (size (data (val e)) == 1%N) = (n == 1%N) -> ~~ all (fun x => size (data (val x)) == 1%N) (data a).
  move=> Hv; elim: (data a) He {a0} => [|x s IH] //= [->|/IH]; first by rewrite Hv; case: eqP.
  by rewrite negb_and => ->; rewrite orbT.
case: Hn => [/center_lookup|/shape_lookup] El.
- by apply: (get_property_arr (val := @e_center R) El a0 _).1 => //; apply: key.
- by apply: (get_property_arr (val := @e_shape R) El a0 _).1 => //; apply: key.
Qed.

Definition dim1 (e : ell R) : Prop := exists (c : 'cV[R]_1) Q t, repr e c Q t.
Lemma dim1_all (val : ell R -> A) (a : seq (ell R)) : Forall dim1 a ->
  (forall e, dim1 e -> size (data (val e)) == 1%N) -> all (fun x => size (data (val x)) == 1%N) a.
Proof. by move=> + Hv; elim=> //= e l He _ ->; rewrite Hv. Qed.

Lemma vec1 (c : 'cV[R]_1) : head x0 (data (vec c)) = Fin (c 0 0).
Proof. by have := get_vec c 0 x0; rewrite /getn /=. Qed.
Lemma mat1 (Q : 'M[R]_1) : head x0 (data (mat Q)) = Fin (Q 0 0).
Proof. by have := get_mat Q 0 0 x0; rewrite /getn /=. Qed.

Lemma center_property (a : arr (ell R)) name : In name center_names -> data a <> [::] -> Forall dim1 (data a) ->
  exists2 xs, ell_property a name None = Ok (Arr [:: size (data a)] xs, None) &
    Forall2 (fun e x => forall (c : 'cV[R]_1) Q t, repr e c Q t -> x = Fin (c 0 0)) (data a) xs.
Proof.
move=> /center_lookup El a0 H; eexists.
  apply: (get_property_arr (val := @e_center R) El a0 _).2 => //.
  by apply: dim1_all H _ => e [c [Q [t Hr]]]; rewrite (repr_dim Hr).1.
elim: (data a) {a0 H} => [|e l IH] /=; constructor=> // c Q t [[-> _ _ _] _]; exact: vec1.
Qed.
Lemma shape_property (a : arr (ell R)) name : In name shape_names -> data a <> [::] -> Forall dim1 (data a) ->
  exists2 xs, ell_property a name None = Ok (Arr [:: size (data a)] xs, None) &
    Forall2 (fun e x => forall (c : 'cV[R]_1) (Q : 'M[R]_1) t, repr e c Q t -> x = Fin (Q 0 0)) (data a) xs.
Proof.
move=> /shape_lookup El a0 H; eexists.
  apply: (get_property_arr (val := @e_shape R) El a0 _).2 => //.
  by apply: dim1_all H _ => e [c [Q [t Hr]]]; rewrite (repr_dim Hr).2.
elim: (data a) {a0 H} => [|e l IH] /=; constructor=> // c Q t [[_ -> _ _] _]; exact: mat1.
Qed.
Lemma normal_property_bad (a : arr (hp R)) h n (v : 'cV[R]_n) s t name f : In name normal_names ->
  In h (data a) -> hrepr h v s t -> n <> 1%N -> hp_property a name f = ValueError.
Proof.
move=> /normal_lookup El He [Ev _ _ _ _] n1; have a0 : data a <> [::] by case: (data a) He.
apply: (get_property_arr (val := @h_normal R) El a0 _).1 => //.
elim: (data a) He {a0} => [|x l IH] //= [->|/IH]; first by rewrite Ev center_data; case: eqP.
by rewrite negb_and => ->; rewrite orbT.
Qed.

(** the models of get_abs_tol used elsewhere *)
Lemma tol_models (a : arr (ell R)) g : data a <> [::] ->
  get_abs_tol a None = Ok (get_abs_tol_arr a, None) /\
  get_abs_tol a (Some g) = (let* v := get_abs_tol_by g a in Ok (get_abs_tol_arr a, Some v)).
Proof.
move=> a0; have Hn : In "_abs_tol"%string (ell_names KAbs) by right; right; left.
by rewrite /get_abs_tol !(ell_property_run _ Hn a0) /get_abs_tol_by /get_abs_tol_arr; case: (data a) a0.
Qed.

(** ------------------------------------------------------------------ from_rep_mat *)
Section Rep.
Variable T : Type.
Variable copy1 : T -> res T.
Implicit Types h : seq T.

Lemma from_rep_run mk v w (s : seq nat) (l : seq int) (sh : seq nat) h : mk = Ok v -> copy1 v = Ok w ->
  (0 < size sh)%N -> l = map Posz sh ->
  exists h' b, [/\ from_rep_mat mk copy1 (Some (SInt (Arr s l))) h = (h', Ok b), preserved h h',
    fresh h (data b), objs h' (data b) (nseq (prodn sh) w) & shape b = sh].
Proof.
move=> Em Ec s0 ->; rewrite /from_rep_mat /hbind /hlift Em /halloc /=.
have [h' [b [E P [U F] O S]]] := rep_mat_run s0 (obj_last h v) Ec.
exists h', b; rewrite size_map E; split=> //; first exact: preserved_trans (@preserved_rcons _ h v) P.
split=> // r /F; rewrite size_rcons; exact: ltnW.
Qed.
Lemma from_rep_sizes mk v s e h : mk = Ok v -> rep_sizes (flat_sizes s) = Err e ->
  exists h', from_rep_mat mk copy1 (Some s) h = (h', Err e) /\ preserved h h'.
Proof.
move=> Em Es; exists (rcons h v); split; last exact: preserved_rcons.
by rewrite /from_rep_mat /hbind /hlift Em /halloc /= /rep_mat /hbind /hlift Es.
Qed.
Lemma from_rep_ctor mk s e h : mk = Err e -> from_rep_mat mk copy1 (Some s) h = (h, Err e).
Proof. by move=> Em; rewrite /from_rep_mat /hbind /hlift Em. Qed.

Lemma flat_bad (s : sizes) : (let a := match s with SInt a | SFloat a => a end in
    data a = [::] \/ has (fun z : int => z < 0) (data a)) -> rep_sizes (flat_sizes s) = throw "wrongInput:shape_vec".
Proof.
have key a : data a = [::] \/ has (fun z : int => z < 0) (data a) -> size (data a) = 0%N \/ ~~ all (fun z : int => 0 <= z) (data a).
  case=> [->|/hasP[z Hz z0]]; [by left | right]; apply/allPn; exists z => //; by rewrite -ltNge.
by case: s => a /= /key; rewrite /rep_sizes max_shape1 /np_size /= muln1; case: eqP => [//|E [/E//|H]]; rewrite ?rbind_okE eqxx /= H.
Qed.
Lemma flat_float (a : arr int) : data a <> [::] -> all (fun z : int => 0 <= z) (data a) -> rep_sizes (flat_sizes (SFloat a)) = TypeError.
Proof.
move=> a0 H; rewrite /rep_sizes /np_size /= muln1.
have -> : (size (data a) == 0%N) = false by case: (data a) a0.
by rewrite ?rbind_okE eqxx /= H.
Qed.
End Rep.

(** whatever ellipsoid the constructor makes, its copy is the same *)
Lemma kw_props (cfg : props R) k p t : props_of cfg k p t -> props_of cfg (kw_of p) p t.
Proof. by move=> [_ H1 H2 H3]; split=> //; case: p H1 H3. Qed.

Section EllRep.
Variable la : linalg R.
Hypothesis Hla : eigvalsh_ok la.
Variables (cfg : props R) (k : kwargs R) (p : props R) (t : R).
Hypothesis Hp : props_of cfg k p t.

Lemma copy_made n (c : 'cV[R]_n) (Q : 'M[R]_n) : ((0 < n)%N -> near_psd t Q) ->
  single_copy la cfg (Ell (vec c) (mat Q) p) = Ok (Ell (vec c) (mat Q) p).
Proof.
move=> HQ; rewrite /single_copy /=; have Hp' := kw_props Hp; have [n0|n0] := posnP n; last first.
  exact: (ctor_run Hp' Q Hla n0 (HoldsVec c)).1 (HQ n0).
move: c Q {HQ}; rewrite n0 => c Q; apply: (mk_valid _ Hla Hp'); first by apply/matrixP => -[].
by move=> x; rewrite /qf /dotv big_ord0.
Qed.
End EllRep.
End GetPropP.
