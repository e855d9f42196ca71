(** C71: get_property and the getters.  C72: from_rep_mat. *)
Require Import Coq.Lists.List.
From mathcomp Require Import all_ssreflect all_algebra.
Require Import Coq.Strings.String.
From Verif.Model Require Import Py NP Linalg La Ellipsoid Hyperplane EllHeap GetProp.
From Verif.Spec Require Import MatSpec LinalgSpec EllSpec EllipsoidSpec HypSpec EllHeapSpec GetPropSpec.
From Verif.Proof Require Import LinalgSat EllipsoidProof HypOps HypEx OpsEx EllHeapProof GetPropProof.
Set Implicit Arguments.
Unset Strict Implicit.
Unset Printing Implicit Defensive.
Import Order.Theory GRing.Theory Num.Theory.
Local Open Scope ring_scope.

(** ------------------------------------------------------------------ C71 *)

(** under each of its names a property gives the values of the objects, in the order of the flattened array *)
Theorem C71_values :
  forall (R : rcfType) (a : arr (ell R)) k name,
  In name (ell_names k) -> data a <> [::] ->
  ell_property a name None = Ok (Arr [:: size (data a)] (map (ell_value k) (data a)), None) /\
  forall g, ell_property a name (Some g) =
    match g (Arr [:: size (data a)] (map (ell_value k) (data a))) with
    | Ok v => Ok (Arr [:: size (data a)] (map (ell_value k) (data a)), Some v)
    | Err e => Err e
    end.
Proof. by move=> R a k name Hn a0; split=> [|g]; rewrite (ell_property_run _ Hn a0). Qed.
Print Assumptions C71_values.

(** and with the default function, together with their least value *)
Theorem C71_least :
  forall (R : rcfType) (a : arr (ell R)) k name,
  In name (ell_names k) -> data a <> [::] ->
  (forall e, In e (data a) -> exists r, ell_value k e = Fin r) ->
  exists2 x, ell_property a name (Some (@np_min R)) = Ok (Arr [:: size (data a)] (map (ell_value k) (data a)), Some x) &
    least (map (ell_value k) (data a)) x.
Proof. exact: ell_property_min. Qed.
Print Assumptions C71_least.

(** an empty array gives an empty array and nan, even for names that do not exist *)
Theorem C71_empty :
  forall (R : rcfType) (a : arr (ell R)) name, data a = [::] ->
  ell_property a name None = Ok (Arr [:: 0%N] [::], None) /\
  forall g, ell_property a name (Some g) = Ok (Arr [:: 0%N] [::], Some NaN).
Proof. by move=> R a name a0; split=> [|g]; rewrite /ell_property get_property_empty. Qed.
Print Assumptions C71_empty.

(** for other arrays such names are an error *)
Theorem C71_unknown :
  forall (R : rcfType) (a : arr (ell R)) name f, ell_unknown name -> data a <> [::] ->
  ell_property a name f = KeyError.
Proof. by move=> R a name f /ell_lookup_none H a0; apply: get_property_key. Qed.
Print Assumptions C71_unknown.

(** center_vec and shape_mat are in the dictionary, but are readable in dimension 1 only *)
Theorem C71_vectors_fail :
  forall (R : rcfType) (a : arr (ell R)) e n (c : 'cV[R]_n) Q t name f,
  In name center_names \/ In name shape_names -> In e (data a) -> repr e c Q t -> n <> 1%N ->
  ell_property a name f = ValueError.
Proof. exact: vec_property_bad. Qed.
Print Assumptions C71_vectors_fail.

Theorem C71_vectors_1d :
  forall (R : rcfType) (a : arr (ell R)), data a <> [::] ->
  Forall (fun e => exists (c : 'cV[R]_1) Q t, repr e c Q t) (data a) ->
  (forall name, In name center_names ->
   exists2 xs, ell_property a name None = Ok (Arr [:: size (data a)] xs, None) &
     Forall2 (fun e x => forall (c : 'cV[R]_1) Q t, repr e c Q t -> x = Fin (c 0 0)) (data a) xs) /\
  (forall name, In name shape_names ->
   exists2 xs, ell_property a name None = Ok (Arr [:: size (data a)] xs, None) &
     Forall2 (fun e x => forall (c : 'cV[R]_1) (Q : 'M[R]_1) t, repr e c Q t -> x = Fin (Q 0 0)) (data a) xs).
Proof.
by move=> R a a0 H; split=> name Hn; [exact: (center_property Hn a0 H) | exact: (shape_property Hn a0 H)].
Qed.
Print Assumptions C71_vectors_1d.

(** false of the code: that the values come in an array of the shape of the argument *)
Theorem C71_shape_refuted :
  forall (R : rcfType) (a : arr (ell R)) name f v w,
  ell_property a name f = Ok (v, w) -> shape v = [:: size (data a)] /\ (ndim a != 1%N -> shape v <> shape a).
Proof.
move=> R a name f v w /get_property_shape E; split=> // Hn F; move: Hn.
by rewrite /ndim -F E.
Qed.
Print Assumptions C71_shape_refuted.

(** the getters *)
Theorem C71_getters :
  forall (R : rcfType) (a : arr (ell R)), data a <> [::] ->
  [/\ get_abs_tol a None = Ok (Arr [:: size (data a)] (map (ell_value KAbs) (data a)), None),
      get_rel_tol a None = Ok (Arr [:: size (data a)] (map (ell_value KRel) (data a)), None),
      get_n_plot_2d_points a = Ok (Arr [:: size (data a)] (map (ell_value KPlot2) (data a)), None) &
      get_n_plot_3d_points a = Ok (Arr [:: size (data a)] (map (ell_value KPlot3) (data a)), None)].
Proof.
move=> R a a0; split.
- by apply: (@ell_property_run _ a KAbs "_abs_tol" None) a0; right; right; left.
- by apply: (@ell_property_run _ a KRel "_rel_tol" None) a0; right; right; left.
- by apply: (@ell_property_run _ a KPlot2 "_n_plot_2d_points" None) a0; right; right; left.
- by apply: (@ell_property_run _ a KPlot3 "_n_plot_3d_points" None) a0; right; right; left.
Qed.
Print Assumptions C71_getters.

(** the least tolerance of ellipsoids is positive, and not above that of any of them *)
Theorem C71_tolerance :
  forall (R : rcfType) (a : arr (ell R)), data a <> [::] -> Forall (@valid R) (data a) ->
  exists2 t, get_abs_tol a (Some (@np_min R)) = Ok (Arr [:: size (data a)] (map (ell_value KAbs) (data a)), Some (Fin t)) &
    0 < t /\ forall e n (c : 'cV[R]_n) Q t', In e (data a) -> repr e c Q t' -> t <= t'.
Proof.
move=> R a a0 H; have Hn : In "_abs_tol"%string (ell_names KAbs) by right; right; left.
have Hv e : In e (data a) -> exists2 r : R, ell_value KAbs e = Fin r & 0 < r.
  by move=> He; have /Forall_forall/(_ e He) [n [c [Q [t [[_ _ Et t0] _]]]]] := H; exists t.
have [|x E [t Et [Hi Ht]]] := ell_property_min Hn a0.
  by move=> e /Hv [r Er _]; exists r.
exists t; first by rewrite /get_abs_tol E Et.
split=> [|e n c Q t' He [[_ _ Et' _] _]]; last first.
  by apply: Ht; rewrite -Et'; apply: (in_map (ell_value KAbs) (data a) e He).
by have [e [Ee /Hv [r Er]]] := (in_map_iff (ell_value KAbs) (data a) (Fin t)).1 Hi; rewrite Er in Ee; case: Ee => ->.
Qed.
Print Assumptions C71_tolerance.

(** the models of get_abs_tol used for the other properties agree with this one *)
Theorem C71_tolerance_models :
  forall (R : rcfType) (a : arr (ell R)) g, data a <> [::] ->
  get_abs_tol a None = Ok (get_abs_tol_arr a, None) /\
  get_abs_tol a (Some g) = (let* v := get_abs_tol_by g a in Ok (get_abs_tol_arr a, Some v)).
Proof. exact: tol_models. Qed.
Print Assumptions C71_tolerance_models.

(** hyperplanes *)
Theorem C71_hyp_values :
  forall (R : rcfType) (a : arr (hp R)) k name,
  In name (hp_names k) -> data a <> [::] ->
  hp_property a name None = Ok (Arr [:: size (data a)] (map (hp_value k) (data a)), None) /\
  forall g, hp_property a name (Some g) =
    match g (Arr [:: size (data a)] (map (hp_value k) (data a))) with
    | Ok v => Ok (Arr [:: size (data a)] (map (hp_value k) (data a)), Some v)
    | Err e => Err e
    end.
Proof. by move=> R a k name Hn a0; split=> [|g]; rewrite (hp_property_run _ Hn a0). Qed.
Print Assumptions C71_hyp_values.

Theorem C71_hyp_least :
  forall (R : rcfType) (a : arr (hp R)) k name,
  In name (hp_names k) -> data a <> [::] ->
  (forall h, In h (data a) -> exists r, hp_value k h = Fin r) ->
  exists2 x, hp_property a name (Some (@np_min R)) = Ok (Arr [:: size (data a)] (map (hp_value k) (data a)), Some x) &
    least (map (hp_value k) (data a)) x.
Proof. exact: hp_property_min. Qed.
Print Assumptions C71_hyp_least.

Theorem C71_hyp_names :
  forall (R : rcfType) (a : arr (hp R)) name f, data a <> [::] ->
  (hp_unknown name -> hp_property a name f = KeyError) /\
  forall h n (v : 'cV[R]_n) s t, In name normal_names -> In h (data a) -> hrepr h v s t -> n <> 1%N ->
    hp_property a name f = ValueError.
Proof.
move=> R a name f a0; split=> [/hp_lookup_none H|h n v s t Hn Hh Hr n1]; first exact: get_property_key.
exact: normal_property_bad Hn Hh Hr n1.
Qed.
Print Assumptions C71_hyp_names.

(** the hypotheses hold: two discs in a 1 x 2 array; no object has a property "radius" *)
Example C71_ex (R : rcfType) : let a := Arr [:: 1%N; 2%N] [:: ball_at (0 : 'cV[R]_2) 1; ball_at (0 : 'cV[R]_2) 4%:R] in
  [/\ data a <> [::], Forall (@valid R) (data a), ndim a != 1%N, In "relTol"%string (ell_names KRel) & ell_unknown "radius"] /\
  hp_unknown "normals".
Proof.
have H n (c : 'cV[R]_n) x : 0 <= x -> valid (ball_at c x) by move=> x0; exists n, c, x%:M, (10%:R ^- 7); exact: ball_repr.
split; last by split=> [[]|] /=; by intuition discriminate.
split=> //; [by constructor; [|constructor; [|constructor]]; apply: H; rewrite ?ler01 ?ler0n|by left|].
by split=> [[]|] /=; intuition discriminate.
Qed.

(** ------------------------------------------------------------------ C72 *)

(** from_rep_mat(c, Q, sizes), for whatever arrays the constructor accepts and sizes in any arrangement:
    that many new objects, pairwise different, with the value of the ellipsoid it makes *)
Theorem C72_two :
  forall (R : rcfType) (la : linalg R) cfg k p t ca qa e (s sh : seq nat) h,
  eigvalsh_ok la -> props_of cfg k p t -> wf_arr ca -> wf_arr qa ->
  mk_ell la cfg (CBoth (RealArr ca) (RealArr qa)) k = Ok e -> (0 < size sh)%N ->
  exists h' b, [/\ from_rep_mat (mk_ell la cfg (CBoth (RealArr ca) (RealArr qa)) k) (single_copy la cfg)
      (Some (SInt (Arr s (map Posz sh)))) h = (h', Ok b), preserved h h',
    fresh h (data b), objs h' (data b) (nseq (prodn sh) e) & shape b = sh].
Proof.
move=> R la cfg k p t ca qa e s sh h Hla Hp wc wq Em s0.
have [n [c [Q [_ _ _ Ee HQ]]]] := ctor_sound Hp Hla wc wq Em.
by apply: (from_rep_run _ _ Em) => //; rewrite Ee; apply: (copy_made Hla Hp).
Qed.
Print Assumptions C72_two.

(** the same for one matrix, and without arguments *)
Theorem C72_one :
  forall (R : rcfType) (la : linalg R) cfg k p t n (Q : 'M[R]_n) (s sh : seq nat) h,
  eigvalsh_ok la -> props_of cfg k p t -> (0 < n)%N -> near_psd t Q -> (0 < size sh)%N ->
  exists h' b, [/\ from_rep_mat (mk_ell la cfg (CShape (RealArr (mat Q))) k) (single_copy la cfg)
      (Some (SInt (Arr s (map Posz sh)))) h = (h', Ok b), preserved h h',
    fresh h (data b), objs h' (data b) (nseq (prodn sh) (Ell (vec (0 : 'cV[R]_n)) (mat Q) p)) & shape b = sh].
Proof.
move=> R la cfg k p t n Q s sh h Hla Hp n0 HQ s0.
by apply: (from_rep_run _ _ ((ctor1_run Hp Q Hla n0).1 HQ)) => //; apply: (copy_made Hla Hp).
Qed.
Print Assumptions C72_one.

Theorem C72_none :
  forall (R : rcfType) (la : linalg R) cfg k p t (s sh : seq nat) h,
  eigvalsh_ok la -> props_of cfg k p t -> (0 < size sh)%N ->
  exists h' b, [/\ from_rep_mat (mk_ell la cfg (CNone R) k) (single_copy la cfg)
      (Some (SInt (Arr s (map Posz sh)))) h = (h', Ok b), preserved h h',
    fresh h (data b), objs h' (data b) (nseq (prodn sh) (Ell (vec (0 : 'cV[R]_0)) (mat (0 : 'M[R]_0)) p)) & shape b = sh].
Proof.
move=> R la cfg k p t s sh h Hla Hp s0.
by apply: (from_rep_run _ _ (ctor0_run la Hp)) => //; apply: (copy_made Hla Hp).
Qed.
Print Assumptions C72_none.

(** errors: the constructor's come first, and no object is made; then those of the sizes *)
Theorem C72_errors :
  forall (R : rcfType) (la : linalg R) cfg args k h,
  [/\ from_rep_mat (mk_ell la cfg args k) (single_copy la cfg) None h = (h, throw "wrongInput"),
      forall s x, mk_ell la cfg args k = Err x ->
        from_rep_mat (mk_ell la cfg args k) (single_copy la cfg) (Some s) h = (h, Err x),
      forall e a, mk_ell la cfg args k = Ok e -> data a = [::] \/ has (fun z : int => z < 0) (data a) ->
        forall s, s = SInt a \/ s = SFloat a ->
        exists h', from_rep_mat (mk_ell la cfg args k) (single_copy la cfg) (Some s) h = (h', throw "wrongInput:shape_vec") /\ preserved h h' &
      forall e a, mk_ell la cfg args k = Ok e -> data a <> [::] -> all (fun z : int => 0 <= z) (data a) ->
        exists h', from_rep_mat (mk_ell la cfg args k) (single_copy la cfg) (Some (SFloat a)) h = (h', TypeError) /\ preserved h h'].
Proof.
move=> R la cfg args k h; split=> // [s x|e a E Ha s Hs|e a E a0 Ha].
- exact: from_rep_ctor.
- by apply: (from_rep_sizes _ _ E); apply: flat_bad; case: Hs => ->.
- by apply: (from_rep_sizes _ _ E); apply: flat_float.
Qed.
Print Assumptions C72_errors.

(** hyperplanes: the objects have the normal, the shift and abs_tol given, and the configured rel_tol *)
Theorem C72_hyp :
  forall (R : rcfType) cfg (t0 r0 : R) k a b n (v : 'cV[R]_n) va (s : R) (sz sh : seq nat) h,
  tols_of cfg t0 r0 -> (0 < n)%N -> holds v va ->
  odflt (Fin t0) (k_abs k) = Fin a -> odflt (Fin r0) (k_rel k) = Fin b -> 0 < a -> 0 < b -> (0 < size sh)%N ->
  exists h' r, [/\ from_rep_mat (mk_hp cfg (RealArr va) (RealScal (Fin s)) k) (hp_single_copy cfg)
      (Some (SInt (Arr sz (map Posz sh)))) h = (h', Ok r), preserved h h',
    fresh h (data r), objs h' (data r) (nseq (prodn sh) (Hp (vec v) (Fin s) (Fin a) (Fin r0))) & shape r = sh].
Proof.
move=> R cfg t0 r0 k a b n v va s sz sh h Hc n0 Hv Ha Hb a0 b0 s0.
apply: (from_rep_run _ _ (mk_hp_run s Hc n0 Hv Ha Hb a0 b0)) => //.
by apply: (hp_copy_run Hc n0); split=> //; exists b.
Qed.
Print Assumptions C72_hyp.

(** false of the code: that they are what the constructor makes of the arguments; a rel_tol given is lost *)
Theorem C72_hyp_rel_refuted :
  forall (R : rcfType) cfg (t0 r0 b : R) n (v : 'cV[R]_n) (s : R) h,
  tols_of cfg t0 r0 -> (0 < n)%N -> 0 < b -> b != r0 ->
  let mk := mk_hp cfg (RealArr (vec v)) (RealScal (Fin s)) (Kw None (Some (Fin b)) None None) in
  exists h' r x y, [/\ mk = Ok x, from_rep_mat mk (hp_single_copy cfg) (Some (SInt (Arr [::] [:: 1]))) h = (h', Ok (Arr [:: 1%N] [:: r])),
    obj h' r y, h_rel x = Fin b & h_rel y = Fin r0].
Proof.
move=> R cfg t0 r0 b n v s h Hc n0 b0 br; have [_ _ t0' _] := Hc.
have Em := mk_hp_run s (k := Kw None (Some (Fin b)) None None) Hc n0 (HoldsVec v) (erefl _) (erefl _) t0' b0.
move=> mk; have Ec : hp_single_copy cfg (Hp (vec v) (Fin s) (Fin t0) (Fin b)) = Ok (Hp (vec v) (Fin s) (Fin t0) (Fin r0)).
  by apply: (hp_copy_run Hc n0); split=> //; exists b.
have [h' [rr [E _ _ O S]]] := from_rep_run [::] (sh := [:: 1%N]) h Em Ec isT (erefl [:: 1]).
have [sr [r Er Hr]] : exists s', exists2 r, rr = Arr s' [:: r] & obj h' r (Hp (vec v) (Fin s) (Fin t0) (Fin r0)).
  case: rr O {E S} => s' d /= O; inversion O as [|r y l l' H1 H2]; inversion H2; subst; by exists s', r.
rewrite Er in E S; rewrite /= in S; subst sr.
by exists h', r; do 2!eexists; split; [exact: Em | exact: E | exact: Hr | reflexivity | reflexivity].
Qed.
Print Assumptions C72_hyp_rel_refuted.

(** the hypotheses hold: discs of radius 2, in a 2 x 3 array; two lines with a tolerance given *)
Example C72_ex (R : rcfType) : let cfg := std_props R in
  (eigvalsh_ok (the_linalg R) /\
   exists p t, [/\ props_of cfg (no_kw R) p t, mk_ell (the_linalg R) cfg (CBoth (RealArr (vec (0 : 'cV[R]_2))) (RealArr (mat (4%:R%:M : 'M[R]_2)))) (no_kw R)
     = Ok (Ell (vec (0 : 'cV[R]_2)) (mat (4%:R%:M : 'M[R]_2)) p) & near_psd t (4%:R%:M : 'M[R]_2)]) /\
  tols_of cfg (10%:R ^- 7) (10%:R ^- 5).
Proof.
move=> cfg; have Hp := std_props_ok R; have t0 : 0 < 10%:R ^- 7 :> R by case: Hp.
have Hla : eigvalsh_ok (the_linalg R) by have [_ []] := the_linalg_ok R.
have x0 : 0 <= 4%:R :> R by rewrite ler0n.
have Hn : near_psd (10%:R ^- 7) (4%:R%:M : 'M[R]_2).
  by apply: near_psd_exact => //; have [_ [H1 H2 _]] := ball_repr (0 : 'cV[R]_2) x0.
split; last by case: Hp => _ _ _ [r [<-] r0].
split=> //; exists cfg, (10%:R ^- 7); split=> //.
exact: (ctor_run Hp _ Hla (ltn0Sn 1) (HoldsVec _)).1 Hn.
Qed.
