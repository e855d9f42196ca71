(** C61, C62, C69 and the hyperplane parts of C58, C59, C49: elltool/core/hyperplane/Hyperplane.py.
    [hrepr h v s t]: the object h has normal v, shift s and absolute tolerance t;
    [hfamily hs v s t]: so have the members of a list. *)
From mathcomp Require Import all_ssreflect all_algebra.
Require Import Coq.Strings.String.
From Verif.Model Require Import Py NP Linalg La Ellipsoid Hyperplane.
From Verif.Spec Require Import MatSpec EllSpec HypSpec.
From Verif.Proof Require Import NPLib MatLib LaBasic HypProof HypOps HypEx.
Import Order.Theory GRing.Theory Num.Theory.
Local Open Scope ring_scope.

(** ------------------------------------------------------------------ C69 *)

(** Hyperplane(v, s): the object holds the given normal (in whatever layout), shift and tolerances *)
Theorem C69_constructor :
  forall (R : rcfType) cfg t r k a b n (v : 'cV[R]_n) va (s : R),
  tols_of cfg t r -> (0 < n)%N -> holds v va ->
  odflt (Fin t) (k_abs k) = Fin a -> odflt (Fin r) (k_rel k) = Fin b -> 0 < a -> 0 < b ->
  mk_hp cfg (RealArr va) (RealScal (Fin s)) k = Ok (Hp (vec v) (Fin s) (Fin a) (Fin b)).
Proof. exact: mk_hp_run. Qed.
Print Assumptions C69_constructor.

(** whatever arrays are accepted are finite vectors *)
Theorem C69_sound :
  forall (R : rcfType) cfg t0 r0 (va : arr (xnum R)) (s : xnum R) k h,
  tols_of cfg t0 r0 -> wf_arr va ->
  mk_hp cfg (RealArr va) (RealScal s) k = Ok h ->
  exists n (v : 'cV[R]_n) s', [/\ max_shape va = Ok n, data va = data (vec v), s = Fin s', h_normal h = vec v & h_shift h = Fin s'].
Proof. exact: hp_sound. Qed.
Print Assumptions C69_sound.

Theorem C69_rejects_normal :
  forall (R : rcfType) cfg t0 r0 k a b (va : arr (xnum R)) m s,
  tols_of cfg t0 r0 -> 
  odflt (Fin t0) (k_abs k) = Fin a -> odflt (Fin r0) (k_rel k) = Fin b -> 0 < a -> 0 < b ->
  max_shape va = Ok m -> np_size va <> m \/ ~~ all (@xis_fin R) (data va) ->
  mk_hp cfg (RealArr va) s k = throw "wrongInput:normal_vec".
Proof. exact: hp_bad_normal. Qed.
Print Assumptions C69_rejects_normal.

Theorem C69_rejects_shift :
  forall (R : rcfType) cfg t0 r0 k a b n (v : 'cV[R]_n) va (sa : arr (xnum R)),
  tols_of cfg t0 r0 -> (0 < n)%N -> holds v va ->
  odflt (Fin t0) (k_abs k) = Fin a -> odflt (Fin r0) (k_rel k) = Fin b -> 0 < a -> 0 < b ->
  size (data sa) != 1%N \/ ~~ all (@xis_fin R) (data sa) ->
  mk_hp cfg (RealArr va) (RealArr sa) k = throw "wrongInput:shift".
Proof. exact: hp_bad_shift. Qed.
Print Assumptions C69_rejects_shift.

Theorem C69_rejects_tolerance :
  forall (R : rcfType) (cfg : props R) t0 r0 nv s k,
  tols_of cfg t0 r0 ->
  ~~ xgt (odflt (Fin t0) (k_abs k)) x0 \/ ~~ xgt (odflt (Fin r0) (k_rel k)) x0 ->
  mk_hp cfg nv s k = throw "wrongInput".
Proof. exact: hp_bad_tol. Qed.
Print Assumptions C69_rejects_tolerance.

(** dimension: the size of the normal, or 0 for a normal and a shift that both vanish up to abs_tol in dimension 1 *)
Theorem C69_dimension :
  forall (R : rcfType) n k sh hs (v : 'I_k -> 'cV[R]_n) s t,
  (0 < n)%N -> hfamily hs v s t ->
  exists2 ds, hp_dimension (Arr sh hs) = Ok (Arr sh ds) &
  size ds = k /\ forall i : 'I_k, nth 0%N ds i = if (n == 1%N) && [forall j, `|v i j 0| <= t i] && (`|s i| <= t i) then 0%N else n.
Proof. exact: hp_dimension_run. Qed.
Print Assumptions C69_dimension.

Example C69_nonvacuous : forall R : rcfType,
  exists2 h, mk_hp (Props (Fin 1) (Fin 1) 1 1) (RealArr (mat (const_mx 2%:R : 'rV[R]_3))) (RealScal (Fin (-3%:R))) (Kw (Some (Fin 5%:R)) None None None) = Ok h &
  hrepr h (const_mx 2%:R : 'cV[R]_3) (-3%:R) 5%:R.
Proof. exact: ctor_example. Qed.

(** ------------------------------------------------------------------ C61 *)

(** one point, given as a vector or with axes of length 1, and an array of hyperplanes *)
Theorem C61_one_point :
  forall (R : rcfType) n k tl hs sh (x : 'cV[R]_n) (v : 'I_k -> 'cV[R]_n) s t,
  (0 < n)%N -> (0 < k)%N -> hfamily hs v s t -> (forall i, solid (v i) (s i) (t i)) -> prodn tl = 1%N ->
  exists2 bs, contains (Arr sh hs) (Arr (n :: tl) (data (mat x))) = Ok (Arr sh bs) &
  size bs = k /\ forall i : 'I_k, nth false bs i = true <-> near_hp (v i) (s i) (t i) x.
Proof. exact: contains_point. Qed.
Print Assumptions C61_one_point.

(** one hyperplane, several points: the result has the shape of the array of points *)
Theorem C61_one_hyperplane :
  forall (R : rcfType) n m tl h sh (P : 'M[R]_(n, m)) (v : 'cV[R]_n) s t,
  (0 < n)%N -> hrepr h v s t -> solid v s t -> prodn tl = m -> (1 < m)%N ->
  exists2 bs, contains (Arr sh [:: h]) (Arr (n :: tl) (data (mat P))) = Ok (Arr tl bs) &
  size bs = m /\ forall j : 'I_m, nth false bs j = true <-> near_hp v s t (col j P).
Proof. exact: contains_points. Qed.
Print Assumptions C61_one_hyperplane.

(** as many points as hyperplanes *)
Theorem C61_pairs :
  forall (R : rcfType) n m tl hs sh (P : 'M[R]_(n, m)) (v : 'I_m -> 'cV[R]_n) s t,
  (0 < n)%N -> prodn tl = m -> (1 < m)%N -> hfamily hs v s t -> (forall i, solid (v i) (s i) (t i)) ->
  exists2 bs, contains (Arr sh hs) (Arr (n :: tl) (data (mat P))) = Ok (Arr tl bs) &
  size bs = m /\ forall i : 'I_m, nth false bs i = true <-> near_hp (v i) (s i) (t i) (col i P).
Proof. exact: contains_pairs. Qed.
Print Assumptions C61_pairs.

(** any other numbers *)
Theorem C61_wrong_counts :
  forall (R : rcfType) n k m tl hs sh (P : 'M[R]_(n, m)) (v : 'I_k -> 'cV[R]_n) s t,
  (0 < n)%N -> (1 < k)%N -> prodn tl = m -> m != 1%N -> k != m -> hfamily hs v s t ->
  (forall i, solid (v i) (s i) (t i)) ->
  contains (Arr sh hs) (Arr (n :: tl) (data (mat P))) =
  if (k < m)%N && ~~ (k %| m)%N then ValueError else IndexError.
Proof. exact: contains_counts. Qed.
Print Assumptions C61_wrong_counts.

Theorem C61_wrong_dimension :
  forall (R : rcfType) n n' k tl hs sh (P : 'M[R]_(n', prodn tl)) (v : 'I_k -> 'cV[R]_n) s t,
  (0 < n)%N -> (0 < n')%N -> (0 < k)%N -> n' != n -> hfamily hs v s t -> (forall i, solid (v i) (s i) (t i)) ->
  contains (Arr sh hs) (Arr (n' :: tl) (data (mat P))) = throw "wrongInput:wrongSizes".
Proof. exact: contains_dims. Qed.
Print Assumptions C61_wrong_dimension.

Theorem C61_mixed_dimensions :
  forall (R : rcfType) n n1 n2 tl sh hs1 h1 hs2 h2 hs3 (v1 : 'cV[R]_n1) (v2 : 'cV[R]_n2) s1 s2 t1 t2 d,
  (0 < n)%N ->
  has (@xis_nan R) d = false -> (0 < n1)%N -> (0 < n2)%N -> n1 != n2 ->
  hrepr h1 v1 s1 t1 -> solid v1 s1 t1 -> hrepr h2 v2 s2 t2 -> solid v2 s2 t2 ->
  (forall h, List.In h (hs1 ++ hs2 ++ hs3) -> exists m, hp_dim1 h = Ok m) ->
  contains (Arr sh (hs1 ++ h1 :: hs2 ++ h2 :: hs3)) (Arr (n :: tl) d) = throw "wrongSizes".
Proof. exact: contains_mixed. Qed.
Print Assumptions C61_mixed_dimensions.

Theorem C61_scalar :
  forall (R : rcfType) hs (x : xnum R),
  contains hs (np_scalar x) = IndexError.
Proof. exact: contains_scalar. Qed.
Print Assumptions C61_scalar.

Theorem C61_nan :
  forall (R : rcfType) n tl hs d,
  (0 < n)%N -> has (@xis_nan R) d -> contains hs (Arr (n :: tl) d) = throw "wrongInput".
Proof. exact: contains_nan. Qed.
Print Assumptions C61_nan.

(** infinite coordinates are ignored where the normal vanishes; elsewhere the point is not on the hyperplane *)
Theorem C61_infinite :
  forall (R : rcfType) n sh h (v : 'cV[R]_n) s t (z : 'I_n -> xnum R),
  (0 < n)%N -> hrepr h v s t -> solid v s t ->
  (forall i, ~~ xis_nan (z i)) ->
  exists2 b, contains (Arr sh [:: h]) (Arr [:: n] [seq z i | i <- enum 'I_n]) = Ok (Arr sh [:: b]) &
    b = true <-> (forall i, xis_fin (z i) \/ v i 0 = 0) /\
      `|\sum_(i | xis_fin (z i)) v i 0 * (if z i is Fin a then a else 0) - s| < t.
Proof. exact: contains_infinite. Qed.
Print Assumptions C61_infinite.

Example C61_nonvacuous : forall R : rcfType,
  let v := const_mx 1 : 'cV[R]_2 in let h := Hp (vec v) (Fin 2%:R) (Fin (1/2%:R)) (Fin 1) in
  [/\ hrepr h v 2%:R (1/2%:R), solid v 2%:R (1/2%:R), near_hp v 2%:R (1/2%:R) (const_mx 1) & ~ near_hp v 2%:R (1/2%:R) (0 : 'cV[R]_2)].
Proof. exact: contains_example. Qed.

(** ------------------------------------------------------------------ C62 *)

(** what is_parallel decides, element by element: some coordinate of the unit normals agrees, or agrees up to sign, within abs_tol; collinear normals are always reported *)
Theorem C62_is_parallel :
  forall (R : rcfType) n k sh hs gs (u v : 'I_k -> 'cV[R]_n) s1 s2 t1 t2,
  (0 < n)%N -> prodn sh = k ->
  hfamily hs u s1 t1 -> hfamily gs v s2 t2 -> (forall i, u i != 0) -> (forall i, v i != 0) ->
  exists2 bs, is_parallel (Arr sh hs) (Arr sh gs) = Ok (Arr sh bs) &
  size bs = k /\ forall i : 'I_k,
    (nth false bs i = true <-> (exists j, `|(unitv (u i) - unitv (v i)) j 0| < t1 i) \/ (exists j, `|(unitv (u i) + unitv (v i)) j 0| < t1 i)) /\
    (collinear (u i) (v i) -> nth false bs i = true).
Proof. exact: is_parallel_run. Qed.
Print Assumptions C62_is_parallel.

(** normals of different sizes *)
Theorem C62_sizes :
  forall (R : rcfType) m n (u : 'cV[R]_m) (v : 'cV[R]_n) f g s1 s2 t1 t2 t,
  m != n ->
  hrepr f u s1 t1 -> hrepr g v s2 t2 -> sing_parallel f g t = Ok false.
Proof. exact: parallel_sizes. Qed.
Print Assumptions C62_sizes.

(** false of the code: that only collinear normals are reported; in three or more dimensions the coordinate hyperplanes are *)
Theorem C62_only_parallel_refuted :
  forall (R : rcfType) n (i j k : 'I_n) h1 h2 s1 s2 t1 t2,
  i != j -> k != i -> k != j ->
  hrepr h1 (delta_mx i 0 : 'cV[R]_n) s1 t1 -> hrepr h2 (delta_mx j 0 : 'cV[R]_n) s2 t2 ->
  is_parallel (Arr [::] [:: h1]) (Arr [::] [:: h2]) = Ok (Arr [::] [:: true]) /\
  dotv (delta_mx i 0 : 'cV[R]_n) (delta_mx j 0) = 0 /\ ~ collinear (delta_mx i 0 : 'cV[R]_n) (delta_mx j 0).
Proof. exact: orth_parallel. Qed.
Print Assumptions C62_only_parallel_refuted.

(** one against many: only the first of the many is looked at *)
Theorem C62_one_many :
  forall (R : rcfType) n (u v : 'cV[R]_n) h1 h2 hs s1 s2 t1 t2 sh,
  (0 < n)%N -> u != 0 -> v != 0 ->
  hrepr h1 u s1 t1 -> hrepr h2 v s2 t2 ->
  is_parallel (Arr [::] [:: h1]) (Arr sh (h2 :: hs)) = is_parallel (Arr [::] [:: h1]) (Arr [::] [:: h2]) /\
  is_ok (is_parallel (Arr [::] [:: h1]) (Arr [::] [:: h2])).
Proof. exact: parallel_one_many. Qed.
Print Assumptions C62_one_many.

(** many against one *)
Theorem C62_many_one :
  forall (R : rcfType) n (u v : 'cV[R]_n) h1 h1' h2 hs s1 s2 t1 t2 sh,
  (0 < n)%N -> u != 0 -> v != 0 ->
  prodn sh = (size hs).+2 -> hrepr h1 u s1 t1 -> hrepr h2 v s2 t2 ->
  is_parallel (Arr sh [:: h1, h1' & hs]) (Arr [::] [:: h2]) = ValueError.
Proof. exact: parallel_many_one. Qed.
Print Assumptions C62_many_one.

Theorem C62_shapes :
  forall (R : rcfType) (a b : arr (hp R)),
  shape a != shape b -> size (data a) != 1%N -> size (data b) != 1%N ->
  is_parallel a b = throw "wrongSizes".
Proof. exact: parallel_shapes. Qed.
Print Assumptions C62_shapes.

Example C62_nonvacuous : forall R : rcfType,
  let h (i : 'I_3) := Hp (vec (delta_mx i 0 : 'cV[R]_3)) (Fin 0) (Fin 1) (Fin 1) in
  hrepr (h 0) (delta_mx 0 0 : 'cV[R]_3) 0 1 /\ hrepr (h 1) (delta_mx 1 0 : 'cV[R]_3) 0 1.
Proof. exact: parallel_example. Qed.

(** ------------------------------------------------------------------ C58, hyperplanes *)

(** normal and shift are negated, so that the hyperplane stays the same set; the tolerances become the configured ones *)
Theorem C58_hyp_uminus :
  forall (R : rcfType) cfg t0 r0 n k sh hs (v : 'I_k -> 'cV[R]_n) s t,
  tols_of cfg t0 r0 -> (0 < n)%N ->
  hfamily hs v s t ->
  exists2 hs', hp_uminus cfg (Arr sh hs) = Ok (Arr sh hs') &
    hfamily hs' (fun i => - v i) (fun i => - s i) (fun=> t0) /\
    forall i x, on_hp (- v i) (- s i) x <-> on_hp (v i) (s i) x.
Proof. exact: uminus_spec. Qed.
Print Assumptions C58_hyp_uminus.

(** contains gives the same answers *)
Theorem C58_hyp_uminus_contains :
  forall (R : rcfType) cfg t0 r0 n k sh hs (v : 'I_k -> 'cV[R]_n) s (x : 'cV[R]_n),
  tols_of cfg t0 r0 -> (0 < n)%N -> (0 < k)%N ->
  hfamily hs v s (fun=> t0) -> (forall i, solid (v i) (s i) t0) ->
  exists2 hs', hp_uminus cfg (Arr sh hs) = Ok (Arr sh hs') &
    contains (Arr sh hs') (vec x) = contains (Arr sh hs) (vec x).
Proof. exact: uminus_contains. Qed.
Print Assumptions C58_hyp_uminus_contains.

Theorem C58_hyp_uminus_twice :
  forall (R : rcfType) cfg t0 r0 n k sh hs (v : 'I_k -> 'cV[R]_n) s t,
  tols_of cfg t0 r0 -> (0 < n)%N ->
  hfamily hs v s t ->
  exists hs' hs'', [/\ hp_uminus cfg (Arr sh hs) = Ok (Arr sh hs'), hp_uminus cfg (Arr sh hs') = Ok (Arr sh hs'') &
    hfamily hs'' v s (fun=> t0)].
Proof. exact: uminus_uminus. Qed.
Print Assumptions C58_hyp_uminus_twice.

(** false of the code: that x is in H iff -x is in uminus(H) *)
Theorem C58_hyp_reflection_refuted :
  forall (R : rcfType) cfg t0 r0 n (v : 'cV[R]_n) s h x,
  tols_of cfg t0 r0 -> (0 < n)%N -> hrepr h v s t0 ->
  solid v s t0 -> on_hp v s x -> t0 <= 2%:R * `|s| ->
  exists2 h', hp_uminus cfg (Arr [::] [:: h]) = Ok (Arr [::] [:: h']) &
    contains (Arr [::] [:: h]) (vec x) = Ok (Arr [::] [:: true]) /\
    contains (Arr [::] [:: h']) (vec (- x)) = Ok (Arr [::] [:: false]).
Proof. exact: uminus_not_reflection. Qed.
Print Assumptions C58_hyp_reflection_refuted.

Theorem C58_hyp_keeps_tolerance_refuted :
  forall (R : rcfType) cfg t0 r0 n (v : 'cV[R]_n) s t h,
  tols_of cfg t0 r0 -> (0 < n)%N -> hrepr h v s t -> t != t0 ->
  exists2 h', hp_uminus cfg (Arr [::] [:: h]) = Ok (Arr [::] [:: h']) & h_abs h' <> h_abs h.
Proof. exact: uminus_drops. Qed.
Print Assumptions C58_hyp_keeps_tolerance_refuted.

(** ------------------------------------------------------------------ C59, hyperplanes *)

(** the dictionary holds the unit normal with the sign that makes the shift non-negative *)
Theorem C59_hyp_dict :
  forall (R : rcfType) n (v : 'cV[R]_n) h s t r p,
  (0 < n)%N -> hrepr h v s t -> h_rel h = Fin r -> solid v s t -> v != 0 ->
  hp_2_dict h p = Ok ([:: ("normal_vec"%string, FArr (vec (canon_normal v s))); ("shift"%string, FFlt (Fin (canon_shift v s)))] ++
    (if p then [:: ("abs_tol"%string, FFlt (Fin t)); ("rel_tol"%string, FFlt (Fin r))] else [::]))%list.
Proof. exact: hp_2_dict_run. Qed.
Print Assumptions C59_hyp_dict.

(** and describes the same set *)
Theorem C59_hyp_canonical_set :
  forall (R : rcfType) n (v x : 'cV[R]_n) s,
  v != 0 ->
  [/\ len (canon_normal v s) = 1, 0 <= canon_shift v s &
      on_hp (canon_normal v s) (canon_shift v s) x <-> on_hp v s x].
Proof. exact: canon_set. Qed.
Print Assumptions C59_hyp_canonical_set.

(** scaling normal and shift by the same positive number, or by any number when the shift is not 0, gives the same dictionary *)
Theorem C59_hyp_canonical :
  forall (R : rcfType) n (v : 'cV[R]_n) h h' s t a p,
  (0 < n)%N -> hrepr h v s t -> hrepr h' (a *: v) (a * s) t ->
  h_rel h' = h_rel h -> solid v s t -> solid (a *: v) (a * s) t -> v != 0 -> a != 0 -> (0 < a) || (s != 0) ->
  hp_2_dict h' p = hp_2_dict h p /\ is_ok (hp_2_dict h p).
Proof. exact: dict_canonical. Qed.
Print Assumptions C59_hyp_canonical.

Theorem C59_hyp_roundtrip :
  forall (R : rcfType) cfg t0 r0 n (v : 'cV[R]_n) h s t (p : bool),
  tols_of cfg t0 r0 -> (0 < n)%N -> hrepr h v s t ->
  solid v s t -> v != 0 ->
  exists d h' (v' : 'cV[R]_n) s', [/\ hp_2_dict h p = Ok d, dict_2_hp cfg d = Ok h', hrepr h' v' s' (if p then t else t0),
    p -> h_rel h' = h_rel h & forall x, on_hp v' s' x <-> on_hp v s x].
Proof. exact: dict_roundtrip. Qed.
Print Assumptions C59_hyp_roundtrip.

(** false of the code: that equal sets have equal dictionaries *)
Theorem C59_hyp_zero_shift_refuted :
  forall (R : rcfType) n (v : 'cV[R]_n) h h' t p,
  (1 < n)%N -> hrepr h v 0 t -> hrepr h' (- v) 0 t -> v != 0 ->
  (forall x, on_hp (- v) 0 x <-> on_hp v 0 x) /\
  exists d d', [/\ hp_2_dict h p = Ok d, hp_2_dict h' p = Ok d' & d <> d'].
Proof. exact: dict_zero_shift. Qed.
Print Assumptions C59_hyp_zero_shift_refuted.

(** false of the code: that every dictionary can be read back *)
Theorem C59_hyp_empty_roundtrip_refuted :
  forall (R : rcfType) cfg t0 r0 (v : 'cV[R]_1) h s t p,
  tols_of cfg t0 r0 -> hrepr h v s t -> `|v 0 0| <= t -> `|s| <= t ->
  exists2 d, hp_2_dict h p = Ok d & dict_2_hp cfg d = throw "wrongInput:shift".
Proof. exact: dict_empty. Qed.
Print Assumptions C59_hyp_empty_roundtrip_refuted.

Theorem C59_hyp_zero_normal_refuted :
  forall (R : rcfType) cfg t0 r0 n h s t p,
  tols_of cfg t0 r0 -> (1 < n)%N -> hrepr h (0 : 'cV[R]_n) s t ->
  exists2 d, hp_2_dict h p = Ok d & dict_2_hp cfg d = throw "wrongInput:normal_vec".
Proof. exact: zero_normal_dict. Qed.
Print Assumptions C59_hyp_zero_normal_refuted.

(** ------------------------------------------------------------------ C49, hyperplanes *)

(** a copy has the same normal, shift and absolute tolerance; its relative tolerance is the configured one *)
Theorem C49_hyp_copy :
  forall (R : rcfType) cfg t0 r0 n (v : 'cV[R]_n) h s t,
  tols_of cfg t0 r0 -> (0 < n)%N -> hrepr h v s t ->
  exists2 h', hp_single_copy cfg h = Ok h' & hrepr h' v s t /\ (h_rel h' = h_rel h <-> h_rel h = Fin r0).
Proof. exact: hp_copy_spec. Qed.
Print Assumptions C49_hyp_copy.
