(** C78: arrays of hyperplanes through Hyperplane.to_dict and Hyperplane.from_dict, is_empty, and Hyperplane().
    [hfamily hs v s t]: the members of hs have normals v, shifts s and absolute tolerances t;
    [solid v s t]: not one coordinate with normal and shift within t of 0. *)
From mathcomp Require Import all_ssreflect all_algebra.
Require Import Coq.Strings.String.
From Verif.Model Require Import Py NP Linalg La Ellipsoid Hyperplane.
From Verif.Spec Require Import MatSpec EllSpec HypSpec.
From Verif.Proof Require Import HypDictProof.
Import Order.Theory GRing.Theory Num.Theory.
Local Open Scope ring_scope.

(** the objects read back form an array of the same shape, are the same sets with unit normals and shifts
    that are not negative, and have the same tolerances if these were included *)
Theorem C78_roundtrip :
  forall (R : rcfType) cfg t0 r0 n k sh hs (v : 'I_k -> 'cV[R]_n) s t (p : bool),
  tols_of cfg t0 r0 -> (0 < n)%N ->
  hfamily hs v s t -> (forall i, solid (v i) (s i) (t i)) -> (forall i, v i != 0) ->
  exists ds hs' (v' : 'I_k -> 'cV[R]_n) s', [/\ hp_to_dict (Arr sh hs) p = Ok (Arr sh ds),
    hp_from_dict cfg (Arr sh ds) = Ok (Arr sh hs'),
    hfamily hs' v' s' (fun i => if p then t i else t0),
    p -> map (@h_rel R) hs' = map (@h_rel R) hs &
    forall i, [/\ len (v' i) = 1, 0 <= s' i & forall x, on_hp (v' i) (s' i) x <-> on_hp (v i) (s i) x]].
Proof. exact: array_roundtrip. Qed.
Print Assumptions C78_roundtrip.

(** writing them again gives the same dictionaries *)
Theorem C78_again :
  forall (R : rcfType) cfg t0 r0 n k sh hs (v : 'I_k -> 'cV[R]_n) s t (p : bool),
  tols_of cfg t0 r0 -> (0 < n)%N ->
  hfamily hs v s t -> (forall i, solid (v i) (s i) (t i)) -> (forall i, v i != 0) ->
  (1 < n)%N || [forall i, (if p then t i else t0) < 1] ->
  exists ds hs', [/\ hp_to_dict (Arr sh hs) p = Ok (Arr sh ds), hp_from_dict cfg (Arr sh ds) = Ok (Arr sh hs') &
    hp_to_dict (Arr sh hs') p = Ok (Arr sh ds)].
Proof. exact: array_again. Qed.
Print Assumptions C78_again.

Example C78_nonvacuous : forall R : rcfType,
  let h := Hp (vec (const_mx 3%:R : 'cV[R]_2)) (Fin (-5%:R)) (Fin 1) (Fin 1) in
  [/\ hfamily [:: h; h] (fun _ : 'I_2 => const_mx 3%:R : 'cV[R]_2) (fun=> -5%:R) (fun=> 1),
      forall i : 'I_2, solid (const_mx 3%:R : 'cV[R]_2) (-5%:R) 1 & (const_mx 3%:R : 'cV[R]_2) != 0].
Proof. exact: family_example. Qed.

Theorem C78_is_empty :
  forall (R : rcfType) n k sh hs (v : 'I_k -> 'cV[R]_n) s t,
  (0 < n)%N -> hfamily hs v s t ->
  exists2 bs, hp_is_empty (Arr sh hs) = Ok (Arr sh bs) &
  size bs = k /\ forall i : 'I_k, nth false bs i <-> ~ solid (v i) (s i) (t i).
Proof. exact: is_empty_run. Qed.
Print Assumptions C78_is_empty.

Theorem C78_default :
  forall (R : rcfType) cfg t0 r0 (k : kwargs R) a b, tols_of cfg t0 r0 ->
  odflt (Fin t0) (k_abs k) = Fin a -> odflt (Fin r0) (k_rel k) = Fin b -> 0 < a -> 0 < b ->
  exists h, [/\ mk_hp_default cfg k = Ok h, hrepr h (0 : 'cV[R]_1) 0 a & hp_is_empty (Arr [::] [:: h]) = Ok (Arr [::] [:: true])].
Proof. exact: default_run. Qed.
Print Assumptions C78_default.

(** false of the code: that every array of dictionaries written by to_dict can be read; one empty entry suffices *)
Theorem C78_empty_entry_refuted :
  forall (R : rcfType) cfg t0 r0 k1 k2 sh hs1 h hs2 (v1 : 'I_k1 -> 'cV[R]_1) s1 t1 (v : 'cV[R]_1) s t
    (v2 : 'I_k2 -> 'cV[R]_1) s2 t2 (p : bool),
  tols_of cfg t0 r0 -> hfamily hs1 v1 s1 t1 -> hrepr h v s t -> hfamily hs2 v2 s2 t2 ->
  (forall i, solid (v1 i) (s1 i) (t1 i)) -> (forall i, v1 i != 0) ->
  (forall i, solid (v2 i) (s2 i) (t2 i)) -> (forall i, v2 i != 0) ->
  ~ solid v s t ->
  exists2 ds, hp_to_dict (Arr sh (hs1 ++ h :: hs2)) p = Ok (Arr sh ds) & hp_from_dict cfg (Arr sh ds) = throw "wrongInput:shift".
Proof. exact: array_empty. Qed.
Print Assumptions C78_empty_entry_refuted.

(** false of the code: that what comes back is empty only if the original is *)
Theorem C78_vanishes_refuted :
  forall (R : rcfType) cfg t0 r0 (v : 'cV[R]_1) h s t, tols_of cfg t0 r0 -> hrepr h v s t -> 1 <= t ->
  t < `|v 0 0| -> `|s| <= t * `|v 0 0| ->
  exists ds hs', [/\ hp_to_dict (Arr [::] [:: h]) true = Ok (Arr [::] ds), hp_from_dict cfg (Arr [::] ds) = Ok (Arr [::] hs'),
    hp_is_empty (Arr [::] [:: h]) = Ok (Arr [::] [:: false]) & hp_is_empty (Arr [::] hs') = Ok (Arr [::] [:: true])].
Proof. exact: roundtrip_vanishes. Qed.
Print Assumptions C78_vanishes_refuted.

Example C78_vanishes_nonvacuous : forall R : rcfType,
  [/\ hrepr (Hp (vec (const_mx 3%:R : 'cV[R]_1)) (Fin 1) (Fin 2%:R) (Fin 1)) (const_mx 3%:R : 'cV[R]_1) 1 2%:R,
      1 <= (2%:R : R), 2%:R < `|(const_mx 3%:R : 'cV[R]_1) 0 0| & `|1| <= 2%:R * `|(const_mx 3%:R : 'cV[R]_1) 0 0| :> R].
Proof. exact: roundtrip_example. Qed.
