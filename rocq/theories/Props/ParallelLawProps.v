(** C91: Hyperplane.is_parallel as a relation (elltool/core/hyperplane/Hyperplane.py). *)
From mathcomp Require Import all_ssreflect all_algebra.
Require Import Coq.Strings.String.
From Verif.Model Require Import Py NP NP3 Linalg La Ellipsoid Hyperplane.
From Verif.Spec Require Import MatSpec EllSpec HypSpec.
From Verif.Proof Require Import NPLib MatLib HypOps ParallelLawProof.
Import Order.Theory GRing.Theory Num.Theory.
Local Open Scope ring_scope.

(** every hyperplane is parallel to itself *)
Theorem C91_reflexive :
  forall (R : rcfType) n k sh hs (u : 'I_k -> 'cV[R]_n) s t, (0 < n)%N -> prodn sh = k -> hfamily hs u s t -> (forall i, u i != 0) ->
  is_parallel (Arr sh hs) (Arr sh hs) = Ok (Arr sh (nseq k true)).
Proof. exact: par_refl. Qed.
Print Assumptions C91_reflexive.

(** symmetric for objects with the same tolerances *)
Theorem C91_symmetric_partial :
  forall (R : rcfType) n k sh hs gs (u v : 'I_k -> 'cV[R]_n) s1 s2 t, (0 < n)%N -> prodn sh = k ->
  hfamily hs u s1 t -> hfamily gs v s2 t -> (forall i, u i != 0) -> (forall i, v i != 0) ->
  is_parallel (Arr sh hs) (Arr sh gs) = is_parallel (Arr sh gs) (Arr sh hs).
Proof. exact: par_symm. Qed.
Print Assumptions C91_symmetric_partial.

(** lengths and signs of the normals, the shifts and the tolerances of the second argument do not matter *)
Theorem C91_lines :
  forall (R : rcfType) n k sh hs gs hs' gs' (u v : 'I_k -> 'cV[R]_n) s1 s2 s1' s2' t t2 t2' (a b : 'I_k -> R), (0 < n)%N -> prodn sh = k ->
  hfamily hs u s1 t -> hfamily gs v s2 t2 -> (forall i, u i != 0) -> (forall i, v i != 0) ->
  (forall i, a i != 0) -> (forall i, b i != 0) ->
  hfamily hs' (fun i => a i *: u i) s1' t -> hfamily gs' (fun i => b i *: v i) s2' t2' ->
  is_parallel (Arr sh hs') (Arr sh gs') = is_parallel (Arr sh hs) (Arr sh gs).
Proof. exact: par_lines. Qed.
Print Assumptions C91_lines.

(** unchanged by uminus of either argument *)
Theorem C91_uminus :
  forall (R : rcfType) cfg t0 r0 n k sh hs gs (u v : 'I_k -> 'cV[R]_n) s1 s2 t2, tols_of cfg t0 r0 -> (0 < n)%N -> prodn sh = k ->
  hfamily hs u s1 (fun=> t0) -> hfamily gs v s2 t2 -> (forall i, u i != 0) -> (forall i, v i != 0) ->
  exists hs' gs', [/\ hp_uminus cfg (Arr sh hs) = Ok (Arr sh hs'), hp_uminus cfg (Arr sh gs) = Ok (Arr sh gs'),
    is_parallel (Arr sh hs') (Arr sh gs) = is_parallel (Arr sh hs) (Arr sh gs),
    is_parallel (Arr sh hs) (Arr sh gs') = is_parallel (Arr sh hs) (Arr sh gs) &
    is_parallel (Arr sh hs') (Arr sh gs') = is_parallel (Arr sh hs) (Arr sh gs)].
Proof. exact: par_uminus. Qed.
Print Assumptions C91_uminus.

(** FALSE of the code: symmetry for different tolerances; the lines (1, 0) and (3/5, 4/5) in the plane *)
Theorem C91_symmetric_refuted :
  forall R : rcfType, let hp2 (x y t : R) := Hp (vec (\col_(i < 2) nth 0 [:: x; y] i)) (Fin 0) (Fin t) (Fin 1) in
  let h := hp2 1 0 (3%:R / 5%:R) in let g := hp2 (3%:R / 5%:R) (4%:R / 5%:R) (1%:R / 5%:R) in
  is_parallel (Arr [::] [:: h]) (Arr [::] [:: g]) = Ok (Arr [::] [:: true]) /\
  is_parallel (Arr [::] [:: g]) (Arr [::] [:: h]) = Ok (Arr [::] [:: false]).
Proof. exact: par_not_symm. Qed.
Print Assumptions C91_symmetric_refuted.

(** FALSE of the code: transitivity; the planes with the normals (1, 0, 0), (0, 1, 0) and (0, 3/5, 4/5) *)
Theorem C91_transitive_refuted :
  forall R : rcfType, let hp3 (x y z : R) := Hp (vec (\col_(i < 3) nth 0 [:: x; y; z] i)) (Fin 0) (Fin (1%:R / 5%:R)) (Fin 1) in
  let f := hp3 1 0 0 in let g := hp3 0 1 0 in let h := hp3 0 (3%:R / 5%:R) (4%:R / 5%:R) in
  [/\ is_parallel (Arr [::] [:: f]) (Arr [::] [:: g]) = Ok (Arr [::] [:: true]),
      is_parallel (Arr [::] [:: g]) (Arr [::] [:: h]) = Ok (Arr [::] [:: true]) &
      is_parallel (Arr [::] [:: f]) (Arr [::] [:: h]) = Ok (Arr [::] [:: false])].
Proof. exact: par_not_trans. Qed.
Print Assumptions C91_transitive_refuted.

(** two hyperplanes that meet the hypotheses *)
Example C91_nonvacuous : forall R : rcfType,
  let h := Hp (vec (const_mx 1 : 'cV[R]_2)) (Fin 2%:R) (Fin 1) (Fin 1) in let g := Hp (vec (const_mx 1 : 'cV[R]_2)) (Fin 0) (Fin 1) (Fin 1) in
  hfamily [:: h; g] (fun _ : 'I_2 => const_mx 1 : 'cV[R]_2) (fun i => if i == 0 then 2%:R else 0) (fun=> 1) /\ (const_mx 1 : 'cV[R]_2) != 0.
Proof.
move=> R h g; split; last by apply/eqP => /matrixP/(_ 0 0)/eqP; rewrite !mxE oner_eq0.
by split=> // -[[|[|]] //= Hi] h0; (split; [by []|by []|by []|exact: ltr01|by exists 1; rewrite ?ltr01]).
Qed.
