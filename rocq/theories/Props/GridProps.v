(** C75: _get_grid_by_factor. *)
From mathcomp Require Import all_ssreflect all_algebra.
Require Import Coq.Strings.String.
From Verif.Model Require Import Py NP Linalg La EllGeom Ellipsoid Tri Sphere Sup Boundary Grid.
From Verif.Spec Require Import MatSpec LinalgSpec EllSpec EllipsoidSpec TriSpec SphereSpec BoundarySpec GridSpec.
From Verif.Proof Require Import NPLib TriDec SphereProof Icosa SphereExt SphereEx OpsEx BoundaryProof BoundaryEx GridProof.
Set Implicit Arguments.
Unset Strict Implicit.
Unset Printing Implicit Defensive.
Import Order.Theory GRing.Theory Num.Theory.
Local Open Scope ring_scope.

(** in space: the mesh of the sphere with the least depth that has n = floor(n_plot_3d_points * factor) points, zero
    coordinates replaced by eps *)
Theorem C75_space :
  forall (R : rcfType) (tr : trig R) (argsort : seq nat -> seq nat) fuel (fl : R -> int) e (c : 'cV[R]_3) Q t f x,
  angle_ok tr (t_pi tr / 5%:R) 10 -> argsortn_ok argsort -> is_floor fl -> repr e c Q t -> factor_of f 3 x ->
  forall n : nat, fl ((n_plot e 3)%:R * x) = n%:Z -> (0 < n <= fuel)%N ->
  exists d vs ws fs, [/\ [/\ (0 < d)%N, (n <= sphere_size d)%N & forall k, (0 < k < d)%N -> (sphere_size k < n)%N],
    sphere_tri tr argsort fuel (IInt d%:Z) = Some (Ok (vs, fs)),
    get_grid_by_factor tr argsort fuel fl e f = Some (Ok (Mesh ws fs)),
    size ws = sphere_size d & size vs = sphere_size d /\ forall k, (k < size vs)%N -> patched (eps R) (nth 0 vs k) (nth 0 ws k)].
Proof. exact: grid_space. Qed.
Print Assumptions C75_space.

(** in the plane it always raises, unless exactly two points are asked for by the property itself *)
Theorem C75_plane_refuted :
  forall (R : rcfType) (tr : trig R) (argsort : seq nat -> seq nat) fuel (fl : R -> int) e (c : 'cV[R]_2) Q t f x,
  is_floor fl -> repr e c Q t -> factor_of f 2 x -> 0 < fl ((n_plot e 2)%:R * x) ->
  (x != 1 -> get_grid_by_factor tr argsort fuel fl e f = Some TypeError) /\
  (x = 1 -> n_plot e 2 <> 2%N -> get_grid_by_factor tr argsort fuel fl e f = Some ValueError).
Proof. exact: grid_plane. Qed.
Print Assumptions C75_plane_refuted.

Theorem C75_few :
  forall (R : rcfType) (tr : trig R) (argsort : seq nat -> seq nat) fuel (fl : R -> int) e d (c : 'cV[R]_d) Q t f x,
  d \in [:: 2; 3]%N -> is_floor fl -> repr e c Q t -> factor_of f d x -> fl ((n_plot e d)%:R * x) <= 0 ->
  get_grid_by_factor tr argsort fuel fl e f = Some (throw "wrong_input").
Proof. exact: grid_reject. Qed.
Print Assumptions C75_few.

Theorem C75_dim :
  forall (R : rcfType) (tr : trig R) (argsort : seq nat -> seq nat) fuel (fl : R -> int) e d (c : 'cV[R]_d) Q t f,
  d \notin [:: 2; 3]%N -> repr e c Q t -> get_grid_by_factor tr argsort fuel fl e f = Some (throw "wrongDim:ellipsoid").
Proof. exact: grid_dim. Qed.
Print Assumptions C75_dim.

(** the unit ball of space with the default 200 points and factor 1: the 642 points of depth 3; the unit disc fails *)
Example C75_ex : exists fl : ralg -> int, [/\ is_floor fl,
  exists ws fs, get_grid_by_factor tenth sargsort 200 fl (ball_at (0 : 'cV[ralg]_3) 1) (scal 1) = Some (Ok (Mesh ws fs)) /\ size ws = 642%N &
  get_grid_by_factor tenth sargsort 200 fl (ball_at (0 : 'cV[ralg]_2) 1) (scal 1) = Some ValueError].
Proof.
have [fl Hf] := floor_ex; exists fl; split=> //.
  have Hr := @ball_repr ralg 3 0 1 ler01.
  have E : fl ((p_n3 (e_props (ball_at (0 : 'cV[ralg]_3) 1)))%:R * 1) = 200%:Z.
    by rewrite mulr1; apply: (floor_nat Hf); rewrite -pmulrn.
  have [d [vs [ws [fs [[d0 d1 d2] _ H3 H4 _]]]]] := @grid_space ralg tenth sargsort 200 fl _ _ _ _ _ _ tenth_ok sargsort_ok Hf Hr (OneFactor 3 1) _ E isT.
  exists ws, fs; split; first exact: H3.
  rewrite H4; case: d {H3 H4} d0 d1 d2 => [|[|[|[|d]]]] // _ _ /(_ 3%N isT).
  by [].
have Hr := @ball_repr ralg 2 0 1 ler01.
have n0 : 0 < fl ((p_n2 (e_props (ball_at (0 : 'cV[ralg]_2) 1)))%:R * 1).
  by rewrite mulr1 (_ : fl _ = 200%:Z) //; apply: (floor_nat Hf); rewrite -pmulrn.
by have [_ H] := grid_plane tenth sargsort 200 Hf Hr (OneFactor 2 1) n0; apply: H.
Qed.
