(** C40, C41, C44: gras/geom/tri/tri.py:icosahedron, sphere_tri, sphere_tri_ext; gras/geom/geom.py:circle_part.
    [angle_ok tr h n]: np.cos and np.sin behave on the multiples of h, n of which make a full turn. *)
From mathcomp Require Import all_ssreflect all_algebra.
Require Import Coq.Strings.String.
From Verif.Model Require Import Py NP Tri Sphere.
From Verif.Spec Require Import TriSpec SphereSpec.
From Verif.Proof Require Import TriDec SphereProof Icosa SphereExt SphereEx.
Import Order.Theory GRing.Theory Num.Theory.
Local Open Scope ring_scope.

(** ------------------------------------------------------------------ C40 *)

(** sphere_tri(d), for every depth *)
Theorem C40_sphere : forall (R : rcfType) (tr : trig R), angle_ok tr (t_pi tr / 5%:R) 10 ->
  forall argsort : seq nat -> seq nat, argsortn_ok argsort -> forall (fuel d : nat),
  (d <= fuel)%N ->
  exists vs fs, sphere_tri tr argsort fuel (IInt d%:Z) = Some (Ok (vs, fs)) /\ sphere_mesh d vs fs.
Proof. exact: @sphere_tri_ok. Qed.
Print Assumptions C40_sphere.

(** the vertices of one depth are the first vertices of the next *)
Theorem C40_nested : forall (R : rcfType) (tr : trig R), angle_ok tr (t_pi tr / 5%:R) 10 ->
  forall argsort : seq nat -> seq nat, argsortn_ok argsort -> forall (fuel d : nat) vs fs vs' fs',
  (d < fuel)%N ->
  sphere_tri tr argsort fuel (IInt d%:Z) = Some (Ok (vs, fs)) ->
  sphere_tri tr argsort fuel (IInt d.+1%:Z) = Some (Ok (vs', fs')) -> take (size vs) vs' = vs.
Proof. exact: @sphere_tri_grows. Qed.
Print Assumptions C40_nested.

(** sphere_tri(np.inf) passes the argument check and never returns: no number of passes is enough *)
Theorem C40_infinite_depth : forall (R : rcfType) (tr : trig R), angle_ok tr (t_pi tr / 5%:R) 10 ->
  forall argsort : seq nat -> seq nat, argsortn_ok argsort -> forall fuel,
  sphere_tri tr argsort fuel (IInf false) = None.
Proof. exact: @sphere_tri_inf. Qed.
Print Assumptions C40_infinite_depth.

Theorem C40_rejects : forall (R : rcfType) (tr : trig R) argsort fuel depth,
  (match depth with IInt z => z < 0 | IInf neg => neg | IOther => true end) ->
  sphere_tri tr argsort fuel depth = Some (throw "wrong_input"%string).
Proof. exact: @sphere_tri_reject. Qed.
Print Assumptions C40_rejects.

Example C40_nonvacuous : angle_ok tenth (t_pi tenth / 5%:R) 10 /\
  exists vs fs, sphere_tri tenth sargsort 3 (IInt 3%:Z) = Some (Ok (vs, fs)) /\ size vs = 642%N.
Proof. exact: (conj tenth_ok tenth_sphere). Qed.

(** ------------------------------------------------------------------ C41 *)

(** three dimensions: the least depth from 1 on with at least n vertices; zero coordinates become eps *)
Theorem C41_depth : forall (R : rcfType) (tr : trig R) (argsort : seq nat -> seq nat) fuel n_dim n rf,
  angle_ok tr (t_pi tr / 5%:R) 10 -> argsortn_ok argsort -> (0 < n)%N -> (n <= fuel)%N -> n_dim != 2%:Z ->
  exists d vs ws fs, [/\ [/\ (0 < d)%N, (n <= sphere_size d)%N & forall k, (0 < k < d)%N -> (sphere_size k < n)%N],
    sphere_tri tr argsort fuel (IInt d%:Z) = Some (Ok (vs, fs)), sphere_tri_ext tr argsort fuel n_dim (IInt n%:Z) rf = Some (Ok (Grid3 ws fs)),
    size ws = sphere_size d & size vs = sphere_size d /\ forall k, (k < size vs)%N -> patched (eps R) (nth 0 vs k) (nth 0 ws k)].
Proof. exact: @ext_sphere. Qed.
Print Assumptions C41_depth.

(** two dimensions: the points of circle_part(n) with zero coordinates replaced by eps *)
Theorem C41_circle : forall (R : rcfType) (tr : trig R) (argsort : seq nat -> seq nat) fuel n rf vs,
  (0 < n)%N -> circle_part tr (IInt n%:Z) None = Ok vs ->
  exists ws, [/\ sphere_tri_ext tr argsort fuel 2 (IInt n%:Z) rf = Some (Ok (if rf then Grid2 ws (ring_edges n) else Points2 ws)),
    size ws = size vs & forall k, (k < size vs)%N -> patched (eps R) (nth 0 vs k) (nth 0 ws k)].
Proof. exact: @ext_circle. Qed.
Print Assumptions C41_circle.

(** ... and one cycle of edges *)
Theorem C41_cycle : forall n, one_cycle n (ring_edges n).
Proof. exact: ring_cycle. Qed.
Print Assumptions C41_cycle.

(** how far such points are from the unit sphere *)
Theorem C41_near_unit : forall (R : rcfType) d (e : R) (x y : 'rV[R]_d),
  unit_vec x -> patched e x y ->
  1 <= \sum_j y 0 j ^+ 2 <= 1 + d%:R * e ^+ 2.
Proof. exact: @patched_norm. Qed.
Print Assumptions C41_near_unit.

(** they are not on it: the first point of the circle never is *)
Theorem C41_unit_refuted : forall (R : rcfType) (tr : trig R) (argsort : seq nat -> seq nat) fuel n rf ws,
  (0 < n)%N -> t_sin tr 0 = 0 -> t_cos tr 0 = 1 ->
  (sphere_tri_ext tr argsort fuel 2 (IInt n%:Z) rf = Some (Ok (Points2 ws)) \/
   sphere_tri_ext tr argsort fuel 2 (IInt n%:Z) rf = Some (Ok (Grid2 ws (ring_edges n)))) -> ~ unit_vec (nth 0 ws 0).
Proof. exact: @ext_not_unit. Qed.
Print Assumptions C41_unit_refuted.

Theorem C41_rejects : forall (R : rcfType) (tr : trig R) (argsort : seq nat -> seq nat) fuel n_dim np rf,
  (match np with IInt z => z <= 0 | IInf neg => neg | IOther => true end) ->
  sphere_tri_ext tr argsort fuel n_dim np rf = Some (throw "wrong_input"%string).
Proof. exact: @ext_reject. Qed.
Print Assumptions C41_rejects.

Example C41_nonvacuous : exists vs, [/\ circle_part quarter (IInt 4%:Z) None = Ok vs, size vs = 4%N & vs = [:: row2 1 0; row2 0 1; row2 (-1) 0; row2 0 (-1)]].
Proof. exact: circle4. Qed.
Example C41_sizes : map sphere_size [:: 0; 1; 2; 3; 4]%N = [:: 12; 42; 162; 642; 2562]%N.
Proof. by []. Qed.

(** ------------------------------------------------------------------ C44 *)

(** the full circle: n different unit vectors, each the previous one turned by 2 pi / n, cyclically, from (1, 0) *)
Theorem C44_circle : forall (R : rcfType) (tr : trig R) n,
  (0 < n)%N -> angle_ok tr (2%:R * t_pi tr / n%:R) n ->
  exists vs, [/\ circle_part tr (IInt n%:Z) None = Ok vs, size vs = n /\ uniq vs, forall x, x \in vs -> unit_vec x, nth 0 vs 0 = row2 1 0 &
  forall k, (k < n)%N -> turned (t_cos tr (2%:R * t_pi tr / n%:R)) (t_sin tr (2%:R * t_pi tr / n%:R)) (nth 0 vs k) (nth 0 vs (k.+1 %% n))].
Proof. exact: @circle_full. Qed.
Print Assumptions C44_circle.

(** any range of angles *)
Theorem C44_arc : forall (R : rcfType) (tr : trig R) n a b,
  arc_ok tr a ((b - a) / n%:R) ->
  exists vs, [/\ circle_part tr (IInt n%:Z) (Some (a, b)) = Ok vs, size vs = n,
  forall x, x \in vs -> unit_vec x,
  (0 < n)%N -> nth 0 vs 0 = row2 (t_cos tr a) (t_sin tr a) &
  forall k, (k.+1 < n)%N -> turned (t_cos tr ((b - a) / n%:R)) (t_sin tr ((b - a) / n%:R)) (nth 0 vs k) (nth 0 vs k.+1)].
Proof. exact: @circle_arc. Qed.
Print Assumptions C44_arc.

(** return_apart=True: the same coordinates *)
Theorem C44_apart : forall (R : rcfType) (tr : trig R) n rng vs,
  circle_part tr (IInt n%:Z) rng = Ok vs ->
  circle_part_apart tr (IInt n%:Z) rng = Ok ([seq x 0 0 | x : 'rV[R]_2 <- vs], [seq x 0 1 | x : 'rV[R]_2 <- vs]).
Proof. exact: @circle_apart. Qed.
Print Assumptions C44_apart.

Example C44_nonvacuous : angle_ok quarter (2%:R * t_pi quarter / 4%:R) 4 /\ arc_ok quarter 0 ((2%:R * t_pi quarter - 0) / 4%:R).
Proof. exact: (conj quarter_ok quarter_arc). Qed.
