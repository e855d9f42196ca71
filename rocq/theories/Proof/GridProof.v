(** Ellipsoid._get_grid_by_factor. *)
From mathcomp Require Import all_ssreflect all_algebra.
Require Import Coq.Strings.String.
From Verif.Model Require Import Py NP Linalg La EllGeom Ellipsoid Tri Sphere Sup Boundary Grid.
From Verif.Spec Require Import MatSpec LinalgSpec EllSpec EllipsoidSpec TriSpec SphereSpec BoundarySpec GridSpec.
From Verif.Proof Require Import NPLib SphereProof SphereExt BoundaryProof.
Set Implicit Arguments.
Unset Strict Implicit.
Unset Printing Implicit Defensive.
Import Order.Theory GRing.Theory Num.Theory.
Local Open Scope ring_scope.

Section GridProof.
Variables (R : rcfType) (tr : trig R) (argsort : seq nat -> seq nat) (fuel : nat) (fl : R -> int).
Notation run := (get_grid_by_factor tr argsort fuel fl).

Lemma flat_ok (f : arr (xnum R)) d x : factor_of f d x -> flat_factor f d = Ok (Fin x).
Proof. by case. Qed.

Lemma points_of n (x : R) : is_floor fl ->
  (if ~~ xeq (Fin x) x1 then float_points fl (xmul (Fin n%:R) (Fin x)) else IInt n%:Z) = IInt (fl (n%:R * x)).
Proof.
move=> Hf; rewrite /=; case: eqP => // ->; rewrite mulr1; congr IInt.
by apply/esym/(floor_nat Hf); rewrite -pmulrn.
Qed.

Lemma eps_gt0 : 0 < eps R.
Proof. by rewrite invr_gt0 exprn_gt0 // ltr0n. Qed.

Lemma fill_id d (x y : 'rV[R]_d) : patched (eps R) x y -> fill y = y.
Proof.
move=> H; apply/rowP => j; rewrite mxE ifF //; apply/negbTE.
by have [[-> //]|[-> _]] := H j; rewrite gt_eqF // eps_gt0.
Qed.

Lemma grid_space e (c : 'cV[R]_3) Q t f x : angle_ok tr (t_pi tr / 5%:R) 10 -> argsortn_ok argsort -> is_floor fl ->
  repr e c Q t -> factor_of f 3 x -> forall n : nat, fl ((p_n3 (e_props e))%:R * x) = n%:Z -> (0 < n <= fuel)%N ->
  exists d vs ws fs, [/\ [/\ (0 < d)%N, (n <= sphere_size d)%N & forall k, (0 < k < d)%N -> (sphere_size k < n)%N],
    sphere_tri tr argsort fuel (IInt d%:Z) = Some (Ok (vs, fs)), run e f = Some (Ok (Mesh ws fs)),
    size ws = sphere_size d & size vs = sphere_size d /\ forall k, (k < size vs)%N -> patched (eps R) (nth 0 vs k) (nth 0 ws k)].
Proof.
move=> Ht Ha Hf He Hx n En /andP[n0 nf].
have [d [vs [ws [fs [H1 H2 H3 H4 [H5 H6]]]]]] := @ext_sphere R tr argsort fuel 3 n false Ht Ha n0 nf isT.
exists d, vs, ws, fs; split=> //; rewrite /get_grid_by_factor (size_center He) (flat_ok Hx) [if _ then _ else _]/=.
rewrite points_of // En H3 /=; congr (Some (Ok (Mesh _ _))).
apply: (@eq_from_nth _ 0); rewrite size_map // => i hi; rewrite (nth_map 0) //; apply: (fill_id (H6 i _)).
by rewrite H5 -H4.
Qed.

Lemma grid_reject e d (c : 'cV[R]_d) Q t f x : d \in [:: 2; 3]%N -> is_floor fl -> repr e c Q t -> factor_of f d x ->
  fl ((n_plot e d)%:R * x) <= 0 -> run e f = Some (throw "wrong_input").
Proof.
move=> Hd Hf He Hx; rewrite /get_grid_by_factor (size_center He) (flat_ok Hx) /n_plot.
move: Hd; rewrite !inE => /orP[] /eqP-> Hn.
  have -> : ((2 < 2)%N || (3 < 2)%N) = false by []; have -> : (2 == 2)%N = true by [].
  have := points_of (p_n2 (e_props e)) x Hf.
  case: (~~ xeq (Fin x) x1) => E; cbv zeta; first by rewrite E; case: (fl _) Hn => [[|k]|k].
  by case: E Hn => <-; case: (p_n2 _).
rewrite [if (3 < 2)%N || _ then _ else _]/= [if (3 == 2)%N then _ else _]/= points_of //.
by case: (fl _) Hn => [[|k]|k].
Qed.

Lemma grid_plane e (c : 'cV[R]_2) Q t f x : is_floor fl -> repr e c Q t -> factor_of f 2 x -> 0 < fl ((p_n2 (e_props e))%:R * x) ->
  (x != 1 -> run e f = Some TypeError) /\
  (x = 1 -> p_n2 (e_props e) <> 2%N -> run e f = Some ValueError).
Proof.
move=> Hf He Hx Hn; rewrite /get_grid_by_factor (size_center He) (flat_ok Hx).
have -> : ((2 < 2)%N || (3 < 2)%N) = false by []; have -> : (2 == 2)%N = true by [].
split=> [x1'|E n2].
  have := points_of (p_n2 (e_props e)) x Hf.
  have -> : xeq (Fin x) x1 = false by rewrite /=; exact: negbTE.
  rewrite [~~ false]/= => ->; by case: (fl _) Hn => [[|k]|k].
have -> : xeq (Fin x) x1 = true by rewrite /= E eqxx.
have n0 : (0 < p_n2 (e_props e))%N.
  by move: Hn; rewrite E mulr1 (_ : fl _ = (p_n2 (e_props e))%:Z) //; apply: (floor_nat Hf); rewrite -pmulrn.
rewrite [if ~~ true then _ else _]/= /sphere_tri_ext n0.
set v := [seq no_zeros _ | _ <- _]; have sv : size v = p_n2 (e_props e) by rewrite !size_map size_iota.
rewrite /=; case: v sv => [|a [|b [|d v]]] //=; by case: (p_n2 _) n2 => [|[|[|]]].
Qed.

Lemma grid_dim e d (c : 'cV[R]_d) Q t f : d \notin [:: 2; 3]%N -> repr e c Q t -> run e f = Some (throw "wrongDim:ellipsoid").
Proof.
move=> Hd He; rewrite /get_grid_by_factor (size_center He) ifT //.
by move: Hd; rewrite !inE; case: d c Q He => [|[|[|[|]]]].
Qed.
End GridProof.
