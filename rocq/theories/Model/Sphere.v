(** Model of gras/geom/tri/tri.py: icosahedron, sphere_tri, sphere_tri_ext, and of
    gras/geom/geom.py: circle_part, in exact arithmetic.

    [cos], [sin] and [pi] are np.cos, np.sin and np.pi: arguments of the model, their properties are
    hypotheses of the theorems.  A matrix of points is the list of its rows. *)
From mathcomp Require Import all_ssreflect all_algebra.
Require Import Coq.Strings.String.
From Verif.Model Require Import Py NP Tri.
Set Implicit Arguments.
Unset Strict Implicit.
Unset Printing Implicit Defensive.
Import Order.Theory GRing.Theory Num.Theory.
Local Open Scope ring_scope.

Record trig (R : Type) := Trig { t_cos : R -> R; t_sin : R -> R; t_pi : R }.

(** an argument that should be an integer: an int, an infinity ([true]: -inf), or anything rejected (not a
    scalar, not a number, not integral, nan).  A float equal to an integer and a complex number are not
    modelled. *)
Inductive intarg := IInt of int | IInf of bool | IOther.

Definition TypeError {A} : res A := Err (PyExc "TypeError"%string).
Definition ValueError {A} : res A := Err (PyExc "ValueError"%string).

Section Sphere.
Variables (R : rcfType) (tr : trig R) (argsort : seq nat -> seq nat).
Notation cos := (t_cos tr).
Notation sin := (t_sin tr).
Notation pi := (t_pi tr).

Definition row2 (x y : R) : 'rV[R]_2 := \row_j (if j == 0 then x else y).
Definition row3 (x y z : R) : 'rV[R]_3 := \row_j nth 0 [:: x; y; z] j.

(** np.linspace(a, b, n, endpoint=False) *)
Definition linspace_open (a b : R) (n : nat) : seq R := [seq k%:R * ((b - a) / n%:R) + a | k <- iota 0 n].

(** geom.py:9-12; [rng] is angle_range_vec, a vector with at least two entries or None; a float is not a
    number of points, a negative number neither *)
Definition circle_angles (n : intarg) (rng : option (R * R)) : res (seq R) :=
  let: (a, b) := odflt (0, 2%:R * pi) rng in
  match n with
  | IInt (Posz k) => Ok (linspace_open a b k)
  | IInt (Negz _) => ValueError
  | _ => TypeError
  end.
(** geom.py:7-17, return_apart=False *)
Definition circle_part (n : intarg) (rng : option (R * R)) : res (seq 'rV[R]_2) :=
  rbind (circle_angles n rng) (fun phi => Ok [seq row2 (cos x) (sin x) | x <- phi]).
(** geom.py:7-17, return_apart=True: two columns *)
Definition circle_part_apart (n : intarg) (rng : option (R * R)) : res (seq R * seq R) :=
  rbind (circle_angles n rng) (fun phi => Ok ([seq cos x | x <- phi], [seq sin x | x <- phi])).

(** tri.py:31-51 *)
Definition ico_tau : R := (Num.sqrt 5%:R + 1) / 2%:R.
Definition ico_r : R := ico_tau - 2%:R^-1.
Definition ico_alpha (k : nat) : R := - pi / 5%:R + k%:R * pi / (5%:R / 2%:R).
Definition ico_beta (k : nat) : R := k%:R * pi / (5%:R / 2%:R).
Definition ico_verts : seq 'rV[R]_3 :=
  row3 0 0 1 ::
  [seq row3 (cos (ico_alpha k) / ico_r) (sin (ico_alpha k) / ico_r) (2%:R^-1 / ico_r) | k <- iota 0 5] ++
  [seq row3 (cos (ico_beta k) / ico_r) (sin (ico_beta k) / ico_r) (- 2%:R^-1 / ico_r) | k <- iota 0 5] ++
  [:: row3 0 0 (-1)].
Definition ico_faces : seq face :=
  [:: (0, 1, 2); (0, 2, 3); (0, 3, 4); (0, 4, 5); (0, 5, 1);
      (1, 6, 2); (2, 7, 3); (3, 8, 4); (4, 9, 5); (5, 10, 1);
      (6, 7, 2); (7, 8, 3); (8, 9, 4); (9, 10, 5); (10, 6, 1);
      (6, 11, 7); (7, 11, 8); (8, 11, 9); (9, 11, 10); (10, 11, 6)]%N.
Definition icosahedron : seq 'rV[R]_3 * seq face := (ico_verts, ico_faces).

(** tri.py:301-302; a zero row would give nan, here an error value *)
Definition normvert (s : seq 'rV[R]_3) : res (seq 'rV[R]_3) :=
  if has (fun x => vlen x == 0) s then Err (PyExc "nan"%string) else Ok [seq (vlen x)^-1 *: x | x <- s].

(** tri.py:300-311; [fuel] bounds the number of passes, as in [shrink_face_tri] *)
Definition sphere_tri (fuel : nat) (depth : intarg) : option (res (seq 'rV[R]_3 * seq face)) :=
  let run n_max :=
    let: (v, f) := icosahedron in
    match shrink_face_tri argsort 0 normvert fuel v (Rows f) n_max with
    | None => None
    | Some (Err e) => Some (Err e)
    | Some (Ok (t, _)) => Some (Ok (t_v t, t_f t))
    end in
  match depth with
  | IInt (Posz n) => run (Some n)
  | IInf false => run None
  | _ => Some (throw "wrong_input")
  end.

(** tri.py:467-485 [calc_depth]; [None]: fuel exhausted *)
Fixpoint calc_depth_from (fuel d v e f : nat) (n : option nat) : option nat :=
  if fuel is k.+1 then
    let v' := (v + e)%N in let e' := (2 * e + 3 * f)%N in let f' := (4 * f)%N in
    if (if n is Some m then (m <= v')%N else false) then Some d.+1 else calc_depth_from k d.+1 v' e' f' n
  else None.
Definition calc_depth (fuel : nat) (n : option nat) : option nat := calc_depth_from fuel 0 12 30 20 n.

(** np.finfo(float).eps *)
Definition eps : R := (2%:R ^+ 52)^-1.
(** v_grid_mat[np.equal(v_grid_mat, 0)] = eps *)
Definition no_zeros d (x : 'rV[R]_d) : 'rV[R]_d := \row_j (if x 0 j == 0 then eps else x 0 j).

(** the edges of the circle, tri.py:454-457; for n_points = 1 the only edge is a loop *)
Definition ring_edges (n : nat) : seq edge :=
  [seq (k, if k == n.-1 then 0%N else k.+1) | k <- iota 0 n].

Inductive ext_grid := Points2 of seq 'rV[R]_2 | Grid2 of seq 'rV[R]_2 & seq edge | Grid3 of seq 'rV[R]_3 & seq face.

(** tri.py:446-503 *)
Definition sphere_tri_ext (fuel : nat) (n_dim : int) (n_points : intarg) (return_f_grid : bool) : option (res ext_grid) :=
  let go (n : option nat) :=
    if n_dim == 2%:Z then
      Some (rbind (circle_part n_points None) (fun v =>
        let v' := [seq no_zeros x | x <- v] in
        Ok (if return_f_grid then Grid2 v' (ring_edges (odflt 0%N n)) else Points2 v')))
    else
      match calc_depth fuel n with
      | None => None
      | Some d =>
        match sphere_tri fuel (IInt d%:Z) with
        | None => None
        | Some (Err e) => Some (Err e)
        | Some (Ok (v, f)) => Some (Ok (Grid3 [seq no_zeros x | x <- v] f))
        end
      end in
  match n_points with
  | IInt (Posz n) => if (0 < n)%N then go (Some n) else Some (throw "wrong_input")
  | IInf false => go None
  | _ => Some (throw "wrong_input")
  end.

End Sphere.
