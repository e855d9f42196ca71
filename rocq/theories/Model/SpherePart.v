(** Model of gras/geom/geom.py: sphere_part, in exact arithmetic.  np.arccos, np.log2 and math.ceil are
    arguments of the model; a matrix of points is the list of its rows. *)
From mathcomp Require Import all_ssreflect all_algebra.
Require Import Coq.Strings.String.
From Verif.Model Require Import Py NP Tri Sphere.
Set Implicit Arguments.
Unset Strict Implicit.
Unset Printing Implicit Defensive.
Import Order.Theory GRing.Theory Num.Theory.
Local Open Scope ring_scope.

Section Part.
Variables (R : rcfType) (tr : trig R) (arccos log2 : R -> R) (ceil : R -> int) (argsort : seq nat -> seq nat).
Notation pt := 'rV[R]_3.

(** geom.py:28-30: the norms of a_mat[j] + a_mat[i], j > i *)
Definition sum_norms (a : seq pt) (i : nat) : seq R := [seq vlen (x + nth 0 a i) | x <- drop i.+1 a].
(** geom.py:31-36: one pass of the loop over the flags *)
Definition flag_row (a : seq pt) (tol : R) (flags : seq bool) (i : nat) : seq bool :=
  let near := [seq d < tol | d <- sum_norms a i] in
  if has id near then
    if \sum_j (nth 0 a i) 0 j < 0 then set_nth false flags (i + find id near + 1)%N true
    else set_nth false flags i true
  else flags.
(** geom.py:24-37 *)
Definition unique_directions (a : seq pt) (tol : R) : seq pt :=
  mask (foldl (flag_row a tol) (nseq (size a) false) (iota 0 (size a).-1)) a.

(** geom.py:39-41 *)
Definition sphere_distance (a : seq pt) (b : pt) : seq R := [seq arccos (\sum_j x 0 j * b 0 j) | x : pt <- a].

(** np.argmin: the first minimum *)
Definition np_argmin (s : seq R) : res nat :=
  if s is x :: s' then Ok (seq.index (foldl (fun a b : R => Num.min a b) x s') s) else ValueError.

(** geom.py:57-69: one point; the three lists of distances, in the order of np.mod(i_point, 3) *)
Definition pick (s : seq R) : res (nat * seq R) :=
  let* i := np_argmin s in Ok (i, set_nth 0 s i (2%:R * t_pi tr)).
Fixpoint pick_loop (p : seq pt) (zs xs ys : seq R) (i n : nat) : res (seq pt) :=
  if n is k.+1 then
    if (i %% 3 == 1)%N then
      let* m := pick xs in let* r := pick_loop p zs m.2 ys i.+1 k in Ok (nth 0 p m.1 :: r)
    else if (i %% 3 == 2)%N then
      let* m := pick ys in let* r := pick_loop p zs xs m.2 i.+1 k in Ok (nth 0 p m.1 :: r)
    else
      let* m := pick zs in let* r := pick_loop p m.2 xs ys i.+1 k in Ok (nth 0 p m.1 :: r)
  else Ok [::].

(** geom.py:46-49 *)
Definition part_depth (n : nat) : int :=
  if (n < 21)%N then 1 else ceil (log2 ((n%:R - 1) / 5%:R) / 2%:R).

(** the literal 1e-8 *)
Definition dir_tol : R := (10%:R ^+ 8)^-1.

(** geom.py:20-70 *)
Definition sphere_part (fuel : nat) (n_points : int) : option (res (seq pt)) :=
  match n_points with
  | Posz n.+1 =>
    match sphere_tri tr argsort fuel (IInt (part_depth n.+1)) with
    | None => None
    | Some (Err e) => Some (Err e)
    | Some (Ok (v, _)) =>
      let p := unique_directions v dir_tol in
      Some (pick_loop p (sphere_distance p (row3 0 0 1)) (sphere_distance p (row3 1 0 0)) (sphere_distance p (row3 0 1 0)) 0 n.+1)
    end
  | _ => Some (throw "wrongInput:n_points")
  end.
End Part.
