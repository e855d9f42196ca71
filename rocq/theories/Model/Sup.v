(** Model of sup_2_boundary_2 and sup_2_boundary_3 (gras/geom/sup/sup.py).
    Simplifications: the directions are a real 2-d array, the support values a real 1-d array and the
    faces a 2-d array of integers; lstsq is called with rcond=-1 (machine precision) and computes in exact
    arithmetic here. *)
From mathcomp Require Import all_ssreflect all_algebra.
Require Import Coq.Strings.String.
From Verif.Model Require Import Py NP NP3 Linalg.
Set Implicit Arguments.
Unset Strict Implicit.
Unset Printing Implicit Defensive.
Import GRing.Theory.
Local Open Scope ring_scope.

Section Sup.
Variable R : rcfType.
Notation X := (xnum R).
Notation A := (arr X).
Notation get := (getn (@NaN R)).
Variable la : linalg R.

(** v[lo:hi] *)
Definition np_vslice (v : A) (lo hi : nat) : res A :=
  if shape v is [:: n] then
    Ok (mkn [:: (minn hi n - lo)%N] (fun idx => get v [:: (lo + nth 0%N idx 0)%N]))
  else IndexError.
(** v[i] *)
Definition np_elem (v : A) (i : nat) : res X :=
  if shape v is [:: n] then if (i < n)%N then Ok (get v [:: i]) else IndexError else IndexError.
(** np.vstack of two 1-d arrays *)
Definition np_vstack_rows (u v : A) : res A :=
  match shape u, shape v with
  | [:: m], [:: n] => if m == n then Ok (mkn [:: 2%N; n] (fun idx => get (if nth 0%N idx 0 == 0%N then u else v) [:: nth 0%N idx 1])) else ValueError
  | _, _ => ValueError
  end.

(** sup.py:7-18; the columns are filled one by one *)
Definition sup_2_boundary_2 (dir sup : A) : res A :=
  if shape dir is n :: _ then
    let* out := fill_cols (np_zeros R [:: 2%N; n]) n.-1 (fun i =>
      let* a := np_rows dir i (i + 2) in let* b := np_vslice sup i (i + 2) in la_lstsq la a b) in
    let* last := np_row dir n.-1 in let* first := np_row dir 0 in
    let* a := np_vstack_rows last first in
    let* s1 := np_elem sup n.-1 in let* s2 := np_elem sup 0 in
    let* z := la_lstsq la a (Arr [:: 2%N] [:: s1; s2]) in
    let* out := np_set_col out n.-1 z in
    Ok (np_T out)
  else IndexError.

(** an index of an axis of length n; negative ones count from the end *)
Definition norm_ix (n : nat) (z : int) : res nat :=
  match z with
  | Posz k => if (k < n)%N then Ok k else IndexError
  | Negz k => if (k < n)%N then Ok (n - k.+1)%N else IndexError
  end.
Fixpoint norm_ixs (n : nat) (s : seq int) : res (seq nat) :=
  if s is z :: s' then let* k := norm_ix n z in let* r := norm_ixs n s' in Ok (k :: r) else Ok [::].
(** a[ix, :] and v[ix] for a list of indices *)
Definition take_rows (a : A) (ix : seq int) : res A :=
  if shape a is [:: m; n] then
    let* ks := norm_ixs m ix in
    Ok (mkn [:: size ks; n] (fun idx => get a [:: nth 0%N ks (nth 0%N idx 0); nth 0%N idx 1]))
  else IndexError.
Definition take_elems (v : A) (ix : seq int) : res A :=
  if shape v is [:: n] then
    let* ks := norm_ixs n ix in
    Ok (mkn [:: size ks] (fun idx => get v [:: nth 0%N ks (nth 0%N idx 0)]))
  else IndexError.
(** row i of the faces *)
Definition face_row (k i : nat) (faces : arr int) : seq int := [seq getn 0 faces [:: i; j] | j <- iota 0 k].

(** sup.py:21-29 *)
Definition sup_2_boundary_3 (dir sup : A) (faces : arr int) : res A :=
  if shape faces is [:: n; k] then
    let* out := fill_cols (np_zeros R [:: 3%N; n]) n (fun i =>
      let ix := face_row k i faces in
      let* a := take_rows dir ix in let* b := take_elems sup ix in la_lstsq la a b) in
    Ok (np_T out)
  else IndexError.
End Sup.
