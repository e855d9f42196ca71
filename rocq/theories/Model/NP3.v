(** More of numpy: stacks of matrices (3-d arrays), Fortran-order reshapes, scipy.sparse.

    Like Model/NP.v this file models the libraries, not a file of /repo. *)
From mathcomp Require Import all_ssreflect all_algebra.
Require Import Coq.Strings.String.
From Verif.Model Require Import Py NP Linalg.
Set Implicit Arguments.
Unset Strict Implicit.
Unset Printing Implicit Defensive.
Import GRing.Theory.
Local Open Scope ring_scope.

Definition AxisError {A} : res A := Err (PyExc "AxisError"%string).

(** np.transpose of an array with any element type: reverse all axes *)
Definition gT {T} (d : T) (a : arr T) : arr T := mkn (rev (shape a)) (fun idx => getn d a (rev idx)).
(** np.transpose(a, (1, 0, 2)) *)
Definition gT102 {T} (d : T) (a : arr T) : res (arr T) :=
  if shape a is [:: m; n; p] then
    Ok (mkn [:: n; m; p] (fun idx => getn d a [:: nth 0%N idx 1; nth 0%N idx 0; nth 0%N idx 2]))
  else ValueError.
(** np.reshape(a, s, order='F') *)
Definition reshape_F {T} (d : T) (s : seq nat) (a : arr T) : res (arr T) :=
  let* r := np_reshape (rev s) (gT d a) in Ok (gT d r).
(** np.tile(v, (k, 1)) of a 1-d array: k rows equal to v *)
Definition tile_rows {T} (d : T) (k : nat) (v : seq T) : arr T :=
  mkn [:: k; size v] (fun idx => nth d v (nth 0%N idx 1)).
(** np.repeat(v, k) *)
Definition repeat_each {T} (k : nat) (v : seq T) : seq T := flatten [seq nseq k x | x <- v].

Fixpoint foldM {T S} (f : S -> T -> res S) (s : S) (l : seq T) : res S :=
  match l with
  | [::] => Ok s
  | x :: l' => let* s' := f s x in foldM f s' l'
  end.

Section NP3.
Variable R : rcfType.
Notation X := (xnum R).
Notation A := (arr X).
Notation get := (getn (@NaN R)).

(** a[:, :, t] *)
Definition np_slice (a : A) (t : nat) : res A :=
  if shape a is [:: m; n; p] then
    if (t < p)%N then Ok (mkn [:: m; n] (fun idx => get a [:: nth 0%N idx 0; nth 0%N idx 1; t]))
    else IndexError
  else IndexError.

(** a[:, :, t] = v (v broadcast to a matrix of the right shape) *)
Definition np_set_slice (a : A) (t : nat) (v : A) : res A :=
  let v := Arr (strip_lead 2 (shape v)) (data v) in
  if shape a is [:: m; n; p] then
    if (t < p)%N then
      if bshape (shape v) [:: m; n] == Some [:: m; n] then
        Ok (mkn [:: m; n; p] (fun idx =>
              if nth 0%N idx 2 == t then get v (bidx (shape v) [:: nth 0%N idx 0; nth 0%N idx 1])
              else get a idx))
      else ValueError
    else IndexError
  else IndexError.

(** v[t] = x for a 1-d array v; x an array with one element or a scalar *)
Definition np_set_elem (v : A) (t : nat) (x : A) : res A :=
  if shape v is [:: n] then
    if (t < n)%N then
      if data x is [:: y] then
        Ok (mkn [:: n] (fun idx => if nth 0%N idx 0 == t then y else get v idx))
      else ValueError
    else IndexError
  else IndexError.

(** for t in range(n): out[:, :, t] = f(t) *)
Definition fill_slices (out : A) (n : nat) (f : nat -> res A) : res A :=
  foldM (fun o t => let* v := f t in np_set_slice o t v) out (iota 0 n).
(** for t in range(n): out[:, t] = f(t) *)
Definition fill_cols (out : A) (n : nat) (f : nat -> res A) : res A :=
  foldM (fun o t => let* v := f t in np_set_col o t v) out (iota 0 n).
(** for t in range(n): out[t] = f(t) *)
Definition fill_elems (out : A) (n : nat) (f : nat -> res A) : res A :=
  foldM (fun o t => let* v := f t in np_set_elem o t v) out (iota 0 n).

(** scipy.sparse.csc_matrix((v, (i, j)), shape=(m, n)) as a dense matrix: entries given several
    times are summed.  (A product with a sparse matrix skips the absent entries, the dense product
    multiplies them by 0: the same on finite numbers.) *)
Definition csc (m n : nat) (v : seq X) (i j : seq nat) : res A :=
  if (size v != size i) || (size v != size j) then ValueError else
  if has (fun k => m <= k)%N i || has (fun k => n <= k)%N j then ValueError else
  Ok (mkn [:: m; n] (fun idx =>
    xsum [seq p.1 | p <- zip v (zip i j) & (p.2.1 == nth 0%N idx 0) && (p.2.2 == nth 0%N idx 1)])).

(** np.tile(a, (1, 1, k)) of a 3-d array with one slice *)
Definition tile_slices (k : nat) (a : A) : A :=
  mkn [:: dim a 0; dim a 1; (dim a 2 * k)%N] (fun idx =>
    get a [:: nth 0%N idx 0; nth 0%N idx 1; (nth 0%N idx 2 %% dim a 2)%N]).

(** np.triu(a) of a matrix *)
Definition np_triu (a : A) : A :=
  mkn (shape a) (fun idx => if (nth 0%N idx 0 <= nth 0%N idx 1)%N then get a idx else x0).

End NP3.
