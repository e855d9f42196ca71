(** Mini-numpy: extended reals over a real closed field, n-dimensional arrays stored as
    (shape, C-order data), indexing, broadcasting, reductions, matrix product.

    This file models numpy itself (not a file of /repo); the python sources of /repo are translated
    on top of it.  Sources of the semantics: the numpy reference for broadcasting, [matmul],
    [reshape], [sum], [diag], [tile], [hstack], [vstack].
    Simplifications: dtypes are not tracked (numbers are real), arithmetic is exact,
    -0.0 and 0.0 are one value, warnings are not modelled. *)
From mathcomp Require Import all_ssreflect all_algebra.
Require Import Coq.Strings.String.
From Verif.Model Require Import Py.
Set Implicit Arguments.
Unset Strict Implicit.
Unset Printing Implicit Defensive.
Import GRing.Theory Num.Theory.
Local Open Scope ring_scope.

Notation "'let*' x := e 'in' f" := (rbind e (fun x => f))
  (at level 200, x pattern, e at level 200, f at level 200, right associativity).

Definition ValueError {A} : res A := Err (PyExc "ValueError"%string).
Definition IndexError {A} : res A := Err (PyExc "IndexError"%string).
Definition LinAlgError {A} : res A := Err (PyExc "LinAlgError"%string).
Definition AttributeError {A} : res A := Err (PyExc "AttributeError"%string).
Definition TypeError {A} : res A := Err (PyExc "TypeError"%string).
Definition throw {A} (t : string) : res A := Err (Tagged t).

(** ------------------------------------------------------------------ extended reals *)
Inductive xnum (R : Type) : Type := Fin of R | PInf | NInf | NaN.
Arguments PInf {R}.
Arguments NInf {R}.
Arguments NaN {R}.

Section XNum.
Variable R : rcfType.
Notation X := (xnum R).
Implicit Types x y : X.

Definition x0 : X := Fin 0.
Definition x1 : X := Fin 1.

Definition xis_nan x := if x is NaN then true else false.
Definition xis_fin x := if x is Fin _ then true else false.

Definition xopp x : X :=
  match x with Fin a => Fin (- a) | PInf => NInf | NInf => PInf | NaN => NaN end.

Definition xadd x y : X :=
  match x, y with
  | Fin a, Fin b => Fin (a + b)
  | NaN, _ | _, NaN => NaN
  | PInf, NInf | NInf, PInf => NaN
  | PInf, _ | _, PInf => PInf
  | NInf, _ | _, NInf => NInf
  end.

Definition xsub x y : X := xadd x (xopp y).

(** sign of a non-NaN value: Gt/Eq/Lt 0 *)
Definition xsgn x : comparison :=
  match x with
  | Fin a => if a == 0 then Eq else if 0 < a then Gt else Lt
  | PInf => Gt | NInf => Lt | NaN => Eq
  end.

Definition xinf_of (s1 s2 : comparison) : X :=
  match s1, s2 with
  | Eq, _ | _, Eq => NaN
  | Gt, Gt | Lt, Lt => PInf
  | _, _ => NInf
  end.

Definition xmul x y : X :=
  match x, y with
  | Fin a, Fin b => Fin (a * b)
  | NaN, _ | _, NaN => NaN
  | _, _ => xinf_of (xsgn x) (xsgn y)
  end.

(** IEEE division; a zero divisor counts as +0 (signed zeros are not modelled). *)
Definition xdiv x y : X :=
  match x, y with
  | Fin a, Fin b => if b == 0 then xinf_of (xsgn x) Gt else Fin (a / b)
  | NaN, _ | _, NaN => NaN
  | Fin _, _ => x0
  | _, Fin b => if b == 0 then x else xinf_of (xsgn x) (xsgn y)
  | _, _ => NaN
  end.

Definition xabs x : X :=
  match x with Fin a => Fin `|a| | NaN => NaN | _ => PInf end.

Definition xsqrt x : X :=
  match x with
  | Fin a => if a < 0 then NaN else Fin (Num.sqrt a)
  | PInf => PInf | _ => NaN end.

Definition xsign x : X :=
  match x with Fin a => Fin (Num.sg a) | PInf => x1 | NInf => xopp x1 | NaN => NaN end.

(** comparisons: false as soon as one side is NaN *)
Definition xlt x y : bool :=
  match x, y with
  | Fin a, Fin b => a < b
  | NaN, _ | _, NaN => false
  | NInf, NInf => false | NInf, _ => true
  | _, PInf => ~~ (if x is PInf then true else false)
  | _, _ => false
  end.
Definition xeq x y : bool :=
  match x, y with
  | Fin a, Fin b => a == b
  | PInf, PInf | NInf, NInf => true
  | _, _ => false
  end.
Definition xle x y : bool := xlt x y || xeq x y.
Definition xgt x y := xlt y x.
Definition xge x y := xle y x.

(** np.maximum / np.minimum: NaN propagates *)
Definition xmax x y : X :=
  if xis_nan x || xis_nan y then NaN else if xlt x y then y else x.
Definition xmin x y : X :=
  if xis_nan x || xis_nan y then NaN else if xlt y x then y else x.

Definition xsum (s : seq X) : X := foldr xadd x0 s.

End XNum.
Arguments x0 {R}.
Arguments x1 {R}.

(** ------------------------------------------------------------------ arrays *)
Record arr (T : Type) := Arr { shape : seq nat; data : seq T }.
Arguments Arr {T}.

Definition prodn (s : seq nat) : nat := foldr muln 1%N s.

(** C-order position of a multi-index *)
Fixpoint ravel (s idx : seq nat) : nat :=
  match s, idx with
  | _ :: s', i :: idx' => (i * prodn s' + ravel s' idx')%N
  | _, _ => 0%N
  end.

(** all multi-indices of a shape in C order *)
Fixpoint indices (s : seq nat) : seq (seq nat) :=
  match s with
  | [::] => [:: [::]]
  | n :: s' => flatten [seq [seq i :: r | r <- indices s'] | i <- iota 0 n]
  end.

Fixpoint valid_idx (s idx : seq nat) : bool :=
  match s, idx with
  | [::], [::] => true
  | n :: s', i :: idx' => (i < n)%N && valid_idx s' idx'
  | _, _ => false
  end.

Definition wf_arr {T} (a : arr T) : bool := size (data a) == prodn (shape a).

Definition mkn {T} (s : seq nat) (f : seq nat -> T) : arr T := Arr s (map f (indices s)).
Definition getn {T} (d : T) (a : arr T) (idx : seq nat) : T := nth d (data a) (ravel (shape a) idx).

Definition ndim {T} (a : arr T) := size (shape a).
Definition np_size {T} (a : arr T) := prodn (shape a).
(** a.shape[k] *)
Definition dim {T} (a : arr T) (k : nat) := nth 0%N (shape a) k.
(** max(a.shape); raises on 0-d arrays *)
Definition max_shape {T} (a : arr T) : res nat :=
  if shape a is n :: s then Ok (foldr maxn n s) else ValueError.

Definition np_map {T U} (f : T -> U) (a : arr T) : arr U := Arr (shape a) (map f (data a)).
(** a.flatten() / np.ravel(a) *)
Definition np_flatten {T} (a : arr T) : arr T := Arr [:: size (data a)] (data a).
(** np.reshape(a, s), C order *)
Definition np_reshape {T} (s : seq nat) (a : arr T) : res (arr T) :=
  if prodn s == size (data a) then Ok (Arr s (data a)) else ValueError.
(** np.squeeze(a) *)
Definition np_squeeze {T} (a : arr T) : arr T := Arr [seq n <- shape a | n != 1%N] (data a).
(** np.expand_dims(a, k) for 0 <= k <= ndim *)
Definition np_expand {T} (k : nat) (a : arr T) : arr T :=
  Arr (take k (shape a) ++ 1%N :: drop k (shape a)) (data a).

(** ------------------------------------------------------------------ broadcasting *)
Fixpoint bcast_rev (s t : seq nat) : option (seq nat) :=
  match s, t with
  | [::], _ => Some t
  | _, [::] => Some s
  | a :: s', b :: t' =>
      if bcast_rev s' t' is Some r then
        if a == b then Some (a :: r) else if a == 1%N then Some (b :: r)
        else if b == 1%N then Some (a :: r) else None
      else None
  end.
Definition bshape (s t : seq nat) : option (seq nat) :=
  omap rev (bcast_rev (rev s) (rev t)).
(** index into an array of shape [s] for a broadcast multi-index [idx] *)
Definition bidx (s idx : seq nat) : seq nat :=
  [seq (if p.1 == 1%N then 0%N else p.2) | p <- zip s (drop (size idx - size s) idx)].

Section ArrX.
Variable R : rcfType.
Notation X := (xnum R).
Notation A := (arr X).
Notation get := (getn (@NaN R)).

Definition np_bin {U} (f : X -> X -> U) (a b : A) : res (arr U) :=
  if bshape (shape a) (shape b) is Some s then
    Ok (mkn s (fun idx => f (get a (bidx (shape a) idx)) (get b (bidx (shape b) idx))))
  else ValueError.

Definition np_add := np_bin (@xadd R).
Definition np_sub := np_bin (@xsub R).
Definition np_mul := np_bin (@xmul R).
Definition np_div := np_bin (@xdiv R).
Definition np_neg (a : A) := np_map (@xopp R) a.
Definition np_abs (a : A) := np_map (@xabs R) a.
Definition np_sqrt (a : A) := np_map (@xsqrt R) a.
Definition np_scale (x : X) (a : A) := np_map (xmul x) a.
Definition np_divs (a : A) (x : X) := np_map (fun y => xdiv y x) a.
(** array + scalar *)
Definition np_adds (a : A) (x : X) := np_map (fun y => xadd y x) a.

Definition np_scalar (x : X) : A := Arr [::] [:: x].
Definition np_zeros (s : seq nat) : A := mkn s (fun _ => x0).
Definition np_ones (s : seq nat) : A := mkn s (fun _ => x1).
Definition np_eye (n : nat) : A :=
  mkn [:: n; n] (fun idx => if nth 0%N idx 0 == nth 0%N idx 1 then x1 else x0).

(** np.sum(a) *)
Definition np_sum (a : A) : X := xsum (data a).
(** np.sum(a, axis=k); [keep] is keepdims *)
Definition np_sum_axis (k : nat) (keep : bool) (a : A) : res A :=
  if (k < ndim a)%N then
    let s := shape a in
    let s1 := take k s ++ drop k.+1 s in
    let body idx :=
      let f := take k idx in let l := drop k idx in
      xsum [seq get a (f ++ i :: l) | i <- iota 0 (nth 0%N s k)] in
    let r := mkn s1 body in
    Ok (if keep then Arr (take k s ++ 1%N :: drop k.+1 s) (data r) else r)
  else ValueError.

(** a.T : reverse all axes *)
Definition np_T (a : A) : A := mkn (rev (shape a)) (fun idx => get a (rev idx)).

(** a @ b *)
Definition np_matmul (a b : A) : res A :=
  if (ndim a == 0%N) || (ndim b == 0%N) then ValueError else
  let sa := if ndim a == 1%N then 1%N :: shape a else shape a in
  let sb := if ndim b == 1%N then shape b ++ [:: 1%N] else shape b in
  let a' := Arr sa (data a) in let b' := Arr sb (data b) in
  let ba := take (size sa - 2) sa in let bb := take (size sb - 2) sb in
  let m := nth 0%N sa (size sa - 2) in let k := last 0%N sa in
  let k' := nth 0%N sb (size sb - 2) in let n := last 0%N sb in
  if k != k' then ValueError else
  if bshape ba bb is Some bs then
    let body idx :=
      let bi := take (size bs) idx in
      let i := nth 0%N idx (size bs) in let j := nth 0%N idx (size bs).+1 in
      xsum [seq xmul (get a' (bidx ba bi ++ [:: i; l])) (get b' (bidx bb bi ++ [:: l; j]))
           | l <- iota 0 k] in
    let r := mkn (bs ++ [:: m; n]) body in
    Ok (Arr (bs ++ (if ndim a == 1%N then [::] else [:: m]) ++
                   (if ndim b == 1%N then [::] else [:: n])) (data r))
  else ValueError.

(** np.diag: vector -> diagonal matrix, matrix -> its diagonal *)
Definition np_diag (a : A) : res A :=
  match shape a with
  | [:: n] => Ok (mkn [:: n; n] (fun idx =>
      if nth 0%N idx 0 == nth 0%N idx 1 then get a [:: nth 0%N idx 0] else x0))
  | [:: m; n] => Ok (mkn [:: minn m n] (fun idx => get a [:: nth 0%N idx 0; nth 0%N idx 0]))
  | _ => ValueError
  end.

(** a[:, j] of a matrix (j checked by the caller or raising) *)
Definition np_col (a : A) (j : nat) : res A :=
  if shape a is [:: m; n] then
    if (j < n)%N then Ok (mkn [:: m] (fun idx => get a [:: nth 0%N idx 0; j])) else IndexError
  else IndexError.
(** a[i, :] *)
Definition np_row (a : A) (i : nat) : res A :=
  if shape a is [:: m; n] then
    if (i < m)%N then Ok (mkn [:: n] (fun idx => get a [:: i; nth 0%N idx 0])) else IndexError
  else IndexError.
(** a[:, lo:hi] (slices never raise) *)
Definition np_cols (a : A) (lo hi : nat) : res A :=
  if shape a is [:: m; n] then
    let hi' := minn hi n in
    Ok (mkn [:: m; (hi' - lo)%N] (fun idx => get a [:: nth 0%N idx 0; (lo + nth 0%N idx 1)%N]))
  else IndexError.
(** a[lo:hi, :] *)
Definition np_rows (a : A) (lo hi : nat) : res A :=
  if shape a is [:: m; n] then
    let hi' := minn hi m in
    Ok (mkn [:: (hi' - lo)%N; n] (fun idx => get a [:: (lo + nth 0%N idx 0)%N; nth 0%N idx 1]))
  else IndexError.
(** numpy assignment ignores leading axes of length 1 beyond the rank of the target *)
Definition strip_lead (k : nat) (s : seq nat) : seq nat :=
  let d := (size s - k)%N in if all (pred1 1%N) (take d s) then drop d s else s.

(** a[:, j] = v (v broadcast to the length of the column) *)
Definition np_set_col (a : A) (j : nat) (v : A) : res A :=
  let v := Arr (strip_lead 1 (shape v)) (data v) in
  if shape a is [:: m; n] then
    if (j < n)%N then
      if bshape (shape v) [:: m] == Some [:: m] then
        Ok (mkn [:: m; n] (fun idx =>
              if nth 0%N idx 1 == j then get v (bidx (shape v) [:: nth 0%N idx 0])
              else get a idx))
      else ValueError
    else IndexError
  else IndexError.

(** np.column_stack of two 1-d arrays etc. is built from this: stack columns side by side *)
Definition np_hstack2 (a b : A) : res A :=
  match shape a, shape b with
  | [:: m; n], [:: m'; n'] =>
      if m == m' then
        Ok (mkn [:: m; (n + n')%N] (fun idx =>
              let i := nth 0%N idx 0 in let j := nth 0%N idx 1 in
              if (j < n)%N then get a [:: i; j] else get b [:: i; (j - n)%N]))
      else ValueError
  | [:: n], [:: n'] => Ok (Arr [:: (n + n')%N] (data a ++ data b))
  | _, _ => ValueError
  end.
Definition np_vstack2 (a b : A) : res A :=
  match shape a, shape b with
  | [:: m; n], [:: m'; n'] =>
      if n == n' then Ok (Arr [:: (m + m')%N; n] (data a ++ data b)) else ValueError
  | _, _ => ValueError
  end.

(** np.max / np.min over all elements (raise on empty) *)
Definition np_max (a : A) : res X :=
  if data a is x :: s then Ok (foldl (@xmax R) x s) else ValueError.
Definition np_min (a : A) : res X :=
  if data a is x :: s then Ok (foldl (@xmin R) x s) else ValueError.

Definition np_any (a : arr bool) : bool := has id (data a).
Definition np_all (a : arr bool) : bool := all id (data a).

(** np.tile(a, (r, 1)) of a 1-d array or np.matlib.repmat(a, r, 1): r copies as rows *)
Definition np_tile_rows (a : A) (r : nat) : A :=
  let n := last 0%N (shape a) in
  mkn [:: r; n] (fun idx => get a (bidx (shape a) [:: nth 0%N idx 0; nth 0%N idx 1])).

(** np.trace of a matrix *)
Definition np_trace (a : A) : res X :=
  if shape a is [:: m; n] then
    Ok (xsum [seq get a [:: i; i] | i <- iota 0 (minn m n)])
  else ValueError.

End ArrX.

(** ------------------------------------------------------------------ embedding of matrices *)
Section Emb.
Variable R : rcfType.

Definition mxget {m n} (M : 'M[R]_(m, n)) (i j : nat) : R :=
  match insub i, insub j with
  | Some i', Some j' => M i' j'
  | _, _ => 0
  end.

(** 2-d array with the entries of M *)
Definition mat {m n} (M : 'M[R]_(m, n)) : arr (xnum R) :=
  mkn [:: m; n] (fun idx => Fin (mxget M (nth 0%N idx 0) (nth 0%N idx 1))).
(** 1-d array with the entries of a column vector *)
Definition vec {n} (v : 'cV[R]_n) : arr (xnum R) :=
  mkn [:: n] (fun idx => Fin (mxget v (nth 0%N idx 0) 0%N)).
Definition scal (r : R) : arr (xnum R) := Arr [::] [:: Fin r].

End Emb.
