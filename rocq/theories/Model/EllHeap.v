(** Model of the operations whose effects depend on object identity: get_copy and rep_mat
    (abasicellipsoid/ABasicEllipsoid.py), projection (aellipsoid/AEllipsoid.py), get_projection and the
    setters (ellipsoid/Ellipsoid.py).

    Objects live in a heap and are referred to by their position in it; arrays of objects are arrays
    of references.  A call takes a heap to a heap and a result, so that changes made before an
    exception is raised are kept.

    Simplifications: the getters and setters copy the numpy arrays held by an object (np.copy), so
    these are part of the object's value; the isinstance and is_numeric checks pass; sizes given to
    rep_mat are integers, or floats with integer values; the basis is real. *)
From mathcomp Require Import all_ssreflect all_algebra.
Require Import Coq.Strings.String.
From Verif.Model Require Import Py NP NP3 Linalg La Core EllGeom Ellipsoid.
Set Implicit Arguments.
Unset Strict Implicit.
Unset Printing Implicit Defensive.
Import GRing.Theory.
Local Open Scope ring_scope.

Section Heap.
(** the values of objects *)
Variable T : Type.
Definition heap := seq T.
Definition hres (U : Type) := heap -> heap * res U.

Definition hret {U} (x : U) : hres U := fun h => (h, Ok x).
Definition hlift {U} (r : res U) : hres U := fun h => (h, r).
Definition hbind {U V} (m : hres U) (f : U -> hres V) : hres V :=
  fun h => match m h with (h', Ok x) => f x h' | (h', Err e) => (h', Err e) end.

(** the value of the object r *)
Definition hread (r : nat) : hres T :=
  fun h => (h, if ohead (drop r h) is Some v then Ok v else unmodelled).
(** a new object *)
Definition halloc (v : T) : hres nat := fun h => (rcons h v, Ok (size h)).
(** the object r gets another value *)
Definition hwrite (r : nat) (v : T) : hres unit :=
  fun h => if (r < size h)%N then (set_nth v h r v, Ok tt) else (h, unmodelled).

(** a loop over a list, collecting the results *)
Fixpoint hmapM {U V} (f : U -> hres V) (s : seq U) : hres (seq V) :=
  if s is x :: s' then hbind (f x) (fun y => hbind (hmapM f s') (fun ys => hret (y :: ys))) else hret [::].

(** the constructor call in _get_single_copy (Ellipsoid.py:219-225, Hyperplane.py) *)
Variable copy1 : T -> res T.
(** obj._get_single_copy() *)
Definition hcopy1 (r : nat) : hres nat :=
  hbind (hread r) (fun v => hbind (hlift (copy1 v)) (fun w => halloc w)).

(** ABasicEllipsoid.py:220-237; np.array(obj) has shape () *)
Definition get_copy (a : arr nat) : hres (arr nat) :=
  match data a with
  | [::] => hret a
  | [:: r] => hbind (hcopy1 r) (fun r' => hret (Arr [::] [:: r']))
  | rs => hbind (hmapM hcopy1 rs) (fun rs' => hret (Arr (shape a) rs'))
  end.

(** the argument of rep_mat: an integer array, or a float array with integer values *)
Inductive sizes := SInt of arr int | SFloat of arr int.

(** ABasicEllipsoid.py:244-260; np.max of an empty shape raises, and so do np.empty and range for floats *)
Definition rep_sizes (s : sizes) : res (seq nat) :=
  let a := match s with SInt a | SFloat a => a end in
  if np_size a == 0%N then throw "wrongInput:shape_vec" else
  let* m := max_shape a in
  if np_size a != m then throw "wrongInput:shape_vec" else
  if ~~ all (fun z : int => (0 <= z)%R) (data a) then throw "wrongInput:shape_vec" else
  match s with
  | SInt _ => Ok (map absz (data a))
  | SFloat _ => TypeError
  end.
Definition rep_mat (r : nat) (s : sizes) : hres (arr nat) :=
  hbind (hlift (rep_sizes s)) (fun sh =>
  hbind (hmapM (fun _ => hcopy1 r) (iota 0 (prodn sh))) (fun rs => hret (Arr sh rs))).

End Heap.

Notation "'do' x <- m ; f" := (hbind m (fun x => f)) (at level 200, x name, m at level 100, f at level 200).

Section EllHeap.
Variable R : rcfType.
Notation X := (xnum R).
Notation A := (arr X).
Variable la : linalg R.
Variable cfg : props R.

(** Ellipsoid.py:46-59, obj._shape_mat = q *)
Definition write_shape (r : nat) (q : ninp R) : hres (ell R) unit :=
  do e <- hread r;
  do sh <- hlift (set_shape la (e_abs e) q);
  hwrite r (Ell (e_center e) sh (e_props e)).
(** AEllipsoid.py:32-42, obj._center_vec = c *)
Definition write_center (r : nat) (c : ninp R) : hres (ell R) unit :=
  do e <- hread r;
  do ce <- hlift (set_center (e_abs e) c);
  hwrite r (Ell ce (e_shape e) (e_props e)).

(** Ellipsoid.py:211-213 [_projection_single_internal] *)
Definition projection1 (ort : A) (r : nat) : hres (ell R) unit :=
  do e <- hread r;
  do q <- hlift (let* bq := np_matmul (np_T ort) (e_shape e) in np_matmul bq ort);
  do _ <- write_shape r (RealArr q);
  do e' <- hread r;
  do c <- hlift (np_matmul (np_T ort) (e_center e'));
  write_center r (RealArr c).

(** AEllipsoid.py:51-66: the checks of the basis for the ellipsoids es, and its normalisation *)
Definition ort_basis (es : seq (ell R)) (basis : A) : res A :=
  match shape basis with
  | [:: n_dim; n_basis] =>
    let dims := map (fun e => np_size (e_center e)) es in
    if ~~ ((n_basis <= n_dim)%N && all (fun d => d == n_dim) dims) then throw "wrongInput" else
    let* sc := np_matmul (np_T basis) basis in
    let* nsq := np_diag sc in
    let* tol := get_abs_tol_by (@np_max R) (Arr [:: size es] es) in
    let* dg := np_diag nsq in
    let* off := np_sub sc dg in
    if np_any (np_map (fun x => xgt x tol) off) then throw "wrongInput" else
    np_div basis (np_tile_rows (np_sqrt nsq) n_dim)
  | _ => ValueError
  end.

(** AEllipsoid.py:44-68 *)
Definition projection (a : arr nat) (basis : A) : hres (ell R) (arr nat) :=
  if size (data a) == 0%N then hret a else
  do es <- hmapM (@hread (ell R)) (data a);
  do ort <- hlift (ort_basis es basis);
  do _ <- hmapM (projection1 ort) (data a);
  hret a.

(** Ellipsoid.py:335-338 *)
Definition get_projection (a : arr nat) (basis : A) : hres (ell R) (arr nat) :=
  do c <- get_copy (single_copy la cfg) a;
  projection c basis.

(** The calls a program can make, and a run of them; an exception is caught and the run goes on *)
Inductive call :=
| CProjection of arr nat & A
| CGetProjection of arr nat & A
| CCopy of arr nat
| CRepMat of nat & sizes
| CNew of ctor_args R & kwargs R
| CSetShape of nat & ninp R
| CSetCenter of nat & ninp R.

Definition hvoid {U} (m : hres (ell R) U) : heap (ell R) -> heap (ell R) := fun h => (m h).1.
Definition run_call (c : call) : heap (ell R) -> heap (ell R) :=
  match c with
  | CProjection a b => hvoid (projection a b)
  | CGetProjection a b => hvoid (get_projection a b)
  | CCopy a => hvoid (get_copy (single_copy la cfg) a)
  | CRepMat r s => hvoid (rep_mat (single_copy la cfg) r s)
  | CNew args k => hvoid (do e <- hlift (mk_ell la cfg args k); halloc e)
  | CSetShape r q => hvoid (write_shape r q)
  | CSetCenter r c => hvoid (write_center r c)
  end.
Definition run_calls (cs : seq call) (h : heap (ell R)) : heap (ell R) := foldl (fun h c => run_call c h) h cs.

End EllHeap.
