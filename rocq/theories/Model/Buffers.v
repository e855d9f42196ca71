(** The numpy arrays held by ellipsoids and hyperplanes, as references: the constructors, setters and getters of
    elltool/core/ellipsoid/Ellipsoid.py, aellipsoid/AEllipsoid.py and hyperplane/Hyperplane.py, with the copies
    they make.  The other models treat these arrays as part of the value of an object.

    An array lives in a heap (Model/EllHeap.v) and is referred to by its position in it.  A program holds
    references to arrays and objects and can overwrite any array it holds a reference to.

    Simplifications: arrays are real; the isinstance and is_numeric checks pass. *)
From mathcomp Require Import all_ssreflect all_algebra.
Require Import Coq.Strings.String.
From Verif.Model Require Import Py NP NP3 Linalg La Core EllGeom Ellipsoid Hyperplane EllHeap.
Set Implicit Arguments.
Unset Strict Implicit.
Unset Printing Implicit Defensive.
Import GRing.Theory.
Local Open Scope ring_scope.

Section Buffers.
Variable R : rcfType.
Notation X := (xnum R).
Notation A := (arr X).
Notation hA := (hres A).
Variable la : linalg R.
Variable cfg : props R.

(** np.array(x, dtype=np.float64), x.flatten() and np.copy(x) make new arrays *)
Definition buf_array (l : nat) : hA nat := do a <- hread l; halloc a.
Definition buf_flatten (l : nat) : hA nat := do a <- hread l; halloc (np_flatten a).
Definition buf_copy (l : nat) : hA nat := do a <- hread l; halloc a.
(** la.py:238-255, try_treat_as_real returns a real array itself *)
Definition buf_real (tol : pynum R) (l : nat) : hA nat :=
  do a <- hread l;
  do _ <- hlift (try_treat_as_real (RealArr a) tol);
  hret l.

(** AEllipsoid.py:32-42 (and Hyperplane.py:35-45), the setter of _center_vec: the reference to store *)
Definition buf_vec (tag : string) (tol : pynum R) (l : nat) : hA nat :=
  do l1 <- buf_real tol l;
  do l2 <- buf_array l1;
  do a <- hread l2;
  do m <- hlift (max_shape a);
  if np_size a != m then hlift (throw tag) else
  do l3 <- buf_flatten l2;
  do b <- hread l3;
  if ~~ all (@xis_fin R) (data b) then hlift (throw tag) else
  buf_copy l3.
Definition buf_center (tol : X) (l : nat) : hA nat := buf_vec "wrongInput:center_vec" (PReal tol) l.
Definition buf_normal (l : nat) : hA nat := buf_vec "wrongInput:normal_vec" (default_tol R) l.

(** Ellipsoid.py:46-59, the setter of _shape_mat: the reference to store *)
Definition buf_shape (tol : X) (l : nat) : hA nat :=
  do a0 <- hread l;
  if ndim a0 != 2%N then hlift (throw "wrongInput:shape_mat") else
  if dim a0 0 != dim a0 1 then hlift (throw "wrongInput:shape_mat") else
  do l1 <- buf_real (PReal tol) l;
  do l2 <- buf_array l1;
  do a <- hread l2;
  if (0 < np_size a)%N then
    if ~~ all (@xis_fin R) (data a) then hlift (throw "wrongInput:shape_mat") else
    do s <- hlift (is_mat_symm a tol);
    do p <- hlift (if s then is_mat_pos_def la a tol true else Ok false);
    if ~~ p then hlift (throw "wrongInput:shape_mat") else buf_copy l2
  else buf_copy l2.

(** an Ellipsoid: __center_vec, __shape_mat and the properties; a Hyperplane: __normal_vec, shift and tolerances *)
Inductive bobj := OE of nat & nat & props R | OH of nat & X & X & X.

Inductive bargs := BNone | BShape of nat | BBoth of nat & nat.

(** Ellipsoid.py:23-40; the getters used in lines 34 and 38 copy *)
Definition buf_ell (args : bargs) (k : kwargs R) : hA bobj :=
  do p <- hlift (parse_props cfg k);
  match args with
  | BNone =>
      do z <- halloc (np_zeros R [:: 0%N]);
      do c <- buf_center (p_abs p) z;
      do y <- halloc (np_zeros R [:: 0%N; 0%N]);
      do s <- buf_shape (p_abs p) y;
      hret (OE c s p)
  | BShape q =>
      do s <- buf_shape (p_abs p) q;
      do s1 <- buf_copy s;
      do a <- hread s1;
      do z <- halloc (np_zeros R [:: dim a 0]);
      do c <- buf_center (p_abs p) z;
      hret (OE c s p)
  | BBoth c0 q =>
      do c <- buf_center (p_abs p) c0;
      do s <- buf_shape (p_abs p) q;
      do c1 <- buf_copy c;
      do a <- hread c1;
      do s1 <- buf_copy s;
      do b <- hread s1;
      if np_size a != dim b 0 then hlift (throw "wrongInput") else hret (OE c s p)
  end.

(** Hyperplane.py:22-29, the shift is a number *)
Definition buf_hp (l : nat) (sh : X) (k : kwargs R) : hA bobj :=
  do p <- hlift (hp_props cfg k);
  do n <- buf_normal l;
  do s <- hlift (set_shift (RealScal sh));
  hret (OH n s p.1 p.2).

(** the getters: get_center_vec (AEllipsoid.py:28-30, 70-71), get_shape_mat (Ellipsoid.py:42-44, 64-65, two copies),
    parameters and double (Ellipsoid.py:227-228, 576-577; Hyperplane.py:31-33, 191-195) *)
Inductive getter := GCenter | GShape | GParameters.
Definition buf_get (g : getter) (o : bobj) : hA (seq nat) :=
  match g, o with
  | GCenter, OE c _ _ => do x <- buf_copy c; hret [:: x]
  | GShape, OE _ s _ => do x <- buf_copy s; do y <- buf_copy x; hret [:: y]
  | GParameters, OE c s _ => do x <- buf_copy c; do y <- buf_copy s; hret [:: x; y]
  | GParameters, OH n _ _ _ => do x <- buf_copy n; hret [:: x]
  | _, OH _ _ _ _ => hlift AttributeError
  end.

(** Ellipsoid.py:219-225 and Hyperplane.py:92-94, _get_single_copy *)
Definition buf_dup (o : bobj) : hA bobj :=
  match o with
  | OE c s p => do x <- buf_copy c; do y <- buf_copy s; buf_ell (BBoth x y) (kw_of p)
  | OH n s a _ => do x <- buf_copy n; buf_hp x s (Kw (Some a) None None None)
  end.

(** Ellipsoid.py:212, the new shape matrix, and 213, the new centre *)
Definition buf_proj_shape (tol : X) (s ort : nat) : hA nat :=
  do x <- buf_copy s;
  do y <- buf_copy x;
  do q <- hread y;
  do b <- hread ort;
  do z <- hlift (let* bq := np_matmul (np_T b) q in np_matmul bq b);
  do l <- halloc z;
  buf_shape tol l.
Definition buf_proj_center (tol : X) (c ort : nat) : hA nat :=
  do x <- buf_copy c;
  do v <- hread x;
  do b <- hread ort;
  do z <- hlift (np_matmul (np_T b) v);
  do l <- halloc z;
  buf_center tol l.

(** a running program: the arrays, the objects, and the arrays it holds references to *)
Record st := St { bufs : seq A; objs : seq bobj; known : seq nat }.

(** what a program can do with arrays and objects; both are named by their position in the order in which the
    program got them.  AWrite stands for any change of an array in place. *)
Inductive bnum := NNone | NShape of nat | NBoth of nat & nat.
Inductive act :=
| ANew of A
| AWrite of nat & A
| AMk of bnum & kwargs R
| AMkHp of nat & X & kwargs R
| AGet of getter & nat
| ADup of nat
| ASetCenter of nat & nat
| ASetShape of nat & nat
| AProject of nat & nat.

Definition with_arr (s : st) (k : nat) (f : nat -> st * res unit) : st * res unit :=
  if ohead (drop k (known s)) is Some l then f l else (s, unmodelled).
Definition with_obj (s : st) (r : nat) (f : bobj -> st * res unit) : st * res unit :=
  if ohead (drop r (objs s)) is Some o then f o else (s, unmodelled).
Definition on_bufs {U} (s : st) (m : hA U) (f : U -> st -> st * res unit) : st * res unit :=
  match m (bufs s) with
  | (b, Ok x) => f x (St b (objs s) (known s))
  | (b, Err e) => (St b (objs s) (known s), Err e)
  end.
Definition learn (ls : seq nat) (s : st) : st * res unit := (St (bufs s) (objs s) (known s ++ ls), Ok tt).
Definition add_obj (o : bobj) (s : st) : st * res unit := (St (bufs s) (rcons (objs s) o) (known s), Ok tt).
Definition put_obj (r : nat) (o : bobj) (s : st) : st := St (bufs s) (set_nth o (objs s) r o) (known s).

Definition step (s : st) (a : act) : st * res unit :=
  match a with
  | ANew x => on_bufs s (halloc x) (fun l => learn [:: l])
  | AWrite k x => with_arr s k (fun l => on_bufs s (hwrite l x) (fun _ s => (s, Ok tt)))
  | AMk NNone kw => on_bufs s (buf_ell BNone kw) add_obj
  | AMk (NShape k) kw => with_arr s k (fun l => on_bufs s (buf_ell (BShape l) kw) add_obj)
  | AMk (NBoth k1 k2) kw => with_arr s k1 (fun l1 => with_arr s k2 (fun l2 => on_bufs s (buf_ell (BBoth l1 l2) kw) add_obj))
  | AMkHp k x kw => with_arr s k (fun l => on_bufs s (buf_hp l x kw) add_obj)
  | AGet g r => with_obj s r (fun o => on_bufs s (buf_get g o) learn)
  | ADup r => with_obj s r (fun o => on_bufs s (buf_dup o) add_obj)
  | ASetCenter r k => with_obj s r (fun o => with_arr s k (fun l =>
      if o is OE _ q p then on_bufs s (buf_center (p_abs p) l) (fun c s => (put_obj r (OE c q p) s, Ok tt)) else (s, unmodelled)))
  | ASetShape r k => with_obj s r (fun o => with_arr s k (fun l =>
      if o is OE c _ p then on_bufs s (buf_shape (p_abs p) l) (fun q s => (put_obj r (OE c q p) s, Ok tt)) else (s, unmodelled)))
  | AProject r k => with_obj s r (fun o => with_arr s k (fun l =>
      if o is OE c q p then
        on_bufs s (buf_proj_shape (p_abs p) q l) (fun q' s =>
        on_bufs (put_obj r (OE c q' p) s) (buf_proj_center (p_abs p) c l) (fun c' s =>
        (put_obj r (OE c' q' p) s, Ok tt)))
      else (s, unmodelled)))
  end.

(** a run; exceptions are caught and the run goes on *)
Fixpoint run (acts : seq act) (s : st) : st * seq (res unit) :=
  if acts is a :: acts' then let (s1, r) := step s a in let (s2, rs) := run acts' s1 in (s2, r :: rs) else (s, [::]).

End Buffers.
