(** Model of elltool/core/hyperplane/Hyperplane.py.

    Simplifications: arguments documented as hyperplanes are hyperplanes and numeric arguments are
    numeric (_check_is_me and is_numeric pass); a list or array of hyperplanes is an array; the points
    given to contains are a real array (possibly with infinities and NaN). *)
From mathcomp Require Import all_ssreflect all_algebra.
Require Import Coq.Strings.String.
From Verif.Model Require Import Py NP NP3 Linalg La Ellipsoid.
Set Implicit Arguments.
Unset Strict Implicit.
Unset Printing Implicit Defensive.
Import GRing.Theory.
Local Open Scope ring_scope.

Section Hyperplane.
Variable R : rcfType.
Notation X := (xnum R).
Notation A := (arr X).

(** a Hyperplane object: __normal_vec, __shift, __abs_tol, __rel_tol *)
Record hp := Hp { h_normal : A; h_shift : X; h_abs : X; h_rel : X }.

(** the values of the current configuration (Properties) *)
Variable cfg : props R.

(** Properties.parse_prop for ['abs_tol', 'rel_tol'] (Hyperplane.py:25) *)
Definition hp_props (k : kwargs R) : res (X * X) :=
  let a := odflt (p_abs cfg) (k_abs k) in
  if ~~ xgt a x0 then throw "wrongInput" else
  let r := odflt (p_rel cfg) (k_rel k) in
  if ~~ xgt r x0 then throw "wrongInput" else Ok (a, r).

(** Hyperplane.py:35-45, the setter of _normal_vec *)
Definition set_normal (c : ninp R) : res A :=
  match c with
  | RealScal _ | CplxScal _ _ => throw "wrongInput:normal_vec"
  | RealArr _ | CplxArr _ _ =>
    let* r := try_treat_as_real c (default_tol R) in
    let* a := float_arr r in
    let* m := max_shape a in
    if np_size a != m then throw "wrongInput:normal_vec" else
    let a := np_flatten a in
    if ~~ all (@xis_fin R) (data a) then throw "wrongInput:normal_vec" else
    Ok a
  end.

(** Hyperplane.py:51-61, the setter of _shift *)
Definition set_shift (c : ninp R) : res X :=
  let* r := try_treat_as_real c (default_tol R) in
  let* a := float_arr r in
  match data a with
  | [:: s] => if ~~ xis_fin s then throw "wrongInput:shift" else Ok s
  | _ => throw "wrongInput:shift"
  end.

(** Hyperplane.py:22-29 [Hyperplane(normal_vec, shift, ...)]; the defaults of the two positional
    arguments are np.array([0.]) and 0. *)
Definition mk_hp (nv sh : ninp R) (k : kwargs R) : res hp :=
  let* (a, r) := hp_props k in
  let* n := set_normal nv in
  let* s := set_shift sh in
  Ok (Hp n s a r).
Definition mk_hp_default (k : kwargs R) : res hp := mk_hp (RealArr (Arr [:: 1%N] [:: x0])) (RealScal x0) k.

(** Hyperplane.py:92-94 [_get_single_copy] *)
Definition hp_single_copy (h : hp) : res hp :=
  mk_hp (RealArr (h_normal h)) (RealScal (h_shift h)) (Kw (Some (h_abs h)) None None None).

(** Hyperplane.py:174-187 [sing_dimension] *)
Definition hp_dim1 (h : hp) : res nat :=
  let n := size (data (h_normal h)) in
  if (n < 2)%N then
    if data (h_normal h) is v0 :: _ then
      Ok (if xle (xabs v0) (h_abs h) && xle (xabs (h_shift h)) (h_abs h) then 0%N else n)
    else IndexError
  else Ok n.

(** Hyperplane.py:170-190 [dimension]; ABasicEllipsoid.py:239-242 [is_empty] *)
Definition hp_dimension (a : arr hp) : res (arr nat) := amapM hp_dim1 a.
Definition hp_is_empty (a : arr hp) : res (arr bool) :=
  let* d := hp_dimension a in Ok (np_map (fun n => n == 0%N) d).

(** Hyperplane.py:139-149 [is_sing_contains]: the mask of the finite coordinates has as many entries
    as x_vec, and indexes the normal *)
Definition sing_contains (h : hp) (x : A) : res bool :=
  if np_size x != np_size (h_normal h) then IndexError else
  let ps := zip (data (h_normal h)) (data x) in
  if all (fun p => xis_fin p.2 || xeq p.1 x0) ps then
    let s := xsum [seq xmul p.1 p.2 | p <- ps & xis_fin p.2] in
    Ok (xlt (xabs (xsub s (h_shift h))) (h_abs h))
  else Ok false.

(** np.split(x_arr, np.arange(w, m, w), axis=1) for an n x m array: the first columns of the pieces *)
Definition split_starts (m w : nat) : seq nat :=
  if (w < m)%N then [seq (i * w)%N | i <- iota 0 ((m + w).-1 %/ w)] else [:: 0%N].

(** Hyperplane.py:131-137 [process]: np.array of pieces of different widths is an error *)
Definition hp_blocks (x : A) (k : nat) : res (seq A) :=
  let m := dim x 1 in
  let w := if k == m then 1%N else k in
  if (w < m)%N && ~~ (w %| m)%N then ValueError else
  mapM (fun lo => np_cols x lo (minn m (lo + w))) (split_starts m w).

(** Hyperplane.py:96-167.  The condition of lines 126-128 always holds: x_arr has two axes, so the
    tuple size_x_vec[1:] has one element. *)
Definition contains (hs : arr hp) (x : A) : res (arr bool) :=
  match shape x with
  | [::] => IndexError
  | n :: tl =>
    if n == 0%N then ValueError else
    let m := prodn tl in
    let x2 := Arr [:: n; m] (data x) in
    if has (@xis_nan R) (data x2) then throw "wrongInput" else
    let* ds := hp_dimension hs in
    match data ds with
    | [::] => ValueError
    | d :: ds' =>
      let dmax := foldr maxn d ds' in
      let dmin := foldr minn d ds' in
      if dmin != dmax then throw "wrongSizes" else
      if n != dmax then throw "wrongInput:wrongSizes" else
      if m == 1%N then
        amapM (fun h => sing_contains h x2) hs
      else
        let* bl := hp_blocks x2 (size (data hs)) in
        let* bs := match data hs with
          | [:: h] => mapM (sing_contains h) bl
          | _ => mapM (fun p => sing_contains p.1 p.2) (zip (data hs) bl)
          end in
        np_reshape tl (Arr [:: size bs] bs)
    end
  end.

(** Hyperplane.py:205-218 [is_sing_parallel]; np.max of an empty array is an error *)
Definition sing_parallel (f s : hp) (tol : X) : res bool :=
  let u := h_normal f in let v := h_normal s in
  if shape u != shape v then Ok false else
  let u := np_divs u (norm2 u) in
  let v := np_divs v (norm2 v) in
  let* d := np_sub u v in
  if size (data d) == 0%N then ValueError else
  if has (fun x => xlt (xabs x) tol) (data d) then Ok true else
  let* d := np_add u v in
  Ok (has (fun x => xlt (xabs x) tol) (data d)).

(** Hyperplane.py:197-232 *)
Definition is_parallel (a b : arr hp) : res (arr bool) :=
  if ~~ [|| shape a == shape b, size (data a) == 1%N | size (data b) == 1%N] then throw "wrongSizes" else
  let* bs := mapM (fun p => sing_parallel p.1 p.2 (h_abs p.1)) (zip (data a) (data b)) in
  np_reshape (shape a) (Arr [:: size bs] bs).

(** Hyperplane.py:248-271 [hp_2_dict] *)
Definition hp_2_dict (h : hp) (is_prop : bool) : res (dict (fval R)) :=
  let* e := hp_dim1 h in
  let (nv, sh) :=
    if e == 0%N then (FArr (np_zeros R [:: 0%N]), FArr (np_zeros R [:: 0%N])) else
    let k := xdiv x1 (norm2 (h_normal h)) in
    let nv := np_map (fun x => xmul x k) (h_normal h) in
    let s := xmul (h_shift h) k in
    if xlt s x0 then (FArr (np_neg nv), FFlt (xopp s)) else (FArr nv, FFlt s) in
  Ok ([:: ("normal_vec"%string, nv); ("shift"%string, sh)] ++
      (if is_prop then [:: ("abs_tol"%string, FFlt (h_abs h)); ("rel_tol"%string, FFlt (h_rel h))] else [::]))%list.

(** Hyperplane.py:243-293: the array of dicts *)
Definition hp_to_dict (a : arr hp) (is_prop : bool) : res (arr (dict (fval R))) :=
  amapM (fun h => hp_2_dict h is_prop) a.

(** Hyperplane.py:75-81 [dict_2_hp] *)
Definition dict_2_hp (d : dict (fval R)) : res hp :=
  match dget d "normal_vec", dget d "shift" with
  | Some nv, Some sh =>
    let* a := opt_flt (dget d "abs_tol") in
    let* r := opt_flt (dget d "rel_tol") in
    let inp v := match v with FArr a => RealArr a | FFlt x => RealScal x | FNat n => RealScal (Fin n%:R) end in
    mk_hp (inp nv) (inp sh) (Kw a r None None)
  | _, _ => KeyError
  end.
(** Hyperplane.py:73-83 *)
Definition hp_from_dict (a : arr (dict (fval R))) : res (arr hp) := amapM dict_2_hp a.

(** Hyperplane.py:295-310 *)
Definition hp_uminus (a : arr hp) : res (arr hp) :=
  amapM (fun h => mk_hp (RealArr (np_neg (h_normal h))) (RealScal (xopp (h_shift h))) (no_kw R)) a.

End Hyperplane.
