(** Model of ABasicEllipsoid._is_equal_internal, is_equal, eq, __eq__ (abasicellipsoid/ABasicEllipsoid.py:137-220) for
    ellipsoids and hyperplanes.  The isinstance checks pass (see Model/Ellipsoid.v). *)
From mathcomp Require Import all_ssreflect all_algebra.
Require Import Coq.Strings.String.
From Verif.Model Require Import Py NP NP3 Linalg La Core EllGeom Ellipsoid Hyperplane Compare Dict.
Set Implicit Arguments.
Unset Strict Implicit.
Unset Printing Implicit Defensive.
Local Open Scope ring_scope.

(** shape of np.tile of an array of shape s by reps (numpy: both are padded with ones on the left) *)
Definition pad1 (n : nat) (s : seq nat) : seq nat := (nseq (n - size s) 1%N ++ s)%SEQ.
Definition tile_shape (s reps : seq nat) : seq nat :=
  let n := maxn (size s) (size reps) in [seq (p.1 * p.2)%N | p <- zip (pad1 n s) (pad1 n reps)].

Section EllEq.
Variable R : rcfType.
Notation X := (xnum R).
Notation A := (arr X).

(** a field of the compared dict: the arrays are float64 arrays, numbers are np.float64 *)
Definition field_value (v : fval R) : value R :=
  match v with
  | FArr a => VNum "numpy.ndarray" KF a
  | FFlt x => VNum "numpy.float64" KF (np_scalar x)
  | FNat n => VNum "numpy.float64" KF (np_scalar (Fin n%:R))
  end.
Definition field_size (v : fval R) : nat := if v is FArr a then np_size a else 1%N.

(** ABasicEllipsoid.py:171-184 [form_comp_dict] *)
Fixpoint form_comp_dict (d : dict (fval R)) (nice : dict string) (trans : dict (fval R -> res (fval R))) : res (dict (value R)) :=
  match nice with
  | [::] => Ok [::]
  | (f, name) :: r =>
      match dget d f with
      | None => KeyError
      | Some v =>
          let* w := if field_size v == 0%N then Ok (FArr (np_zeros R [:: 0%N])) else
            match dget trans f with None => KeyError | Some t => t v end in
          let* q := form_comp_dict d r trans in
          Ok ((name, field_value w) :: q)
      end
  end.

(** the class: tolerances, to_dict of one object, the dictionaries of names and transforms *)
Record cls (T : Type) := Cls {
  cl_abs : T -> X;
  cl_rel : T -> X;
  cl_dict : bool -> T -> res (dict (fval R));
  cl_nice : bool -> dict string;
  cl_trans : X -> dict (fval R -> res (fval R)) }.

(** no lists occur in the compared dicts *)
Definition no_lists (l : seq (value R)) : res kind := Ok KObj.

(** ABasicEllipsoid.py:138-203 [_is_equal_internal] *)
Definition is_equal_internal T (c : cls T) (a b : arr T) (is_prop : bool) : res (arr bool * rep R) :=
  let na := size (data a) in let nb := size (data b) in
  if (na == 0%N) && (nb == 0%N) then Ok (Arr [:: 1%N] [:: true], R0 R)
  else if (na == 0%N) || (nb == 0%N) then throw "wrongInput" else
  let ma := (1 < na)%N in let mb := (1 < nb)%N in
  if ma && mb && (shape a != shape b) then throw "wrongSizes" else
  let all_objs := (data a ++ data b)%SEQ in
  let* abs_tol := np_min (Arr [:: size all_objs] (map (cl_abs c) all_objs)) in
  let* rel_tol := np_min (Arr [:: size all_objs] (map (cl_rel c) all_objs)) in
  let* da := mapM (cl_dict c is_prop) (data a) in
  let* db := mapM (cl_dict c is_prop) (data b) in
  let comp d := form_comp_dict d (cl_nice c is_prop) (cl_trans c abs_tol) in
  let* ca := mapM comp da in
  let* cb := mapM comp db in
  let cb' := if ma && ~~ mb then flatten (nseq (prodn (shape a)) cb) else cb in
  let sb' := if ma && ~~ mb then tile_shape (shape b) (shape a) else shape b in
  let ca' := if ~~ ma then flatten (nseq (prodn (shape b)) ca) else ca in
  let sa' := if ~~ ma then tile_shape (shape a) (shape b) else shape a in
  let out := if ma then shape a else shape b in
  let* r := if sa' != sb' then Ok ([:: false], RDictSizes R) else
    dict_compare_vec [seq close_over no_lists (TVal abs_tol) (TVal rel_tol) (VDict d) | d <- ca'] [seq VDict d | d <- cb'] in
  if size r.1 == prodn out then Ok (Arr out r.1, r.2) else ValueError.

(** ABasicEllipsoid.py:206-209,215-218 [eq], [is_equal] *)
Definition is_equal T (c : cls T) (a b : arr T) (is_prop : bool) := is_equal_internal c a b is_prop.
Definition eq_arr T (c : cls T) (a b : arr T) := is_equal c a b false.
(** ABasicEllipsoid.py:211-213 [__eq__] *)
Definition eq_op T (c : cls T) (x y : T) : res bool :=
  let* r := is_equal_internal c (Arr [:: 1%N] [:: x]) (Arr [:: 1%N] [:: y]) false in Ok (head false (data r.1)).

(** Ellipsoid.py:654-706: names and transforms; there are no transforms of the properties *)
Definition ell_cls (la : linalg R) : cls (ell R) :=
  Cls (fun e => p_abs (e_props e)) (fun e => p_rel (e_props e)) (fun is_prop e => Ok (ell_2_dict e is_prop))
    (fun is_prop => ([:: ("shape_mat"%string, "QSqrt"%string); ("center_vec"%string, "q"%string)] ++
       (if is_prop then [seq (k, k) | k <- [:: "abs_tol"; "rel_tol"; "n_plot_2d_points"; "n_plot_3d_points"]%string] else [::]))%SEQ)
    (fun abs_tol => [:: ("shape_mat"%string, fun z => if z is FArr q then let* s := sqrtm_pos la q abs_tol in Ok (FArr s) else TypeError);
       ("center_vec"%string, fun z => Ok z)]).

(** Hyperplane.py:243-293 *)
Definition hp_cls : cls (hp R) :=
  Cls (@h_abs R) (@h_rel R) (fun is_prop h => hp_2_dict h is_prop)
    (fun is_prop => ([:: ("normal_vec"%string, "normal"%string); ("shift"%string, "shift"%string)] ++
       (if is_prop then [seq (k, k) | k <- [:: "abs_tol"; "rel_tol"]%string] else [::]))%SEQ)
    (fun _ => [:: ("normal_vec"%string, fun z => Ok z); ("shift"%string, fun z => Ok z)]).

End EllEq.
