(** Model of elltool/core/ellipsoid/Ellipsoid.py and of the parts of aellipsoid/AEllipsoid.py and
    abasicellipsoid/ABasicEllipsoid.py it inherits.  Objects are values here; Model/EllHeap.v models
    object identity (get_copy, rep_mat, projection).

    Simplifications: arguments documented as ellipsoids are ellipsoids (the isinstance checks of
    _check_is_me pass); the messages of the logger are not modelled; numbers of plot points are
    natural numbers; a list or array of ellipsoids is an array. *)
From mathcomp Require Import all_ssreflect all_algebra.
Require Import Coq.Strings.String.
From Verif.Model Require Import Py NP NP3 Linalg La Core EllGeom.
Set Implicit Arguments.
Unset Strict Implicit.
Unset Printing Implicit Defensive.
Import GRing.Theory.
Local Open Scope ring_scope.

Definition KeyError {A} : res A := Err (PyExc "KeyError"%string).

Section Ellipsoid.
Variable R : rcfType.
Notation X := (xnum R).
Notation A := (arr X).
Notation get := (getn (@NaN R)).

(** abs_tol, rel_tol, n_plot_2d_points, n_plot_3d_points *)
Record props := Props { p_abs : X; p_rel : X; p_n2 : nat; p_n3 : nat }.
(** the same as keyword arguments *)
Record kwargs := Kw { k_abs : option X; k_rel : option X; k_n2 : option nat; k_n3 : option nat }.
Definition no_kw : kwargs := Kw None None None None.
Definition kw_of (p : props) : kwargs := Kw (Some (p_abs p)) (Some (p_rel p)) (Some (p_n2 p)) (Some (p_n3 p)).

(** an Ellipsoid object: __center_vec, __shape_mat and the properties *)
Record ell := Ell { e_center : A; e_shape : A; e_props : props }.
Definition e_abs (e : ell) := p_abs (e_props e).

Variable la : linalg R.
(** the values of the current configuration (Properties) *)
Variable cfg : props.

(** Properties.parse_prop for the four names of Ellipsoid.py:25 (see Model/Config.v): a given value
    or the configured one, checked (tolerances must be positive floats) *)
Definition parse_props (k : kwargs) : res props :=
  let a := odflt (p_abs cfg) (k_abs k) in
  if ~~ xgt a x0 then throw "wrongInput" else
  let r := odflt (p_rel cfg) (k_rel k) in
  if ~~ xgt r x0 then throw "wrongInput" else
  Ok (Props a r (odflt (p_n2 cfg) (k_n2 k)) (odflt (p_n3 cfg) (k_n3 k))).

(** np.array(x, dtype=np.float64) of a numeric array (of a complex one: the real part) *)
Definition float_arr (q : ninp R) : res A :=
  match q with RealArr a | CplxArr a _ => Ok a | RealScal x | CplxScal x _ => Ok (np_scalar x) end.

(** Ellipsoid.py:46-59, the setter of _shape_mat (python numbers have no attribute ndim) *)
Definition set_shape (tol : X) (q : ninp R) : res A :=
  match q with
  | RealScal _ | CplxScal _ _ => AttributeError
  | RealArr a0 | CplxArr a0 _ =>
    if ndim a0 != 2%N then throw "wrongInput:shape_mat" else
    if dim a0 0 != dim a0 1 then throw "wrongInput:shape_mat" else
    let* r := try_treat_as_real q (PReal tol) in
    let* a := float_arr r in
    if (0 < np_size a)%N then
      if ~~ all (@xis_fin R) (data a) then throw "wrongInput:shape_mat" else
      let* s := is_mat_symm a tol in
      let* p := if s then is_mat_pos_def la a tol true else Ok false in
      if ~~ p then throw "wrongInput:shape_mat" else Ok a
    else Ok a
  end.

(** AEllipsoid.py:32-42, the setter of _center_vec *)
Definition set_center (tol : X) (c : ninp R) : res A :=
  match c with
  | RealScal _ | CplxScal _ _ => throw "wrongInput:center_vec"
  | RealArr _ | CplxArr _ _ =>
    let* r := try_treat_as_real c (PReal tol) in
    let* a := float_arr r in
    let* m := max_shape a in
    if np_size a != m then throw "wrongInput:center_vec" else
    let a := np_flatten a in
    if ~~ all (@xis_fin R) (data a) then throw "wrongInput:center_vec" else
    Ok a
  end.

Inductive ctor_args := CNone | CShape of ninp R | CBoth of ninp R & ninp R.

(** Ellipsoid.py:23-40 [Ellipsoid(...)]; further positional arguments are ignored *)
Definition mk_ell (args : ctor_args) (k : kwargs) : res ell :=
  let* p := parse_props k in
  match args with
  | CNone => Ok (Ell (np_zeros R [:: 0%N]) (np_zeros R [:: 0%N; 0%N]) p)
  | CShape q =>
      let* sh := set_shape (p_abs p) q in
      Ok (Ell (np_zeros R [:: dim sh 0]) sh p)
  | CBoth c q =>
      let* ce := set_center (p_abs p) c in
      let* sh := set_shape (p_abs p) q in
      if np_size ce != dim sh 0 then throw "wrongInput" else Ok (Ell ce sh p)
  end.

(** core.py:8-9 [ell_unitball(n)] *)
Definition ell_unitball (n : nat) : res ell := mk_ell (CShape (RealArr (np_eye R n))) no_kw.

(** Ellipsoid.py:219-225 [_get_single_copy] *)
Definition single_copy (e : ell) : res ell :=
  mk_ell (CBoth (RealArr (e_center e)) (RealArr (e_shape e))) (kw_of (e_props e)).

(** an array result of the same shape from a list comprehension over the flattened array *)
Definition amapM {T U} (f : T -> res U) (a : arr T) : res (arr U) :=
  let* s := mapM f (data a) in Ok (Arr (shape a) s).

(** AEllipsoid.py:155-170; the second component is computed for return_rank=True only *)
Definition dimension (a : arr ell) : arr nat := np_map (fun e => np_size (e_center e)) a.
Definition dimension_rank (a : arr ell) : res (arr nat * arr nat) :=
  let* l := mapM (fun e => let* r := matrix_rank la (e_shape e) in Ok (np_size (e_center e), r)) (data a) in
  if size l == 0%N then ValueError else
  Ok (Arr (shape a) (map fst l), Arr (shape a) (map snd l)).

(** ABasicEllipsoid.py:239-242 *)
Definition is_empty (a : arr ell) : arr bool := np_map (fun d => d == 0%N) (dimension a).

(** AEllipsoid.py:117-130 *)
Definition is_degenerate (a : arr ell) : res (arr bool) :=
  if np_any (is_empty a) then throw "wrongInput:emptyEllipsoid" else
  if size (data a) == 0%N then Ok (Arr (shape a) [::]) else
  let* r := amapM (fun e => is_mat_pos_def la (e_shape e) (e_abs e) false) a in
  Ok (np_map negb r).
(** cls.is_degenerate(ell_obj) / cls.is_degenerate([ell_obj]).flat[0] for one object *)
Definition degenerate1 (e : ell) : res bool :=
  let* r := is_degenerate (Arr [::] [:: e]) in Ok (nth false (data r) 0).

(** ABasicEllipsoid.py:98-125: get_property flattens its argument; with f_prop_fun=None only the
    array is returned *)
Definition get_abs_tol_arr (a : arr ell) : A := Arr [:: size (data a)] (map e_abs (data a)).
(** ... with f_prop_fun = np.min (the default) or np.max: nan for an empty array *)
Definition get_abs_tol_by (f : A -> res X) (a : arr ell) : res X :=
  if size (data a) == 0%N then Ok NaN else f (get_abs_tol_arr a).

(** The entry for one ellipsoid in AEllipsoid.py:139-151: a number, or the 1-element array [0.0] *)
Inductive volval := VolArr0 | VolNum of X.
Definition vol_value (v : volval) : X := if v is VolNum x then x else x0.

(** AEllipsoid.py:139-151 [f_single_volume]; k is exact, so (n - 1) / 2 and n / 2 are n./2 *)
Definition single_volume (vf : volfun R) (e : ell) : res volval :=
  let* dg := degenerate1 e in
  if dg then Ok VolArr0 else
  let n := np_size (e_center e) in
  let k := n./2 in
  let s := if odd n then 2%:R ^+ (2 * k + 1) * pi_pow vf (2 * k) * (k`!)%:R / ((2 * k + 1)`!)%:R
           else pi_pow vf (2 * k) / (k`!)%:R in
  let* d := la_det la (e_shape e) in
  Ok (VolNum (xmul (Fin s) (xsqrt d))).

(** AEllipsoid.py:132-153; the packing of the list by np.array is not modelled *)
Definition volume (vf : volfun R) (a : arr ell) : res (seq volval) :=
  if np_any (is_empty a) then throw "wrongInput:emptyEllipsoid" else
  mapM (single_volume vf) (data a).

Definition is_pinf (x : X) : bool := xeq x PInf.

(** AEllipsoid.py:176-192 *)
Definition min_eig (a : arr ell) : res A :=
  if np_any (is_empty a) then throw "wrongInput:emptyEllipsoid" else
  let* s := mapM (fun e =>
    let* m := np_min (e_shape e) in
    if is_pinf m then Ok PInf else if xis_nan m then Ok NaN else
    let* ev := la_eigvalsh la (e_shape e) in np_min ev) (data a) in
  Ok (Arr [:: size s] s).

(** AEllipsoid.py:194-210 *)
Definition max_eig (a : arr ell) : res A :=
  if np_any (is_empty a) then throw "wrongInput:emptyEllipsoid" else
  let* s := mapM (fun e =>
    let* m := np_max (e_shape e) in
    if is_pinf m then Ok PInf else if xis_nan m then Ok NaN else
    let* ev := la_eigvalsh la (e_shape e) in np_max ev) (data a) in
  Ok (Arr [:: size s] s).

(** AEllipsoid.py:232-238 *)
Definition trace (a : arr ell) : res A :=
  if np_any (is_empty a) then throw "wrongInput:emptyEllipsoid" else
  let* s := mapM (fun e => np_trace (e_shape e)) (data a) in
  Ok (Arr [:: size s] s).

(** Ellipsoid.py:703-716 *)
Definition uminus (a : arr ell) : res (arr ell) :=
  if size (data a) == 0%N then Ok (Arr (shape a) [::]) else
  amapM (fun e => mk_ell (CBoth (RealArr (np_neg (e_center e))) (RealArr (e_shape e))) no_kw) a.

(** Ellipsoid.py:122-125 *)
Definition regularize (q : A) (reg_tol : X) : res A := reg_pos_def_mat la q (PReal reg_tol).
(** the shape used by is_bigger, is_internal, minksum_ea and minksum_ia: regularised if degenerate *)
Definition reg_shape (e : ell) (tol : X) : res A :=
  let* dg := degenerate1 e in
  if dg then regularize (e_shape e) tol else Ok (e_shape e).

(** Ellipsoid.py:388-408 *)
Definition is_bigger (e1 e2 : ell) : res bool :=
  let* (dims, ranks) := dimension_rank (Arr [:: 2%N] [:: e1; e2]) in
  if nth 0%N (data dims) 0 != nth 0%N (data dims) 1 then throw "wrongInput" else
  if (nth 0%N (data ranks) 0 < nth 0%N (data ranks) 1)%N then Ok false else
  let* q1 := reg_shape e1 (e_abs e1) in
  let q2 := e_shape e2 in
  let* tol := get_abs_tol_by (@np_min R) (Arr [:: 2%N] [:: e1; e2]) in
  let* t := ell_sim_diag la q1 q2 tol in
  let* b1 := np_matmul t q2 in
  let* b := np_matmul b1 (np_T t) in
  let* d := np_diag b in
  let* m := np_max (np_abs d) in
  Ok (xlt m (xadd x1 (e_abs e1))).

(** a[j] of an array with at least two axes, as an array *)
Definition np_sub_arr {T} (a : arr T) (j : nat) : res (arr T) :=
  match shape a with
  | n :: ((_ :: _) as s') =>
      if (j < n)%N then Ok (Arr s' (take (prodn s') (drop (j * prodn s') (data a)))) else IndexError
  | _ => AttributeError
  end.

(** Ellipsoid.py:413-431 [f_single_case]; [row] is ell_arr_in[j], an array, [x] the column of the
    matrix of points *)
Definition internal_case (row : arr ell) (x : A) (abs_tol : X) : res bool :=
  match data row with
  | [::] => IndexError
  | e :: _ =>
    let* d := np_sub x (np_expand 0 (e_center e)) in
    let c := np_T d in
    let* dg := is_degenerate (Arr (1%N :: shape row) (data row)) in
    let* q := if nth false (data dg) 0 then regularize (e_shape e) abs_tol else Ok (e_shape e) in
    let* i := inv_mat la q in
    let* t := np_matmul (np_T c) i in
    let* r2 := np_matmul t c in
    let r := np_sqrt r2 in
    match data r with
    | [:: r0] => Ok (xlt r0 x1 || xlt (xabs (xsub r0 x1)) abs_tol)
    | _ => ValueError
    end
  end.

(** Ellipsoid.py:412-443 [is_int_single_vec].  A 0-d array ell_arr_in raises at ell_arr_in[j], a 1-d
    one at sing_ell.flat *)
Definition internal_vec (a : arr ell) (x : A) (mode : string) : res bool :=
  let tols := map e_abs (data a) in
  let* ps := mapM (fun j =>
    let* row := if ndim a == 0%N then IndexError else np_sub_arr a j in
    internal_case row x (nth NaN tols j)) (iota 0 (size (data a))) in
  Ok (if String.eqb mode "u" then has id ps else all id ps).

(** Ellipsoid.py:410-468; [mode] is None for an argument that is not a string *)
Definition is_internal (a : arr ell) (m : A) (mode : option string) : res (arr bool) :=
  if size (data a) == 0%N then throw "wrongInput:emptyArray" else
  if np_any (is_empty a) then throw "wrongInput:emptyEllipsoid" else
  let mode := if mode is Some s then s else "u"%string in
  if ~~ (String.eqb mode "u" || String.eqb mode "i") then throw "wrongInput" else
  if ndim m != 2%N then ValueError else
  if ~~ all (fun d => d == dim m 0) (data (dimension a)) then throw "wrongSizes" else
  let* ps := mapM (fun i => let* x := np_col m i in internal_vec a x mode) (iota 0 (dim m 1)) in
  Ok (Arr [:: dim m 1; 1%N] ps).

(** np.sum(np.array(list), 0) of arrays of one shape *)
Definition sum_arrs (s : seq A) : res A :=
  if s is a :: s' then foldM (@np_add R) a s' else ValueError.

(** Ellipsoid.py:475-486 [f_add_sh] *)
Definition ea_add_sh (dir : A) (e : ell) : res (A * A) :=
  let* q := reg_shape e (e_abs e) in
  let* qd := quad_mat la q dir (np_scalar x0) "plain" in
  let coef := np_sqrt qd in
  let* s := np_mul (np_map (xdiv x1) coef) q in
  Ok (s, coef).

(** Ellipsoid.py:473-496 [f_single_direction] of minksum_ea *)
Definition ea_direction (es : seq ell) (cent dir_mat : A) (j : nat) : res ell :=
  let* dir := if (1 < ndim dir_mat)%N then np_col dir_mat j else Ok dir_mat in
  let* l := mapM (ea_add_sh dir) es in
  let* s := sum_arrs (map fst l) in
  let coef := xsum (flatten (map (fun p => data p.2) l)) in
  let* st := np_add s (np_T s) in
  let sh := np_scale (xmul (Fin (1 / 2%:R)) coef) st in
  mk_ell (CBoth (RealArr cent) (RealArr sh)) no_kw.

(** the argument checks shared by minksum_ea (498-512) and minksum_ia (544-558), and the result for
    one ellipsoid: np.squeeze(ell_arr[0].rep_mat([1, n_cols])) *)
Definition minksum (es : seq ell) (dir_mat : A) (body : A -> nat -> nat -> res (arr ell)) : res (arr ell) :=
  let dims := map (fun e => np_size (e_center e)) es in
  let* n_dims := dim_res dir_mat 0 in
  let n_cols := if (ndim dir_mat <= 1)%N then 1%N else dim dir_mat 1 in
  match es with
  | [::] => throw "wrongInput:emptyArray"
  | e :: es' =>
    if has (fun d => d == 0%N) dims then throw "wrongInput:emptyEllipsoid" else
    if ~~ all (fun d => d == n_dims) dims then throw "wrongSizes:" else
    if es' is [::] then
      let* cs := mapM (fun _ => single_copy e) (iota 0 n_cols) in
      Ok (np_squeeze (Arr [:: 1%N; n_cols] cs))
    else
      let* cent := sum_arrs (map e_center es) in
      body cent n_dims n_cols
  end.

(** Ellipsoid.py:470-516 *)
Definition minksum_ea (es : seq ell) (dir_mat : A) : res (arr ell) :=
  minksum es dir_mat (fun cent n_dims n_cols =>
    let* s := mapM (ea_direction es cent dir_mat) (iota 0 n_cols) in
    Ok (Arr [:: n_cols] s)).

(** Ellipsoid.py:520-533 [f_rot_arr] *)
Definition ia_rot (n_dims n_cols : nat) (src_mat dir_mat : A) (e : ell) : res (A * A) :=
  let* q := reg_shape e (e_abs e) in
  let* s := sqrtm_pos la q (e_abs e) in
  let* dst := np_matmul s dir_mat in
  let* o := ml_orth_transl dst src_mat in
  let* r := np_reshape [:: n_dims; n_dims; n_cols] o in
  Ok (s, r).

(** Ellipsoid.py:535-542 [f_single_direction] of minksum_ia (the last partial sum of np.cumsum is the
    sum) *)
Definition ia_direction (cent : A) (l : seq (A * A)) (j : nat) : res ell :=
  let* ms := mapM (fun p => let* o := np_slice p.2 j in np_matmul o p.1) l in
  let* s := sum_arrs ms in
  let* sh := np_matmul (np_T s) s in
  mk_ell (CBoth (RealArr cent) (RealArr sh)) no_kw.

(** Ellipsoid.py:518-570 *)
Definition minksum_ia (es : seq ell) (dir_mat : A) : res (arr ell) :=
  minksum es dir_mat (fun cent n_dims n_cols =>
    let* tol := np_min (Arr [:: size es] (map e_abs es)) in
    let* s0 := if es is e :: _ then sqrtm_pos la (e_shape e) tol else IndexError in
    let* src := np_matmul s0 dir_mat in
    let* l := mapM (ia_rot n_dims n_cols src dir_mat) es in
    let* s := mapM (ia_direction cent l) (iota 0 n_cols) in
    Ok (Arr [:: n_cols] s)).

(** Ellipsoid.py:67-98 [_get_scalar_polar_internal] *)
Definition polar_scalar (e : ell) (is_robust : bool) : res ell :=
  let c := e_center e in let q := e_shape e in
  if is_robust then
    let* i0 := la_inv la q in
    let* i1 := np_add i0 (np_T i0) in
    let i := np_divs i1 (Fin 2%:R) in
    let* k := quad_mat la q c (np_scalar x0) "inv" in
    let k1 := np_map (fun x => xsub x1 x) k in
    let* z := la_lstsq la q c in
    let* pc := np_div (np_neg z) k1 in
    let* a := np_div i k1 in
    let* b := np_mul pc (np_T pc) in
    let* sh := np_add a b in
    mk_ell (CBoth (RealArr pc) (RealArr sh)) no_kw
  else
    let* k := quad_mat la q c (np_scalar x0) "invadv" in
    match data k with
    | [:: k0] =>
      if xlt k0 x1 then
        let* cc := np_matmul c (np_T c) in
        let* m0 := np_sub q cc in
        let* i0 := la_inv la m0 in
        let* i1 := np_add i0 (np_T i0) in
        let aux := np_divs i1 (Fin 2%:R) in
        let* (d, v) := la_eigh la aux in
        let* dm := np_diag d in
        let* vd := np_matmul v dm in
        let* m := np_matmul vd (np_T v) in
        let* m2 := np_add m (np_T m) in
        let aux := np_scale (Fin (1 / 2%:R)) m2 in
        let* pc := np_matmul (np_neg aux) c in
        let* w := quad_mat la aux c (np_scalar x0) "plain" in
        let* sh := np_mul (np_map (xadd x1) w) aux in
        mk_ell (CBoth (RealArr pc) (RealArr sh)) no_kw
      else throw "degenerateEllipsoid"
    | _ => ValueError
    end.

(** the loop of Ellipsoid.py:585-586: ell_arr[i] of an array with one axis is an ellipsoid (of one
    with more axes an array, which has no _check_if_scalar); pol_ell_arr has one row, so index 1 is
    out of range *)
Definition polar_loop (a : arr ell) : res (arr ell) :=
  match shape a, data a with
  | _, [::] => Ok (Arr (shape a) [::])
  | [:: _], e :: s =>
      let* p := polar_scalar e true in
      if s is e2 :: _ then let* _ := polar_scalar e2 true in IndexError
      else Ok (Arr (shape a) [:: p])
  | [::], _ => IndexError
  | _, _ => AttributeError
  end.

(** Ellipsoid.py:579-587 *)
Definition polar (a : arr ell) : res (arr ell) :=
  let* dg := is_degenerate a in
  if np_any dg then throw "degenerateEllipsoid" else polar_loop a.

(** np.hstack of a non-empty list of matrices *)
Definition hstack (s : seq A) : res A :=
  if s is a :: s' then foldM (@np_hstack2 R) a s' else ValueError.

(** Ellipsoid.py:591-595 [f_rho_for_dir].  The tolerance passed here is a pair (array, number); with
    one direction rho_mat does not use it. *)
Definition rho_for_dir (e : ell) (dir : A) : res (A * A) :=
  let* c := np_reshape [:: np_size (e_center e); 1%N] (e_center e) in
  rho_mat (e_shape e) dir NaN (Some c).

(** the list of pairs (sup, bp): np.array of the (1, 1) arrays and np.hstack of the columns;
    the zip of an empty list cannot be unpacked *)
Definition rho_pack (l : seq (A * A)) : res (A * A) :=
  if l is [::] then ValueError else
  let sup := Arr [:: size l; 1%N; 1%N] (flatten (map (fun p => data p.1) l)) in
  let* bp := hstack (map snd l) in
  Ok (sup, bp).

(** Ellipsoid.py:589-651 *)
Definition rho (a : arr ell) (dirs : A) : res (A * A) :=
  let ds := shape dirs in let es := shape a in
  let one_ell := size (data a) == 1%N in
  let* ds1 := dim_res dirs 1 in
  let one_dir := (ds1 == 1%N) && (size ds == 2%N) in
  let n_ell := prodn es in
  let n_dim := nth 0%N ds 0 in
  let n_dirs := prodn (behead ds) in
  let* ok :=
    if one_ell || one_dir then Ok true else
    let* c1 :=
      if n_ell == n_dirs then
        match es with
        | [::] => IndexError
        | [:: e0] => if e0 == 1%N then Ok (size ds == 2%N) else IndexError
        | e0 :: e1 :: _ => Ok (((e0 == 1%N) || (e1 == 1%N)) && (size ds == 2%N))
        end
      else Ok false in
    Ok (c1 || (es == behead ds)) in
  if ~~ ok then throw "wrongInput:wrongSizes" else
  if ~~ all (fun d => d == n_dim) (data (dimension a)) then throw "wrongInput" else
  if one_ell then
    match data a with
    | e :: _ =>
      let* tol := get_abs_tol_by (@np_min R) a in
      let* dm := np_reshape [:: n_dim; n_dirs] dirs in
      let* c := np_reshape [:: np_size (e_center e); 1%N] (e_center e) in
      let* (sup, bp) := rho_mat (e_shape e) dm tol (Some c) in
      if (2 < size ds)%N then
        let* sup := np_reshape (behead ds) sup in
        let* bp := np_reshape ds bp in
        Ok (sup, bp)
      else Ok (sup, bp)
    | _ => IndexError
    end
  else if one_dir then
    let* l := mapM (fun e => rho_for_dir e dirs) (data a) in
    let* (sup, bp) := rho_pack l in
    let* sup := np_reshape es sup in
    let* bp := if (2 < size es)%N then np_reshape (n_dim :: es) bp else Ok bp in
    Ok (sup, bp)
  else
    let* dm := np_reshape [:: n_dim; n_dirs] dirs in
    let* l := mapM (fun p => let* d := np_col dm p.2 in rho_for_dir p.1 (np_expand 1 d))
                   (zip (data a) (iota 0 n_dirs)) in
    let* (sup, bp) := rho_pack l in
    if (2 < size ds)%N then
      let* sup := np_reshape (behead ds) sup in
      let* bp := np_reshape ds bp in
      Ok (sup, bp)
    else Ok (sup, bp).

(** values of the dict form *)
Inductive fval := FArr of A | FFlt of X | FNat of nat.

(** Ellipsoid.py:658-675 [ell_2_dict] *)
Definition ell_2_dict (e : ell) (is_prop : bool) : dict fval :=
  ([:: ("shape_mat"%string, FArr (e_shape e)); ("center_vec"%string, FArr (e_center e))] ++
   (if is_prop then
     [:: ("abs_tol"%string, FFlt (p_abs (e_props e))); ("rel_tol"%string, FFlt (p_rel (e_props e)));
         ("n_plot_2d_points"%string, FNat (p_n2 (e_props e)));
         ("n_plot_3d_points"%string, FNat (p_n3 (e_props e)))]
    else [::]))%list.

(** Ellipsoid.py:654-681: the array of dicts (the dictionaries of names, descriptions and transforms
    are in Model/EllEq.v) *)
Definition to_dict (a : arr ell) (is_prop : bool) : arr (dict fval) := np_map (fun e => ell_2_dict e is_prop) a.

Definition opt_flt (v : option fval) : res (option X) :=
  match v with None => Ok None | Some (FFlt x) => Ok (Some x) | Some _ => throw "wrongInput" end.
Definition opt_nat (v : option fval) : res (option nat) :=
  match v with None => Ok None | Some (FNat x) => Ok (Some x) | Some _ => throw "wrongInput" end.

(** Ellipsoid.py:111-117 [dict_2_ell]; entries with other keys are ignored by parse_prop *)
Definition dict_2_ell (d : dict fval) : res ell :=
  match dget d "shape_mat", dget d "center_vec" with
  | Some sh, Some ce =>
    let* a := opt_flt (dget d "abs_tol") in
    let* r := opt_flt (dget d "rel_tol") in
    let* n2 := opt_nat (dget d "n_plot_2d_points") in
    let* n3 := opt_nat (dget d "n_plot_3d_points") in
    let inp v := match v with FArr a => RealArr a | FFlt x => RealScal x | FNat n => RealScal (Fin n%:R) end in
    mk_ell (CBoth (inp ce) (inp sh)) (Kw a r n2 n3)
  | _, _ => KeyError
  end.

(** Ellipsoid.py:109-120 *)
Definition from_dict (a : arr (dict fval)) : res (arr ell) := amapM dict_2_ell a.

End Ellipsoid.
