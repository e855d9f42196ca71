(** Model of gras/gen/gen.py, except MatVector.from_formula_mat and from_expression (which evaluate
    python source text). *)
From mathcomp Require Import all_ssreflect all_algebra.
Require Import Coq.Strings.String.
From Verif.Model Require Import Py NP NP3 Linalg Compare La.
Set Implicit Arguments.
Unset Strict Implicit.
Unset Printing Implicit Defensive.
Import GRing.Theory.
Local Open Scope ring_scope.

(** the flag argument of the lr_ functions: 'R', 'L' or any other string *)
Inductive lrflag := FlagR | FlagL | FlagOther.

(** what a user callback returns: an ndarray, or a number *)
Inductive fval (R : Type) := FArr of arr (xnum R) | FNum of xnum R.

Section Gen.
Variable R : rcfType.
Notation X := (xnum R).
Notation A := (arr X).
Notation get := (getn (@NaN R)).

(** gen.py:9-18 *)
Definition mat_dot (a b : A) : res A :=
  if shape b != shape a then throw "wrongInput:size" else
  let* n := dim_res a 0 in
  let* n1 := dim_res a 1 in
  if n != n1 then throw "wrongInput:not_square" else
  let* p := np_mul a b in
  let* s1 := np_sum_axis 1 true p in
  let* s0 := np_sum_axis 0 true s1 in
  Ok (np_divs s0 (Fin n%:R)).

(** gen.py:52-61: scalar input *)
Definition sqrt_pos_scal (x : X) (abs_tol : X) : res X :=
  if xlt abs_tol x0 then throw "wrongInput:abs_tolNegative" else
  if xlt x (xopp abs_tol) then throw "wrongInput:negativeInput" else
  Ok (xsqrt (if xlt x x0 then x0 else x)).

(** gen.py:52-55, 62-67: array input *)
Definition sqrt_pos (a : A) (abs_tol : X) : res A :=
  if xlt abs_tol x0 then throw "wrongInput:abs_tolNegative" else
  if has (fun x => xlt x (xopp abs_tol)) (data a) then throw "wrongInput:negativeInput" else
  Ok (np_sqrt (np_map (fun x => if xlt x x0 then x0 else x) a)).

(** ------------------------------------------------------------------ sort_rows_tol *)

(** gen.py:33-40 for one column, given np.argsort *)
Definition snap_col (argsort : seq X -> seq nat) (tol : X) (c : seq X) : seq X :=
  let ind := argsort c in
  let sc := [seq nth NaN c i | i <- ind] in
  let diffs := [seq xsub p.2 p.1 | p <- zip sc (behead sc)] in
  let diffs := [seq (if xle (xabs d) tol then x0 else d) | d <- diffs] in
  let cum := scanl (@xadd R) (nth NaN sc 0) diffs in
  let cv := nth NaN sc 0 :: cum in
  let rev_ind := argsort [seq Fin i%:R | i <- ind] in
  [seq nth NaN cv i | i <- rev_ind].

(** row i of the (row-major) columns *)
Definition rows_of (n_rows : nat) (cols : seq (seq X)) : seq (seq X) :=
  [seq [seq nth NaN c i | c <- cols] | i <- iota 0 n_rows].

(** lexicographic comparison, first entry most significant: a <= b *)
Fixpoint lex_le (a b : seq X) : bool :=
  match a, b with
  | x :: a', y :: b' => if xlt x y then true else if xlt y x then false else lex_le a' b'
  | _, _ => true
  end.

(** gen.py:21-49; the first components of the result are the rows of res_mat.
    np.lexsort is a stable sort (mergesort); np.argsort is an argument because its order on equal
    keys is unspecified. *)
Definition sort_rows_tol (argsort : seq X -> seq nat) (a : A) (tol : X) : res (A * seq nat * seq nat) :=
  if xlt tol x0 then throw "wrongInput:tol" else
  match shape a with
  | [:: n_rows; n_cols] =>
    if (0 < n_rows)%N then
      if n_cols == 0%N then TypeError else      (* np.lexsort needs at least one key *)
      let col j := [seq get a [:: i; j] | i <- iota 0 n_rows] in
      let snapped := [seq snap_col argsort tol (col j) | j <- iota 0 n_cols] in
      let keys := rows_of n_rows snapped in
      let ind := sort (fun i j => lex_le (nth [::] keys i) (nth [::] keys j)) (iota 0 n_rows) in
      let res := mkn [:: n_rows; n_cols] (fun idx => get a [:: nth 0%N ind (nth 0%N idx 0); nth 0%N idx 1]) in
      Ok (res, ind, argsort [seq Fin i%:R | i <- ind])
    else Ok (a, [::], argsort [::])
  | _ => throw "wrongInput:inp_mat"
  end.

(** ------------------------------------------------------------------ MatVector *)

(** gen.py:76-84 *)
Definition mv_triu (a : A) : res A :=
  let r := if ndim a == 2%N then np_expand 2 a else a in
  let* n := dim_res r 2 in
  foldM (fun o t => let* s := np_slice o t in np_set_slice o t (np_triu s)) r (iota 0 n).

(** gen.py:101-107 *)
Definition mv_transpose (a : A) : res A :=
  gT102 NaN (if ndim a == 2%N then np_expand 2 a else a).

(** gen.py:86-89 *)
Definition mv_make_symmetric (a : A) : res A :=
  let* t := mv_transpose a in
  let* s := np_add a t in
  Ok (np_scale (Fin (1 / 2%:R)) s).

(** gen.py:91-99 *)
Definition mv_pinv (la : linalg R) (a : A) : res A :=
  let* m := dim_res a 0 in
  let* n := dim_res a 1 in
  let* p := if ndim a == 2%N then Ok 1%N else dim_res a 2 in
  fill_slices (np_zeros R [:: n; m; p]) p (fun t => let* s := np_slice a t in la_pinv la s).

(** gen.py:128-131, 140-143: the value of a callback as a matrix *)
Definition as_matrix (v : fval R) : res A :=
  let a := match v with FArr a => a | FNum x => Arr [:: 1%N] [:: x] end in
  if (ndim a < 2)%N then if ndim a == 0%N then AxisError else Ok (np_expand 1 a) else Ok a.

(** gen.py:123-145; t_vec as the flattened list of its values *)
Definition mv_from_func (f : X -> res (fval R)) (t : seq X) : res A :=
  match t with
  | [::] => IndexError
  | t0 :: ts =>
    let* v0 := f t0 in
    let* v0 := as_matrix v0 in
    let* m := dim_res v0 0 in
    let* n := dim_res v0 1 in
    let* r := np_set_slice (np_zeros R [:: m; n; size t]) 0 v0 in
    foldM (fun o i => let* v := f (nth NaN t i) in let* v := as_matrix v in np_set_slice o i v)
          r (iota 1 (size ts))
  end.

(** gen.py:147-157: the input as a stack, with the number of slices *)
Definition as_stack (a : A) : res A :=
  if (ndim a < 3)%N then if (ndim a < 2)%N then AxisError else Ok (np_expand 2 a) else Ok a.
(** gen.py:147-171, uniform_output=False *)
Definition mv_eval_list (f : A -> res A) (a : A) : res (seq A) :=
  let* d := as_stack a in
  mapM (fun i => let* s := np_slice d i in f s) (iota 0 (if (ndim a < 3)%N then 1%N else dim a 2)).
(** gen.py:147-171, uniform_output=True *)
Definition mv_eval_func (f : A -> res A) (a : A) (keep_size : bool) : res A :=
  let* d := as_stack a in
  let n := if (ndim a < 3)%N then 1%N else dim a 2 in
  if keep_size then
    fill_slices d n (fun i => let* s := np_slice d i in f s)
  else
    fill_elems (np_zeros R [:: n]) n (fun i => let* s := np_slice d i in f s).

(** gen.py:208-224 *)
Definition r_multiply_by_vec (a b : A) (use_sparse : bool) : res A :=
  if ndim b != 2%N then throw "wrongInput" else
  let* n_rows := dim_res a 0 in
  let* n_cols := dim_res a 1 in
  let* n_time := dim_res a 2 in
  if use_sparse then
    let i_ind := iota 0 (n_cols * n_time) in
    let j_ind := repeat_each n_cols (iota 0 n_time) in
    let* s := csc (n_cols * n_time) n_time (data (np_T b)) i_ind j_ind in
    let* r := reshape_F NaN [:: n_rows; (n_cols * n_time)%N] a in
    np_matmul r s
  else
    fill_cols (np_zeros R [:: n_rows; n_time]) n_time
      (fun t => let* s := np_slice a t in let* v := np_col b t in np_matmul s v).

(** gen.py:229-243 *)
Definition get_sparse_mat (n_time : nat) (a : A) : res A :=
  let int_arr := if (ndim a < 3)%N then tile_slices n_time (np_expand 2 a) else a in
  let* n_rows := dim_res a 0 in
  let* n_cols := dim_res a 1 in
  let i_mat := tile_rows 0%N n_cols (iota 0 (n_rows * n_time)) in
  let* i_mat := reshape_F 0%N [:: n_cols; n_rows; n_time] i_mat in
  let* i_mat := gT102 0%N i_mat in
  let* i_ind := reshape_F 0%N [:: (n_rows * n_cols * n_time)%N] i_mat in
  let j_mat := tile_rows 0%N n_rows (iota 0 (n_cols * n_time)) in
  let* j_ind := reshape_F 0%N [:: (n_rows * n_cols * n_time)%N] j_mat in
  csc (n_rows * n_time) (n_cols * n_time) (data (np_T int_arr)) (data i_ind) (data j_ind).

(** gen.py:226-302 *)
Definition r_multiply (a b : A) (c : option A) (use_sparse_matrix : bool) : res A :=
  let* na := dim_res a 0 in
  let* ma := dim_res a 1 in
  let* nt := dim_res a 2 in
  let* nb := dim_res b 0 in
  let* mb := dim_res b 1 in
  let b2 := if (ndim b < 3)%N then 1%N else dim b 2 in
  let* ncmc := match c with
               | None => Ok (0%N, 0%N)
               | Some c => let* x := dim_res c 0 in let* y := dim_res c 1 in Ok (x, y)
               end in
  let a_scal := (ma == 1%N) && (na == 1%N) in
  let b_scal := (mb == 1%N) && (nb == 1%N) in
  let use_sparse := if a_scal || b_scal then false else use_sparse_matrix in
  if use_sparse then
    let* a_mat := reshape_F NaN [:: na; (ma * nt)%N] a in
    let* sb := get_sparse_mat nt b in
    let* r := np_matmul a_mat sb in
    match c with
    | None => reshape_F NaN [:: na; mb; nt] r
    | Some c =>
        let* sc := get_sparse_mat nt c in
        let* r := np_matmul r sc in
        reshape_F NaN [:: na; ncmc.2; nt] r
    end
  else
    match c with
    | None =>
        let z := np_zeros R (if a_scal then [:: nb; mb; nt] else if b_scal then [:: na; ma; nt]
                             else [:: na; mb; nt]) in
        if b2 == nt then
          fill_slices z nt (fun t => let* x := np_slice a t in let* y := np_slice b t in np_matmul x y)
        else if b2 == 1%N then
          fill_slices z nt (fun t => let* x := np_slice a t in np_matmul x b)
        else throw "wrongInput"
    | Some c =>
        let z := np_zeros R (if a_scal && b_scal then [:: ncmc.1; ncmc.2; nt]
                             else if a_scal then [:: nb; ncmc.2; nt] else [:: na; ncmc.2; nt]) in
        fill_slices z nt (fun t =>
          let* x := np_slice a t in let* y := np_slice b t in
          let* xy := np_matmul x y in let* z := np_slice c t in np_matmul xy z)
    end.

(** ------------------------------------------------------------------ SquareMatVector *)

(** gen.py:306-316 *)
Definition sq_inv (la : linalg R) (a : A) : res A :=
  if ndim a == 2%N then la_inv la a else
  let* p := dim_res a 2 in
  fill_slices (np_zeros R (shape a)) p (fun t => let* s := np_slice a t in la_inv la s).

(** gen.py:318-330; sqrtm_pos is called with its default tolerance 0 *)
Definition sq_sqrtm_pos (la : linalg R) (a : A) : res A :=
  if ndim a == 2%N then sqrtm_pos la a x0 else
  let* p := dim_res a 2 in
  foldM (fun o t =>
    let* s := np_slice a t in
    let* o := if has (@xis_nan R) (data s) then np_set_slice o t (np_scalar NaN) else Ok o in
    let* r := sqrtm_pos la (np_squeeze s) x0 in
    np_set_slice o t r) (np_zeros R (shape a)) (iota 0 p).

(** gen.py:332-348 *)
Definition sq_make_pos_or_nan (la : linalg R) (a : A) : res A :=
  if ndim a == 2%N then
    let* e := la_eigvalsh la a in
    let* m := py_min e in
    Ok (if xlt m x0 then np_scalar NaN else a)
  else
    let* p := dim_res a 2 in
    fill_slices (np_zeros R (shape a)) p (fun t =>
      let* s := np_slice a t in
      let* e := la_eigvalsh la s in
      let* m := py_min e in
      if xlt m x0 then Ok (np_scalar NaN) else Ok s).

(** gen.py:355-359, 362-366 *)
Definition pos_by_eig1 (la : linalg R) (value : X) (s : A) : res A :=
  let* sy := is_mat_symm s x0 in
  if ~~ sy then throw "wrongInput:non SymmMat" else
  let* (d, v) := la_eigh la s in
  let d := np_map (fun x => if xlt x x0 then value else x) d in
  let* dm := np_diag d in
  let* vd := np_matmul v dm in
  np_matmul vd (np_T v).
(** gen.py:350-367 *)
Definition sq_make_pos_by_eig (la : linalg R) (a : A) (value : X) : res A :=
  if ndim a == 2%N then pos_by_eig1 la value a else
  let* p := dim_res a 2 in
  fill_slices (np_zeros R (shape a)) p (fun t => let* s := np_slice a t in pos_by_eig1 la value s).

(** a.T @ b @ a  or  a @ b @ a.T *)
Definition lr1 (flag : lrflag) (b a : A) : res A :=
  match flag with
  | FlagR => let* x := np_matmul (np_T a) b in np_matmul x a
  | FlagL => let* x := np_matmul a b in np_matmul x (np_T a)
  | FlagOther => throw "wrong_input"
  end.
(** gen.py:369-412 *)
Definition lr_multiply (b a : A) (flag : lrflag) : res A :=
  if ndim b == 2%N then
    if (ndim a <= 2)%N then lr1 flag b a
    else
      match flag with
      | FlagOther => throw "wrong_input"
      | _ => let* a0 := np_slice a 0 in lr1 flag b a0
      end
  else
    match flag with
    | FlagOther => throw "wrong_input"
    | _ =>
      let* p := dim_res b 2 in
      let* k := dim_res a (if flag is FlagR then 1 else 0) in
      fill_slices (np_zeros R [:: k; k; p]) p (fun t =>
        let* s := np_slice b t in
        let* at_ := if (ndim a <= 2)%N then Ok a else np_slice a t in
        lr1 flag s at_)
    end.

(** inp_a_arr.shape = (inp_a_arr.size, 1) for 1-d arrays (done in place on the caller's array; the
    side effect is not modelled) *)
Definition as_col (a : A) : A := if ndim a == 1%N then np_expand 1 a else a.

(** gen.py:414-427 *)
Definition lr_multiply_by_vec (b a : A) : res A :=
  let a := as_col a in
  let* n := dim_res a 1 in
  fill_cols (np_zeros R [:: 1%N; n]) n (fun t =>
    let* v := np_col a t in
    let* s := if ndim b == 2%N then Ok b else np_slice b t in
    let* x := np_matmul v s in
    let* w := np_col a t in
    np_matmul x w).

(** gen.py:429-444 *)
Definition lr_divide_vec (la : linalg R) (b a : A) : res A :=
  let a := as_col a in
  if ndim b == 2%N then
    let* z := la_lstsq la b a in np_matmul (np_T a) z
  else
    let* n := dim_res a 1 in
    if n == 1%N then
      let* p := dim_res b 2 in
      fill_elems (np_zeros R [:: p]) p (fun t =>
        let* s := np_slice b t in let* z := la_lstsq la s a in np_matmul (np_T a) z)
    else
      fill_elems (np_zeros R [:: n]) n (fun t =>
        let* v := np_col a t in
        let* s := np_slice b t in let* z := la_lstsq la s v in np_matmul v z).

(** ------------------------------------------------------------------ SymmetricMatVector *)

(** gen.py:501-511: the pair (s_array, u_array) it returns, i.e. (eigenvectors, diagonal of
    eigenvalues); callers name them (u_array, s_array). *)
Definition array_svd (la : linalg R) (a : A) : res (A * A) :=
  let* p := if ndim a == 2%N then Ok 1%N else dim_res a 2 in
  let sz := if ndim a == 2%N then rcons (shape a) 1%N else shape a in
  foldM (fun us t =>
    let* s := np_slice a t in
    let* (d, v) := la_eigh la s in
    let* s' := np_set_slice us.1 t v in
    let* dm := np_diag d in
    let* u' := np_set_slice us.2 t dm in
    Ok (s', u')) (np_zeros R sz, np_zeros R sz) (iota 0 p).

(** gen.py:448-459 *)
Definition lr_svd_multiply (la : linalg R) (b a : A) (flag : lrflag) : res A :=
  let* (u, s) := array_svd la b in
  let* ua := match flag with
             | FlagL => let* at_ := mv_transpose a in r_multiply u at_ None false
             | FlagR => r_multiply u a None false
             | FlagOther => throw "wrongInput:flag"
             end in
  lr_multiply s ua flag.

(** gen.py:461-472 *)
Definition r_svd_multiply_by_vec (la : linalg R) (m v : A) : res A :=
  let* (u, s) := array_svd la m in
  let* uv := r_multiply_by_vec u v true in
  if ndim v != 2%N then throw "wrongInput:inp_vec_arr" else
  let* m0 := dim_res s 0 in
  let* v1 := dim_res uv 1 in
  fill_cols (np_zeros R [:: m0; v1]) v1 (fun t =>
    let* ut := np_slice u t in
    let* st := np_slice s t in
    let* x := np_matmul (np_T ut) st in
    let* w := np_col uv t in
    np_matmul x w).

(** gen.py:474-479 *)
Definition lr_svd_multiply_by_vec (la : linalg R) (b a : A) : res A :=
  let* (u, s) := array_svd la b in
  let* ua := r_multiply_by_vec u a true in
  lr_multiply_by_vec s ua.

(** 1 / np.diag(m) on a diagonal matrix *)
Definition diag_recip (m : A) : res A :=
  let* d := np_diag m in np_diag (np_map (fun x => xdiv x1 x) d).

(** gen.py:481-499 *)
Definition lr_svd_divide_vec (la : linalg R) (b a : A) : res A :=
  let* (u, s) := array_svd la b in
  let* ua := r_multiply_by_vec u a true in
  let* n := dim_res a 1 in
  let* p := dim_res b 2 in
  if p == 1%N then
    let* bi := diag_recip s in
    let* x := np_matmul bi ua in
    let* y := np_mul x ua in
    np_sum_axis 0 false y
  else
    fill_elems (np_zeros R [:: n]) n (fun i =>
      let* si := np_slice s i in
      let* bi := diag_recip si in
      let* w := np_col ua i in
      let* x := np_matmul bi w in
      np_matmul w x).

End Gen.
