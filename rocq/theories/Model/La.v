(** Model of gras/la/la.py. *)
From mathcomp Require Import all_ssreflect all_algebra.
Require Import Coq.Strings.String.
From Verif.Model Require Import Py NP Linalg Compare.
Set Implicit Arguments.
Unset Strict Implicit.
Unset Printing Implicit Defensive.
Import GRing.Theory.
Local Open Scope ring_scope.

(** A numeric argument: real or complex, array or scalar (numpy complex arrays are kept as a real and
    an imaginary array of the same shape). *)
Inductive ninp (R : Type) :=
| RealArr of arr (xnum R) | CplxArr of arr (xnum R) & arr (xnum R)
| RealScal of xnum R | CplxScal of xnum R & xnum R.

(** A "numeric scalar" argument: real, complex, or anything failing np.isscalar/is_numeric. *)
Inductive pynum (R : Type) := PReal of xnum R | PCplx of xnum R & xnum R | PNotNum.
Arguments PNotNum {R}.

(** Complex arithmetic after a complex array with an exactly zero imaginary part is passed on
    unchanged by try_treat_as_real is outside of the model. *)
Definition unmodelled {A} : res A := Err (PyExc "unmodelled"%string).

Section La.
Variable R : rcfType.
Notation X := (xnum R).
Notation A := (arr X).

(** la.py:7-17 *)
Definition is_mat_not_deg (la : linalg R) (q : A) (abs_tol : X) : res bool :=
  if xlt abs_tol x0 then throw "wrongInput:abs_tolNegative" else
  if xeq abs_tol x0 then Ok true else
  let* s := la_svdvals la q in
  let* min_sing := np_min s in
  Ok (~~ xlt min_sing abs_tol).

(** la.py:37-47 *)
Definition is_mat_symm (q : A) (abs_tol : X) : res bool :=
  if ndim q != 2%N then throw "wrongInput:nonSquareMat" else
  if dim q 0 != dim q 1 then throw "wrongInput:nonSquareMat" else
  let* o := abs_rel_compare q (np_T q) (TVal abs_tol) TNone (abs_op R) in
  Ok (co_equal o).

(** la.py:20-34 *)
Definition is_mat_pos_def (la : linalg R) (q : A) (abs_tol : X) (sem_def_on : bool) : res bool :=
  if xlt abs_tol x0 then throw "wrongInput:abs_tolNegative" else
  let* symm := is_mat_symm q abs_tol in
  if ~~ symm then throw "wrongInput:nonSymmMat" else
  let* eig_vec := la_eigvalsh la q in
  let* min_eig := py_min eig_vec in
  Ok (if sem_def_on then ~~ xlt min_eig (xopp abs_tol) else ~~ xle min_eig abs_tol).

(** o_mat[:, mask] = -o_mat[:, mask] *)
Definition neg_cols (a : A) (mask : seq bool) : A :=
  mkn (shape a) (fun idx =>
    if nth false mask (nth 0%N idx 1) then xopp (getn NaN a idx) else getn NaN a idx).

(** la.py:50-56 *)
Definition mat_orth (la : linalg R) (src : A) : res A :=
  let* (o, r) := la_qr_complete la src in
  let* d := np_diagonal r in
  let neg := [seq xlt x x0 | x <- data d] in
  let* n := dim_res o 1 in
  if (n < size neg)%N then ValueError else
  Ok (neg_cols o (neg ++ nseq (n - size neg) false)).

(** la.py:59-61 *)
Definition math_orth_col (la : linalg R) (src : A) : res A :=
  let* o := mat_orth la src in
  let* n := dim_res src 1 in
  np_cols o 0 n.

(** la.py:238-255; the default of tol_val is np.finfo(float).eps *)
Definition try_treat_as_real (inp : ninp R) (tol_val : pynum R) : res (ninp R) :=
  match tol_val with
  | PNotNum => throw "wrongInput:tol_val"
  | PCplx _ _ => TypeError
  | PReal tol =>
    if ~~ xgt tol x0 then throw "wrongInput:tol_val" else
    match inp with
    | RealArr _ | RealScal _ => Ok inp
    | CplxScal re im =>
        if xeq im x0 then Ok inp
        else if xlt (xabs im) tol then Ok (RealScal re) else throw "wrongInput:inp_mat"
    | CplxArr re im =>
        if all (fun x => xeq x x0) (data im) then Ok inp else
        let* nv := norm_inf im in
        if xlt nv tol then Ok (RealArr re) else throw "wrongInput:inp_mat"
    end
  end.

Definition default_tol : pynum R := PReal (eps R).

(** [try_treat_as_real(v)] followed by real array arithmetic *)
Definition real_arr (inp : ninp R) : res A :=
  let* r := try_treat_as_real inp default_tol in
  match r with
  | RealArr a => Ok a
  | RealScal _ => AttributeError
  | _ => unmodelled
  end.

(** v.shape[0] *)
Definition ninp_dim0 (inp : ninp R) : res nat :=
  match inp with
  | RealArr a | CplxArr a _ => dim_res a 0
  | _ => AttributeError
  end.

(** np.sum(u * v) *)
Definition dot_sum (u v : A) : res X := let* p := np_mul u v in Ok (np_sum p).

(** la.py:80: 1e-7 *)
Definition orth_tol : X := Fin (10%:R ^- 7).

(** la.py:79-106 *)
Definition orth_transl (src_inp dst_inp : ninp R) : res A :=
  let* n_dims := ninp_dim0 dst_inp in
  let* src := real_arr src_inp in
  let* dst := real_arr dst_inp in
  let* dst_sq := dot_sum dst dst in
  let* src_sq := dot_sum src src in
  if xeq dst_sq x0 then throw "wrongInput:dst_zero" else
  if xeq src_sq x0 then throw "wrongInput:src_zero" else
  let dst := np_divs dst (xsqrt dst_sq) in
  let src := np_divs src (xsqrt src_sq) in
  let* scal_prod := dot_sum src dst in
  let s_val := xsqrt (xmax (xsub x1 (xmul scal_prod scal_prod)) x0) in
  let* q := np_set_col (np_zeros R [:: n_dims; 2%N]) 0 (np_squeeze dst) in
  let* q :=
    if xgt (xabs s_val) orth_tol then
      let* t := np_sub src (np_scale scal_prod dst) in
      np_set_col q 1 (np_squeeze (np_divs t s_val))
    else np_set_col q 1 (np_scalar x0) in
  let s_mat := Arr [:: 2%N; 2%N]
    [:: xsub scal_prod x1; s_val; xopp s_val; xsub scal_prod x1] in
  let* qs := np_matmul q s_mat in
  let* qsq := np_matmul qs (np_T q) in
  np_add (np_eye R n_dims) qsq.

(** la.py:64-76: the loop fills o_arr[:, :, i_elem, i_vec]; the calls are made in the order of the
    loops (i_vec outermost). *)
Definition ml_orth_transl (src_mat dst_arr : A) : res A :=
  let n_elems := if (ndim dst_arr <= 2)%N then 1%N else dim dst_arr 2 in
  let n_vecs := if (ndim dst_arr <= 1)%N then 1%N else dim dst_arr 1 in
  let* n_dims := dim_res dst_arr 0 in
  let* src := np_reshape [:: n_dims; n_vecs] src_mat in
  let* dst := np_reshape [:: n_dims; n_vecs; n_elems] dst_arr in
  let* os := mapM (fun i_vec => mapM (fun i_elem =>
      let src_vec := mkn [:: n_dims; 1%N] (fun idx => getn NaN src [:: nth 0%N idx 0; i_vec]) in
      let dst_vec := mkn [:: n_dims; 1%N] (fun idx => getn NaN dst [:: nth 0%N idx 0; i_vec; i_elem]) in
      orth_transl (RealArr src_vec) (RealArr dst_vec)) (iota 0 n_elems)) (iota 0 n_vecs) in
  Ok (mkn [:: n_dims; n_dims; n_elems; n_vecs] (fun idx =>
    getn NaN (nth (np_scalar NaN) (nth [::] os (nth 0%N idx 3)) (nth 0%N idx 2))
         [:: nth 0%N idx 0; nth 0%N idx 1])).

(** v ** 2 *)
Definition np_sq (v : A) : A := np_map (fun x => xmul x x) v.

(** la.py:109-124 *)
Definition orth_transl_haus (src dst : A) : res A :=
  let src_n := np_divs src (xsqrt (np_sum (np_sq src))) in
  let dst_n := np_divs dst (xsqrt (np_sum (np_sq dst))) in
  let* w := np_sub src_n dst_n in
  let w := if ndim w == 1%N then np_expand 1 w else w in
  let w_norm := np_sum (np_sq w) in
  let r_mult := if xlt w_norm (Fin (10%:R ^- 14)) then x0 else xdiv (Fin 2%:R) w_norm in
  let* ww := np_matmul w (np_T w) in
  np_sub (np_eye R (np_size src)) (np_scale r_mult ww).

(** np.append(np.ones((1,)), np.zeros((n - 1,))) *)
Definition e_first (n : nat) : A := Arr [:: (1 + (n - 1))%N] (x1 :: nseq (n - 1) x0).

(** la.py:127-148; src_vec and dst_vec are real arrays *)
Definition orth_transl_max_dir (la : linalg R) (src dst src_max dst_max : A) : res A :=
  let n_dims := np_size src in
  if (1 < n_dims)%N then
    let e := e_first n_dims in
    let* o_src := orth_transl (RealArr e) (RealArr src) in
    let* o_dst := orth_transl (RealArr e) (RealArr dst) in
    let* v0 := np_cols o_src 1 (dim o_src 1) in
    let* u0 := np_cols o_dst 1 (dim o_dst 1) in
    let* a := np_col o_src 0 in
    let* b := np_col o_dst 0 in
    let* a1 := np_matmul (np_T v0) src_max in
    let* b1 := np_matmul (np_T u0) dst_max in
    let* a1c := np_reshape [:: np_size a1; 1%N] a1 in
    let* b1c := np_reshape [:: np_size b1; 1%N] b1 in
    let* (o1s, r1s) := la_qr_complete la a1c in
    let* (o1d, r1d) := la_qr_complete la b1c in
    let* rs := np_at2 r1s 0 0 in
    let* rd := np_at2 r1d 0 0 in
    let* o1d :=
      if xgt rs x0 (+) xgt rd x0 then
        let* c := np_col o1d 0 in np_set_col o1d 0 (np_neg c)
      else Ok o1d in
    let* t1 := np_matmul u0 o1d in
    let* t2 := np_matmul t1 (np_T o1s) in
    let* t3 := np_matmul t2 (np_T v0) in
    let* bc := np_reshape [:: np_size b; 1%N] b in
    let* outer := np_mul bc a in
    np_add t3 outer
  else np_mul (np_map (@xsign R) src) (np_map (@xsign R) dst).

(** la.py:151-171 *)
Definition orth_transl_max_tr (la : linalg R) (src dst max_mat : A) : res A :=
  let* n_dims := dim_res src 0 in
  if n_dims == 1%N then Ok (np_ones R [:: 1%N; 1%N]) else
  let e := e_first n_dims in
  let* o_src := orth_transl (RealArr e) (RealArr src) in
  let* o_dst := orth_transl (RealArr e) (RealArr dst) in
  let o_src_t := np_T o_src in
  let* v0 := np_rows o_src_t 1 (dim o_src_t 0) in
  let* u0 := np_cols o_dst 1 (dim o_dst 1) in
  let* sc := np_col o_src 0 in
  let* dc := np_col o_dst 0 in
  let src_n := np_expand 1 sc in
  let dst_n := np_expand 1 dc in
  let* k1 := np_matmul v0 max_mat in
  let* k := np_matmul k1 u0 in
  let* p := la_svd la k in
  let: (m_mat, _, n_mat) := p in
  let* mn := np_matmul m_mat n_mat in
  let sline := np_T mn in
  let* t1 := np_matmul u0 sline in
  let* t2 := np_matmul t1 v0 in
  let* outer := np_matmul dst_n (np_T src_n) in
  np_add t2 outer.

(** la.py:174-208 *)
Definition orth_transl_qr (la : linalg R) (src_inp dst_inp : ninp R) : res A :=
  let* src := real_arr src_inp in
  let* dst := real_arr dst_inp in
  let* dst_sq := dot_sum dst dst in
  let* src_sq := dot_sum src src in
  if xeq dst_sq x0 then throw "wrongInput:dst_zero" else
  if xeq src_sq x0 then throw "wrongInput:src_zero" else
  let src := if ndim src == 1%N then np_expand 1 src else src in
  let dst := if ndim dst == 1%N then np_expand 1 dst else dst in
  let* n_dims := dim_res src 0 in
  if n_dims == 1%N then
    let* p := np_matmul src dst in Ok (np_map (@xsign R) p)
  else
    let* h := np_hstack2 dst src in
    let* (q, r) := la_qr la h in
    let* c0 := np_matmul (np_T dst) src in
    let cos_val := np_divs c0 (xsqrt (xmul dst_sq src_sq)) in
    let* cc := np_mul cos_val cos_val in
    let sin_val := np_neg (np_sqrt (np_map (fun x => xsub x1 x) cc)) in
    let* r00 := np_at2 r 0 0 in
    let* r11 := np_at2 r 1 1 in
    let sin_val := if xlt (xmul r00 r11) x0 then np_neg sin_val else sin_val in
    let* q0 := np_col q 0 in
    let* q1 := np_col q 1 in
    let cos_1 := np_map (fun x => xsub x x1) cos_val in
    let* a1 := np_mul q0 cos_1 in
    let* a2 := np_mul q1 sin_val in
    let* c1 := np_add a1 a2 in
    let* qs := np_set_col (np_zeros R [:: n_dims; 2%N]) 0 c1 in
    let* b1 := np_mul (np_neg q0) sin_val in
    let* b2 := np_mul q1 cos_1 in
    let* c2 := np_add b1 b2 in
    let* qs := np_set_col qs 1 c2 in
    let* t := np_matmul qs (np_T q) in
    np_add (np_eye R n_dims) t.

(** the value of a positive numeric scalar after try_treat_as_real; None: a complex number with
    imaginary part exactly 0, returned unchanged (unmodelled) *)
Definition scal_of (t : pynum R) : res X :=
  match t with
  | PReal x => Ok x
  | PCplx re im =>
      let* r := try_treat_as_real (CplxScal re im) default_tol in
      if r is RealScal x then Ok x else unmodelled
  | PNotNum => unmodelled
  end.

(** la.py:211-222 *)
Definition reg_pos_def_mat (la : linalg R) (inp_mat : A) (reg_tol : pynum R) : res A :=
  let pos := match reg_tol with PReal x => xgt x x0 | PCplx re _ => xgt re x0 | PNotNum => false end in
  if ~~ pos then throw "wrongInput:reg_tol" else
  let* tol := scal_of reg_tol in
  let* symm := is_mat_symm inp_mat x0 in
  if ~~ symm then throw "wrongInput:inp_mat" else
  let* (d, v) := la_eig la inp_mat in
  let* m := np_diag (np_map (fun x => xmax x0 (xsub tol x)) d) in
  let* vm := np_matmul v m in
  let* m := np_matmul vm (np_T v) in
  let* r := np_add inp_mat m in
  let* r2 := np_add r (np_T r) in
  Ok (np_scale (Fin (1 / 2%:R)) r2).

(** la.py:225-235 *)
Definition sqrtm_pos (la : linalg R) (q : A) (abs_tol : X) : res A :=
  if xlt abs_tol x0 then throw "wrongInput:abs_tolNegative" else
  let* symm := is_mat_symm q abs_tol in
  if ~~ symm then throw "wrongInput:nonSymmMat" else
  let* (d, v) := la_eigh la q in
  if has (fun x => xlt x (xopp abs_tol)) (data d) then throw "wrongInput:notPosSemDef" else
  let d := np_map (fun x => if xlt x x0 then x0 else x) d in
  let* dm := np_diag (np_sqrt d) in
  let* vd := np_matmul v dm in
  np_matmul vd (np_T v).

(** la.py:258-265 *)
Definition reg_mat (la : linalg R) (inp_mat : A) (reg_tol : pynum R) : res A :=
  match reg_tol with
  | PNotNum => throw "wrongInput:reg_tol"
  | PCplx _ _ => TypeError
  | PReal tol =>
    if ~~ xgt tol x0 then throw "wrongInput:reg_tol" else
    let* p := la_svd la inp_mat in
    let: (u, s, v) := p in
    let* sm := np_diag (np_map (fun x => xmax x tol) s) in
    let* us := np_matmul u sm in
    np_matmul us v
  end.

End La.
