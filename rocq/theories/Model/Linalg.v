(** numpy.linalg as an oracle.  The factorizations and solvers of numpy.linalg are external to /repo;
    the models take them as a record of functions on arrays.  The documented contracts are
    hypotheses of the theorems (Spec/LinalgSpec.v), never axioms. *)
From mathcomp Require Import all_ssreflect all_algebra.
From Verif.Model Require Import Py NP.
Set Implicit Arguments.
Unset Strict Implicit.
Unset Printing Implicit Defensive.
Local Open Scope ring_scope.

Record linalg (R : rcfType) := Linalg {
  la_eigh : arr (xnum R) -> res (arr (xnum R) * arr (xnum R));
  la_eigvalsh : arr (xnum R) -> res (arr (xnum R));
  la_eig : arr (xnum R) -> res (arr (xnum R) * arr (xnum R));
  la_svd : arr (xnum R) -> res (arr (xnum R) * arr (xnum R) * arr (xnum R));  (* full_matrices=True *)
  la_svdvals : arr (xnum R) -> res (arr (xnum R));                            (* compute_uv=False *)
  la_qr_complete : arr (xnum R) -> res (arr (xnum R) * arr (xnum R));
  la_qr : arr (xnum R) -> res (arr (xnum R) * arr (xnum R));                  (* mode='reduced' *)
  la_inv : arr (xnum R) -> res (arr (xnum R));
  la_pinv : arr (xnum R) -> res (arr (xnum R));
  la_lstsq : arr (xnum R) -> arr (xnum R) -> res (arr (xnum R));              (* first component *)
  la_det : arr (xnum R) -> res (xnum R) }.

Section NpLinalg.
Variable R : rcfType.
Notation X := (xnum R).
Notation A := (arr X).

(** np.finfo(float).eps = 2^-52 *)
Definition eps : X := Fin (2%:R ^- 52).

(** np.linalg.norm(a, np.inf): vectors: largest magnitude; matrices: largest row sum of
    magnitudes; other ranks raise ValueError (as does the maximum of nothing). *)
Definition norm_inf (a : A) : res X :=
  match shape a with
  | [:: _] => np_max (np_abs a)
  | [:: _; _] => let* s := np_sum_axis 1 false (np_abs a) in np_max s
  | _ => ValueError
  end.

(** np.linalg.norm(v): sqrt of the sum of squares of all entries *)
Definition norm2 (a : A) : X := xsqrt (xsum [seq xmul x x | x <- data a]).

(** np.linalg.matrix_rank(M): number of singular values above S.max() * max(M, N) * eps;
    arrays with fewer than two dimensions: int(not all(M == 0)) *)
Definition matrix_rank (la : linalg R) (a : A) : res nat :=
  if (ndim a < 2)%N then Ok (nat_of_bool (~~ all (fun x => xeq x x0) (data a)))
  else
    let* s := la_svdvals la a in
    let* mx := np_max s in
    let tol := xmul (xmul mx (Fin (maxn (dim a (ndim a - 2)) (dim a (ndim a - 1)))%:R)) eps in
    Ok (count (fun x => xgt x tol) (data s)).

(** np.diagonal of a matrix *)
Definition np_diagonal (a : A) : res A :=
  match shape a with
  | [:: m; n] => Ok (mkn [:: minn m n] (fun idx => getn NaN a [:: nth 0%N idx 0; nth 0%N idx 0]))
  | _ => ValueError
  end.

(** a.shape[k] *)
Definition dim_res (a : A) (k : nat) : res nat :=
  if (k < ndim a)%N then Ok (dim a k) else IndexError.

(** python's builtin min over a 1-d array *)
Definition py_min (a : A) : res X :=
  match data a with
  | x :: s => Ok (foldl (fun m y => if xlt y m then y else m) x s)
  | [::] => ValueError
  end.

(** a[i, j] *)
Definition np_at2 (a : A) (i j : nat) : res X :=
  match shape a with
  | [:: m; n] => if (i < m)%N && (j < n)%N then Ok (getn NaN a [:: i; j]) else IndexError
  | _ => IndexError
  end.

Fixpoint mapM {T U} (f : T -> res U) (s : seq T) : res (seq U) :=
  match s with
  | [::] => Ok [::]
  | x :: s' => let* y := f x in let* ys := mapM f s' in Ok (y :: ys)
  end.

End NpLinalg.
