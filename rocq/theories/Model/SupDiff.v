(** Model of sup_geom_diff_2d and sup_geom_diff_3d (gras/geom/sup/sup.py:31-185).
    [hull] is scipy.spatial.ConvexHull(...).simplices: an argument.  The arrays are real; lstsq as in
    Model/Sup.v. *)
From mathcomp Require Import all_ssreflect all_algebra.
Require Import Coq.Strings.String.
From Verif.Model Require Import Py NP NP3 Linalg.
Set Implicit Arguments.
Unset Strict Implicit.
Unset Printing Implicit Defensive.
Import GRing.Theory Num.Theory.
Local Open Scope ring_scope.

Section SupDiff.
Variable R : rcfType.
Notation X := (xnum R).
Notation A := (arr X).
Notation get := (getn (@NaN R)).

(** sup.py:36-38 and 40-42; max(()) is a ValueError *)
Definition check_vec (tag : string) (rho : A) : res unit :=
  if shape rho is [::] then ValueError
  else if np_size rho != foldr maxn 0%N (shape rho) then throw tag else Ok tt.
(** v.shape[0] *)
Definition len0 (v : A) : res nat := if shape v is n :: _ then Ok n else IndexError.

(** sup.py:32-72 and 119-157, the tags of the two comparisons of lengths being different: the difference of the
    support functions.  (A 0-dimensional rho never reaches the line that would expand it.) *)
Definition geom_checks (tag_rho tag_l : string) (dims : nat) (rho1 rho2 l : A) : res A :=
  if ndim l != 2%N then throw "wrongInput:l_mat" else
  let* _ := check_vec "wrongInput:rho1_vec" rho1 in
  let* _ := check_vec "wrongInput:rho2_vec" rho2 in
  let rho1 := np_squeeze rho1 in let rho2 := np_squeeze rho2 in
  let* n1 := len0 rho1 in let* n2 := len0 rho2 in
  if n1 != n2 then throw tag_rho else
  if n1 != dim l 1 then throw tag_l else
  if dim l 0 != dims then throw "wrongInput:l_mat" else
  let* diff := np_sub rho1 rho2 in
  if has (fun x => xle x x0) (data diff) then throw "wrongInput:rho_diff_vec" else Ok diff.

(** ------------------------------------------------------------ the plane *)
Variable la : linalg R.

(** sup.py:78-80 *)
Definition face_length (n : nat) (f : nat * nat) : int :=
  let d := (f.2)%:Z - (f.1)%:Z in if d < -1 then n%:Z + d else d.

(** sup.py:90-91, 102: the columns s_left - s_right and s_dir *)
Definition edge_mat (s : A) (i j k : nat) : A :=
  mkn [:: 2; 2]%N (fun idx => let r := nth 0%N idx 0 in
    if nth 0%N idx 1 == 0%N then xsub (get s [:: r; i]) (get s [:: r; j]) else get s [:: r; k]).
Definition edge_rhs (s : A) (i : nat) : A := mkn [:: 2; 1]%N (fun idx => get s [:: nth 0%N idx 0; i]).

(** sup.py:97-109 for one direction *)
Definition visit_dir (n : nat) (s : A) (i j : nat) (st : nat * seq X) : res (nat * seq X) :=
  let: (ind_dir, s_norm) := st in
  let ind_dir := ind_dir.+1 in
  let ind_dir := if (n < ind_dir)%N then 0%N else ind_dir in
  if (n <= ind_dir)%N then IndexError else
  let* x := la_lstsq la (edge_mat s i j ind_dir) (edge_rhs s i) in
  let s_val := get x [:: 1; 0]%N in
  if xlt s_val x0 then throw "wrongState:s_val" else
  Ok (ind_dir, set_nth x0 s_norm ind_dir s_val).
Fixpoint visit_dirs (n : nat) (s : A) (i j : nat) (count : nat) (st : nat * seq X) : res (nat * seq X) :=
  if count is c.+1 then let* st' := visit_dir n s i j st in visit_dirs n s i j c st' else Ok st.

(** sup.py:85-109 for one face *)
Definition visit_face (n : nat) (s : A) (s_norm : seq X) (f : nat * nat) : res (seq X) :=
  let: (i, j) := f in
  if face_length n f <= 1 then Ok s_norm else
  if (n <= i)%N || (n <= j)%N then IndexError else
  let* (_, s_norm') := visit_dirs n s i j (`|face_length n f|%N).-1 (i, s_norm) in
  Ok s_norm'.

(** sup.py:31-113 *)
Definition sup_geom_diff_2d (hull : A -> res (seq (nat * nat))) (rho1 rho2 l : A) : res A :=
  let* diff := geom_checks "wrongInput:rho1_vec,rho2_vec" "wrongInput:rho1_vec,l_mat" 2 rho1 rho2 l in
  let n := dim l 1 in
  let* s := np_div l (np_tile_rows diff 2) in
  let* faces := hull (np_T s) in
  let* s_norm := foldM (visit_face n s) (nseq n x1) faces in
  np_div diff (Arr [:: n] s_norm).

(** ------------------------------------------------------------ space *)
Definition x3 := (X * X * X)%type.
Definition xcol (s : A) (k : nat) : x3 := (get s [:: 0; k]%N, get s [:: 1; k]%N, get s [:: 2; k]%N).
Definition sub3 (a b : x3) : x3 :=
  let: (a0, a1, a2) := a in let: (b0, b1, b2) := b in (xsub a0 b0, xsub a1 b1, xsub a2 b2).
Definition opp3 (a : x3) : x3 := let: (a0, a1, a2) := a in (xopp a0, xopp a1, xopp a2).
(** np.cross *)
Definition cross3 (a b : x3) : x3 :=
  let: (a0, a1, a2) := a in let: (b0, b1, b2) := b in
  (xsub (xmul a1 b2) (xmul a2 b1), xsub (xmul a2 b0) (xmul a0 b2), xsub (xmul a0 b1) (xmul a1 b0)).
(** np.dot *)
Definition dot3 (a b : x3) : X :=
  let: (a0, a1, a2) := a in let: (b0, b1, b2) := b in xadd (xadd (xmul a0 b0) (xmul a1 b1)) (xmul a2 b2).

(** __ABS_TOL, sup.py:117 *)
Definition tol3 : R := 10%:R ^- 5.

(** sup.py:166-181: the distance along the ray to the triangle, if the ray is taken to meet it *)
Definition hit (s : A) (k : nat) (f : nat * nat * nat) : option X :=
  let: (a, b, c) := f in
  let t0 := xcol s a in
  let x1_vec := sub3 (xcol s b) t0 in
  let x2_vec := sub3 (xcol s c) t0 in
  let norm1 := cross3 (xcol s k) x2_vec in
  let det := dot3 x1_vec norm1 in
  if xgt (xabs det) (Fin tol3) then
    let inv_det := xdiv x1 det in
    let s_point := opp3 t0 in
    let u := xmul inv_det (dot3 s_point norm1) in
    if xge u (Fin (- tol3)) then
      let norm2 := cross3 s_point x1_vec in
      let v := xmul inv_det (dot3 (xcol s k) norm2) in
      if xge v (Fin (- tol3)) && xle (xadd u v) (Fin (1 + tol3)) then
        let t := xmul inv_det (dot3 x2_vec norm2) in
        if xgt t x0 then Some t else None
      else None
    else None
  else None.

(** sup.py:165-181: the last triangle met; 0 if there is none *)
Definition ray_dist (s : A) (fs : seq (nat * nat * nat)) (k : nat) : X :=
  foldl (fun d f => odflt d (hit s k f)) x0 fs.

(** sup.py:116-185 *)
Definition sup_geom_diff_3d (hull : A -> res (seq (nat * nat * nat))) (rho1 rho2 l : A) : res A :=
  let* diff := geom_checks "wrongInput:rho1_vec, rho2_vec" "wrongInput:rho1_vec, l_mat" 3 rho1 rho2 l in
  let n := dim l 1 in
  let* s := np_div l (np_tile_rows diff 3) in
  let* faces := hull (np_T s) in
  if has (fun f : nat * nat * nat => let: (a, b, c) := f in [|| n <= a, n <= b | n <= c]%N) faces && (0 < n)%N then IndexError else
  np_div diff (Arr [:: n] [seq ray_dist s faces k | k <- iota 0 n]).

End SupDiff.
