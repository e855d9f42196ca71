(** Model of get_property and the getters based on it (abasicellipsoid/ABasicEllipsoid.py:10-20, 97-136;
    aellipsoid/AEllipsoid.py:10-23, 73-79; ellipsoid/Ellipsoid.py:14-21; hyperplane/Hyperplane.py:9-20), and of
    from_rep_mat (Ellipsoid.py:100-107, Hyperplane.py:63-70) on top of Model/EllHeap.v.  The isinstance checks pass. *)
From mathcomp Require Import all_ssreflect all_algebra.
Require Import Coq.Strings.String.
From Verif.Model Require Import Py NP Linalg La Ellipsoid Hyperplane EllHeap.
Set Implicit Arguments.
Unset Strict Implicit.
Unset Printing Implicit Defensive.
Import GRing.Theory.
Local Open Scope ring_scope.

Section GetProp.
Variable R : rcfType.
Notation X := (xnum R).
Notation A := (arr X).

(** d[k] *)
Definition lookup (d : seq (string * string)) (k : string) : option string :=
  ohead [seq p.2 | p <- d & String.eqb p.1 k].

(** ABasicEllipsoid.py:13-20 *)
Definition basic_aliases : seq (string * string) :=
  [:: ("absTol", "_abs_tol"); ("abs_tol", "_abs_tol"); ("_abs_tol", "_abs_tol");
      ("relTol", "_rel_tol"); ("rel_tol", "_rel_tol"); ("_rel_tol", "_rel_tol")]%string.
(** AEllipsoid.py:13-22 and Ellipsoid.py:17-20 *)
Definition ell_aliases : seq (string * string) := basic_aliases ++ (
  [:: ("nPlot2dPoints", "_n_plot_2d_points"); ("n_plot_2d_points", "_n_plot_2d_points"); ("_n_plot_2d_points", "_n_plot_2d_points");
      ("nPlot3dPoints", "_n_plot_3d_points"); ("n_plot_3d_points", "_n_plot_3d_points"); ("_n_plot_3d_points", "_n_plot_3d_points");
      ("centerVec", "_center_vec"); ("center_vec", "_center_vec"); ("_center_vec", "_center_vec");
      ("shapeMat", "_shape_mat"); ("shape_mat", "_shape_mat"); ("_shape_mat", "_shape_mat")])%string.
(** Hyperplane.py:11-20 *)
Definition hp_aliases : seq (string * string) := basic_aliases ++ (
  [:: ("normalVec", "_normal_vec"); ("normal_vec", "_normal_vec"); ("_normal_vec", "_normal_vec");
      ("normal", "_normal_vec"); ("_normal", "_normal_vec"); ("shift", "_shift"); ("_shift", "_shift")])%string.

(** the value of an attribute: a number or an array *)
Inductive pval := PNum of X | PArr of A.
(** prop_arr[i] = value: an array is accepted if it has one element *)
Definition store (v : pval) : res X :=
  match v with
  | PNum x => Ok x
  | PArr a => if data a is [:: x] then Ok x else ValueError
  end.

(** obj.__getattribute__(name) for the names of the dictionaries *)
Definition ell_attr (e : ell R) (name : string) : res pval :=
  if String.eqb name "_abs_tol" then Ok (PNum (p_abs (e_props e)))
  else if String.eqb name "_rel_tol" then Ok (PNum (p_rel (e_props e)))
  else if String.eqb name "_n_plot_2d_points" then Ok (PNum (Fin (p_n2 (e_props e))%:R))
  else if String.eqb name "_n_plot_3d_points" then Ok (PNum (Fin (p_n3 (e_props e))%:R))
  else if String.eqb name "_center_vec" then Ok (PArr (e_center e))
  else if String.eqb name "_shape_mat" then Ok (PArr (e_shape e))
  else AttributeError.
Definition hp_attr (h : hp R) (name : string) : res pval :=
  if String.eqb name "_abs_tol" then Ok (PNum (h_abs h))
  else if String.eqb name "_rel_tol" then Ok (PNum (h_rel h))
  else if String.eqb name "_normal_vec" then Ok (PArr (h_normal h))
  else if String.eqb name "_shift" then Ok (PNum (h_shift h))
  else AttributeError.

Section Generic.
Variables (T : Type) (aliases : seq (string * string)) (attr : T -> string -> res pval).
(** ABasicEllipsoid.py:97-125; [f] is f_prop_fun, and the second component is there if [f] is.  The argument is
    flattened before its shape is taken. *)
Definition get_property (a : arr T) (name : string) (f : option (A -> res X)) : res (A * option X) :=
  match data a with
  | [::] => Ok (Arr [:: 0%N] [::], if f is Some _ then Some NaN else None)
  | xs =>
    if lookup aliases name is Some p then
      let* vs := mapM (fun x => let* v := attr x p in store v) xs in
      let prop_arr := Arr [:: size xs] vs in
      if f is Some g then let* v := g prop_arr in Ok (prop_arr, Some v) else Ok (prop_arr, None)
    else KeyError
  end.
End Generic.

Definition ell_property := get_property ell_aliases ell_attr.
Definition hp_property := get_property hp_aliases hp_attr.

(** ABasicEllipsoid.py:127-136 and AEllipsoid.py:73-79 *)
Definition get_abs_tol (a : arr (ell R)) (f : option (A -> res X)) := ell_property a "_abs_tol" f.
Definition get_rel_tol (a : arr (ell R)) (f : option (A -> res X)) := ell_property a "_rel_tol" f.
Definition get_n_plot_2d_points (a : arr (ell R)) := ell_property a "_n_plot_2d_points" None.
Definition get_n_plot_3d_points (a : arr (ell R)) := ell_property a "_n_plot_3d_points" None.
End GetProp.

(** ------------------------------------------------------------ from_rep_mat *)
(** np.array(sizes).flatten() *)
Definition flat_sizes (s : sizes) : sizes :=
  match s with
  | SInt a => SInt (Arr [:: size (data a)] (data a))
  | SFloat a => SFloat (Arr [:: size (data a)] (data a))
  end.

(** Ellipsoid.py:100-107, Hyperplane.py:63-70: [mk] is the constructor call on all arguments but the last *)
Definition from_rep_mat T (mk : res T) (copy1 : T -> res T) (s : option sizes) : hres T (arr nat) :=
  if s is Some sz then
    hbind (hlift mk) (fun v => hbind (halloc v) (fun r => rep_mat copy1 r (flat_sizes sz)))
  else hlift (throw "wrongInput").
