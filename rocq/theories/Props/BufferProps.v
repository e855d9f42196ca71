(** C79: the arrays held by ellipsoids and hyperplanes are not shared with the caller.
    The model is a heap of arrays: a program makes arrays, writes to them, passes them to constructors and setters and
    gets arrays from getters; objects hold references into the heap. [run] runs a program on the heap and [vrun] runs it
    with objects and arrays as plain values, where nothing is ever shared. *)
From mathcomp Require Import all_ssreflect all_algebra.
Require Import Coq.Strings.String.
From Verif.Model Require Import Py NP Linalg La Ellipsoid Hyperplane EllHeap Buffers.
From Verif.Spec Require Import MatSpec LinalgSpec EllSpec EllipsoidSpec HypSpec BufferSpec.
From Verif.Proof Require Import BufferProof.
Import Order.Theory GRing.Theory Num.Theory.
Local Open Scope ring_scope.

(** every program has the same results, and sees the same arrays and objects, as if nothing was shared *)
Theorem C79_refines :
  forall (R : rcfType) (la : linalg R) cfg (acts : seq (act R)),
  let s := run la cfg acts (St [::] [::] [::]) in
  let w := vrun la cfg acts (VSt [::] [::]) in
  [/\ s.2 = w.2, view_arrays s.1 = map Some (arrays w.1) & view_values s.1 = map Some (values w.1)].
Proof. exact: run_refines. Qed.
Print Assumptions C79_refines.

(** an object is changed only by its own setters and projection in place *)
Theorem C79_object :
  forall (R : rcfType) (la : linalg R) cfg (a b : seq (act R)) r v,
  onth (view_values (run la cfg a (St [::] [::] [::])).1) r = Some (Some v) ->
  all (fun x => ~~ changes_obj r x) b ->
  onth (view_values (run la cfg (a ++ b) (St [::] [::] [::])).1) r = Some (Some v).
Proof. exact: run_object. Qed.
Print Assumptions C79_object.

(** an array of the caller, passed in or handed out, is changed only by the caller's own writes to it *)
Theorem C79_array :
  forall (R : rcfType) (la : linalg R) cfg (a b : seq (act R)) k v,
  onth (view_arrays (run la cfg a (St [::] [::] [::])).1) k = Some (Some v) ->
  all (fun x => ~~ changes_arr k x) b ->
  onth (view_arrays (run la cfg (a ++ b) (St [::] [::] [::])).1) k = Some (Some v).
Proof. exact: run_array. Qed.
Print Assumptions C79_array.

(** an ellipsoid stays what it was made from, whatever is done afterwards to the arrays it was made from *)
Theorem C79_ellipsoid :
  forall (R : rcfType) (la : linalg R) cfg k p t n (c : 'cV[R]_n) (Q : 'M[R]_n) b,
  eigvalsh_ok la -> props_of cfg k p t -> symm Q -> psd Q -> all (fun x => ~~ changes_obj 0 x) b ->
  onth (view_values (run la cfg ([:: ANew (vec c); ANew (mat Q); AMk (NBoth 0 1) k] ++ b) (St [::] [::] [::])).1) 0 =
  Some (Some (VE (Ell (vec c) (mat Q) p))).
Proof. exact: ell_keeps. Qed.
Print Assumptions C79_ellipsoid.

Theorem C79_hyperplane :
  forall (R : rcfType) (la : linalg R) cfg t r k a d n (v : 'cV[R]_n) s b,
  tols_of cfg t r -> (0 < n)%N -> odflt (Fin t) (k_abs k) = Fin a -> odflt (Fin r) (k_rel k) = Fin d -> 0 < a -> 0 < d ->
  all (fun x => ~~ changes_obj 0 x) b ->
  onth (view_values (run la cfg ([:: ANew (vec v); AMkHp 0 (Fin s) k] ++ b) (St [::] [::] [::])).1) 0 =
  Some (Some (VH (Hp (vec v) (Fin s) (Fin a) (Fin d)))).
Proof. exact: hp_keeps. Qed.
Print Assumptions C79_hyperplane.

(** the caller overwrites the array a hyperplane was made from and one that parameters returned *)
Example C79_nonvacuous : forall (R : rcfType) (la : linalg R) (v w : 'cV[R]_2),
  let cfg := Props (Fin 1) (Fin 1) 2 2 : props R in
  let acts := [:: ANew (vec v); AMkHp 0 (Fin 1) (no_kw R); AWrite 0 (vec w); AGet R GParameters 0; AWrite 1 (vec w);
                  AGet R GParameters 0; ADup R 0; AGet R GCenter 0] in
  let s := run la cfg acts (St [::] [::] [::]) in
  [/\ s.2 = [:: Ok tt; Ok tt; Ok tt; Ok tt; Ok tt; Ok tt; Ok tt; AttributeError],
      view_arrays s.1 = [:: Some (vec w); Some (vec w); Some (vec v)] &
      view_values s.1 = [:: Some (VH (Hp (vec v) (Fin 1) (Fin 1) (Fin 1))); Some (VH (Hp (vec v) (Fin 1) (Fin 1) (Fin 1)))]].
Proof. by move=> R la v w cfg; apply: (@keeps_example R la cfg v w 1 1); split; rewrite ?ltr01. Qed.
