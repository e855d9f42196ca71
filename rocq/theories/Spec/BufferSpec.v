(** What a program sees when arrays and objects are plain values: no sharing, so that a change of an array
    concerns this array only and an object changes only when it is the target of a change.
    From Model/Buffers.v only the data types are used. *)
From mathcomp Require Import all_ssreflect all_algebra.
Require Import Coq.Strings.String.
From Verif.Model Require Import Py NP NP3 Linalg La Core EllGeom Ellipsoid Hyperplane EllHeap Buffers.
Set Implicit Arguments.
Unset Strict Implicit.
Unset Printing Implicit Defensive.
Import GRing.Theory.
Local Open Scope ring_scope.

Section BufferSpec.
Variable R : rcfType.
Notation X := (xnum R).
Notation A := (arr X).
Variable la : linalg R.
Variable cfg : props R.

Definition onth T (s : seq T) (i : nat) : option T := ohead (drop i s).
Definition upd T (s : seq T) (i : nat) (x : T) : seq T := take i s ++ (if (i < size s)%N then [:: x] else [::]) ++ drop i.+1 s.

Inductive vobj := VE of ell R | VH of hp R.
Record vst := VSt { arrays : seq A; values : seq vobj }.

(** what the program sees of a state of the heap *)
Definition view_arrays (s : st R) : seq (option A) := [seq onth (bufs s) l | l <- known s].
Definition view_obj (b : seq A) (o : bobj R) : option vobj :=
  match o with
  | OE c q p => if (onth b c, onth b q) is (Some x, Some y) then Some (VE (Ell x y p)) else None
  | OH n s a r => if onth b n is Some x then Some (VH (Hp x s a r)) else None
  end.
Definition view_values (s : st R) : seq (option vobj) := map (view_obj (bufs s)) (objs s).

Definition make (w : vst) (r : res vobj) : vst * res unit :=
  match r with Ok v => (VSt (arrays w) (rcons (values w) v), Ok tt) | Err e => (w, Err e) end.
Definition give (w : vst) (r : res (seq A)) : vst * res unit :=
  match r with Ok l => (VSt (arrays w ++ l) (values w), Ok tt) | Err e => (w, Err e) end.
Definition change (w : vst) (i : nat) (r : res vobj) : vst * res unit :=
  match r with Ok v => (VSt (arrays w) (upd (values w) i v), Ok tt) | Err e => (w, Err e) end.
Definition get_arr (w : vst) k (f : A -> vst * res unit) := if onth (arrays w) k is Some a then f a else (w, unmodelled).
Definition get_val (w : vst) k (f : vobj -> vst * res unit) := if onth (values w) k is Some a then f a else (w, unmodelled).
Definition vell (r : res (ell R)) : res vobj := let* e := r in Ok (VE e).
Definition vhp (r : res (hp R)) : res vobj := let* e := r in Ok (VH e).

Definition vstep (w : vst) (a : act R) : vst * res unit :=
  match a with
  | ANew x => (VSt (rcons (arrays w) x) (values w), Ok tt)
  | AWrite k x => get_arr w k (fun _ => (VSt (upd (arrays w) k x) (values w), Ok tt))
  | AMk NNone kw => make w (vell (mk_ell la cfg (@CNone R) kw))
  | AMk (NShape k) kw => get_arr w k (fun q => make w (vell (mk_ell la cfg (CShape (RealArr q)) kw)))
  | AMk (NBoth k1 k2) kw => get_arr w k1 (fun c => get_arr w k2 (fun q =>
      make w (vell (mk_ell la cfg (CBoth (RealArr c) (RealArr q)) kw))))
  | AMkHp k x kw => get_arr w k (fun n => make w (vhp (mk_hp cfg (RealArr n) (RealScal x) kw)))
  | AGet g r => get_val w r (fun v => give w
      match g, v with
      | GCenter, VE e => Ok [:: e_center e]
      | GShape, VE e => Ok [:: e_shape e]
      | GParameters, VE e => Ok [:: e_center e; e_shape e]
      | GParameters, VH h => Ok [:: h_normal h]
      | _, VH _ => AttributeError
      end)
  | ADup r => get_val w r (fun v => make w match v with VE e => vell (single_copy la cfg e) | VH h => vhp (hp_single_copy cfg h) end)
  | ASetCenter r k => get_val w r (fun v => get_arr w k (fun x =>
      if v is VE e then change w r (let* c := set_center (e_abs e) (RealArr x) in Ok (VE (Ell c (e_shape e) (e_props e))))
      else (w, unmodelled)))
  | ASetShape r k => get_val w r (fun v => get_arr w k (fun x =>
      if v is VE e then change w r (let* q := set_shape la (e_abs e) (RealArr x) in Ok (VE (Ell (e_center e) q (e_props e))))
      else (w, unmodelled)))
  | AProject r k => get_val w r (fun v => get_arr w k (fun b =>
      if v is VE e then
        match (let* z := (let* bq := np_matmul (np_T b) (e_shape e) in np_matmul bq b) in set_shape la (e_abs e) (RealArr z)) with
        | Err x => (w, Err x)
        | Ok q =>
          let w1 := VSt (arrays w) (upd (values w) r (VE (Ell (e_center e) q (e_props e)))) in
          change w1 r (let* z := np_matmul (np_T b) (e_center e) in
                       let* c := set_center (e_abs e) (RealArr z) in Ok (VE (Ell c q (e_props e))))
        end
      else (w, unmodelled)))
  end.
Fixpoint vrun (acts : seq (act R)) (w : vst) : vst * seq (res unit) :=
  if acts is a :: acts' then let (w1, r) := vstep w a in let (w2, rs) := vrun acts' w1 in (w2, r :: rs) else (w, [::]).

(** an action meant to change the object r, or the array k *)
Definition changes_obj (r : nat) (a : act R) : bool :=
  match a with ASetCenter i _ | ASetShape i _ | AProject i _ => i == r | _ => false end.
Definition changes_arr (k : nat) (a : act R) : bool := if a is AWrite i _ then i == k else false.

End BufferSpec.
