(** Model of gen/common/common.py:79-87 [is_member] and of the numpy functions it calls.
    Elements range over a type [A] with a three-way comparison [cmp] (numpy's sort order).
    Simplification: both arguments are taken as flat (1-D) arrays of one element type; numpy's
    promotion of mixed element types is not modelled. *)
Require Import Coq.Lists.List Coq.Arith.PeanoNat.
Import ListNotations.

Section IsMember.
Context {A : Type} (cmp : A -> A -> comparison).

Definition ceq (x y : A) : bool := match cmp x y with Eq => true | _ => false end.

(** np.isin(a, b) for one element *)
Definition isin1 (x : A) (b : list A) : bool := existsb (ceq x) b.

(** np.isin(a, b): elementwise membership mask *)
Definition np_isin (a b : list A) : list bool := map (fun x => isin1 x b) a.

(** v[mask]: boolean-mask selection *)
Fixpoint mask_sel {B} (v : list B) (m : list bool) : list B :=
  match v, m with
  | x :: v', true :: m' => x :: mask_sel v' m'
  | _ :: v', false :: m' => mask_sel v' m'
  | _, _ => []
  end.

Fixpoint insert_uniq (x : A) (l : list A) : list A :=
  match l with
  | [] => [x]
  | y :: l' => match cmp x y with
               | Lt => x :: y :: l'
               | Eq => y :: l'
               | Gt => y :: insert_uniq x l'
               end
  end.

(** np.unique(v): sorted distinct elements *)
Definition np_unique (v : list A) : list A := fold_right insert_uniq [] v.

Fixpoint index_of (x : A) (l : list A) : nat :=
  match l with
  | [] => 0
  | y :: l' => if ceq x y then 0 else S (index_of x l')
  end.

(** np.unique(v, return_index=True)[1]: first occurrence in v of each unique element *)
Definition np_unique_index (v : list A) : list nat := map (fun u => index_of u v) (np_unique v).

(** np.unique(v, return_inverse=True)[1]: position in the unique array of each element of v *)
Definition np_unique_inverse (v : list A) : list nat := map (fun x => index_of x (np_unique v)) v.

(** common.py:79-87.  The integer take common_ind_vec[common_inv_vec] raises IndexError when out of
    range; [None] below stands for that. *)
Definition take_idx {B} (v : list B) (idx : list nat) : option (list B) :=
  fold_right (fun i acc => match nth_error v i, acc with
                           | Some x, Some l => Some (x :: l)
                           | _, _ => None
                           end) (Some []) idx.

Definition is_member (a_vec b_vec : list A) : option (list bool * list nat) :=
  let bool_ind_vec := np_isin a_vec b_vec in
  let common_vec := mask_sel a_vec bool_ind_vec in
  let common_unique_vec := np_unique common_vec in
  let common_inv_vec := np_unique_inverse common_vec in
  let b_unique_vec := np_unique b_vec in
  let b_ind_vec := np_unique_index b_vec in
  let common_ind_vec := mask_sel b_ind_vec (np_isin b_unique_vec common_unique_vec) in
  match take_idx common_ind_vec common_inv_vec with
  | Some r => Some (bool_ind_vec, r)
  | None => None
  end.

End IsMember.
