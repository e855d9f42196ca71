(** Model of elltool/conf/properties/Properties.py and elltool/conf/properties/_ParseProp.py. *)
Require Import Coq.Strings.String Coq.Lists.List Coq.ZArith.ZArith Coq.QArith.QArith.
From Verif Require Import Model.Py Model.IsMember.
Import ListNotations.
Local Open Scope string_scope.

(** Properties.py:41-53: the dict literal created by Properties.init() *)
Definition default_conf : dict pyval :=
  [ ("version", VStr "2.1");
    ("is_verbose", VBool false);
    ("abs_tol", VFloat (FFin (1 # 1000000)));
    ("rel_tol", VFloat (FFin (1 # 100000)));
    ("n_time_grid_points", VInt 250);
    ("ode_solver_name", VStr "ode45");
    ("is_ode_norm_control", VStr "on");
    ("is_enabled_ode_solver_options", VBool false);
    ("n_plot_2d_points", VInt 200);
    ("n_plot_3d_points", VInt 200);
    ("reg_tol", VFloat (FFin (1 # 100000))) ].

(** Heap of dict objects; an address is an index. *)
Definition addr := nat.

(** State of the process as far as Properties is concerned: the heap, the class attribute
    [__conf_repo_mgr] (Properties.py:14; None or a reference), and the references the client code
    has been handed so far ([handles], oldest first). *)
Record pstate : Type := PState {
  heap : list (dict pyval);
  conf : option addr;
  handles : list addr
}.

Fixpoint upd {X} (l : list X) (i : nat) (x : X) : list X :=
  match l, i with
  | [], _ => []
  | _ :: l', O => x :: l'
  | y :: l', S i' => y :: upd l' i' x
  end.

(** Properties.py:34-53 [init]: a fresh dict becomes the live one.  (The loops over
    __SETUP_CLASS_NAME_LIST, lines 55-58 and 28-32, are empty: the list is [] in the code.) *)
Definition p_init (s : pstate) : pstate :=
  PState (heap s ++ [default_conf])%list (Some (List.length (heap s))) (handles s).

(** Properties.py:17-21,164: the state right after importing the module *)
Definition p_import : pstate := p_init (PState [] None []).

(** Properties.py:148-153 [__get_option]: None[...] is a TypeError, a missing key a KeyError *)
Definition p_get (s : pstate) (opt_name : string) : res pyval :=
  match conf s with
  | None => Err (PyExc "TypeError")
  | Some a => match nth_error (heap s) a with
              | None => Err (PyExc "dangling")
              | Some d => match dget d opt_name with
                          | Some v => Ok v
                          | None => Err (PyExc "KeyError")
                          end
              end
  end.

(** Properties.py:155-160 [__set_option] *)
Definition p_set (s : pstate) (opt_name : string) (v : pyval) : res pstate :=
  match conf s with
  | None => Err (PyExc "TypeError")
  | Some a => match nth_error (heap s) a with
              | None => Err (PyExc "dangling")
              | Some d => Ok (PState (upd (heap s) a (dset d opt_name v)) (conf s) (handles s))
              end
  end.

(** Properties.py:144-146 [get_prop_dict]: a copy (new object) is handed out *)
Definition p_get_prop_dict (s : pstate) : res (pstate * addr) :=
  match conf s with
  | None => Err (PyExc "AttributeError")
  | Some a => match nth_error (heap s) a with
              | None => Err (PyExc "dangling")
              | Some d => let n := List.length (heap s) in
                          Ok (PState (heap s ++ [d])%list (conf s) (handles s ++ [n])%list, n)
              end
  end.

(** Properties.py:62-68 [get_conf_repo_mgr]: hands out the live reference itself *)
Definition p_get_conf (s : pstate) : pstate :=
  let s' := match conf s with None => p_init s | Some _ => s end in
  match conf s' with
  | None => s'
  | Some a => PState (heap s') (conf s') (handles s' ++ [a])%list
  end.

(** Properties.py:70-72 [set_conf_repo_mgr] with a dict the client holds (handle k) or None *)
Definition p_set_conf (s : pstate) (k : option nat) : pstate :=
  match k with
  | None => PState (heap s) None (handles s)
  | Some k => match nth_error (handles s) k with
              | None => s
              | Some a => PState (heap s) (Some a) (handles s)
              end
  end.

(** Names of the public getters, Properties.py:75-117 *)
Definition getter_names : list string :=
  [ "version"; "is_verbose"; "abs_tol"; "rel_tol"; "reg_tol"; "n_time_grid_points";
    "ode_solver_name"; "is_ode_norm_control"; "is_enabled_ode_solver_options";
    "n_plot_2d_points"; "n_plot_3d_points" ].

(** Public setters, Properties.py:120-142 *)
Inductive setter : Type :=
| SetIsVerbose | SetNPlot2d | SetNPlot3d | SetNTimeGrid | SetAbsTol | SetRelTol.

(** the option each setter writes, Properties.py:121-142 *)
Definition setter_key (x : setter) : string :=
  match x with
  | SetIsVerbose => "is_verbose"
  | SetNPlot2d => "n_plot_2d_points"
  | SetNPlot3d => "n_plot_3d_points"
  | SetNTimeGrid => "n_time_grid_points"
  | SetAbsTol => "abs_tol"
  | SetRelTol => "rel_tol"
  end.

(** Client actions *)
Inductive cmd : Type :=
| CInit                                   (* Properties.init() *)
| CSet (x : setter) (v : pyval)           (* Properties.set_...(v) *)
| CSnapshot                               (* d = Properties.get_prop_dict() *)
| CWrite (k : nat) (key : string) (v : pyval)   (* write into the k-th dict handed out *)
| CGetConf                                (* d = Properties.get_conf_repo_mgr() *)
| CSetConf (k : option nat).              (* Properties.set_conf_repo_mgr(d_k or None) *)

Definition p_write (s : pstate) (k : nat) (key : string) (v : pyval) : pstate :=
  match nth_error (handles s) k with
  | None => s
  | Some a => match nth_error (heap s) a with
              | None => s
              | Some d => PState (upd (heap s) a (dset d key v)) (conf s) (handles s)
              end
  end.

(** One client action; an action that raises leaves the state as it was (no action of the class
    mutates before raising). *)
Definition step (s : pstate) (c : cmd) : pstate :=
  match c with
  | CInit => p_init s
  | CSet x v => match p_set s (setter_key x) v with Ok s' => s' | Err _ => s end
  | CSnapshot => match p_get_prop_dict s with Ok (s', _) => s' | Err _ => s end
  | CWrite k key v => p_write s k key v
  | CGetConf => p_get_conf s
  | CSetConf k => p_set_conf s k
  end.

Definition run (s : pstate) (h : list cmd) : pstate := fold_left step h s.

(** what the client sees when it reads the k-th dict it was handed *)
Definition read_handle (s : pstate) (k : nat) : option (dict pyval) :=
  match nth_error (handles s) k with
  | None => None
  | Some a => nth_error (heap s) a
  end.

(** * _ParseProp.py *)

(** _ParseProp.py:8-10 (the class attribute __PROP_NAME_LIST) *)
Definition prop_name_list : list string :=
  [ "version"; "is_verbose"; "abs_tol"; "rel_tol"; "reg_tol";
    "ode_solver_name"; "is_ode_norm_control"; "is_enabled_ode_solver_options";
    "n_plot_2d_points"; "n_plot_3d_points"; "n_time_grid_points" ].

(** x > 0 on a float *)
Definition fpos (f : pyfloat) : bool :=
  match f with
  | FFin q => match (0 ?= q)%Q with Lt => true | _ => false end
  | FPInf => true
  | _ => false
  end.

(** x % 1 == 0. on a float (inf % 1 is nan) *)
Definition fintegral (f : pyfloat) : bool :=
  match f with
  | FFin q => Z.eqb (Z.modulo (Qnum q) (Zpos (Qden q))) 0
  | _ => false
  end.

Definition chk_str (x : pyval) : bool := match x with VStr _ => true | _ => false end.
Definition chk_bool (x : pyval) : bool := match x with VBool _ => true | _ => false end.
Definition chk_tol (x : pyval) : bool := match x with VFloat f => fpos f | _ => false end.
Definition chk_solver (x : pyval) : bool :=
  match x with
  | VStr s => (String.eqb s "ode45" || String.eqb s "ode23" || String.eqb s "ode113")%bool
  | _ => false
  end.
(** isinstance(x, int) holds for bools too *)
Definition chk_count (x : pyval) : bool :=
  match x with VInt _ => true | VBool _ => true | VFloat f => fintegral f | _ => false end.

(** _ParseProp.py:11-23 (__PROP_CHECK_FUNC_LIST) *)
Definition prop_check_func_list : list (pyval -> bool) :=
  [ chk_str; chk_bool; chk_tol; chk_tol; chk_tol; chk_solver; chk_bool; chk_bool;
    chk_count; chk_count; chk_count ].

(** _ParseProp.py:43-53: the loop over the requested names.  It works on heap objects:
    [pre] is the address of the snapshot [pre_prop] of the global configuration, [args] the
    address of the working copy of the arguments (from which line 48 deletes).  [acc] is
    [prop_list]. *)
Fixpoint parse_loop (names : list string) (checks : list (pyval -> bool))
         (h : list (dict pyval)) (pre args : addr) (acc : list pyval)
  : list (dict pyval) * res (list pyval * addr) :=
  match names, checks with
  | [], _ => (h, Ok (acc, args))
  | n :: names', [] => (h, Err (PyExc "IndexError"))
  | n :: names', chk :: checks' =>
      match nth_error h args, nth_error h pre with
      | Some dargs, Some dpre =>
          match dget dargs n with
          | Some v =>
              let h' := upd h args (ddel dargs n) in
              if chk v then parse_loop names' checks' h' pre args (acc ++ [v])%list
              else (h', Err (Tagged "wrongInput"))
          | None =>
              match dget dpre n with
              | Some v => if chk v then parse_loop names' checks' h pre args (acc ++ [v])%list
                          else (h, Err (Tagged "wrongInput"))
              | None => (h, Err (PyExc "KeyError"))
              end
          end
      | _, _ => (h, Err (PyExc "dangling"))
      end
  end.

(** _ParseProp.py:38 and 42-54: snapshot the configuration, copy the caller's args, loop *)
Definition parse_core (s : pstate) (args : addr) (names : list string)
           (checks : list (pyval -> bool)) : pstate * res (list pyval * addr) :=
  match p_get_prop_dict s with
  | Err e => (s, Err e)
  | Ok (s1, pre) =>
      match nth_error (heap s1) args with
      | None => (s1, Err (PyExc "dangling"))
      | Some dargs =>
          let cp := List.length (heap s1) in
          let '(h', r) := parse_loop names checks (heap s1 ++ [dargs])%list pre cp [] in
          (PState h' (conf s1) (handles s), r)
      end
  end.

(** _ParseProp.py:26-54 [parse_prop(args, needed_prop_name_list)]; [args] is the address of the
    caller's dict.  Returns the new state and (values, address of the residual dict) or raises. *)
Definition parse_prop (s : pstate) (args : addr) (needed : option (list string))
  : pstate * res (list pyval * addr) :=
  match needed with
  | None => parse_core s args prop_name_list prop_check_func_list
  | Some names =>
      match is_member String.compare names prop_name_list with
      | None => (s, Err (PyExc "IndexError"))
      | Some (is_there_vec, ind_there_vec) =>
          if negb (forallb (fun b => b) is_there_vec) then (s, Err (Tagged "wrongInput"))
          else match take_idx prop_check_func_list ind_there_vec with
               | None => (s, Err (PyExc "IndexError"))
               | Some check_func_list => parse_core s args names check_func_list
               end
      end
  end.
