(** Specifications for C01-C05, written without the model's dict/heap helpers. *)
Require Import Coq.Strings.String Coq.Lists.List Coq.ZArith.ZArith Coq.QArith.QArith.
From Verif Require Import Model.Py Model.Config.
Import ListNotations.
Local Open Scope string_scope.

(** The documented default of each property. *)
Definition documented_default (p : string) : option pyval :=
  if p =? "version" then Some (VStr "2.1")
  else if p =? "is_verbose" then Some (VBool false)
  else if p =? "abs_tol" then Some (VFloat (FFin (1 # 1000000)))
  else if p =? "rel_tol" then Some (VFloat (FFin (1 # 100000)))
  else if p =? "reg_tol" then Some (VFloat (FFin (1 # 100000)))
  else if p =? "n_time_grid_points" then Some (VInt 250)
  else if p =? "ode_solver_name" then Some (VStr "ode45")
  else if p =? "is_ode_norm_control" then Some (VStr "on")
  else if p =? "is_enabled_ode_solver_options" then Some (VBool false)
  else if p =? "n_plot_2d_points" then Some (VInt 200)
  else if p =? "n_plot_3d_points" then Some (VInt 200)
  else None.

(** The property a setter is about. *)
Definition property_of (x : setter) : string :=
  match x with
  | SetIsVerbose => "is_verbose"
  | SetNPlot2d => "n_plot_2d_points"
  | SetNPlot3d => "n_plot_3d_points"
  | SetNTimeGrid => "n_time_grid_points"
  | SetAbsTol => "abs_tol"
  | SetRelTol => "rel_tol"
  end.

(** [last_set h p]: the value property [p] should have after history [h] given most recent first *)
Fixpoint last_set (h_recent_first : list cmd) (p : string) : option pyval :=
  match h_recent_first with
  | [] => documented_default p
  | CInit :: _ => documented_default p
  | CSet x v :: h => if property_of x =? p then Some v else last_set h p
  | _ :: h => last_set h p
  end.

(** number of snapshots taken in a history *)
Fixpoint n_snapshots (h : list cmd) : nat :=
  match h with
  | [] => 0
  | CSnapshot :: h => S (n_snapshots h)
  | _ :: h => n_snapshots h
  end.

(** last client write to entry [key] of the [k]-th snapshot, history most recent first *)
Fixpoint last_client_write (h_recent_first : list cmd) (k : nat) (key : string) : option pyval :=
  match h_recent_first with
  | [] => None
  | CWrite k' key' v :: h =>
      if (Nat.eqb k k' && (key' =? key))%bool then Some v else last_client_write h k key
  | _ :: h => last_client_write h k key
  end.

(** Histories in which the client never asks for the live configuration object itself
    (get_conf_repo_mgr / set_conf_repo_mgr). *)
Definition uses_live_object (c : cmd) : bool :=
  match c with CGetConf => true | CSetConf _ => true | _ => false end.
Definition plain_history (h : list cmd) : Prop := forall c, In c h -> uses_live_object c = false.

(** Which values are valid for which property (the documentation of the properties). *)
Definition positive_float (v : pyval) : Prop :=
  v = VFloat FPInf \/ exists q, v = VFloat (FFin q) /\ (0 < q)%Q.
Definition whole_number (v : pyval) : Prop :=
  (exists z, v = VInt z) \/ (exists b, v = VBool b) \/
  (exists q z, v = VFloat (FFin q) /\ (q == inject_Z z)%Q).
Definition boolean (v : pyval) : Prop := exists b, v = VBool b.

Definition valid_value (p : string) (v : pyval) : Prop :=
  (p = "version" /\ exists s, v = VStr s) \/
  (p = "is_verbose" /\ boolean v) \/
  (p = "abs_tol" /\ positive_float v) \/
  (p = "rel_tol" /\ positive_float v) \/
  (p = "reg_tol" /\ positive_float v) \/
  (p = "ode_solver_name" /\ (v = VStr "ode45" \/ v = VStr "ode23" \/ v = VStr "ode113")) \/
  (p = "is_ode_norm_control" /\ boolean v) \/
  (p = "is_enabled_ode_solver_options" /\ boolean v) \/
  (p = "n_plot_2d_points" /\ whole_number v) \/
  (p = "n_plot_3d_points" /\ whole_number v) \/
  (p = "n_time_grid_points" /\ whole_number v).

Definition all_properties : list string :=
       ["version"; "is_verbose"; "abs_tol"; "rel_tol"; "reg_tol"; "ode_solver_name";
        "is_ode_norm_control"; "is_enabled_ode_solver_options"; "n_plot_2d_points";
        "n_plot_3d_points"; "n_time_grid_points"].
Definition known_property (p : string) : Prop := In p all_properties.

(** The names parse_prop is asked for; no list means all of them. *)
Definition requested (needed : option (list string)) : list string :=
  match needed with None => all_properties | Some names => names end.

(** A python dict as a finite map: [entry d k v] says d[k] is v. *)
Definition entry {V} (d : dict V) (k : string) (v : V) : Prop := In (k, v) d.
Definition wf_dict {V} (d : dict V) : Prop := NoDup (map fst d).

(** The value parse_prop must use for name [p]: the argument if given, else the global one. *)
Definition source_value (args globals : dict pyval) (p : string) (v : pyval) : Prop :=
  entry args p v \/ ((forall w, ~ entry args p w) /\ entry globals p v).

(** [residual args names rest]: rest is args without the requested names, order kept *)
Definition residual (args : dict pyval) (names : list string) (rest : dict pyval) : Prop :=
  rest = filter (fun kv => negb (existsb (String.eqb (fst kv)) names)) args.

(** is_member: position of the first occurrence *)
Definition first_position {A} (x : A) (b : list A) (i : nat) : Prop :=
  nth_error b i = Some x /\ forall j, (j < i)%nat -> nth_error b j <> Some x.
