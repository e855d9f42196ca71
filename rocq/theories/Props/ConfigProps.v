(** C01-C05: configuration store, argument parsing, is_member. *)
Require Import Coq.Strings.String Coq.Lists.List Coq.ZArith.ZArith Coq.QArith.QArith.
From Verif Require Import Model.Py Model.IsMember Model.Config Spec.ConfigSpec
  Proof.IsMemberProof Proof.ConfigProof.
Import ListNotations.
Local Open Scope string_scope.
Local Open Scope nat_scope.

(** C01: after any history of init/set/get_prop_dict calls and client writes into the returned
    dicts, every public getter returns the last value set since the last init, or the default. *)
Theorem C01_reads_return_last_write :
  forall (h : list cmd) (p : string), plain_history h -> In p getter_names ->
    exists v, p_get (run p_import h) p = Ok v /\ last_set (rev h) p = Some v.
Proof. exact getter_total. Qed.
Print Assumptions C01_reads_return_last_write.

(** C01, the same as an equivalence and for arbitrary option names. *)
Theorem C01_reads_iff_last_write :
  forall (h : list cmd) (p : string) (v : pyval), plain_history h ->
    (p_get (run p_import h) p = Ok v <-> last_set (rev h) p = Some v).
Proof. exact reads_last_write. Qed.
Print Assumptions C01_reads_iff_last_write.

Example C01_nonvacuous :
  let h := [CSet SetAbsTol (VFloat (FFin (1 # 10))); CSnapshot; CWrite 0 "abs_tol" (VInt 7);
            CInit; CSet SetNPlot2d (VInt 3); CSet SetNPlot2d (VInt 5)] in
  plain_history h /\ p_get (run p_import h) "n_plot_2d_points" = Ok (VInt 5) /\
  p_get (run p_import h) "abs_tol" = Ok (VFloat (FFin (1 # 1000000))).
Proof.
  split; [|split; reflexivity]. intros c H. simpl in H.
  repeat (destruct H as [<-|H]; [reflexivity|]). destruct H.
Qed.

(** C02: the dict handed out by the snapshot taken after h1 holds, whatever happens later (h2),
    the configuration as of h1, modified only by the client's own writes into that dict. *)
Theorem C02_snapshot_isolation :
  forall (h1 h2 : list cmd), plain_history (h1 ++ CSnapshot :: h2) ->
    exists d, read_handle (run p_import (h1 ++ CSnapshot :: h2)) (n_snapshots h1) = Some d /\
      forall key, dget d key =
        match last_client_write (rev h2) (n_snapshots h1) key with
        | Some v => Some v
        | None => last_set (rev h1) key
        end.
Proof. exact snapshot_isolated. Qed.
Print Assumptions C02_snapshot_isolation.

Example C02_nonvacuous :
  let h1 := [CSet SetAbsTol (VFloat (FFin (1 # 10)))] in
  let h2 := [CSet SetAbsTol (VInt 1); CSnapshot; CWrite 0 "rel_tol" (VInt 7); CInit] in
  plain_history (h1 ++ CSnapshot :: h2) /\
  exists d, read_handle (run p_import (h1 ++ CSnapshot :: h2)) 0 = Some d /\
    dget d "abs_tol" = Some (VFloat (FFin (1 # 10))) /\ dget d "rel_tol" = Some (VInt 7).
Proof.
  split.
  - intros c H. simpl in H. repeat (destruct H as [<-|H]; [reflexivity|]). destruct H.
  - eexists. split; [reflexivity|]. split; reflexivity.
Qed.

(** The restriction to [plain_history] is needed: get_conf_repo_mgr hands out the live dict. *)
Theorem C02_live_reference_is_not_isolated_refuted :
  exists (h : list cmd) (v : pyval),
    p_get (run p_import (CGetConf :: h)) "abs_tol" = Ok v /\
    (forall x w, ~ In (CSet x w) h) /\ last_set (rev (CGetConf :: h)) "abs_tol" <> Some v.
Proof.
  exists [CWrite 0 "abs_tol" (VBool true)], (VBool true).
  split; [exact live_reference_leak|]. split; [|discriminate].
  intros x w [H|[]]. discriminate.
Qed.
Print Assumptions C02_live_reference_is_not_isolated_refuted.

(** C03a: parse_prop succeeds with values [vals] iff every requested name is known and [vals] are
    the argument values (or, for missing arguments, the global ones), all of them valid. *)
Theorem C03_parse_prop_values :
  forall (s : pstate) (a ad : addr) (globals args : dict pyval) (needed : option (list string))
         (vals : list pyval),
    conf s = Some a -> nth_error (heap s) a = Some globals -> nth_error (heap s) ad = Some args ->
    wf_dict args -> wf_dict globals -> NoDup (requested needed) ->
    ((exists s' b, parse_prop s ad needed = (s', Ok (vals, b))) <->
     Forall known_property (requested needed) /\
     Forall2 (source_value args globals) (requested needed) vals /\
     Forall2 valid_value (requested needed) vals).
Proof.
  exact (fun s a ad g d needed vals H1 H2 H3 H4 H5 =>
           parse_ok_iff s a ad g d H1 H2 H3 H4 H5 needed vals).
Qed.
Print Assumptions C03_parse_prop_values.

(** C03b: the residual dict is a new object containing exactly the arguments not requested. *)
Theorem C03_parse_prop_residual :
  forall (s : pstate) (a ad : addr) (globals args : dict pyval) (needed : option (list string))
         (s' : pstate) (vals : list pyval) (b : addr),
    conf s = Some a -> nth_error (heap s) a = Some globals -> nth_error (heap s) ad = Some args ->
    wf_dict args ->
    parse_prop s ad needed = (s', Ok (vals, b)) ->
    length (heap s) <= b /\
    exists rest, nth_error (heap s') b = Some rest /\ residual args (requested needed) rest.
Proof.
  exact (fun s a ad g d needed s' vals b H1 H2 H3 H4 H =>
           parse_residual s a ad g d H1 H2 H3 H4 needed s' vals b H).
Qed.
Print Assumptions C03_parse_prop_residual.

(** C03c: whatever the outcome, no object that existed before the call (the caller's args, the
    configuration, earlier snapshots) is changed. *)
Theorem C03_parse_prop_mutates_nothing :
  forall (s : pstate) (a ad : addr) (globals args : dict pyval) (needed : option (list string))
         (s' : pstate) (r : res (list pyval * addr)),
    conf s = Some a -> nth_error (heap s) a = Some globals -> nth_error (heap s) ad = Some args ->
    parse_prop s ad needed = (s', r) ->
    conf s' = conf s /\ handles s' = handles s /\
    forall x dx, nth_error (heap s) x = Some dx -> nth_error (heap s') x = Some dx.
Proof.
  exact (fun s a ad g d needed s' r H1 H2 H3 H => parse_frame s a ad g d H1 H2 H3 needed s' r H).
Qed.
Print Assumptions C03_parse_prop_mutates_nothing.

(** C03d: when the configuration defines all properties, the only error is 'wrongInput'. *)
Theorem C03_parse_prop_errors :
  forall (s : pstate) (a ad : addr) (globals args : dict pyval) (needed : option (list string))
         (s' : pstate) (e : exc),
    conf s = Some a -> nth_error (heap s) a = Some globals -> nth_error (heap s) ad = Some args ->
    wf_dict globals -> (forall n, known_property n -> exists v, entry globals n v) ->
    parse_prop s ad needed = (s', Err e) -> e = Tagged "wrongInput".
Proof.
  exact (fun s a ad g d needed s' e H1 H2 H3 W G H =>
           parse_err s a ad g d H1 H2 H3 W needed s' e G H).
Qed.
Print Assumptions C03_parse_prop_errors.

(** a state with a caller's dict at address 1 *)
Definition ex_args : dict pyval :=
  [("foo", VInt 3); ("abs_tol", VFloat (FFin (1 # 2))); ("is_verbose", VBool true)].
Definition ex_state : pstate := PState [default_conf; ex_args] (Some 0) [].

Example C03_nonvacuous :
  conf ex_state = Some 0 /\ nth_error (heap ex_state) 0 = Some default_conf /\
  nth_error (heap ex_state) 1 = Some ex_args /\ wf_dict ex_args /\ wf_dict default_conf /\
  NoDup (requested (Some ["rel_tol"; "abs_tol"])) /\
  exists s' b, parse_prop ex_state 1 (Some ["rel_tol"; "abs_tol"]) =
    (s', Ok ([VFloat (FFin (1 # 100000)); VFloat (FFin (1 # 2))], b)) /\
    nth_error (heap s') b = Some [("foo", VInt 3); ("is_verbose", VBool true)].
Proof.
  repeat split; try reflexivity.
  - unfold wf_dict. repeat constructor; simpl; intuition discriminate.
  - apply wf_default.
  - repeat constructor; simpl; intuition discriminate.
  - eexists _, _. split; reflexivity.
Qed.

(** Without the no-duplicates hypothesis C03a is false: the argument is used only for the first
    occurrence of a repeated name. *)
Theorem C03_duplicate_names_refuted :
  exists s', parse_prop ex_state 1 (Some ["abs_tol"; "abs_tol"]) =
    (s', Ok ([VFloat (FFin (1 # 2)); VFloat (FFin (1 # 1000000))], 3)).
Proof. eexists. reflexivity. Qed.
Print Assumptions C03_duplicate_names_refuted.

(** C04 is false of the code: in every configuration reachable without touching the live object,
    parse_prop with no requested names raises 'wrongInput' unless the caller overrides
    is_ode_norm_control, because the shipped default 'on' fails its own validator. *)
Theorem C04_default_configuration_refuted :
  forall (h : list cmd) (ad : addr) (args : dict pyval), plain_history h ->
    nth_error (heap (run p_import h)) ad = Some args ->
    dget args "is_ode_norm_control" = None ->
    exists s', parse_prop (run p_import h) ad None = (s', Err (Tagged "wrongInput")).
Proof. exact default_parse_raises. Qed.
Print Assumptions C04_default_configuration_refuted.

Example C04_nonvacuous :
  plain_history [CSnapshot] /\
  (exists s', parse_prop ex_state 1 None = (s', Err (Tagged "wrongInput"))).
Proof.
  split; [|eexists; reflexivity]. intros c H. simpl in H. destruct H as [<-|[]]. reflexivity.
Qed.

(** C05: is_member marks exactly the members and lists their first positions in order. *)
Theorem C05_is_member :
  forall (A : Type) (cmp : A -> A -> comparison),
    (forall x y, cmp x y = Eq <-> x = y) ->
    (forall x y, cmp y x = CompOpp (cmp x y)) ->
    (forall x y z, cmp x y = Lt -> cmp y z = Lt -> cmp x z = Lt) ->
    forall a b : list A,
    exists mask idx, is_member cmp a b = Some (mask, idx) /\
      Forall2 (fun x m => m = true <-> In x b) a mask /\
      Forall2 (fun x i => first_position x b i) (map fst (filter snd (combine a mask))) idx.
Proof. exact (fun A cmp H1 H2 H3 a b => is_member_spec cmp H1 H2 H3 a b). Qed.
Print Assumptions C05_is_member.

Example C05_nonvacuous :
  (forall x y, String.compare x y = Eq <-> x = y) /\
  is_member String.compare ["c"; "z"; "a"; "c"] ["b"; "c"; "a"; "c"] =
    Some ([true; false; true; true], [1; 2; 1]).
Proof. split; [exact string_cmp_eq|reflexivity]. Qed.
