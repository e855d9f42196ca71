(** Lemmas about Model/Config.v *)
Require Import Coq.Strings.String Coq.Lists.List Coq.ZArith.ZArith Coq.QArith.QArith Lia.
Require Coq.Sorting.Permutation.
From Verif Require Import Model.Py Model.IsMember Model.Config Spec.ConfigSpec Proof.IsMemberProof.
Import ListNotations.
Local Open Scope string_scope.
Local Open Scope nat_scope.

(** ** dict and heap helpers *)
Lemma dget_dset {V} (d : dict V) k v k' :
  dget (dset d k v) k' = if String.eqb k k' then Some v else dget d k'.
Proof.
  induction d as [|[k0 v0] d IH]; simpl.
  - rewrite (String.eqb_sym k' k). reflexivity.
  - destruct (String.eqb_spec k k0) as [->|N]; simpl.
    + rewrite (String.eqb_sym k0 k'). destruct (String.eqb k' k0); auto.
    + rewrite IH. destruct (String.eqb_spec k' k0) as [->|N'].
      * destruct (String.eqb_spec k k0); congruence.
      * reflexivity.
Qed.

Lemma nth_upd_same {X} (l : list X) i x : i < length l -> nth_error (upd l i x) i = Some x.
Proof. revert i. induction l; intros [|i] H; simpl in *; try lia; auto. apply IHl. lia. Qed.

Lemma nth_upd_other {X} (l : list X) i j x : i <> j -> nth_error (upd l i x) j = nth_error l j.
Proof. revert i j. induction l; intros [|i] [|j] H; simpl in *; try lia; auto. Qed.

Lemma length_upd {X} (l : list X) i x : length (upd l i x) = length l.
Proof. revert i. induction l; intros [|i]; simpl; auto. Qed.

Lemma nth_lt {X} (l : list X) i x : nth_error l i = Some x -> i < length l.
Proof. intros H. apply nth_error_Some. congruence. Qed.

(** ** C01/C02: refinement of the heap implementation to value semantics *)

Definition vmap := string -> option pyval.

Record inv (s : pstate) (cfg : vmap) (snaps : list vmap) : Prop := {
  i_live : exists a d, conf s = Some a /\ nth_error (heap s) a = Some d /\
             (forall k, dget d k = cfg k) /\ ~ In a (handles s);
  i_len : length (handles s) = length snaps;
  i_snap : forall k a m, nth_error (handles s) k = Some a -> nth_error snaps k = Some m ->
             exists d, nth_error (heap s) a = Some d /\ forall key, dget d key = m key;
  i_nodup : NoDup (handles s)
}.

(** value-semantics interpreter *)
Definition vset (m : vmap) (k : string) (v : pyval) : vmap :=
  fun k' => if String.eqb k k' then Some v else m k'.

Definition astep (st : vmap * list vmap) (c : cmd) : vmap * list vmap :=
  let '(cfg, snaps) := st in
  match c with
  | CInit => (documented_default, snaps)
  | CSet x v => (vset cfg (property_of x) v, snaps)
  | CSnapshot => (cfg, snaps ++ [cfg])%list
  | CWrite k key v => match nth_error snaps k with
                      | Some m => (cfg, upd snaps k (vset m key v))
                      | None => (cfg, snaps)
                      end
  | _ => (cfg, snaps)
  end.

Lemma default_conf_get k : dget default_conf k = documented_default k.
Proof.
  unfold default_conf, documented_default. cbn [dget].
  repeat match goal with
         | |- context [String.eqb k ?s] =>
             destruct (String.eqb_spec k s) as [->|?]; [reflexivity|]
         end. reflexivity.
Qed.

Lemma handle_lt s cfg snaps a : inv s cfg snaps -> In a (handles s) -> a < length (heap s).
Proof.
  intros I H. apply In_nth_error in H. destruct H as [k Hk].
  assert (Hlt := nth_lt _ _ _ Hk). rewrite (i_len _ _ _ I) in Hlt.
  destruct (nth_error snaps k) as [m|] eqn:E; [|apply nth_error_None in E; lia].
  destruct (i_snap _ _ _ I _ _ _ Hk E) as (d & Hd & _). now apply nth_lt in Hd.
Qed.

Lemma nth_app_last {X} (l : list X) x : nth_error (l ++ [x]) (length l) = Some x.
Proof. rewrite nth_error_app2, Nat.sub_diag; auto. Qed.

Lemma nth_snoc {X} (l : list X) x y k : nth_error (l ++ [x]) k = Some y ->
  (k < length l /\ nth_error l k = Some y) \/ (k = length l /\ x = y).
Proof.
  intros H. destruct (Nat.lt_ge_cases k (length l)) as [L|L].
  - left. rewrite nth_error_app1 in H; auto.
  - right. rewrite nth_error_app2 in H; auto.
    destruct (k - length l) eqn:E; simpl in H.
    + split; [lia|congruence].
    + destruct n; discriminate.
Qed.

Lemma inv_step s cfg snaps c : uses_live_object c = false -> inv s cfg snaps ->
  inv (step s c) (fst (astep (cfg, snaps) c)) (snd (astep (cfg, snaps) c)).
Proof.
  intros U I. destruct c; try discriminate; clear U.
  - (* init *) simpl. constructor; simpl.
    + exists (length (heap s)), default_conf. split; auto. split; [apply nth_app_last|].
      split; [apply default_conf_get|]. intros H. apply (handle_lt _ _ _ _ I) in H. lia.
    + apply I.
    + intros k a m Ha Hm. destruct (i_snap _ _ _ I _ _ _ Ha Hm) as (d & Hd & E).
      exists d. split; auto. rewrite nth_error_app1; auto. now apply nth_lt in Hd.
    + apply I.
  - (* set *) destruct (i_live _ _ _ I) as (a & d & Hc & Hd & E & N).
    simpl. unfold p_set. rewrite Hc, Hd. constructor; simpl.
    + exists a, (dset d (setter_key x) v). split; auto.
      split; [apply nth_upd_same; eauto using nth_lt|].
      split; auto. intros k. rewrite dget_dset. unfold vset.
      replace (property_of x) with (setter_key x) by (destruct x; reflexivity).
      now rewrite E.
    + apply I.
    + intros k b m Hb Hm. destruct (i_snap _ _ _ I _ _ _ Hb Hm) as (d' & Hd' & E').
      exists d'. split; auto. rewrite nth_upd_other; auto.
      intros ->. apply N. eapply nth_error_In; eauto.
    + apply I.
  - (* snapshot *) destruct (i_live _ _ _ I) as (a & d & Hc & Hd & E & N).
    simpl. unfold p_get_prop_dict. rewrite Hc, Hd. constructor; simpl.
    + exists a, d. split; auto. split; [rewrite nth_error_app1; eauto using nth_lt|].
      split; auto. rewrite in_app_iff. intros [H|[H|[]]]; auto.
      apply nth_lt in Hd. lia.
    + rewrite !app_length, (i_len _ _ _ I). reflexivity.
    + intros k b m Hb Hm. apply nth_snoc in Hb, Hm.
      destruct Hb as [[L Hb]|[-> <-]].
      * destruct Hm as [[L' Hm]|[-> <-]]; [|rewrite (i_len _ _ _ I) in L; lia].
        destruct (i_snap _ _ _ I _ _ _ Hb Hm) as (d' & Hd' & E').
        exists d'. split; auto. rewrite nth_error_app1; eauto using nth_lt.
      * destruct Hm as [[L' Hm]|[_ <-]]; [rewrite (i_len _ _ _ I) in L'; lia|].
        exists d. split; auto. apply nth_app_last.
    + apply (Permutation.Permutation_NoDup (Permutation.Permutation_cons_append _ _)).
      constructor; [|apply I].
      intros H. apply (handle_lt _ _ _ _ I) in H. lia.
  - (* client write *) simpl. unfold p_write.
    destruct (nth_error (handles s) k) as [b|] eqn:Hb.
    + assert (Hlt := nth_lt _ _ _ Hb). rewrite (i_len _ _ _ I) in Hlt.
      destruct (nth_error snaps k) as [m|] eqn:Hm; [|apply nth_error_None in Hm; lia].
      destruct (i_snap _ _ _ I _ _ _ Hb Hm) as (d' & Hd' & E'). rewrite Hd'. simpl.
      destruct (i_live _ _ _ I) as (a & d & Hc & Hd & E & N).
      constructor; simpl.
      * exists a, d. split; auto. split; auto. rewrite nth_upd_other; auto.
        intros ->. apply N. eapply nth_error_In; eauto.
      * rewrite length_upd. apply I.
      * intros j c m' Hj Hm'. destruct (Nat.eq_dec k j) as [<-|Nkj].
        -- assert (c = b) by congruence. subst c.
           rewrite nth_upd_same in Hm' by auto. injection Hm' as <-.
           exists (dset d' key v). split; [apply nth_upd_same; eauto using nth_lt|].
           intros k'. rewrite dget_dset. unfold vset. now rewrite E'.
        -- rewrite nth_upd_other in Hm' by auto.
           destruct (i_snap _ _ _ I _ _ _ Hj Hm') as (d2 & Hd2 & E2).
           exists d2. split; auto. rewrite nth_upd_other; auto.
           intros ->. apply Nkj.
           apply (proj1 (NoDup_nth_error (handles s)) (i_nodup _ _ _ I)).
           ++ eapply nth_lt; eauto.
           ++ congruence.
      * apply I.
    + assert (Hn : nth_error snaps k = None).
      { apply nth_error_None. apply nth_error_None in Hb. rewrite <- (i_len _ _ _ I). auto. }
      rewrite Hn. simpl. exact I.
Qed.

Lemma inv_import : inv p_import documented_default [].
Proof.
  constructor; simpl.
  - exists 0, default_conf. repeat split; auto. apply default_conf_get.
  - reflexivity.
  - intros [|k]; discriminate.
  - constructor.
Qed.

Definition arun (st : vmap * list vmap) (h : list cmd) := fold_left astep h st.

Lemma inv_run h : forall s cfg snaps, plain_history h -> inv s cfg snaps ->
  inv (run s h) (fst (arun (cfg, snaps) h)) (snd (arun (cfg, snaps) h)).
Proof.
  induction h as [|c h IH]; intros s cfg snaps P I; [exact I|].
  unfold run, arun in *. cbn [fold_left].
  assert (Hc : uses_live_object c = false) by (apply P; now left).
  pose proof (inv_step s cfg snaps c Hc I) as I'.
  destruct (astep (cfg, snaps) c) as [cfg' snaps']. simpl in I'.
  apply IH; auto. intros c' H. apply P. now right.
Qed.

Lemma arun_cfg h : forall k, plain_history h ->
  fst (arun (documented_default, []) h) k = last_set (rev h) k.
Proof.
  induction h as [|c h IH] using rev_ind; intros k P; [reflexivity|].
  assert (P' : plain_history h) by (intros c' H; apply P; apply in_or_app; now left).
  unfold arun in *. rewrite fold_left_app, rev_app_distr. simpl.
  specialize (IH k P').
  destruct (fold_left astep h (documented_default, [])) as [cfg snaps]. simpl in *.
  destruct c; simpl; auto.
  - unfold vset. now rewrite IH.
  - destruct (nth_error snaps k0); auto.
Qed.

Lemma get_spec s cfg snaps p : inv s cfg snaps ->
  p_get s p = match cfg p with Some v => Ok v | None => Err (PyExc "KeyError") end.
Proof.
  intros I. destruct (i_live _ _ _ I) as (a & d & Hc & Hd & E & N).
  unfold p_get. now rewrite Hc, Hd, E.
Qed.

Lemma reads_last_write h p v : plain_history h ->
  p_get (run p_import h) p = Ok v <-> last_set (rev h) p = Some v.
Proof.
  intros P. rewrite (get_spec _ _ _ p (inv_run h _ _ _ P inv_import)).
  rewrite arun_cfg by auto.
  destruct (last_set (rev h) p); split; intros H; try congruence; discriminate.
Qed.

Lemma last_set_total h p : In p getter_names -> exists v, last_set h p = Some v.
Proof.
  intros H. induction h as [|c h IH]; simpl.
  - simpl in H. repeat (destruct H as [<-|H]; [eexists; reflexivity|]). destruct H.
  - destruct c; auto.
    + simpl in H. repeat (destruct H as [<-|H]; [eexists; reflexivity|]). destruct H.
    + destruct (property_of x =? p)%string; eauto.
Qed.

Lemma getter_total h p : plain_history h -> In p getter_names ->
  exists v, p_get (run p_import h) p = Ok v /\ last_set (rev h) p = Some v.
Proof.
  intros P H. destruct (last_set_total (rev h) p H) as [v E].
  exists v. split; auto. now apply reads_last_write.
Qed.

(** snapshots *)
Lemma arun_snaps_len h : forall st, length (snd (arun st h)) = length (snd st) + n_snapshots h.
Proof.
  induction h as [|c h IH]; intros [cfg snaps]; simpl; [lia|].
  unfold arun in *. destruct c; simpl; rewrite ?IH; simpl; auto.
  - rewrite app_length; simpl; lia.
  - destruct (nth_error snaps k); simpl; rewrite ?length_upd; auto.
Qed.

Lemma arun_snap_stable h : forall cfg snaps k m,
  nth_error snaps k = Some m ->
  exists m', nth_error (snd (arun (cfg, snaps) h)) k = Some m' /\
    forall key, m' key = match last_client_write (rev h) k key with
                         | Some v => Some v | None => m key end.
Proof.
  induction h as [|c h IH] using rev_ind; intros cfg snaps k m H; simpl.
  - exists m. auto.
  - destruct (IH cfg snaps k m H) as (m' & Hm' & E). clear IH.
    unfold arun in *. rewrite fold_left_app, rev_app_distr. simpl.
    destruct (fold_left astep h (cfg, snaps)) as [cfg' snaps']. simpl in *.
    destruct c; simpl; eauto.
    + exists m'. split; auto. rewrite nth_error_app1; auto. eapply nth_lt; eauto.
    + destruct (nth_error snaps' k0) as [m0|] eqn:E0; simpl.
      * destruct (Nat.eq_dec k0 k) as [->|N].
        -- assert (m0 = m') by congruence. subst m0. exists (vset m' key v).
           split; [apply nth_upd_same; eapply nth_lt; eauto|].
           intros key'. unfold vset. rewrite Nat.eqb_refl. simpl.
           destruct (key =? key')%string; auto.
        -- exists m'. rewrite nth_upd_other by auto. split; auto.
           intros key'. rewrite (proj2 (Nat.eqb_neq k k0)) by auto. simpl. auto.
      * exists m'. split; auto. intros key'.
        destruct (Nat.eqb_spec k k0) as [->|N]; simpl; auto.
        congruence.
Qed.

Lemma plain_app h1 h2 : plain_history (h1 ++ h2) -> plain_history h1 /\ plain_history h2.
Proof. unfold plain_history. intros H. split; intros; apply H; apply in_or_app; auto. Qed.

Lemma snapshot_isolated h1 h2 : plain_history (h1 ++ CSnapshot :: h2) ->
  exists d, read_handle (run p_import (h1 ++ CSnapshot :: h2)) (n_snapshots h1) = Some d /\
    forall key, dget d key =
      match last_client_write (rev h2) (n_snapshots h1) key with
      | Some v => Some v
      | None => last_set (rev h1) key
      end.
Proof.
  intros P. pose proof (inv_run _ _ _ _ P inv_import) as I.
  assert (P1 : plain_history h1) by now apply plain_app in P.
  set (k := n_snapshots h1) in *.
  assert (Hs : exists m', nth_error (snd (arun (documented_default, []) (h1 ++ CSnapshot :: h2))) k
                = Some m' /\ forall key, m' key = match last_client_write (rev h2) k key with
                         | Some v => Some v | None => last_set (rev h1) key end).
  { unfold arun. rewrite fold_left_app. simpl.
    pose proof (arun_snaps_len h1 (documented_default, [])) as L. simpl in L.
    pose proof (fun key => arun_cfg h1 key P1) as C.
    unfold arun in L, C. destruct (fold_left astep h1 (documented_default, [])) as [cfg snaps].
    simpl in *. destruct (arun_snap_stable h2 cfg (snaps ++ [cfg])%list k cfg) as (m' & H1 & H2).
    { rewrite nth_error_app2 by lia. unfold k. rewrite <- L, Nat.sub_diag. reflexivity. }
    exists m'. split; auto. intros key. rewrite H2.
    destruct (last_client_write (rev h2) k key); auto. }
  destruct Hs as (m' & Hm & E).
  unfold read_handle.
  destruct (nth_error (handles (run p_import (h1 ++ CSnapshot :: h2))) k) as [a|] eqn:Ha.
  - destruct (i_snap _ _ _ I _ _ _ Ha Hm) as (d & Hd & Ed). exists d. split; auto.
    intros key. now rewrite Ed, E.
  - apply nth_error_None in Ha. rewrite (i_len _ _ _ I) in Ha. apply nth_lt in Hm.
    exfalso. exact (Nat.lt_irrefl _ (Nat.lt_le_trans _ _ _ Hm Ha)).
Qed.

(** the live reference handed out by get_conf_repo_mgr is not a snapshot *)
Lemma live_reference_leak :
  p_get (run p_import [CGetConf; CWrite 0 "abs_tol" (VBool true)]) "abs_tol" = Ok (VBool true).
Proof. reflexivity. Qed.

(** ** parse_prop *)

(** pure version of the loop *)
Fixpoint pl (names : list string) (checks : list (pyval -> bool)) (g d : dict pyval)
         (acc : list pyval) : dict pyval * res (list pyval) :=
  match names, checks with
  | [], _ => (d, Ok acc)
  | _ :: _, [] => (d, Err (PyExc "IndexError"))
  | n :: names', chk :: checks' =>
      match dget d n with
      | Some v => if chk v then pl names' checks' g (ddel d n) (acc ++ [v])%list
                  else (ddel d n, Err (Tagged "wrongInput"))
      | None => match dget g n with
                | Some v => if chk v then pl names' checks' g d (acc ++ [v])%list
                            else (d, Err (Tagged "wrongInput"))
                | None => (d, Err (PyExc "KeyError"))
                end
      end
  end.

Definition addr_res {A} (r : res A) (b : addr) : res (A * addr) :=
  match r with Ok a => Ok (a, b) | Err e => Err e end.

Lemma upd_upd {X} (l : list X) i x y : upd (upd l i x) i y = upd l i y.
Proof. revert i. induction l; intros [|i]; simpl; auto. now rewrite IHl. Qed.

Lemma upd_same {X} (l : list X) i x : nth_error l i = Some x -> upd l i x = l.
Proof.
  revert i. induction l; intros [|i] H; simpl in *; auto; try discriminate.
  - congruence.
  - now rewrite IHl.
Qed.

Lemma parse_loop_pl names : forall checks h pre args g d acc, pre <> args ->
  nth_error h pre = Some g -> nth_error h args = Some d ->
  parse_loop names checks h pre args acc =
  (upd h args (fst (pl names checks g d acc)), addr_res (snd (pl names checks g d acc)) args).
Proof.
  induction names as [|n names IH]; intros checks h pre args g d acc N Hg Hd; simpl.
  - now rewrite upd_same.
  - destruct checks as [|chk checks]; simpl.
    + now rewrite upd_same.
    + rewrite Hd, Hg. destruct (dget d n) as [v|].
      * destruct (chk v); simpl; auto.
        rewrite (IH checks _ pre args g (ddel d n)); auto.
        -- now rewrite upd_upd.
        -- rewrite nth_upd_other; auto.
        -- apply nth_upd_same. eapply nth_lt; eauto.
      * destruct (dget g n) as [v|]; simpl.
        -- destruct (chk v); simpl; [|now rewrite upd_same]. eapply IH; eauto.
        -- now rewrite upd_same.
Qed.

Lemma dget_ddel_other {V} (d : dict V) k k' : k <> k' -> dget (ddel d k) k' = dget d k'.
Proof.
  intros N. induction d as [|[k0 v0] d IH]; simpl; auto.
  destruct (String.eqb_spec k k0) as [->|N']; simpl.
  - destruct (String.eqb_spec k' k0); congruence.
  - now rewrite IH.
Qed.

Definition srcv (d g : dict pyval) (n : string) : option pyval :=
  match dget d n with Some v => Some v | None => dget g n end.

Lemma srcv_ddel d g n n' : n <> n' -> srcv (ddel d n) g n' = srcv d g n'.
Proof. intros N. unfold srcv. now rewrite dget_ddel_other. Qed.

(** deleting several keys in turn *)
Definition ddels (d : dict pyval) (names : list string) : dict pyval := fold_left ddel names d.

Lemma ddel_absent {V} (d : dict V) k : dget d k = None -> ddel d k = d.
Proof.
  induction d as [|[k0 v0] d IH]; simpl; auto.
  destruct (String.eqb k k0); [discriminate|]. intros H. now rewrite IH.
Qed.

Lemma pl_ok_iff names : forall checks g d acc r, NoDup names -> length checks = length names ->
  (snd (pl names checks g d acc) = Ok r <->
   exists vals, r = (acc ++ vals)%list /\
     Forall2 (fun n v => srcv d g n = Some v) names vals /\
     Forall2 (fun (c : pyval -> bool) v => c v = true) checks vals).
Proof.
  induction names as [|n names IH]; intros [|chk checks] g d acc r ND L; try discriminate L; simpl.
  - split.
    + intros H. injection H as <-. exists []. rewrite app_nil_r. auto.
    + intros (vals & -> & H & _). inversion H. now rewrite app_nil_r.
  - inversion ND as [|? ? Hn ND']; subst. injection L as L.
    assert (Hsrc : forall d', (d' = ddel d n \/ d' = d) -> forall vals,
      Forall2 (fun n v => srcv d' g n = Some v) names vals <->
      Forall2 (fun n v => srcv d g n = Some v) names vals).
    { intros d' [->| ->]; [|tauto]. intros vals.
      assert (E : forall n', In n' names -> srcv (ddel d n) g n' = srcv d g n').
      { intros n' H'. apply srcv_ddel. intros ->. auto. }
      clear -E. revert vals. induction names as [|m names IH]; intros vals.
      - split; intros H; inversion H; constructor.
      - split; intros H; inversion H; subst; constructor.
        + rewrite <- E; auto. now left.
        + apply IH; auto. intros; apply E; now right.
        + rewrite E; auto. now left.
        + apply IH; auto. intros; apply E; now right. }
    assert (Step : forall d' v, (d' = ddel d n \/ d' = d) -> srcv d g n = Some v ->
      (snd (if chk v then pl names checks g d' (acc ++ [v])%list
            else (d', Err (Tagged "wrongInput"))) = Ok r <->
       exists vals, r = (acc ++ vals)%list /\
         Forall2 (fun n v => srcv d g n = Some v) (n :: names) vals /\
         Forall2 (fun (c : pyval -> bool) v => c v = true) (chk :: checks) vals)).
    { intros d' v Hd' Hv. destruct (chk v) eqn:C.
      - rewrite IH by auto. split.
        + intros (vals & -> & H1 & H2). exists (v :: vals). rewrite <- app_assoc. split; auto.
          split; constructor; auto. now apply (Hsrc d').
        + intros (vals & -> & H1 & H2). inversion H1; inversion H2; subst.
          assert (y = v) by congruence. subst.
          exists l'. rewrite <- app_assoc. split; auto. split; auto.
          * now apply (Hsrc d').
          * congruence.
      - simpl. split; [discriminate|]. intros (vals & -> & H1 & H2).
        inversion H1; inversion H2; subst. congruence. }
    unfold srcv at 1 in Step. destruct (dget d n) as [v|] eqn:Ed.
    + apply Step; auto.
    + destruct (dget g n) as [v|] eqn:Eg.
      * apply Step; auto.
      * simpl. split; [discriminate|]. intros (vals & -> & H1 & _).
        inversion H1; subst. unfold srcv in *. rewrite Ed, Eg in *. discriminate.
Qed.

Lemma pl_residual names : forall checks g d acc r,
  snd (pl names checks g d acc) = Ok r -> fst (pl names checks g d acc) = ddels d names.
Proof.
  induction names as [|n names IH]; intros [|chk checks] g d acc r; simpl; auto; try discriminate.
  destruct (dget d n) as [v|] eqn:E.
  - destruct (chk v); simpl; try discriminate. apply IH.
  - rewrite (ddel_absent d n) by auto. destruct (dget g n) as [v|]; simpl; try discriminate.
    destruct (chk v); simpl; try discriminate. apply IH.
Qed.

Lemma pl_err names : forall checks g d acc e, length checks = length names ->
  (forall n, In n names -> dget g n <> None) ->
  snd (pl names checks g d acc) = Err e -> e = Tagged "wrongInput".
Proof.
  induction names as [|n names IH]; intros [|chk checks] g d acc e L G; try discriminate L; simpl.
  - discriminate.
  - injection L as L.
    assert (G' : forall n, In n names -> dget g n <> None) by (intros; apply G; now right).
    destruct (dget d n) as [v|].
    + destruct (chk v); simpl; [now apply IH|congruence].
    + destruct (dget g n) as [v|] eqn:E; simpl.
      * destruct (chk v); simpl; [now apply IH|congruence].
      * exfalso. apply (G n); auto. now left.
Qed.

(** finite-map view *)
Lemma dget_entry {V} (d : dict V) k v : wf_dict d -> (dget d k = Some v <-> entry d k v).
Proof.
  unfold wf_dict, entry. induction d as [|[k0 v0] d IH]; simpl; intros ND.
  - split; [discriminate|tauto].
  - inversion ND as [|? ? Hn ND']; subst. destruct (String.eqb_spec k k0) as [->|N].
    + split.
      * intros H. injection H as ->. now left.
      * intros [H|H]; [congruence|]. exfalso. apply Hn. apply in_map_iff. now exists (k0, v).
    + rewrite IH by auto. split; [now right|]. intros [H|H]; [congruence|auto].
Qed.

Lemma dget_none {V} (d : dict V) k : wf_dict d -> (dget d k = None <-> forall w, ~ entry d k w).
Proof.
  intros W. split.
  - intros H w Hw. apply dget_entry in Hw; auto. congruence.
  - intros H. destruct (dget d k) as [v|] eqn:E; auto.
    apply dget_entry in E; auto. exfalso. eapply H; eauto.
Qed.

Lemma srcv_source d g n v : wf_dict d -> wf_dict g ->
  (srcv d g n = Some v <-> source_value d g n v).
Proof.
  intros Wd Wg. unfold srcv, source_value. destruct (dget d n) as [w|] eqn:E.
  - apply dget_entry in E; auto. split.
    + intros H. injection H as ->. now left.
    + intros [H|[H _]]; [|exfalso; eapply H; eauto].
      apply dget_entry in H, E; auto. congruence.
  - rewrite dget_none in E by auto. rewrite dget_entry by auto. split; [auto|].
    intros [H|[_ H]]; auto. exfalso. eapply E; eauto.
Qed.

Lemma keys_ddel {V} (d : dict V) k : wf_dict d ->
  ddel d k = filter (fun kv => negb (String.eqb (fst kv) k)) d.
Proof.
  unfold wf_dict. induction d as [|[k0 v0] d IH]; simpl; intros ND; auto.
  inversion ND as [|? ? Hn ND']; subst. rewrite (String.eqb_sym k k0).
  destruct (String.eqb_spec k0 k) as [->|N]; simpl.
  - clear -Hn. induction d as [|[k1 v1] d IH]; simpl; auto.
    destruct (String.eqb_spec k1 k) as [->|N]; simpl.
    + exfalso. apply Hn. now left.
    + f_equal. apply IH. intros H. apply Hn. now right.
  - now rewrite IH.
Qed.

Lemma wf_filter {V} (d : dict V) p : wf_dict d -> wf_dict (filter p d).
Proof.
  unfold wf_dict. induction d as [|[k0 v0] d IH]; simpl; intros ND; auto.
  inversion ND as [|? ? Hn ND']; subst.
  destruct (p (k0, v0)); simpl; auto. constructor; auto.
  intros H. apply Hn. apply in_map_iff in H. destruct H as (x & <- & H).
  apply filter_In in H. apply in_map. tauto.
Qed.

Lemma filter_filter {X} (p q : X -> bool) l : filter p (filter q l) = filter (fun x => q x && p x)%bool l.
Proof.
  induction l as [|x l IH]; simpl; auto. destruct (q x); simpl; [|auto].
  destruct (p x); now rewrite IH.
Qed.

Lemma ddels_filter names : forall d, wf_dict d ->
  ddels d names = filter (fun kv => negb (existsb (String.eqb (fst kv)) names)) d.
Proof.
  unfold ddels. induction names as [|n names IH]; intros d W; simpl.
  - clear. induction d; simpl; congruence.
  - rewrite IH; rewrite keys_ddel by auto.
    + rewrite filter_filter. apply filter_ext. intros kv.
      now rewrite Bool.negb_orb.
    + now apply wf_filter.
Qed.

(** the check functions decide validity *)
Definition check_of (n : string) : pyval -> bool :=
  nth (index_of String.compare n prop_name_list) prop_check_func_list (fun _ => false).

Lemma fpos_iff f : fpos f = true <-> f = FPInf \/ exists q, f = FFin q /\ (0 < q)%Q.
Proof.
  destruct f as [q| | |]; unfold fpos; split; intros H; try discriminate; auto.
  - right. exists q. split; auto. apply Qlt_alt. destruct (0 ?= q)%Q; congruence.
  - destruct H as [H|(q' & H & L)]; [discriminate|]. injection H as <-.
    apply Qlt_alt in L. change ((0 ?= q)%Q = Lt) in L. destruct (0 ?= q)%Q; congruence.
  - destruct H as [H|(q' & H & L)]; discriminate.
  - destruct H as [H|(q' & H & L)]; discriminate.
Qed.

Lemma fintegral_iff f : fintegral f = true <-> exists q z, f = FFin q /\ (q == inject_Z z)%Q.
Proof.
  destruct f as [q| | |]; simpl; split; intros H; try discriminate;
    try (destruct H as (q' & z & H & _); discriminate).
  - exists q, (Qnum q / Zpos (Qden q))%Z. split; auto.
    apply Z.eqb_eq in H. unfold Qeq, inject_Z. simpl.
    pose proof (Z.div_mod (Qnum q) (Zpos (Qden q))). lia.
  - destruct H as (q' & z & H & E). injection H as <-. apply Z.eqb_eq.
    unfold Qeq, inject_Z in E. simpl in E. rewrite Z.mul_1_r in E. rewrite E.
    apply Z.mod_mul. lia.
Qed.

Ltac kill_names :=
  repeat match goal with
         | H : _ /\ _ |- _ => destruct H
         | H : _ \/ _ |- _ => destruct H
         | H : exists _, _ |- _ => destruct H
         end; try discriminate; try congruence.

Lemma chk_tol_iff v : chk_tol v = true <-> positive_float v.
Proof.
  unfold positive_float. destruct v; simpl; split; intros H; try discriminate;
    try (kill_names; fail).
  - apply fpos_iff in H. destruct H as [->|(q & -> & L)]; eauto.
  - apply fpos_iff. destruct H as [H|(q & H & L)]; injection H as ->; eauto.
Qed.

Lemma chk_bool_iff v : chk_bool v = true <-> boolean v.
Proof.
  unfold boolean. destruct v; simpl; split; intros H; try discriminate; eauto;
    destruct H; discriminate.
Qed.

Lemma chk_str_iff v : chk_str v = true <-> exists s, v = VStr s.
Proof. destruct v; simpl; split; intros H; try discriminate; eauto; destruct H; discriminate. Qed.

Lemma chk_count_iff v : chk_count v = true <-> whole_number v.
Proof.
  unfold whole_number. destruct v; simpl; split; intros H; try discriminate; eauto;
    try (kill_names; fail).
  - apply fintegral_iff in H. destruct H as (q & z & -> & E). right. right. eauto.
  - apply fintegral_iff. destruct H as [[z H]|[[b H]|(q & z & H & E)]]; try discriminate.
    injection H as ->. eauto.
Qed.

Lemma chk_solver_iff v : chk_solver v = true <->
  (v = VStr "ode45" \/ v = VStr "ode23" \/ v = VStr "ode113").
Proof.
  destruct v; simpl; split; intros H; try discriminate; try (kill_names; fail).
  - destruct (String.eqb_spec s "ode45"); [subst; auto|].
    destruct (String.eqb_spec s "ode23"); [subst; auto|].
    destruct (String.eqb_spec s "ode113"); [subst; auto|discriminate].
  - destruct H as [H|[H|H]]; injection H as ->; reflexivity.
Qed.

Lemma check_of_valid n v : In n prop_name_list -> (check_of n v = true <-> valid_value n v).
Proof.
  intros H. unfold valid_value. simpl in H.
  repeat (destruct H as [<-|H];
    [ unfold check_of; cbn [index_of ceq prop_name_list];
      match goal with |- context [nth ?i _ _] => let i' := eval vm_compute in i in change i with i' end;
      cbn [nth prop_check_func_list];
      rewrite ?chk_tol_iff, ?chk_bool_iff, ?chk_str_iff, ?chk_count_iff, ?chk_solver_iff;
      split; [intros; tauto | intros; kill_names; eauto] |]).
  destruct H.
Qed.

Lemma forall2_map_l {X Y Z} (f : X -> Y) (P : Y -> Z -> Prop) l l' :
  Forall2 P (map f l) l' <-> Forall2 (fun x z => P (f x) z) l l'.
Proof.
  revert l'. induction l as [|x l IH]; intros l'; simpl; split; intros H; inversion H; subst;
    constructor; auto; now apply IH.
Qed.

Lemma forall2_impl_in {X Z} (P Q : X -> Z -> Prop) l l' :
  (forall x z, In x l -> P x z -> Q x z) -> Forall2 P l l' -> Forall2 Q l l'.
Proof.
  intros H F. induction F; constructor.
  - apply H; auto. now left.
  - apply IHF. intros; apply H; auto. now right.
Qed.

Lemma known_iff n : known_property n <-> In n prop_name_list.
Proof. unfold known_property, prop_name_list. reflexivity. Qed.

Lemma prop_names_len i n : nth_error prop_name_list i = Some n -> i < length prop_check_func_list.
Proof. intros H. apply nth_lt in H. exact H. Qed.

Lemma take_checks names : (forall n, In n names -> In n prop_name_list) ->
  take_idx prop_check_func_list (map (fun x => index_of String.compare x prop_name_list) names)
  = Some (map check_of names).
Proof.
  intros H. unfold take_idx. induction names as [|n names IH]; [reflexivity|].
  cbn [map fold_right]. rewrite IH by (intros; apply H; now right).
  destruct (index_of_first String.compare string_cmp_eq n prop_name_list) as [H1 _].
  { apply H. now left. }
  unfold check_of. apply prop_names_len in H1.
  rewrite (nth_error_nth' _ (fun _ => false) H1). reflexivity.
Qed.

Lemma isin_known n : isin1 String.compare n prop_name_list = true <-> In n prop_name_list.
Proof. apply isin1_iff, string_cmp_eq. Qed.

Lemma filter_all {X} (p : X -> bool) l : (forall x, In x l -> p x = true) -> filter p l = l.
Proof.
  intros H. induction l as [|x l IH]; simpl; auto.
  rewrite (H x) by now left. now rewrite IH by (intros; apply H; now right).
Qed.

Lemma parse_prop_unknown s ad names : ~ Forall known_property names ->
  parse_prop s ad (Some names) = (s, Err (Tagged "wrongInput")).
Proof.
  intros H. unfold parse_prop.
  rewrite is_member_eq by (apply string_cmp_eq || apply string_cmp_opp || apply string_cmp_trans).
  destruct (forallb _ _) eqn:E; simpl; auto.
  exfalso. apply H. rewrite Forall_forall. intros n Hn. apply known_iff, isin_known.
  rewrite forallb_forall in E. apply E. apply in_map_iff. eauto.
Qed.

Lemma parse_prop_known s ad names : Forall known_property names ->
  parse_prop s ad (Some names) = parse_core s ad names (map check_of names).
Proof.
  intros H. rewrite Forall_forall in H.
  assert (H' : forall n, In n names -> In n prop_name_list) by (intros; now apply known_iff, H).
  unfold parse_prop.
  rewrite is_member_eq by (apply string_cmp_eq || apply string_cmp_opp || apply string_cmp_trans).
  replace (forallb (fun b : bool => b) _) with true.
  2: { symmetry. apply forallb_forall. intros b Hb. apply in_map_iff in Hb.
       destruct Hb as (n & <- & Hn). now apply isin_known, H'. }
  cbn [negb]. rewrite filter_all by (intros; now apply isin_known, H').
  now rewrite take_checks.
Qed.

Lemma parse_prop_none s ad :
  parse_prop s ad None = parse_core s ad prop_name_list (map check_of prop_name_list).
Proof. reflexivity. Qed.

Section Core.
Variables (s : pstate) (a ad : addr) (g d : dict pyval).
Hypothesis Hc : conf s = Some a.
Hypothesis Hg : nth_error (heap s) a = Some g.
Hypothesis Hd : nth_error (heap s) ad = Some d.

Lemma parse_core_pl names checks :
  let r := pl names checks g d [] in
  parse_core s ad names checks =
  (PState (heap s ++ [g; fst r])%list (conf s) (handles s), addr_res (snd r) (S (length (heap s)))).
Proof.
  unfold parse_core, p_get_prop_dict. rewrite Hc, Hg. cbn [heap conf].
  rewrite nth_error_app1 by (eapply nth_lt; eauto). rewrite Hd.
  rewrite (parse_loop_pl _ _ _ _ _ g d).
  - rewrite app_length. simpl length. rewrite Nat.add_1_r. f_equal. f_equal.
    rewrite <- app_assoc. simpl.
    assert (E : forall (l : list (dict pyval)) x y z, upd (l ++ [x; y])%list (S (length l)) z
                = (l ++ [x; z])%list).
    { induction l as [|w l IH]; simpl; intros; auto. now rewrite IH. }
    apply E.
  - rewrite app_length. simpl. lia.
  - rewrite <- app_assoc. rewrite nth_error_app2, Nat.sub_diag by lia. reflexivity.
  - apply nth_app_last.
Qed.

Hypothesis Wd : wf_dict d.
Hypothesis Wg : wf_dict g.

Lemma core_ok_iff names vals : NoDup names -> Forall known_property names ->
  ((exists s' b, parse_core s ad names (map check_of names) = (s', Ok (vals, b))) <->
   Forall2 (source_value d g) names vals /\ Forall2 valid_value names vals).
Proof.
  intros ND K. rewrite parse_core_pl. cbv zeta.
  assert (P := pl_ok_iff names (map check_of names) g d [] vals ND (map_length _ _)).
  simpl in P.
  assert (Q : (exists vals0, vals = vals0 /\ Forall2 (fun n v => srcv d g n = Some v) names vals0 /\
                Forall2 (fun (c : pyval -> bool) v => c v = true) (map check_of names) vals0) <->
              Forall2 (source_value d g) names vals /\ Forall2 valid_value names vals).
  { rewrite Forall_forall in K. split.
    - intros (v0 & <- & H1 & H2). rewrite forall2_map_l in H2. split.
      + eapply forall2_impl_in; [|exact H1]. intros. now apply srcv_source.
      + eapply forall2_impl_in; [|exact H2]. intros. apply check_of_valid; auto.
        now apply known_iff, K.
    - intros [H1 H2]. exists vals. split; auto. split.
      + eapply forall2_impl_in; [|exact H1]. intros. now apply srcv_source.
      + rewrite forall2_map_l. eapply forall2_impl_in; [|exact H2]. intros.
        apply check_of_valid; auto. now apply known_iff, K. }
  rewrite <- Q, <- P. split.
  - intros (s' & b & H). injection H as _ H. destruct (snd (pl _ _ _ _ _)); simpl in H; congruence.
  - intros H. rewrite H. simpl. eauto.
Qed.

Lemma core_residual names checks s' vals b :
  parse_core s ad names checks = (s', Ok (vals, b)) ->
  length (heap s) <= b /\
  exists rest, nth_error (heap s') b = Some rest /\ residual d names rest.
Proof.
  rewrite parse_core_pl. cbv zeta. intros H. injection H as <- H.
  destruct (snd (pl names checks g d [])) as [r|e] eqn:E; simpl in H; [|discriminate].
  injection H as <- <-. split; [lia|]. cbn [heap].
  rewrite (pl_residual _ _ _ _ _ _ E). exists (ddels d names). split.
  - rewrite nth_error_app2 by lia. replace (S (length (heap s)) - length (heap s)) with 1 by lia.
    reflexivity.
  - now apply ddels_filter.
Qed.

Lemma core_frame names checks s' r : parse_core s ad names checks = (s', r) ->
  conf s' = conf s /\ handles s' = handles s /\
  forall x dx, nth_error (heap s) x = Some dx -> nth_error (heap s') x = Some dx.
Proof.
  rewrite parse_core_pl. cbv zeta. intros H. injection H as <- _. simpl. repeat split; auto.
  intros x dx Hx. rewrite nth_error_app1; auto. eapply nth_lt; eauto.
Qed.

Lemma core_err names s' e : Forall known_property names ->
  (forall n, known_property n -> exists v, entry g n v) ->
  parse_core s ad names (map check_of names) = (s', Err e) -> e = Tagged "wrongInput".
Proof.
  intros K G. rewrite parse_core_pl. cbv zeta. intros H. injection H as _ H.
  destruct (snd (pl names (map check_of names) g d [])) as [r|e'] eqn:E; simpl in H; [discriminate|].
  injection H as <-. eapply pl_err; [| |exact E].
  - apply map_length.
  - intros n Hn. rewrite Forall_forall in K. destruct (G n (K n Hn)) as [v Hv].
    apply dget_entry in Hv; auto. congruence.
Qed.
End Core.

(** ** C04 *)
Lemma last_set_norm_control h : last_set h "is_ode_norm_control" = Some (VStr "on").
Proof.
  induction h as [|c h IH]; simpl; auto. destruct c; auto. destruct x; simpl; auto.
Qed.

Lemma wf_default : wf_dict default_conf.
Proof. unfold wf_dict. repeat constructor; simpl; intuition discriminate. Qed.

Lemma pl_some_bad names : forall checks g d acc n v, length checks = length names ->
  (forall m, In m names -> dget g m <> None) -> NoDup names ->
  (exists i, nth_error names i = Some n /\ exists c, nth_error checks i = Some c /\ c v = false) ->
  srcv d g n = Some v ->
  snd (pl names checks g d acc) = Err (Tagged "wrongInput").
Proof.
  intros checks g d acc n v L G ND (i & Hi & c & Hc & Cv) S.
  destruct (snd (pl names checks g d acc)) as [r|e] eqn:E.
  - exfalso. apply pl_ok_iff in E; auto. destruct E as (vals & -> & F1 & F2).
    revert checks vals i L Hi Hc F1 F2. clear ND G.
    induction names as [|m names IH]; intros [|c' checks] vals [|i] L Hi Hc F1 F2;
      simpl in *; try discriminate; inversion F1; inversion F2; subst.
    + congruence.
    + match goal with H : _ :: _ = _ :: _ |- _ => injection H as -> -> end. eauto.
  - f_equal. eapply pl_err; eauto.
Qed.

Lemma live_dict h : plain_history h ->
  exists a g, conf (run p_import h) = Some a /\ nth_error (heap (run p_import h)) a = Some g /\
    forall k, dget g k = last_set (rev h) k.
Proof.
  intros P. pose proof (inv_run h _ _ _ P inv_import) as I.
  destruct (i_live _ _ _ I) as (a & g & Hc & Hg & E & _).
  exists a, g. repeat split; auto. intros k. rewrite E. now apply arun_cfg.
Qed.

Lemma prop_names_nodup : NoDup prop_name_list.
Proof. repeat constructor; simpl; intuition discriminate. Qed.

Lemma known_getter n : In n prop_name_list -> In n getter_names.
Proof. simpl. intuition. Qed.

Lemma default_parse_raises h ad d : plain_history h ->
  nth_error (heap (run p_import h)) ad = Some d ->
  dget d "is_ode_norm_control" = None ->
  exists s', parse_prop (run p_import h) ad None = (s', Err (Tagged "wrongInput")).
Proof.
  intros P Hd N. destruct (live_dict h P) as (a & g & Hc & Hg & E).
  rewrite parse_prop_none, (parse_core_pl _ a ad g d) by auto. cbv zeta.
  rewrite (pl_some_bad prop_name_list _ g d [] "is_ode_norm_control" (VStr "on")).
  - unfold addr_res. eexists. reflexivity.
  - apply map_length.
  - intros m Hm. rewrite E. destruct (last_set_total (rev h) m) as [v Hv].
    + now apply known_getter.
    + congruence.
  - apply prop_names_nodup.
  - exists 6. split; [reflexivity|]. eexists. split; [reflexivity|]. reflexivity.
  - unfold srcv. rewrite N, E. apply last_set_norm_control.
Qed.

(** the keys of the live dict stay distinct *)
Lemma keys_dset {V} (d : dict V) k v : wf_dict d -> wf_dict (dset d k v).
Proof.
  unfold wf_dict. induction d as [|[k0 v0] d IH]; simpl; intros ND.
  - constructor; auto.
  - inversion ND as [|? ? Hn ND']; subst. destruct (String.eqb_spec k k0) as [->|N]; simpl.
    + constructor; auto.
    + constructor; auto. intros H. apply Hn. clear -H N.
      induction d as [|[k1 v1] d IH]; simpl in *.
      * destruct H as [H|[]]; congruence.
      * destruct (String.eqb k k1) eqn:E; simpl in H; destruct H as [H|H]; auto.
Qed.

Lemma heap_wf_step s c : Forall wf_dict (heap s) -> Forall wf_dict (heap (step s c)).
Proof.
  assert (U : forall h a (d : dict pyval), Forall wf_dict h -> wf_dict d -> Forall wf_dict (upd h a d)).
  { intros h a d H W. revert a. induction H; intros [|a]; simpl; constructor; auto. }
  assert (N : forall h a (d : dict pyval), Forall wf_dict h -> nth_error h a = Some d -> wf_dict d).
  { intros h a d H W. rewrite Forall_forall in H. apply H. eapply nth_error_In; eauto. }
  assert (A : forall h (d : dict pyval), Forall wf_dict h -> wf_dict d -> Forall wf_dict (h ++ [d])%list).
  { intros h d H W. apply Forall_app. auto. }
  intros H. destruct c; simpl.
  - apply A; auto. apply wf_default.
  - unfold p_set. destruct (conf s) as [a|]; auto.
    destruct (nth_error (heap s) a) as [d|] eqn:E; simpl; auto. apply U; auto. apply keys_dset. eauto.
  - unfold p_get_prop_dict. destruct (conf s) as [a|]; auto.
    destruct (nth_error (heap s) a) as [d|] eqn:E; simpl; auto. eauto.
  - unfold p_write. destruct (nth_error (handles s) k) as [a|]; auto.
    destruct (nth_error (heap s) a) as [d|] eqn:E; simpl; auto. apply U; auto. apply keys_dset. eauto.
  - unfold p_get_conf. destruct (conf s) as [a|] eqn:E; simpl.
    + rewrite E. simpl. auto.
    + apply A; auto. apply wf_default.
  - unfold p_set_conf. destruct k as [k|]; simpl; auto.
    destruct (nth_error (handles s) k); auto.
Qed.

Lemma heap_wf h : Forall wf_dict (heap (run p_import h)).
Proof.
  unfold run. assert (H : Forall wf_dict (heap p_import)).
  { simpl. constructor; auto. apply wf_default. }
  revert H. generalize p_import. induction h as [|c h IH]; intros s H; simpl; auto.
  apply IH. now apply heap_wf_step.
Qed.

(** ** assembled statements *)
Lemma known_dec names : {Forall known_property names} + {~ Forall known_property names}.
Proof.
  destruct (Forall_dec known_property (fun n => in_dec string_dec n all_properties) names); auto.
Qed.

Lemma parse_requested s ad needed : Forall known_property (requested needed) ->
  parse_prop s ad needed = parse_core s ad (requested needed) (map check_of (requested needed)).
Proof.
  destruct needed as [names|]; simpl; intros K.
  - now apply parse_prop_known.
  - apply parse_prop_none.
Qed.

Lemma parse_unknown s ad needed : ~ Forall known_property (requested needed) ->
  parse_prop s ad needed = (s, Err (Tagged "wrongInput")).
Proof.
  destruct needed as [names|]; simpl; intros K.
  - now apply parse_prop_unknown.
  - exfalso. apply K. apply Forall_forall. auto.
Qed.

Section Assembled.
Variables (s : pstate) (a ad : addr) (g d : dict pyval).
Hypothesis Hc : conf s = Some a.
Hypothesis Hg : nth_error (heap s) a = Some g.
Hypothesis Hd : nth_error (heap s) ad = Some d.
Hypothesis Wd : wf_dict d.
Hypothesis Wg : wf_dict g.

Lemma parse_ok_iff needed vals : NoDup (requested needed) ->
  ((exists s' b, parse_prop s ad needed = (s', Ok (vals, b))) <->
   Forall known_property (requested needed) /\
   Forall2 (source_value d g) (requested needed) vals /\
   Forall2 valid_value (requested needed) vals).
Proof.
  intros ND. destruct (known_dec (requested needed)) as [K|K].
  - rewrite parse_requested by auto.
    rewrite (core_ok_iff s a ad g d Hc Hg Hd Wd Wg); tauto.
  - rewrite parse_unknown by auto. split; [intros (s' & b & H); discriminate|tauto].
Qed.

Lemma parse_residual needed s' vals b :
  parse_prop s ad needed = (s', Ok (vals, b)) ->
  length (heap s) <= b /\
  exists rest, nth_error (heap s') b = Some rest /\ residual d (requested needed) rest.
Proof.
  destruct (known_dec (requested needed)) as [K|K].
  - rewrite parse_requested by auto. now apply (core_residual s a ad g d).
  - rewrite parse_unknown by auto. discriminate.
Qed.

Lemma parse_frame needed s' r : parse_prop s ad needed = (s', r) ->
  conf s' = conf s /\ handles s' = handles s /\
  forall x dx, nth_error (heap s) x = Some dx -> nth_error (heap s') x = Some dx.
Proof.
  destruct (known_dec (requested needed)) as [K|K].
  - rewrite parse_requested by auto. now apply (core_frame s a ad g d).
  - rewrite parse_unknown by auto. intros H. injection H as <- _. auto.
Qed.

Lemma parse_err needed s' e :
  (forall n, known_property n -> exists v, entry g n v) ->
  parse_prop s ad needed = (s', Err e) -> e = Tagged "wrongInput".
Proof.
  intros G. destruct (known_dec (requested needed)) as [K|K].
  - rewrite parse_requested by auto. now apply (core_err s a ad g d).
  - rewrite parse_unknown by auto. congruence.
Qed.
End Assembled.
