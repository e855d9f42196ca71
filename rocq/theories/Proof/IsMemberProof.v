(** Lemmas about Model/IsMember.v *)
Require Import Coq.Lists.List Coq.Arith.PeanoNat Coq.Strings.String Coq.Strings.Ascii Lia.
Require Import Coq.Sorting.Sorted Coq.NArith.NArith.
From Verif Require Import Model.IsMember Model.Py Model.Config Spec.ConfigSpec.
Import ListNotations.

Section P.
Context {A : Type} (cmp : A -> A -> comparison).
Hypothesis cmp_eq : forall x y, cmp x y = Eq <-> x = y.
Hypothesis cmp_opp : forall x y, cmp y x = CompOpp (cmp x y).
Hypothesis cmp_trans : forall x y z, cmp x y = Lt -> cmp y z = Lt -> cmp x z = Lt.

Lemma ceq_iff x y : ceq cmp x y = true <-> x = y.
Proof.
  unfold ceq. rewrite <- cmp_eq. destruct (cmp x y); split; intros; congruence.
Qed.

Lemma ceq_refl x : ceq cmp x x = true.
Proof. now apply ceq_iff. Qed.

Lemma isin1_iff x b : isin1 cmp x b = true <-> In x b.
Proof.
  unfold isin1. rewrite existsb_exists. split.
  - intros [y [Hy E]]. apply ceq_iff in E. now subst.
  - intros H. exists x. split; auto. apply ceq_refl.
Qed.

Definition sorted := StronglySorted (fun x y => cmp x y = Lt).

Lemma insert_in x l y : In y (insert_uniq cmp x l) <-> y = x \/ In y l.
Proof.
  induction l as [|z l IH]; simpl.
  - intuition congruence.
  - destruct (cmp x z) eqn:E; simpl.
    + apply cmp_eq in E. subst. intuition congruence.
    + intuition congruence.
    + rewrite IH. intuition congruence.
Qed.

Lemma insert_sorted x l : sorted l -> sorted (insert_uniq cmp x l).
Proof.
  induction 1 as [|z l Hs IH Hall]; simpl.
  - constructor; constructor.
  - destruct (cmp x z) eqn:E.
    + now constructor.
    + constructor; [now constructor|]. constructor; auto.
      rewrite Forall_forall in *. intros y Hy. eapply cmp_trans; eauto.
    + constructor; auto. rewrite Forall_forall in *. intros y Hy.
      apply insert_in in Hy. destruct Hy as [->|Hy]; auto.
      rewrite cmp_opp, E. reflexivity.
Qed.

Lemma unique_sorted v : sorted (np_unique cmp v).
Proof. induction v; simpl; [constructor|]. now apply insert_sorted. Qed.

Lemma unique_in v x : In x (np_unique cmp v) <-> In x v.
Proof.
  induction v as [|y v IH]; simpl; [tauto|].
  rewrite insert_in, IH. intuition congruence.
Qed.

Lemma sorted_irrefl x l : sorted (x :: l) -> ~ In x l.
Proof.
  intros H Hin. inversion H as [|? ? Hs1 Hf]; subst. rewrite Forall_forall in Hf.
  specialize (Hf _ Hin). assert (E : cmp x x = Eq) by now apply cmp_eq. congruence.
Qed.

(** two sorted lists with the same members are equal *)
Lemma sorted_ext l : forall l', sorted l -> sorted l' ->
  (forall x, In x l <-> In x l') -> l = l'.
Proof.
  induction l as [|x l IH]; intros [|y l'] Hs Hs' H; auto.
  - exfalso. apply (proj2 (H y)). now left.
  - exfalso. apply (proj1 (H x)). now left.
  - assert (x = y).
    { destruct (proj1 (H x)) as [E|E]; [now left|congruence|].
      destruct (proj2 (H y)) as [E'|E']; [now left|congruence|].
      inversion Hs as [|? ? Hs1 Hf1]; inversion Hs' as [|? ? Hs2 Hf2]; subst.
      rewrite Forall_forall in Hf1, Hf2.
      pose proof (Hf2 _ E) as L1. pose proof (Hf1 _ E') as L2.
      rewrite cmp_opp, L1 in L2. discriminate. }
    subst y. f_equal. apply IH.
    + now inversion Hs.
    + now inversion Hs'.
    + intros z. split; intros Hz.
      * destruct (proj1 (H z)) as [E|E]; [now right| |auto].
        subst. exfalso. eapply sorted_irrefl; eauto.
      * destruct (proj2 (H z)) as [E|E]; [now right| |auto].
        subst. exfalso. eapply (sorted_irrefl z l'); eauto.
Qed.

Lemma sorted_filter (p : A -> bool) l : sorted l -> sorted (filter p l).
Proof.
  induction 1 as [|x l Hs IH Hall]; simpl; [constructor|].
  destruct (p x); auto. constructor; auto.
  rewrite Forall_forall in *. intros y Hy. apply filter_In in Hy. now apply Hall.
Qed.

Lemma mask_sel_map {B} (f : A -> B) (p : A -> bool) l :
  mask_sel (map f l) (map p l) = map f (filter p l).
Proof. induction l as [|x l IH]; simpl; auto. destruct (p x); simpl; now rewrite IH. Qed.

Lemma mask_sel_id (p : A -> bool) l : mask_sel l (map p l) = filter p l.
Proof. induction l as [|x l IH]; simpl; auto. destruct (p x); simpl; now rewrite IH. Qed.

Lemma index_of_first x b : In x b -> first_position x b (index_of cmp x b).
Proof.
  unfold first_position. induction b as [|y b IH]; simpl; [tauto|]. intros H.
  destruct (ceq cmp x y) eqn:E.
  - apply ceq_iff in E. subst. split; auto. intros j Hj. lia.
  - assert (x <> y) by (intros ->; rewrite ceq_refl in E; discriminate).
    destruct H as [H|H]; [congruence|]. destruct (IH H) as [H1 H2].
    split; auto. intros [|j] Hj; simpl; [congruence|]. apply H2. lia.
Qed.

Lemma take_idx_map {B} (g : A -> B) (u : list A) l :
  (forall x, In x l -> In x u) ->
  take_idx (map g u) (map (fun x => index_of cmp x u) l) = Some (map g l).
Proof.
  intros H. unfold take_idx. induction l as [|x l IH]; simpl; auto.
  rewrite IH by (intros; apply H; now right).
  destruct (index_of_first x u) as [H1 _]; [apply H; now left|].
  rewrite nth_error_map, H1. reflexivity.
Qed.

(** is_member in closed form *)
Lemma is_member_eq a b :
  is_member cmp a b =
  Some (map (fun x => isin1 cmp x b) a,
        map (fun x => index_of cmp x b) (filter (fun x => isin1 cmp x b) a)).
Proof.
  unfold is_member, np_isin. rewrite mask_sel_id.
  unfold np_unique_index, np_unique_inverse. rewrite mask_sel_map.
  set (common := filter (fun x => isin1 cmp x b) a).
  assert (E : filter (fun x => isin1 cmp x (np_unique cmp common)) (np_unique cmp b)
              = np_unique cmp common).
  { apply sorted_ext.
    - apply sorted_filter, unique_sorted.
    - apply unique_sorted.
    - intros x. rewrite filter_In, isin1_iff, !unique_in.
      unfold common. rewrite filter_In, isin1_iff. tauto. }
  rewrite E, take_idx_map; auto. intros x Hx. now apply unique_in.
Qed.

Lemma is_member_spec a b :
  exists mask idx, is_member cmp a b = Some (mask, idx) /\
    Forall2 (fun x m => m = true <-> In x b) a mask /\
    Forall2 (fun x i => first_position x b i) (map fst (filter snd (combine a mask))) idx.
Proof.
  rewrite is_member_eq. eexists _, _. split; [reflexivity|]. split.
  - induction a; simpl; constructor; auto. apply isin1_iff.
  - assert (E : map fst (filter snd (combine a (map (fun x => isin1 cmp x b) a)))
                = filter (fun x => isin1 cmp x b) a).
    { clear. induction a as [|x a IH]; simpl; auto.
      destruct (isin1 cmp x b); simpl; now rewrite IH. }
    rewrite E. clear E.
    assert (H : forall x, In x (filter (fun x => isin1 cmp x b) a) -> In x b).
    { intros x Hx. apply filter_In in Hx. now apply isin1_iff. }
    induction (filter (fun x => isin1 cmp x b) a) as [|x l IH]; simpl; constructor.
    + apply index_of_first, H. now left.
    + apply IH. intros; apply H. now right.
Qed.
End P.

(** String.compare satisfies the comparison laws *)
Lemma string_cmp_eq x y : String.compare x y = Eq <-> x = y.
Proof.
  split; [apply String.compare_eq_iff|]. intros ->.
  induction y as [|c y IH]; simpl; auto.
  unfold Ascii.compare. now rewrite N.compare_refl.
Qed.

Lemma string_cmp_opp x y : String.compare y x = CompOpp (String.compare x y).
Proof. apply String.compare_antisym. Qed.

Lemma string_cmp_trans x : forall y z,
  String.compare x y = Lt -> String.compare y z = Lt -> String.compare x z = Lt.
Proof.
  induction x as [|a x IH]; intros [|b y] [|c z]; simpl; try discriminate; auto.
  unfold Ascii.compare. intros H1 H2.
  destruct (N_of_ascii a ?= N_of_ascii b)%N eqn:E1;
  destruct (N_of_ascii b ?= N_of_ascii c)%N eqn:E2; try discriminate.
  - apply N.compare_eq_iff in E1, E2. rewrite E1, E2, N.compare_refl. eauto.
  - apply N.compare_eq_iff in E1. rewrite E1, E2. auto.
  - apply N.compare_eq_iff in E2. rewrite <- E2, E1. auto.
  - rewrite N.compare_lt_iff in E1, E2.
    assert (H : (N_of_ascii a < N_of_ascii c)%N) by lia.
    apply N.compare_lt_iff in H. now rewrite H.
Qed.
