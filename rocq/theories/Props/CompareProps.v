(** C06-C07: abs_rel_compare. *)
From mathcomp Require Import all_ssreflect all_algebra.
Require Import Coq.Strings.String.
From Verif.Model Require Import Py NP Compare.
From Verif.Spec Require Import CompareSpec.
From Verif.Proof Require Import NPLib CompareProof.
Import Order.Theory GRing.Theory Num.Theory.
Local Open Scope ring_scope.

(** C06: for arrays of equal shape and legal tolerances the call returns, its verdict is the
    elementwise relation at every index, and the report string is empty iff the verdict is True. *)
Theorem C06_verdict :
  forall (R : rcfType) (l r : arr (xnum R)) (at_ : xnum R) (rt : tolarg R) (rt' : option (xnum R)),
    wf_arr l -> wf_arr r -> shape l = shape r -> legal_tol at_ ->
    (rt = TNone /\ rt' = None \/ exists2 t, rt = TVal t /\ rt' = Some t & legal_tol t) ->
    exists2 o, abs_rel_compare l r (TVal at_) rt (abs_op R) = Ok o &
      (co_equal o <->
       forall idx, valid_idx (shape l) idx -> close at_ rt' (getn NaN l idx) (getn NaN r idx)) /\
      (co_equal o <-> co_report o = RepNone).
Proof. exact compare_verdict. Qed.
Print Assumptions C06_verdict.

(** C06: the reported absolute difference is the largest |a - b| over the finite entries. *)
Theorem C06_reported_difference :
  forall (R : rcfType) (l r : arr (xnum R)) (at_ : xnum R) (rt : tolarg R) o,
    wf_arr l -> wf_arr r -> shape l = shape r -> data l <> [::] ->
    (forall idx, valid_idx (shape l) idx -> same_kind (getn NaN l idx) (getn NaN r idx)) ->
    abs_rel_compare l r (TVal at_) rt (abs_op R) = Ok o ->
    exists2 d, co_abs_diff o = Some (Fin d) &
     (forall idx a b, valid_idx (shape l) idx -> getn NaN l idx = Fin a ->
        getn NaN r idx = Fin b -> `|a - b| <= d) /\
     (d = 0 \/ exists idx a b, [/\ valid_idx (shape l) idx, getn NaN l idx = Fin a,
        getn NaN r idx = Fin b & d = `|a - b|]).
Proof. exact compare_abs_diff. Qed.
Print Assumptions C06_reported_difference.

(** C06: arrays of different shapes and illegal tolerances are rejected with the documented tags. *)
Theorem C06_different_shapes_raise :
  forall (R : rcfType) (l r : arr (xnum R)) at_ rt f, shape l <> shape r ->
    abs_rel_compare l r at_ rt f = throw "wrongInput:wrongArgs".
Proof. exact compare_shape. Qed.
Print Assumptions C06_different_shapes_raise.

Theorem C06_illegal_abs_tol_raises :
  forall (R : rcfType) (l r : arr (xnum R)) at_ rt f, shape l = shape r ->
    (forall t, at_ = TVal t -> ~ legal_tol t) ->
    abs_rel_compare l r at_ rt f = throw "wrongInput:wrongAbsTol".
Proof. exact compare_bad_tol. Qed.
Print Assumptions C06_illegal_abs_tol_raises.

Theorem C06_illegal_rel_tol_raises :
  forall (R : rcfType) (l r : arr (xnum R)) at_ rt f, shape l = shape r -> legal_tol at_ ->
    rt <> TNone -> (forall t, rt = TVal t -> ~ legal_tol t) ->
    abs_rel_compare l r (TVal at_) rt f = throw "wrongInput:wrongRelTol".
Proof. exact compare_bad_rel. Qed.
Print Assumptions C06_illegal_rel_tol_raises.

(** a concrete pair: [[1, nan, 100]] against [[1, nan, 101]] with abs_tol 0.5: not equal
    absolutely, equal with a relative tolerance 1. *)
Definition exl (R : rcfType) : arr (xnum R) := Arr [:: 1%N; 3%N] [:: Fin 1; NaN; Fin 100%:R].
Definition exr (R : rcfType) : arr (xnum R) := Arr [:: 1%N; 3%N] [:: Fin 1; NaN; Fin 101%:R].

Example C06_nonvacuous (R : rcfType) :
  [/\ wf_arr (exl R), wf_arr (exr R), shape (exl R) = shape (exr R) & legal_tol (Fin (1 / 2%:R) : xnum R)] /\
  (exists2 o, abs_rel_compare (exl R) (exr R) (TVal (Fin (1 / 2%:R))) TNone (abs_op R) = Ok o & co_equal o = false) /\
  (exists2 o, abs_rel_compare (exl R) (exr R) (TVal (Fin (1 / 2%:R))) (TVal (Fin 1)) (abs_op R) = Ok o & co_equal o).
Proof.
have L : legal_tol (Fin (1 / 2%:R) : xnum R) by rewrite /= divr_ge0 ?ler01 ?ler0n.
split; first by [].
split.
  have [o -> [V _]] : exists2 o, abs_rel_compare (exl R) (exr R) (TVal (Fin (1 / 2%:R))) TNone (abs_op R) = Ok o & _ :=
    @C06_verdict R (exl R) (exr R) _ TNone None isT isT erefl L (or_introl (conj erefl erefl)).
  exists o => //; apply/negP => /V /(_ [:: 0%N; 2%N] isT) /= [|[]//].
  rewrite distrC -natrB // normr_nat ler_pdivl_mulr ?ltr0n // mul1r.
  by rewrite -[X in _ <= X](mulr1n 1) ler_nat.
have L1 : legal_tol (Fin 1 : xnum R) by rewrite /= ler01.
have [o -> [V _]] : exists2 o, abs_rel_compare (exl R) (exr R) (TVal (Fin (1 / 2%:R))) (TVal (Fin 1)) (abs_op R) = Ok o & _ :=
  @C06_verdict R (exl R) (exr R) _ (TVal (Fin 1)) (Some (Fin 1)) isT isT erefl L
    (or_intror (ex_intro2 _ _ (Fin 1) (conj erefl erefl) L1)).
exists o => //; apply/V; case=> [//|[|//] [//|[|[|[|//]]] [|//]]] //= _.
  by left; rewrite subrr normr0; exact: L.
right; exists (Fin 1) => //=.
rewrite distrC -natrB // !normr_nat -natrD ler_pdivr_mulr ?divr_gt0 ?ltr0n // mul1r.
by rewrite ler_pdivl_mulr ?ltr0n // -natrM ler_nat.
Qed.

(** C07: symmetry of the whole result (verdict, reported differences, report), for all tolerance
    arguments including illegal ones. *)
Theorem C07_symmetric :
  forall (R : rcfType) (l r : arr (xnum R)) at_ rt, wf_arr l -> wf_arr r ->
    abs_rel_compare l r at_ rt (abs_op R) = abs_rel_compare r l at_ rt (abs_op R).
Proof. exact compare_sym. Qed.
Print Assumptions C07_symmetric.

Theorem C07_reflexive :
  forall (R : rcfType) (l : arr (xnum R)) at_ rt, wf_arr l -> legal_tol at_ ->
    (rt = TNone \/ exists2 t, rt = TVal t & legal_tol t) ->
    exists2 o, abs_rel_compare l l (TVal at_) rt (abs_op R) = Ok o &
      co_equal o /\ co_report o = RepNone.
Proof. exact compare_refl. Qed.
Print Assumptions C07_reflexive.

(** C07: enlarging the tolerances (or adding a relative one) never turns True into False. *)
Theorem C07_monotone :
  forall (R : rcfType) (l r : arr (xnum R)) at1 at2 rt1 rt2 o1,
    wf_arr l -> wf_arr r -> tol_le at1 at2 ->
    match rt1, rt2 with
    | TNone, TNone => True | TNone, TVal t => legal_tol t
    | TVal s, TVal t => tol_le s t | _, _ => False end ->
    abs_rel_compare l r (TVal at1) rt1 (abs_op R) = Ok o1 -> co_equal o1 ->
    exists2 o2, abs_rel_compare l r (TVal at2) rt2 (abs_op R) = Ok o2 & co_equal o2.
Proof. exact compare_mono. Qed.
Print Assumptions C07_monotone.

Example C07_nonvacuous (R : rcfType) :
  exists2 o2, abs_rel_compare (exl R) (exr R) (TVal PInf) (TVal (Fin 2%:R)) (abs_op R) = Ok o2 & co_equal o2.
Proof.
have [_ [_ [o Ho He]]] := C06_nonvacuous R.
apply: (C07_monotone _ _ _ _ _ _ _ _ _ _ _ _ Ho He) => //=.
by rewrite -[X in X <= _](mulr1n 1) ler_nat.
Qed.
