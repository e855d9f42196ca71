(** Decision procedures for closed and simple face lists; an argsort. *)
From mathcomp Require Import all_ssreflect all_algebra.
From Verif.Model Require Import Py NP Tri.
From Verif.Spec Require Import TriSpec.
Set Implicit Arguments.
Unset Strict Implicit.
Unset Printing Implicit Defensive.

(** an argsort that meets its contract *)
Definition sargsort (s : seq nat) : seq nat := sort (fun i j => nth 0 s i <= nth 0 s j) (iota 0 (size s)).
Lemma sargsort_ok : argsortn_ok sargsort.
Proof.
move=> s; rewrite /sargsort; split; first by rewrite perm_sort.
rewrite sorted_map; apply: sort_sorted => i j; exact: leq_total.
Qed.

Definition closedb (fs : seq face) : bool := uniq (all_darts fs) && all (fun e => flip e \in all_darts fs) (all_darts fs).
Lemma closedP fs : reflect (closed fs) (closedb fs).
Proof. apply: (iffP andP) => [[H /allP K]|[H K]]; split=> //; exact/allP. Qed.
Definition simpleb (fs : seq face) : bool := uniq fs && all (fun f => all (fun g => same_verts f g ==> (f == g)) fs) fs.
Lemma simpleP fs : reflect (simple fs) (simpleb fs).
Proof.
apply: (iffP andP) => [[H K]|[H K]]; split=> //.
  by move=> f g /(allP K)/allP Kf /Kf/implyP Kg /Kg/eqP.
by apply/allP => f Hf; apply/allP => g Hg; apply/implyP => /(K f g Hf Hg) ->.
Qed.
