(** C49, C50: get_copy, rep_mat, projection, get_projection.  [obj h r v]: in the heap h the object r
    has the value v; [objs]: the same for lists; [preserved h h']: all objects of h keep their values. *)
Require Import Coq.Lists.List.
From mathcomp Require Import all_ssreflect all_algebra.
Require Import Coq.Strings.String.
From Verif.Model Require Import Py NP Linalg La Ellipsoid Hyperplane EllHeap.
From Verif.Spec Require Import MatSpec LinalgSpec EllSpec EllipsoidSpec HypSpec EllHeapSpec.
From Verif.Proof Require Import LinalgSat OpsEx HypEx EllHeapProof ProjProof ProjEx.
Set Implicit Arguments.
Unset Strict Implicit.
Unset Printing Implicit Defensive.
Import Order.Theory GRing.Theory Num.Theory.
Local Open Scope ring_scope.

(** ------------------------------------------------------------------ C49 *)

(** get_copy: new objects, pairwise different, with the values of the sources (all fields); the array
    keeps its shape unless it has one element *)
Theorem C49_copy :
  forall (R : rcfType) (la : linalg R) cfg h a vs,
  eigvalsh_ok la -> objs h (data a) vs -> Forall (@valid R) vs ->
  exists h' b, [/\ get_copy (single_copy la cfg) a h = (h', Ok b), preserved h h', fresh h (data b),
    objs h' (data b) vs & shape b = if size (data a) == 1%N then [::] else shape a].
Proof. exact: ell_copy_run. Qed.
Print Assumptions C49_copy.

(** e.rep_mat(sh): prod(sh) new objects in an array of shape sh, all with the value of e *)
Theorem C49_rep :
  forall (R : rcfType) (la : linalg R) cfg h r v (sh : seq nat),
  eigvalsh_ok la -> valid v -> obj h r v -> (0 < size sh)%N ->
  exists h' b, [/\ rep_mat (single_copy la cfg) r (SInt (Arr [:: size sh] (map Posz sh))) h = (h', Ok b),
    preserved h h', fresh h (data b), objs h' (data b) (nseq (prodn sh) v) & shape b = sh].
Proof. exact: ell_rep_run. Qed.
Print Assumptions C49_rep.

Theorem C49_rep_negative :
  forall (R : rcfType) (la : linalg R) cfg r (l : seq int) h,
  (0 < size l)%N -> has (fun z => z < 0) l ->
  rep_mat (single_copy la cfg) r (SInt (Arr [:: size l] l)) h = (h, throw "wrongInput:shape_vec").
Proof. exact: rep_negative. Qed.
Print Assumptions C49_rep_negative.

(** sizes 2.0 and 3.0 pass the checks and then fail in numpy *)
Theorem C49_rep_float :
  forall (R : rcfType) (la : linalg R) cfg r (sh : seq nat) h, (0 < size sh)%N ->
  rep_mat (single_copy la cfg) r (SFloat (Arr [:: size sh] (map Posz sh))) h = (h, TypeError).
Proof. exact: rep_float. Qed.
Print Assumptions C49_rep_float.

(** any history of calls, failing or not, leaves alone every object that is not the target of one of
    its in-place operations *)
Theorem C49_history :
  forall (R : rcfType) (la : linalg R) cfg (cs : seq (call R)) h r v,
  untouched cs r -> obj h r v -> obj (run_calls la cfg cs h) r v.
Proof. exact: history_spares. Qed.
Print Assumptions C49_history.

(** so whatever happens to the copies and to objects made later, the sources keep their values; and so
    does a copy that is not a target itself *)
Theorem C49_independent :
  forall (R : rcfType) (la : linalg R) cfg h a vs,
  eigvalsh_ok la -> objs h (data a) vs -> Forall (@valid R) vs ->
  exists h' b, get_copy (single_copy la cfg) a h = (h', Ok b) /\ forall cs,
    (Forall (fun c => all (fun r => (size h <= r)%N) (targets c)) cs ->
     forall r v, obj h r v -> obj (run_calls la cfg cs h') r v) /\
    (forall r v, List.In (r, v) (zip (data b) vs) -> untouched cs r -> obj (run_calls la cfg cs h') r v).
Proof.
move=> R la cfg h a vs Hla Ho Hv; have [h' [b [E P [U F] O _]]] := ell_copy_run cfg Hla Ho Hv.
exists h', b; split=> // cs; split=> [Hc r v Hr|r v Hz Hu]; last first.
  apply: history_spares => //; elim: O Hz => [|q w l l' Hq _ IH] //= [[<- <-]|/IH] //.
apply: history_spares; last exact: P; apply: Forall_impl Hc => c /allP Hc; apply/negP => /Hc.
by rewrite leqNgt (obj_lt Hr).
Qed.
Print Assumptions C49_independent.

(** hyperplanes: new objects with the same normal, shift and absolute tolerance *)
Theorem C49_hyp :
  forall (R : rcfType) cfg (t0 r0 : R) h a vs,
  tols_of cfg t0 r0 -> objs h (data a) vs ->
  Forall (fun v => exists n (w : 'cV[R]_n) s t, (0 < n)%N /\ hrepr v w s t) vs ->
  exists h' b ws, [/\ get_copy (hp_single_copy cfg) a h = (h', Ok b), preserved h h', fresh h (data b),
    objs h' (data b) ws & Forall2 (fun v w => forall n (u : 'cV[R]_n) s t, (0 < n)%N -> hrepr v u s t -> hrepr w u s t) vs ws].
Proof.
move=> R cfg t0 r0 h a vs Hc Ho Hv.
have [|h' [b [ws [H _]]]] := @get_copy_run _ (hp_single_copy cfg) (fun v w => forall n (u : 'cV[R]_n) s t, (0 < n)%N -> hrepr v u s t -> hrepr w u s t) h a vs Ho; last by exists h', b, ws.
apply: Forall_impl Hv => v [n [w [s [t [n0 Hr]]]]]; have [v' E [Hr' _]] := hp_copy_spec Hc n0 Hr.
exists v' => // n1 u s1 t1 n1' Hr1; have [v'' E' [Hr'' _]] := hp_copy_spec Hc n1' Hr1.
by move: E'; rewrite E => -[->].
Qed.
Print Assumptions C49_hyp.

(** the hypotheses hold: copying two balls, in reverse order; then one of the copies is projected *)
Example C49_ex (R : rcfType) :
  [/\ eigvalsh_ok (the_linalg R), objs (two_heap R) [:: 1%N; 0%N] (rev (two_heap R)), Forall (@valid R) (rev (two_heap R)) &
      forall B : arr (xnum R), untouched [:: CProjection (Arr [:: 1%N] [:: 2%N]) B] 3].
Proof.
split; [by have [_ []] := the_linalg_ok R|exact: two_objs| |by move=> B; do !constructor].
have H := all_dim_valid (two_dim R); have H1 := Forall_inv H; have H2 := Forall_inv (Forall_inv_tail H).
by constructor; [exact: H2 | constructor; [exact: H1 | constructor]].
Qed.

(** ------------------------------------------------------------------ C50 *)

(** the basis is accepted iff it has at most n columns, no two of them with a scalar product above the
    largest tolerance; then each object holds the image of its ellipsoid under the transposed of the
    scaled basis, and nothing else has changed *)
Theorem C50_projection :
  forall (R : rcfType) (la : linalg R) n k (B : 'M[R]_(n, k)) h a es t,
  eigvalsh_ok la -> objs h (data a) es -> uniq (data a) -> all_dim n es -> greatest_tol es t ->
  (k <= n)%N -> nonzero_cols B -> acute_below t B ->
  exists h' es', [/\ projection la a (mat B) h = (h', Ok a), objs h' (data a) es',
    Forall2 (image_of (unit_cols B)) es es' & forall r v, r \notin data a -> obj h r v -> obj h' r v].
Proof. exact: projection_run. Qed.
Print Assumptions C50_projection.

(** for an orthonormal basis the scaled basis is the basis; for an orthogonal one it is orthonormal *)
Theorem C50_orthonormal :
  forall (R : rcfType) n k (B : 'M[R]_(n, k)),
  (orthocols B -> unit_cols B = B) /\ (nonzero_cols B -> ortho_cols B -> orthocols (unit_cols B)).
Proof. by move=> R n k B; split; [exact: orthonormal_unit | exact: unit_ortho]. Qed.
Print Assumptions C50_orthonormal.

(** the main statement: orthonormal bases *)
Theorem C50_support :
  forall (R : rcfType) (la : linalg R) n k (B : 'M[R]_(n, k)) h a es,
  eigvalsh_ok la -> objs h (data a) es -> uniq (data a) -> all_dim n es -> (0 < size es)%N ->
  (k <= n)%N -> orthocols B ->
  exists h' es', [/\ projection la a (mat B) h = (h', Ok a), objs h' (data a) es' & Forall2 (image_of B) es es'].
Proof.
move=> R la n k B h a es Hla Ho U Hd e0 kn HB; have [t _ [Ht t0]] := tol_run [::] e0 Hd.
have dots i j : dotv (col i B) (col j B) = (i == j)%:R by rewrite -dot_cols HB mxE.
have nz : nonzero_cols B.
  by move=> j; apply/eqP => E; have := dots j j; rewrite E MatLib.dotv0l eqxx => /eqP; rewrite eq_sym oner_eq0.
have Ha : acute_below t B by move=> i j ij; rewrite dots (negbTE ij) ltW.
have [h' [es' [E1 E2 E3 _]]] := projection_run Hla Ho U Hd Ht kn nz Ha.
by exists h', es'; split=> //; rewrite (orthonormal_unit HB) in E3.
Qed.
Print Assumptions C50_support.

(** too many columns, or two with a scalar product above the tolerance: rejected, nothing is changed *)
Theorem C50_rejects :
  forall (R : rcfType) (la : linalg R) n k (B : 'M[R]_(n, k)) h a es t,
  objs h (data a) es -> all_dim n es -> greatest_tol es t -> (n < k)%N \/ ~ acute_below t B ->
  projection la a (mat B) h = (h, throw "wrongInput").
Proof. exact: projection_rejects. Qed.
Print Assumptions C50_rejects.

Theorem C50_dimensions :
  forall (R : rcfType) (la : linalg R) n k (B : 'M[R]_(n, k)) h a es e,
  objs h (data a) es -> In e es -> np_size (e_center e) != n ->
  projection la a (mat B) h = (h, throw "wrongInput").
Proof. exact: projection_dims. Qed.
Print Assumptions C50_dimensions.

(** a zero column *)
Theorem C50_zero :
  forall (R : rcfType) (la : linalg R) n k (B : 'M[R]_(n, k)) h a es t j,
  objs h (data a) es -> all_dim n es -> greatest_tol es t -> (k <= n)%N -> acute_below t B -> col j B = 0 ->
  projection la a (mat B) h = (h, throw "wrongInput:shape_mat").
Proof. exact: projection_zero. Qed.
Print Assumptions C50_zero.

(** get_projection: the same for new objects; the arguments may repeat an object *)
Theorem C50_get_projection :
  forall (R : rcfType) (la : linalg R) cfg n k (B : 'M[R]_(n, k)) h a es t,
  eigvalsh_ok la -> objs h (data a) es -> all_dim n es -> greatest_tol es t ->
  (k <= n)%N -> nonzero_cols B -> acute_below t B ->
  exists h' b es', [/\ get_projection la cfg a (mat B) h = (h', Ok b), fresh h (data b), objs h' (data b) es',
    Forall2 (image_of (unit_cols B)) es es' & preserved h h'].
Proof. exact: get_projection_run. Qed.
Print Assumptions C50_get_projection.

(** it leaves its arguments (and all else) unchanged, whatever they are and however the call ends *)
Theorem C50_unchanged :
  forall (R : rcfType) (la : linalg R) cfg a b h, preserved h (get_projection la cfg a b h).1.
Proof. exact: get_projection_keeps. Qed.
Print Assumptions C50_unchanged.

(** FALSE: "a basis that is not orthogonal is rejected".  Columns at an obtuse angle are accepted: the
    test of the scalar products lacks an absolute value *)
Theorem C50_orthogonality_refuted :
  forall (R : rcfType), exists B : 'M[R]_2, dotv (col 0 B) (col 1 B) = - 1 /\
  forall (la : linalg R) h a es,
  eigvalsh_ok la -> objs h (data a) es -> uniq (data a) -> (0 < size es)%N -> all_dim 2 es ->
  exists h', projection la a (mat B) h = (h', Ok a).
Proof.
by move=> R; exists (skew_basis R); split; [exact: skew_dot | move=> la h a es; exact: skew_accepted].
Qed.
Print Assumptions C50_orthogonality_refuted.

(** an array holding one object twice: projected once, then ValueError; the object stays projected *)
Theorem C50_alias :
  forall (R : rcfType) (la : linalg R) n k (B : 'M[R]_(n, k)) h r e (c : 'cV[R]_n) Q t,
  eigvalsh_ok la -> obj h r e -> repr e c Q t -> (k < n)%N -> nonzero_cols B -> acute_below t B ->
  exists h' e', [/\ projection la (Arr [:: 2%N] [:: r; r]) (mat B) h = (h', ValueError), obj h' r e' &
                    image_of (unit_cols B) e e'].
Proof. exact: projection_alias. Qed.
Print Assumptions C50_alias.

(** two balls and the basis (1, 1), (-1, 1) *)
Example C50_ex (R : rcfType) :
  [/\ objs (two_heap R) [:: 0%N; 1%N] (two_heap R), all_dim 2 (two_heap R), greatest_tol (two_heap R) (10%:R ^- 7),
      nonzero_cols (diag_basis R) & ortho_cols (diag_basis R)] /\ acute_below (10%:R ^- 7) (diag_basis R).
Proof.
split; [split; [by do !constructor|exact: two_dim|exact: two_tol|exact: diag_nz|exact: diag_ortho]|].
by move=> i j ij; rewrite diag_ortho // invr_ge0 exprn_ge0 ?ler0n.
Qed.
