(** The copies made by the constructors, setters and getters: objects and arrays behave as values. *)
From mathcomp Require Import all_ssreflect all_algebra.
Require Import Coq.Strings.String.
From Verif.Model Require Import Py NP NP3 Linalg La Core EllGeom Ellipsoid Hyperplane EllHeap Buffers.
From Verif.Spec Require Import MatSpec LinalgSpec EllSpec EllipsoidSpec HypSpec BufferSpec.
From Verif.Proof Require Import NPLib EllipsoidProof EllScalProof HypOps.
From mathcomp.zify Require Import zify.
Set Implicit Arguments.
Unset Strict Implicit.
Unset Printing Implicit Defensive.
Import Order.Theory GRing.Theory Num.Theory.
Local Open Scope ring_scope.

Section Onth.
Variable T : Type.
Implicit Types (s t : seq T) (x : T).
Lemma onthE d s i : onth s i = if (i < size s)%N then Some (nth d s i) else None.
Proof.
rewrite /onth; case: ltnP => [H|H]; last by rewrite drop_oversize.
by rewrite (drop_nth d).
Qed.
Lemma onth_size s i : (i < size s)%N = isSome (onth s i).
Proof.
case: s => [|x s]; first by rewrite /onth; case: i.
by rewrite (onthE x); case: ifP.
Qed.
Lemma onth_lt s i x : onth s i = Some x -> (i < size s)%N.
Proof. by rewrite onth_size => ->. Qed.
Lemma onth_cat s t i x : onth s i = Some x -> onth (s ++ t) i = Some x.
Proof.
move=> H; have := onth_lt H; move: H; rewrite !(onthE x) size_cat nth_cat => H Hi.
by rewrite Hi in H *; rewrite ltn_addr.
Qed.
Lemma onth_last s x t : onth (s ++ x :: t) (size s) = Some x.
Proof. by rewrite (onthE x) size_cat /= addnS ltnS leq_addr nth_cat ltnn subnn. Qed.
Lemma onth_rcons s x : onth (rcons s x) (size s) = Some x.
Proof. by rewrite -cats1 onth_last. Qed.
Lemma onth_set d s i x j : (i < size s)%N -> onth (set_nth d s i x) j = if j == i then Some x else onth s j.
Proof.
move=> H; rewrite !(onthE d) size_set_nth nth_set_nth /= (maxn_idPr H).
by case: eqP => [->|_]; rewrite ?H.
Qed.
Lemma eq_onth s t : (forall i, onth s i = onth t i) -> s = t.
Proof.
elim: s t => [|x s IH] [|y t] // H; first by have := H 0%N.
  by have := H 0%N.
by have [->] := H 0%N; congr (_ :: _); apply: IH => i; have := H i.+1.
Qed.
Lemma onth_upd s i x j : onth (upd s i x) j = if (j == i) && (i < size s)%N then Some x else onth s j.
Proof.
rewrite /upd; case: ltnP => H; last by rewrite andbF take_oversize // drop_oversize ?cats0 // ltnW.
rewrite andbT /= -cat1s; elim: s i j H => [|y s IH] [|i] [|j] //= H; last exact: IH.
by rewrite drop0.
Qed.
Lemma upd_set d s i x : (i < size s)%N -> set_nth d s i x = upd s i x.
Proof. by move=> H; apply: eq_onth => j; rewrite onth_set // onth_upd H andbT. Qed.
Lemma size_upd s i x : size (upd s i x) = size s.
Proof.
rewrite /upd; case: ltnP => H; last by rewrite take_oversize // drop_oversize ?cats0 // ltnW.
by rewrite !size_cat size_take H size_drop /=; lia.
Qed.
End Onth.
Lemma onth_map T U (f : T -> U) s i : onth (map f s) i = omap f (onth s i).
Proof. by rewrite /onth -map_drop; case: drop. Qed.
Lemma upd_map T U (f : T -> U) s i x : map f (upd s i x) = upd (map f s) i (f x).
Proof. by apply: eq_onth => j; rewrite onth_map !onth_upd size_map onth_map; case: ifP. Qed.

Section BufferProof.
Variable R : rcfType.
Notation X := (xnum R).
Notation A := (arr X).
Variable la : linalg R.
Variable cfg : props R.

Lemma hread_at (h : seq A) l a : onth h l = Some a -> hread l h = (h, Ok a).
Proof. by rewrite /hread /onth => ->. Qed.

(** m extends h and its outcome corresponds to p *)
Definition gets U V (P : seq A -> U -> V -> Prop) (h : seq A) (m : hres A U) (p : res V) : Prop :=
  exists t x, m h = (h ++ t, x) /\ match p, x with Ok v, Ok u => P (h ++ t) u v | Err e, Err e' => e = e' | _, _ => False end.
Definition isnew (n : nat) (h : seq A) (l : nat) (a : A) : Prop := (n <= l)%N /\ onth h l = Some a.

Lemma gets_bind U V U' V' (P : seq A -> U -> V -> Prop) (Q : seq A -> U' -> V' -> Prop) h m p f g :
  gets P h m p -> (forall t u v, P (h ++ t) u v -> gets Q (h ++ t) (f u) (g v)) -> gets Q h (hbind m f) (rbind p g).
Proof.
move=> [t [x [E H]]] Hf; rewrite /gets /hbind E; case: p H => [v|e]; case: x {E} => [u|e'] //= H; last by exists t, (Err e').
have [t' [x' [-> H']]] := Hf t u v H; exists (t ++ t'), x'; split; first by rewrite catA.
by move: H'; rewrite catA.
Qed.
Lemma gets_ret U V (P : seq A -> U -> V -> Prop) h u v : P h u v -> gets P h (hret u) (Ok v).
Proof. by move=> H; exists [::], (Ok u); rewrite cats0. Qed.
Lemma gets_lift V (p : res V) h : gets (fun _ u v => u = v /\ p = Ok v) h (hlift p) p.
Proof. by exists [::], p; rewrite cats0; split=> //; case: p. Qed.
Lemma gets_err U V (P : seq A -> U -> V -> Prop) h e : gets P h (hlift (Err e)) (Err e).
Proof. by exists [::], (Err e); rewrite cats0. Qed.
Lemma gets_alloc n h a : (n <= size h)%N -> gets (isnew n) h (halloc a) (Ok a).
Proof. by move=> H; exists [:: a], (Ok (size h)); rewrite cats1; split=> //; split=> //; rewrite onth_rcons. Qed.
Lemma gets_copy n h l a : (n <= size h)%N -> onth h l = Some a -> gets (isnew n) h (buf_copy l) (Ok a).
Proof. by move=> H E; rewrite /buf_copy /gets /hbind (hread_at E); apply: gets_alloc. Qed.
Lemma gets_flatten n h l a : (n <= size h)%N -> onth h l = Some a -> gets (isnew n) h (buf_flatten l) (Ok (np_flatten a)).
Proof. by move=> H E; rewrite /buf_flatten /gets /hbind (hread_at E); apply: gets_alloc. Qed.
Lemma gets_read U V (Q : seq A -> U -> V -> Prop) h l a f p : onth h l = Some a -> gets Q h (f a) p -> gets Q h (hbind (hread l) f) p.
Proof. by move=> E H; rewrite /gets /hbind (hread_at E). Qed.

Lemma leq_cat n (h t : seq A) : (n <= size h)%N -> (n <= size (h ++ t))%N.
Proof. by move=> H; rewrite size_cat; apply: leq_trans H (leq_addr _ _). Qed.

Lemma try_real_arr (a : A) tol : try_treat_as_real (RealArr a) tol = Ok (RealArr a) \/ exists e, try_treat_as_real (RealArr a) tol = Err e.
Proof. by rewrite /try_treat_as_real; case: tol => [t|r i|]; [case: ifP => _; [right; eexists|left]|right; eexists|right; eexists]. Qed.

Definition vec_of (tag : string) (tol : pynum R) (a : A) : res A :=
  let* _ := try_treat_as_real (RealArr a) tol in
  let* m := max_shape a in
  if np_size a != m then throw tag else
  if ~~ all (@xis_fin R) (data (np_flatten a)) then throw tag else Ok (np_flatten a).
Lemma set_centerE tol a : set_center tol (RealArr a) = vec_of "wrongInput:center_vec" (PReal tol) a.
Proof. by rewrite /set_center /vec_of; case: (try_real_arr a (PReal tol)) => [->|[e ->]]. Qed.
Lemma set_normalE a : set_normal (RealArr a) = vec_of "wrongInput:normal_vec" (default_tol R) a.
Proof. by rewrite /set_normal /vec_of; case: (try_real_arr a (default_tol R)) => [->|[e ->]]. Qed.

Lemma gets_real h l a tol : onth h l = Some a ->
  gets (fun h' u (v : ninp R) => u = l /\ v = RealArr a) h (buf_real tol l) (try_treat_as_real (RealArr a) tol).
Proof.
move=> E; apply: (gets_read E); rewrite /gets /hbind /hlift; case: (try_real_arr a tol) => [->|[e ->]].
  by exists [::], (Ok l); rewrite cats0.
by exists [::], (Err e); rewrite cats0.
Qed.

Lemma gets_vec tag tol n h l a : (n <= size h)%N -> onth h l = Some a ->
  gets (isnew n) h (buf_vec tag tol l) (vec_of tag tol a).
Proof.
move=> Hn E; apply: gets_bind (gets_real tol E) _ => t _ _ [-> _].
have E1 := onth_cat t E; have N1 := leq_cat t Hn.
rewrite -[X in gets _ _ _ X]/(rbind (Ok a) (fun a => let* m := max_shape a in if np_size a != m then throw tag else
  if ~~ all (@xis_fin R) (data (np_flatten a)) then throw tag else Ok (np_flatten a))).
apply: gets_bind (gets_copy N1 E1) _ => t1 l1 b [N2 E2]; apply: (gets_read E2).
apply: gets_bind (gets_lift _ _) _ => t2 m _ [<- _]; case: ifP => _; first exact: gets_err.
have E3 := onth_cat t2 E2; have N3 := leq_cat t2 (leq_cat t1 N1).
pose g c := if ~~ all (@xis_fin R) (data c) then throw tag else Ok c.
rewrite -[X in gets _ _ _ X]/(rbind (Ok (np_flatten b)) g).
apply: gets_bind (gets_flatten N3 E3) _ => t3 l3 c [N4 E4]; apply: (gets_read E4); rewrite /g.
by case: ifP => _; [exact: gets_err|exact: gets_copy (leq_cat t3 N3) E4].
Qed.
Lemma gets_center tol n h l a : (n <= size h)%N -> onth h l = Some a ->
  gets (isnew n) h (buf_center tol l) (set_center tol (RealArr a)).
Proof. by rewrite set_centerE; exact: gets_vec. Qed.
Lemma gets_normal n h l a : (n <= size h)%N -> onth h l = Some a ->
  gets (isnew n) h (buf_normal l) (set_normal (RealArr a)).
Proof. by rewrite set_normalE; exact: gets_vec. Qed.

Lemma gets_shape tol n h l a : (n <= size h)%N -> onth h l = Some a ->
  gets (isnew n) h (buf_shape la tol l) (set_shape la tol (RealArr a)).
Proof.
move=> Hn E; apply: (gets_read E); rewrite /set_shape; case: ifP => _; first exact: gets_err.
case: ifP => _; first exact: gets_err.
case: (try_real_arr a (PReal tol)) => [Er|[e Er]]; rewrite Er; last first.
  have [t [x [Em]]] := gets_real (PReal tol) E; rewrite Er; case: x Em => [//|e'] Em Ee.
  by exists t, (Err e'); rewrite /hbind Em Ee.
have := gets_real (PReal tol) E; rewrite Er => H; apply: gets_bind H _ => t _ _ [-> ->].
have E1 := onth_cat t E; have N1 := leq_cat t Hn.
pose g b := if (0 < np_size b)%N then
      if ~~ all (@xis_fin R) (data b) then throw "wrongInput:shape_mat" else
      let* s := is_mat_symm b tol in
      let* p := if s then is_mat_pos_def la b tol true else Ok false in
      if ~~ p then throw "wrongInput:shape_mat" else Ok b
    else Ok b.
rewrite -[X in gets _ _ _ X]/(rbind (Ok a) g).
apply: gets_bind (gets_copy N1 E1) _ => t1 l1 b [N2 E2]; apply: (gets_read E2); rewrite /g.
have N3 := leq_cat t1 N1; case: ifP => _; last exact: gets_copy N3 E2.
case: ifP => _; first exact: gets_err.
apply: gets_bind (gets_lift _ _) _ => t2 s _ [<- _]; have E3 := onth_cat t2 E2; have N4 := leq_cat t2 N3.
apply: gets_bind (gets_lift _ _) _ => t3 p _ [<- _]; have E4 := onth_cat t3 E3; have N5 := leq_cat t3 N4.
by case: ifP => _; [exact: gets_err|exact: gets_copy N5 E4].
Qed.

(** the object o is made of new arrays and has the value v *)
Definition owned (o : bobj R) : seq nat := match o with OE c q _ => [:: c; q] | OH n _ _ _ => [:: n] end.
Definition isobj n (h : seq A) (o : bobj R) (v : vobj R) : Prop := all (leq n) (owned o) /\ view_obj h o = Some v.

Lemma isnew_cat n h t l a : isnew n h l a -> isnew n (h ++ t) l a.
Proof. by case=> H E; split=> //; exact: onth_cat. Qed.

Lemma parse_pos k p : parse_props cfg k = Ok p -> xgt (p_abs p) x0.
Proof. by rewrite /parse_props; case: ifP => // /negbFE H; case: ifP => // _ [<-]. Qed.
Lemma center_zeros tol n : xgt tol x0 -> set_center tol (RealArr (np_zeros R [:: n])) = Ok (np_zeros R [:: n]).
Proof.
move=> H; rewrite /set_center /try_treat_as_real H /= /np_size.
have -> : prodn (shape (np_zeros R [:: n])) = n by rewrite /= muln1.
rewrite eqxx /= /np_flatten size_mkn all_map /= (eq_all (a2 := predT)) // all_predT /=.
by rewrite muln1.
Qed.
Lemma shape_zeros tol : xgt tol x0 -> set_shape la tol (RealArr (np_zeros R [:: 0%N; 0%N])) = Ok (np_zeros R [:: 0%N; 0%N]).
Proof. by move=> H; rewrite /set_shape /try_treat_as_real H. Qed.


Lemma rbindA (U V W : Type) (p : res U) (f : U -> res V) (g : V -> res W) :
  rbind (rbind p f) g = rbind p (fun x => rbind (f x) g).
Proof. by case: p. Qed.

Lemma view_cat (h t : seq A) (o : bobj R) v : view_obj h o = Some v -> view_obj (h ++ t) o = Some v.
Proof.
case: o => [c q p|l x a r] /=.
  case E1: (onth h c) => [x|//]; case E2: (onth h q) => [y|//].
  by rewrite (onth_cat t E1) (onth_cat t E2).
by case E1: (onth h l) => [y|//]; rewrite (onth_cat t E1).
Qed.

(** an allocation or a setter whose outcome is known *)
Lemma gets_known U V (P : seq A -> U -> V -> Prop) h m f n a (p : res V) : gets (isnew n) h m (Ok a) ->
  (forall t l, (n <= l)%N -> onth (h ++ t) l = Some a -> gets P (h ++ t) (f l) p) -> gets P h (hbind m f) p.
Proof.
move=> [t [x [Em]]]; case: x Em => [l|//] Em [Hl El] Hf; rewrite /gets /hbind Em.
have [t' [x' [-> H]]] := Hf t l Hl El; exists (t ++ t'), x'; rewrite catA; split=> //.
Qed.

Lemma gets_none n h k : (n <= size h)%N -> gets (isobj n) h (buf_ell la cfg BNone k) (vell (mk_ell la cfg (@CNone R) k)).
Proof.
move=> Hn; rewrite /buf_ell /mk_ell /vell rbindA; apply: gets_bind (gets_lift _ _) _ => t p _ [<- /parse_pos tp].
have N1 := leq_cat t Hn.
apply: (gets_known (gets_alloc (np_zeros R [:: 0%N]) N1)) => t1 l1 _ E1; have N2 := leq_cat t1 N1.
have := gets_center (p_abs p) N2 E1; rewrite center_zeros // => H; apply: (gets_known H) => {H} t2 c Hc Ec.
have N3 := leq_cat t2 N2.
apply: (gets_known (gets_alloc (np_zeros R [:: 0%N; 0%N]) N3)) => t3 l3 _ E3; have N4 := leq_cat t3 N3.
have := gets_shape (p_abs p) N4 E3; rewrite shape_zeros // => H; apply: (gets_known H) => {H} t4 q Hq Eq.
apply: gets_ret; split; first by rewrite /= Hc Hq.
by rewrite /= (onth_cat t4 (onth_cat t3 Ec)) Eq.
Qed.
Lemma gets_shape1 n h l a k : (n <= size h)%N -> onth h l = Some a ->
  gets (isobj n) h (buf_ell la cfg (BShape l) k) (vell (mk_ell la cfg (CShape (RealArr a)) k)).
Proof.
move=> Hn E; rewrite /buf_ell /mk_ell /vell rbindA; apply: gets_bind (gets_lift _ _) _ => t p _ [<- /parse_pos tp].
have N1 := leq_cat t Hn; rewrite rbindA; apply: gets_bind (gets_shape (p_abs p) N1 (onth_cat t E)) _ => t1 q z [Hq Eq].
have N2 := leq_cat t1 N1; apply: (gets_known (gets_copy N2 Eq)) => t2 q1 _ E2; apply: (gets_read E2).
have N3 := leq_cat t2 N2.
apply: (gets_known (gets_alloc (np_zeros R [:: dim z 0]) N3)) => t3 l3 _ E3; have N4 := leq_cat t3 N3.
have := gets_center (p_abs p) N4 E3; rewrite center_zeros // => H; apply: (gets_known H) => {H} t4 c Hc Ec.
apply: gets_ret; split; first by rewrite /= Hc Hq.
by rewrite /= (onth_cat t4 (onth_cat t3 (onth_cat t2 Eq))) Ec.
Qed.
Lemma gets_both n h l l' a b k : (n <= size h)%N -> onth h l = Some a -> onth h l' = Some b ->
  gets (isobj n) h (buf_ell la cfg (BBoth l l') k) (vell (mk_ell la cfg (CBoth (RealArr a) (RealArr b)) k)).
Proof.
move=> Hn E E'; rewrite /buf_ell /mk_ell /vell rbindA; apply: gets_bind (gets_lift _ _) _ => t p _ [<- _].
have N1 := leq_cat t Hn; rewrite rbindA; apply: gets_bind (gets_center (p_abs p) N1 (onth_cat t E)) _ => t1 c y [Hc Ec].
have N2 := leq_cat t1 N1; rewrite rbindA; apply: gets_bind (gets_shape (p_abs p) N2 (onth_cat t1 (onth_cat t E'))) _ => t2 q z [Hq Eq].
have N3 := leq_cat t2 N2; have E2 := onth_cat t2 Ec; apply: (gets_known (gets_copy N3 E2)) => t3 c1 _ E3; apply: (gets_read E3).
have N4 := leq_cat t3 N3; have E4 := onth_cat t3 Eq; apply: (gets_known (gets_copy N4 E4)) => t4 q1 _ E5; apply: (gets_read E5).
case: ifP => _; first exact: gets_err.
apply: gets_ret; split; first by rewrite /= Hc Hq.
by rewrite /= (onth_cat t4 (onth_cat t3 E2)) (onth_cat t4 E4).
Qed.
Lemma gets_hp n h l a x k : (n <= size h)%N -> onth h l = Some a ->
  gets (isobj n) h (buf_hp cfg l x k) (vhp (mk_hp cfg (RealArr a) (RealScal x) k)).
Proof.
move=> Hn E; rewrite /buf_hp /mk_hp /vhp rbindA; apply: gets_bind (gets_lift _ _) _ => t [u r] _ [<- _].
have N1 := leq_cat t Hn; rewrite rbindA; apply: gets_bind (gets_normal N1 (onth_cat t E)) _ => t1 c y [Hc Ec].
rewrite rbindA; apply: gets_bind (gets_lift _ _) _ => t2 w _ [<- _]; apply: gets_ret; split; first by rewrite /= Hc.
by rewrite /= (onth_cat t2 Ec).
Qed.

Lemma gets_dup n (h : seq A) (o : bobj R) v : (n <= size h)%N -> view_obj h o = Some v ->
  gets (isobj n) h (buf_dup la cfg o) match v with VE e => vell (single_copy la cfg e) | VH h => vhp (hp_single_copy cfg h) end.
Proof.
move=> Hn; case: o => [c q p|l s a r] /=.
  case E1: (onth h c) => [x|//]; case E2: (onth h q) => [y|//] [<-].
  apply: (gets_known (gets_copy Hn E1)) => t1 c1 _ Ec; have N1 := leq_cat t1 Hn.
  apply: (gets_known (gets_copy N1 (onth_cat t1 E2))) => t2 q1 _ Eq; have N2 := leq_cat t2 N1.
  exact: gets_both N2 (onth_cat t2 Ec) Eq.
case E1: (onth h l) => [x|//] [<-]; apply: (gets_known (gets_copy Hn E1)) => t1 c1 _ Ec.
exact: gets_hp (leq_cat t1 Hn) Ec.
Qed.

(** the arrays ls are new, pairwise different and have the contents xs *)
Definition arenew n (h : seq A) (ls : seq nat) (xs : seq A) : Prop :=
  [/\ all (leq n) ls, uniq ls & map (onth h) ls = map Some xs].
Lemma gets_get n (h : seq A) g (o : bobj R) v : n = size h -> view_obj h o = Some v ->
  gets (arenew n) h (buf_get g o) match g, v with
      | GCenter, VE e => Ok [:: e_center e]
      | GShape, VE e => Ok [:: e_shape e]
      | GParameters, VE e => Ok [:: e_center e; e_shape e]
      | GParameters, VH h => Ok [:: h_normal h]
      | _, VH _ => AttributeError
      end.
Proof.
move=> En; have Hn : (n <= size h)%N by rewrite En.
case: o => [c q p|l s a r] /=.
  case E1: (onth h c) => [x|//]; case E2: (onth h q) => [y|//] [<-]; case: g => /=.
  - by apply: (gets_known (gets_copy Hn E1)) => t1 c1 H Ec; apply: gets_ret; split; rewrite /= ?H ?Ec.
  - apply: (gets_known (gets_copy Hn E2)) => t1 c1 H Ec.
    by apply: (gets_known (gets_copy (leq_cat t1 Hn) Ec)) => t2 c2 H2 Ec2; apply: gets_ret; split; rewrite /= ?H2 ?Ec2.
  - apply: (gets_known (gets_copy Hn E1)) => t1 c1 H Ec.
    have Hm : (size (h ++ t1) <= size (h ++ t1))%N by [].
    apply: (gets_known (gets_copy Hm (onth_cat t1 E2))) => t2 q1 H2 Eq; apply: gets_ret.
    have lt1 := leq_trans (onth_lt Ec) H2.
    split; rewrite /= ?H ?Eq ?(onth_cat t2 Ec) //; last by rewrite inE ltn_eqF.
    by rewrite /= andbT (leq_trans _ H2) // leq_cat.
case E1: (onth h l) => [x|//] [<-]; case: g; [exact: gets_err|exact: gets_err|].
by apply: (gets_known (gets_copy Hn E1)) => t1 c1 H Ec; apply: gets_ret; split; rewrite /= ?H ?Ec.
Qed.

Lemma gets_proj_shape tol n h s ort q b : (n <= size h)%N -> onth h s = Some q -> onth h ort = Some b ->
  gets (isnew n) h (buf_proj_shape la tol s ort)
    (let* z := (let* bq := np_matmul (np_T b) q in np_matmul bq b) in set_shape la tol (RealArr z)).
Proof.
move=> Hn E1 E2; apply: (gets_known (gets_copy Hn E1)) => t1 c1 _ Ec; have N1 := leq_cat t1 Hn.
apply: (gets_known (gets_copy N1 Ec)) => t2 c2 _ Ec2; have N2 := leq_cat t2 N1.
apply: (gets_read Ec2); apply: (gets_read (onth_cat t2 (onth_cat t1 E2))).
apply: gets_bind (gets_lift _ _) _ => t3 z _ [<- _]; have N3 := leq_cat t3 N2.
apply: (gets_known (gets_alloc z N3)) => t4 l _ El; exact: gets_shape (leq_cat t4 N3) El.
Qed.
Lemma gets_proj_center tol n h s ort q b : (n <= size h)%N -> onth h s = Some q -> onth h ort = Some b ->
  gets (isnew n) h (buf_proj_center tol s ort) (let* z := np_matmul (np_T b) q in set_center tol (RealArr z)).
Proof.
move=> Hn E1 E2; apply: (gets_known (gets_copy Hn E1)) => t1 c1 _ Ec; have N1 := leq_cat t1 Hn.
apply: (gets_read Ec); apply: (gets_read (onth_cat t1 E2)).
apply: gets_bind (gets_lift _ _) _ => t3 z _ [<- _]; have N3 := leq_cat t3 N1.
apply: (gets_known (gets_alloc z N3)) => t4 l _ El; exact: gets_center (leq_cat t4 N3) El.
Qed.

(** ------------------------------------------------------------------ runs *)
Definition rel (s : st R) (w : vst R) : Prop :=
  [/\ view_arrays s = map Some (arrays w), view_values s = map Some (values w), uniq (known s) &
      forall i o, onth (objs s) i = Some o -> all (fun l => l \notin known s) (owned o)].
Definition same (x : st R * res unit) (y : vst R * res unit) : Prop := x.2 = y.2 /\ rel x.1 y.1.

Lemma rel_arr s w k : rel s w ->
  (onth (known s) k = None /\ onth (arrays w) k = None) \/
  exists l a, [/\ onth (known s) k = Some l, onth (arrays w) k = Some a & onth (bufs s) l = Some a].
Proof.
move=> [H _ _ _]; have := congr1 (fun v => onth v k) H; rewrite /view_arrays !onth_map.
case: (onth (known s) k) => [l|]; case: (onth (arrays w) k) => [a|] //= E; [right|by left].
by exists l, a; case: E.
Qed.
Lemma rel_known s w : rel s w -> all (fun l => (l < size (bufs s))%N) (known s).
Proof.
move=> H; apply/allP => l; case/(nthP 0%N) => i Hi El.
have [[E _]|[l' [a [E _ Eb]]]] := rel_arr i H; move: E; rewrite (onthE 0%N) Hi El // => -[->].
exact: onth_lt Eb.
Qed.
Lemma rel_obj s w k : rel s w ->
  (onth (objs s) k = None /\ onth (values w) k = None) \/
  exists o v, [/\ onth (objs s) k = Some o, onth (values w) k = Some v, view_obj (bufs s) o = Some v &
    all (fun l => l \notin known s) (owned o)].
Proof.
move=> [_ H _ Ho]; have := congr1 (fun v => onth v k) H; rewrite /view_values !onth_map.
case Eo: (onth (objs s) k) => [o|]; case: (onth (values w) k) => [a|] //= E; [right; case: E => E|by left].
by exists o, a; split=> //; exact: Ho Eo.
Qed.
Lemma rel_ext s w t : rel s w -> rel (St (bufs s ++ t) (objs s) (known s)) w.
Proof.
case=> H1 H2 H3 H4; split=> //=.
  rewrite -H1; apply: eq_onth => i; rewrite /view_arrays /= !onth_map; have := congr1 (fun v => onth v i) H1.
  rewrite /view_arrays !onth_map; case: (onth (known s) i) => [l|] //=; case: (onth (arrays w) i) => [a|] //= -[E].
  by rewrite E (onth_cat t E).
rewrite -H2; apply: eq_onth => i; rewrite /view_values /= !onth_map; have := congr1 (fun v => onth v i) H2.
rewrite /view_values !onth_map; case: (onth (objs s) i) => [l|] //=; case: (onth (values w) i) => [a|] //= [E].
by rewrite E (view_cat t E).
Qed.

Lemma on_gets U V (P : seq A -> U -> V -> Prop) s w m p f g : rel s w -> gets P (bufs s) m p ->
  (forall t u v, P (bufs s ++ t) u v -> rel (St (bufs s ++ t) (objs s) (known s)) w ->
     same (f u (St (bufs s ++ t) (objs s) (known s))) (g v)) ->
  same (on_bufs s m f) (match p with Ok v => g v | Err e => (w, Err e) end).
Proof.
move=> Hr [t [x [Em H]]] Hf; rewrite /on_bufs Em; case: p H => [v|e]; case: x {Em} => [u|e'] // H.
  by apply: Hf => //; exact: rel_ext.
by rewrite H; split=> //; exact: rel_ext.
Qed.

Lemma new_notin s w n l : rel s w -> n = size (bufs s) -> (n <= l)%N -> l \notin known s.
Proof. by move=> H -> Hl; apply/negP => /(allP (rel_known H)); rewrite ltnNge Hl. Qed.

Lemma add_same s w t o v : rel s w -> isobj (size (bufs s)) (bufs s ++ t) o v ->
  same (add_obj o (St (bufs s ++ t) (objs s) (known s))) (VSt (arrays w) (rcons (values w) v), Ok tt).
Proof.
move=> Hr [Hn Ho]; have [H1 H2 H3 H4] := rel_ext t Hr; split=> //; split=> //=.
  by rewrite /view_values /= !map_rcons Ho -H2.
move=> i o'; rewrite (onthE o) size_rcons ltnS nth_rcons; case: ltngtP => // [Hi [<-]|_ [<-]].
  by apply: (H4 i); rewrite (onthE o) /= Hi.
by apply/allP => l Hl; apply: (new_notin Hr) => //; exact: (allP Hn).
Qed.
Lemma make_same s w m (p : res (vobj R)) : rel s w -> gets (isobj (size (bufs s))) (bufs s) m p ->
  same (on_bufs s m (@add_obj R)) (make w p).
Proof.
move=> Hr Hg; apply: (on_gets Hr Hg) => t u v Ho _; exact: add_same.
Qed.

Lemma put_same s w t r o o' v : rel s w -> onth (objs s) r = Some o ->
  view_obj (bufs s ++ t) o' = Some v -> all (fun l => l \notin known s) (owned o') ->
  rel (put_obj r o' (St (bufs s ++ t) (objs s) (known s))) (VSt (arrays w) (upd (values w) r v)).
Proof.
move=> Hr Eo Ev Ho; have [H1 H2 H3 H4] := rel_ext t Hr; have Hk := onth_lt Eo; split=> //=.
  by rewrite /view_values /= upd_set // upd_map Ev upd_map -H2.
move=> i o1; rewrite onth_set //; case: eqP => [_ [<-]|_]; first exact: Ho.
exact: H4.
Qed.

Lemma learn_rel s w t ls xs : rel s w -> arenew (size (bufs s)) (bufs s ++ t) ls xs ->
  rel (St (bufs s ++ t) (objs s) (known s ++ ls)) (VSt (arrays w ++ xs) (values w)).
Proof.
move=> Hr [Hn Hu He]; have [H1 H2 H3 H4] := rel_ext t Hr; split=> //=.
- by rewrite /view_arrays /= !map_cat -H1 He.
- rewrite cat_uniq Hu H3 andbT /=; apply/hasPn => l Hl /=.
  by apply: (new_notin Hr) => //; exact: (allP Hn).
- move=> i o Eo; apply/allP => l Hl; rewrite mem_cat negb_or (allP (H4 _ _ Eo) _ Hl) /=.
  apply/negP => /(allP Hn); rewrite leqNgt => /negP; apply.
  have [[E _]|[o' [v [E _ Ev _]]]] := rel_obj i Hr; first by move: Eo; rewrite /= E.
  move: Eo; rewrite /= E => -[Eo]; subst o'; move: Ev Hl; rewrite /=; case: (o) => [c q p|m x a r] /=.
    case E1: (onth _ c) => [y|//]; case E2: (onth _ q) => [z|//] _; rewrite !inE => /orP [] /eqP ->; [exact: onth_lt E1|exact: onth_lt E2].
  by case E1: (onth _ m) => [y|//] _; rewrite !inE => /eqP ->; exact: onth_lt E1.
Qed.

Lemma view_set b l x (o : bobj R) : l \notin owned o -> (l < size b)%N -> view_obj (set_nth x b l x) o = view_obj b o.
Proof.
case: o => [c q p|m y a r] /=; rewrite !inE ?negb_or => H Hl; rewrite !onth_set // !(eq_sym _ l).
  by case/andP: H => /negbTE -> /negbTE ->.
by rewrite (negbTE H).
Qed.

Lemma write_rel s w k l a x : rel s w -> onth (known s) k = Some l -> onth (bufs s) l = Some a ->
  rel (St (set_nth x (bufs s) l x) (objs s) (known s)) (VSt (upd (arrays w) k x) (values w)).
Proof.
move=> [H1 H2 H3 H4] Ek El; have Hl := onth_lt El; split=> //=.
- rewrite upd_map -H1; apply: eq_onth => i; rewrite onth_upd /view_arrays /= size_map !onth_map (onth_lt Ek) andbT.
  case Ei: (onth (known s) i) => [m|] /=; last first.
    by case: eqP => // E; move: Ei; rewrite E Ek.
  rewrite onth_set //; case: (m =P l) => [E|N].
    suff -> : i = k by rewrite eqxx.
    move: Ei Ek; rewrite !(onthE 0%N); case: ltnP => // hi [Ei]; case: ltnP => // hk [Ek].
    by apply/eqP; rewrite -(nth_uniq 0%N hi hk H3) Ei Ek E.
  by case: eqP => // E; case: N; move: Ei; rewrite E Ek => -[].
- rewrite -H2; apply: eq_onth => i; rewrite /view_values /= !onth_map; case Eo: (onth (objs s) i) => [o|] //=.
  rewrite view_set //; apply/negP => Ho; move/allP: (H4 _ _ Eo) => /(_ _ Ho) /negP; apply.
  by move: Ek; rewrite (onthE 0%N); case: ltnP => // hk [<-]; exact: mem_nth.
Qed.

Lemma with_same s w k f g : rel s w ->
  (forall l a, onth (known s) k = Some l -> onth (bufs s) l = Some a -> same (f l) (g a)) ->
  same (with_arr s k f) (get_arr w k g).
Proof.
move=> Hr Hf; rewrite /with_arr /get_arr -/(onth _ _); have [[-> ->]|[l [a [E -> Eb]]]] := rel_arr k Hr.
  by split.
by rewrite E; exact: Hf.
Qed.
Lemma with_obj_same s w k f g : rel s w ->
  (forall o v, onth (objs s) k = Some o -> view_obj (bufs s) o = Some v -> all (fun l => l \notin known s) (owned o) -> same (f o) (g v)) ->
  same (with_obj s k f) (get_val w k g).
Proof.
move=> Hr Hf; rewrite /with_obj /get_val -/(onth _ _); have [[-> ->]|[o [v [E -> Eb Ho]]]] := rel_obj k Hr.
  by split.
by rewrite E; exact: Hf.
Qed.
Lemma ell_view b c q p (v : vobj R) : view_obj b (OE c q p) = Some v ->
  exists x y, [/\ v = VE (Ell x y p), onth b c = Some x & onth b q = Some y].
Proof. by rewrite /=; case: (onth b c) => [x|//]; case: (onth b q) => [y|//] [<-]; exists x, y. Qed.
Lemma hp_view b n z a r (v : vobj R) : view_obj b (OH n z a r) = Some v -> exists x, v = VH (Hp x z a r).
Proof. by rewrite /=; case: (onth b n) => [x|//] [<-]; exists x. Qed.

Lemma changeE w r (p : res A) (F : A -> vobj R) : change w r (let* c := p in Ok (F c)) =
  match p with Ok z => (VSt (arrays w) (upd (values w) r (F z)), Ok tt) | Err e => (w, Err e) end.
Proof. by case: p. Qed.

Lemma step_rel s w a : rel s w -> same (step la cfg s a) (vstep la cfg w a).
Proof.
move=> Hr; have Hn : (size (bufs s) <= size (bufs s))%N by [].
case: a => [x|k x|[|k|k1 k2] kw|k x kw|g r|r|r k|r k|r k] /=.
- rewrite /on_bufs /halloc -cats1; split=> //=; rewrite -cats1; apply: learn_rel => //; split=> //=; first by rewrite leqnn.
  by rewrite onth_last.
- apply: with_same => // l b Ek El; rewrite /on_bufs /hwrite (onth_lt El); split=> //=; exact: write_rel El.
- by apply: make_same => //; exact: gets_none.
- by apply: with_same => // l b Ek El; apply: make_same => //; exact: gets_shape1.
- apply: with_same => // l b Ek El; apply: with_same => // l' b' Ek' El'; apply: make_same => //; exact: gets_both.
- by apply: with_same => // l b Ek El; apply: make_same => //; exact: gets_hp.
- apply: with_obj_same => // o v Eo Ev Ho; rewrite /give.
  by apply: (on_gets Hr (gets_get g (erefl _) Ev)) => t ls xs Hx _; split=> //=; exact: learn_rel.
- apply: with_obj_same => // o v Eo Ev Ho; apply: make_same => //; exact: gets_dup.
- apply: with_obj_same => // o v Eo Ev Ho; apply: with_same => // l b Ek El.
  case: o Eo Ev Ho => [c q p|n z u d] Eo Ev Ho; last by have [x ->] := hp_view Ev; split.
  have [x [y [-> Ec Eq]]] := ell_view Ev; rewrite /e_abs changeE; cbn [e_props e_shape e_center].
  apply: (on_gets Hr (gets_center (p_abs p) Hn El)) => t c' z' [Hc' Ec'] _; split=> //=.
  apply: (put_same Hr Eo); first by rewrite /= Ec' (onth_cat t Eq).
  by move: Ho; rewrite /= (new_notin Hr _ Hc') // => /andP [].
- apply: with_obj_same => // o v Eo Ev Ho; apply: with_same => // l b Ek El.
  case: o Eo Ev Ho => [c q p|n z u d] Eo Ev Ho; last by have [x ->] := hp_view Ev; split.
  have [x [y [-> Ec Eq]]] := ell_view Ev; rewrite /e_abs changeE; cbn [e_props e_shape e_center].
  apply: (on_gets Hr (gets_shape (p_abs p) Hn El)) => t c' z' [Hc' Ec'] _; split=> //=.
  apply: (put_same Hr Eo); first by rewrite /= Ec' (onth_cat t Ec).
  by move: Ho; rewrite /= (new_notin Hr _ Hc') // => /andP [->].
- apply: with_obj_same => // o v Eo Ev Ho; apply: with_same => // l b Ek El.
  case: o Eo Ev Ho => [c q p|n z u d] Eo Ev Ho; last by have [x ->] := hp_view Ev; split.
  have [x [y [-> Ec Eq]]] := ell_view Ev; rewrite /e_abs; cbn [e_props e_shape e_center].
  apply: (on_gets Hr (gets_proj_shape (p_abs p) Hn Eq El)) => t q' y' [Hq' Eq'] Hr1.
  set s1 := put_obj r _ _; set w1 := VSt _ _.
  have Hs1 : rel s1 w1.
    apply: (put_same Hr Eo); first by rewrite /= Eq' (onth_cat t Ec).
    by move: Ho; rewrite /= (new_notin Hr _ Hq') // => /andP [->].
  have Hn1 : (size (bufs s1) <= size (bufs s1))%N by [].
  have := gets_proj_center (p_abs p) Hn1 (onth_cat t Ec) (onth_cat t El); rewrite -rbindA changeE => Hg.
  have Eo1 : onth (objs s1) r = Some (OE c q' p) by rewrite /= onth_set ?eqxx // (onth_lt Eo).
  apply: (on_gets Hs1 Hg) => t1 c' z [Hc' Ec'] _; split=> //=.
  apply: (put_same Hs1 Eo1); first by rewrite /= Ec' (onth_cat t1 Eq').
  by rewrite /= (new_notin Hs1 _ Hc') //= andbT (new_notin Hr _ Hq').
Qed.

Lemma run_rel acts s w : rel s w ->
  (run la cfg acts s).2 = (vrun la cfg acts w).2 /\ rel (run la cfg acts s).1 (vrun la cfg acts w).1.
Proof.
elim: acts s w => [|a acts IH] s w Hr //=.
have := step_rel a Hr; case: (step _ _ _ _) => s1 x1; case: (vstep _ _ _ _) => w1 y1 [/= -> Hr1].
have := IH _ _ Hr1; case: (run _ _ _ _) => s2 x2; case: (vrun _ _ _ _) => w2 y2 /= [-> Hr2].
by split.
Qed.

Definition st0 : st R := St [::] [::] [::].
Definition vst0 : vst R := VSt [::] [::].
Theorem run_refines acts :
  [/\ (run la cfg acts st0).2 = (vrun la cfg acts vst0).2,
      view_arrays (run la cfg acts st0).1 = map Some (arrays (vrun la cfg acts vst0).1) &
      view_values (run la cfg acts st0).1 = map Some (values (vrun la cfg acts vst0).1)].
Proof. have H0 : rel st0 vst0 by split=> // i o; case: i.
by have [E [H1 H2 _ _]] := run_rel acts H0. Qed.

Lemma vrun_cat a b w : (vrun la cfg (a ++ b) w).1 = (vrun la cfg b (vrun la cfg a w).1).1.
Proof.
elim: a w => [|x a IH] w //=; case: (vstep _ _ _ _) => w1 y1; have := IH w1.
by case: (vrun la cfg (a ++ b) w1) => w2 y2; case: (vrun la cfg a w1) => w3 y3 /= ->.
Qed.

(** the value machine changes only what an action names *)
Lemma vstep_obj w a r v : ~~ changes_obj r a -> onth (values w) r = Some v -> onth (values (vstep la cfg w a).1) r = Some v.
Proof.
have mk w' x : onth (values w') r = Some v -> onth (values (make w' x).1) r = Some v.
  by case: x => [o|e] //= H; rewrite -cats1; exact: onth_cat.
have ch w' i x : i != r -> onth (values w') r = Some v -> onth (values (change w' i x).1) r = Some v.
  by case: x => [o|e] //= H; rewrite onth_upd eq_sym (negbTE H).
case: a => [x|k x|[|k|k1 k2] kw|k x kw|g i|i|i k|i k|i k] //= Hc Hv.
- by rewrite /get_arr; case: (onth (arrays w) k).
- exact: mk.
- by rewrite /get_arr; case: (onth (arrays w) k) => // a; exact: mk.
- by rewrite /get_arr; case: (onth (arrays w) k1) => // a; case: (onth (arrays w) k2) => // b; exact: mk.
- by rewrite /get_arr; case: (onth (arrays w) k) => // a; exact: mk.
- by rewrite /get_val; case: (onth (values w) i) => // o; rewrite /give; case: g; case: o.
- by rewrite /get_val; case: (onth (values w) i) => // o; exact: mk.
- by rewrite /get_val; case: (onth (values w) i) => // -[e|h]; rewrite /get_arr; case: (onth (arrays w) k) => // a; exact: ch.
- by rewrite /get_val; case: (onth (values w) i) => // -[e|h]; rewrite /get_arr; case: (onth (arrays w) k) => // a; exact: ch.
rewrite /get_val; case: (onth (values w) i) => // -[e|h]; rewrite /get_arr; case: (onth (arrays w) k) => // a.
by case: rbind => // q; apply: ch => //=; rewrite onth_upd eq_sym (negbTE Hc).
Qed.
Lemma vstep_arr w a k x : ~~ changes_arr k a -> onth (arrays w) k = Some x -> onth (arrays (vstep la cfg w a).1) k = Some x.
Proof.
have mk w' y : onth (arrays w') k = Some x -> onth (arrays (make w' y).1) k = Some x by case: y.
have ch w' i y : onth (arrays w') k = Some x -> onth (arrays (change w' i y).1) k = Some x by case: y.
have gv w' y : onth (arrays w') k = Some x -> onth (arrays (give w' y).1) k = Some x.
  by case: y => [o|e] //= H; exact: onth_cat.
case: a => [y|i y|[|i|k1 k2] kw|i y kw|g i|i|i j|i j|i j] //= Hc Hv.
- by rewrite -cats1; exact: onth_cat.
- by rewrite /get_arr; case: (onth (arrays w) i) => //= a; rewrite onth_upd eq_sym (negbTE Hc).
- exact: mk.
- by rewrite /get_arr; case: (onth (arrays w) i) => // a; exact: mk.
- by rewrite /get_arr; case: (onth (arrays w) k1) => // a; case: (onth (arrays w) k2) => // b; exact: mk.
- by rewrite /get_arr; case: (onth (arrays w) i) => // a; exact: mk.
- by rewrite /get_val; case: (onth (values w) i) => // o; exact: gv.
- by rewrite /get_val; case: (onth (values w) i) => // o; exact: mk.
- by rewrite /get_val; case: (onth (values w) i) => // -[e|h]; rewrite /get_arr; case: (onth (arrays w) j) => // a; exact: ch.
- by rewrite /get_val; case: (onth (values w) i) => // -[e|h]; rewrite /get_arr; case: (onth (arrays w) j) => // a; exact: ch.
rewrite /get_val; case: (onth (values w) i) => // -[e|h]; rewrite /get_arr; case: (onth (arrays w) j) => // a.
by case: rbind => // q; apply: ch.
Qed.
Lemma vrun_obj b w r v : all (fun a => ~~ changes_obj r a) b -> onth (values w) r = Some v -> onth (values (vrun la cfg b w).1) r = Some v.
Proof.
elim: b w => [|a b IH] w //= /andP [Ha Hb] Hv; have := vstep_obj Ha Hv; case: (vstep _ _ _ _) => w1 y1 /= H1.
by have := IH w1 Hb H1; case: (vrun _ _ _ _).
Qed.
Lemma vrun_arr b w k x : all (fun a => ~~ changes_arr k a) b -> onth (arrays w) k = Some x -> onth (arrays (vrun la cfg b w).1) k = Some x.
Proof.
elim: b w => [|a b IH] w //= /andP [Ha Hb] Hv; have := vstep_arr Ha Hv; case: (vstep _ _ _ _) => w1 y1 /= H1.
by have := IH w1 Hb H1; case: (vrun _ _ _ _).
Qed.

(** so an object, or an array, keeps its contents over any run that does not change it by name *)
Theorem run_object a b r v : onth (view_values (run la cfg a st0).1) r = Some (Some v) -> all (fun x => ~~ changes_obj r x) b ->
  onth (view_values (run la cfg (a ++ b) st0).1) r = Some (Some v).
Proof.
have [_ _ ->] := run_refines a; have [_ _ ->] := run_refines (a ++ b); rewrite !onth_map vrun_cat.
by case E: (onth _ r) => [u|//] [Eu] Hb; subst u; rewrite (vrun_obj Hb E).
Qed.
Theorem run_array a b k x : onth (view_arrays (run la cfg a st0).1) k = Some (Some x) -> all (fun y => ~~ changes_arr k y) b ->
  onth (view_arrays (run la cfg (a ++ b) st0).1) k = Some (Some x).
Proof.
have [_ -> _] := run_refines a; have [_ -> _] := run_refines (a ++ b); rewrite !onth_map vrun_cat.
by case E: (onth _ k) => [u|//] [Eu] Hb; subst u; rewrite (vrun_arr Hb E).
Qed.

Theorem ell_keeps k p t n (c : 'cV[R]_n) (Q : 'M[R]_n) b :
  eigvalsh_ok la -> props_of cfg k p t -> symm Q -> psd Q -> all (fun x => ~~ changes_obj 0 x) b ->
  onth (view_values (run la cfg ([:: ANew (vec c); ANew (mat Q); AMk (NBoth 0 1) k] ++ b) st0).1) 0 =
  Some (Some (VE (Ell (vec c) (mat Q) p))).
Proof.
move=> Hla Hp HQ PQ Hb; apply: run_object Hb.
have [_ _ ->] := run_refines [:: ANew (vec c); ANew (mat Q); AMk (NBoth 0 1) k].
cbn [vrun vstep arrays values rcons get_arr onth drop ohead vst0 size].
by rewrite (mk_valid _ Hla Hp HQ PQ).
Qed.
Theorem hp_keeps t r k a d n (v : 'cV[R]_n) s b :
  tols_of cfg t r -> (0 < n)%N -> odflt (Fin t) (k_abs k) = Fin a -> odflt (Fin r) (k_rel k) = Fin d -> 0 < a -> 0 < d ->
  all (fun x => ~~ changes_obj 0 x) b ->
  onth (view_values (run la cfg ([:: ANew (vec v); AMkHp 0 (Fin s) k] ++ b) st0).1) 0 =
  Some (Some (VH (Hp (vec v) (Fin s) (Fin a) (Fin d)))).
Proof.
move=> Hc n0 Ha Hd a0 d0 Hb; apply: run_object Hb.
have [_ _ ->] := run_refines [:: ANew (vec v); AMkHp 0 (Fin s) k].
cbn [vrun vstep arrays values rcons get_arr onth drop ohead vst0 size].
by rewrite (mk_hp_run _ Hc n0 (HoldsVec _) Ha Hd a0 d0).
Qed.

Lemma keeps_example (v w : 'cV[R]_2) t r : tols_of cfg t r ->
  let acts := [:: ANew (vec v); AMkHp 0 (Fin 1) (no_kw R); AWrite 0 (vec w); AGet _ GParameters 0; AWrite 1 (vec w);
                  AGet _ GParameters 0; ADup _ 0; AGet _ GCenter 0] in
  [/\ (run la cfg acts st0).2 = [:: Ok tt; Ok tt; Ok tt; Ok tt; Ok tt; Ok tt; Ok tt; AttributeError],
      view_arrays (run la cfg acts st0).1 = [:: Some (vec w); Some (vec w); Some (vec v)] &
      view_values (run la cfg acts st0).1 = [:: Some (VH (Hp (vec v) (Fin 1) (Fin t) (Fin r)));
                                                Some (VH (Hp (vec v) (Fin 1) (Fin t) (Fin r)))]].
Proof.
move=> Hc acts; have [-> -> ->] := run_refines acts.
have [_ _ t0 r0] := Hc; have [Ea Er _ _] := Hc.
have E : mk_hp cfg (RealArr (vec v)) (RealScal (Fin 1)) (no_kw R) = Ok (Hp (vec v) (Fin 1) (Fin t) (Fin r)).
  by apply: (mk_hp_run (k := no_kw R) _ Hc) => //; exact: HoldsVec.
have D : hp_single_copy cfg (Hp (vec v) (Fin 1) (Fin t) (Fin r)) = Ok (Hp (vec v) (Fin 1) (Fin t) (Fin r)).
  by apply: (mk_hp_run _ Hc) => //; exact: HoldsVec.
rewrite /acts; cbn [vrun vstep arrays values rcons get_arr onth drop ohead vst0 size]; rewrite E.
by cbn; rewrite D.
Qed.
End BufferProof.
