(** C26: syntax objects. *)
From Coq Require Import ZArith NArith Bool Ascii String List Lia.
From Verif Require Import Base Heap HeapM Equal EqualProofs EqualThm Syntax.
Import ListNotations.

(** ** Specification *)

(** [leaf h v x]: [v] is an object without parts, and reads as [x]. *)
Definition leaf (h : heap) (v : val) (x : obj) : Prop :=
  reads h v x /\ match cell_of h v with None | Some (CStr _) | Some (COther _) => True | _ => False end.

(** The datum [x] found at [v] when every syntax object is read as what it
    contains; the syntax objects are older than the [n]-th object.  So
    [datum_of 0] describes data without syntax objects. *)
Inductive datum_of (n : nat) (h : heap) : val -> obj -> Prop :=
| DtLeaf v x : leaf h v x -> datum_of n h v x
| DtPair l a d x y : nth_error h l = Some (CPair a d) -> datum_of n h a x -> datum_of n h d y -> datum_of n h (VPtr l) (OPair x y)
| DtVec v vs xs : cell_of h v = Some (CVec vs) -> datums_of n h vs xs -> datum_of n h v (OVec xs)
| DtBox l v x : nth_error h l = Some (CBox v) -> datum_of n h v x -> datum_of n h (VPtr l) (OBox x)
| DtSyntax l e loc x : l < n -> nth_error h l = Some (CSyntax e loc) -> datum_of n h e x -> datum_of n h (VPtr l) x
with datums_of (n : nat) (h : heap) : list val -> list obj -> Prop :=
| DtNil : datums_of n h [] []
| DtCons v vs x xs : datum_of n h v x -> datums_of n h vs xs -> datums_of n h (v :: vs) (x :: xs).

(** [stx n h v x]: [v] is a syntax object for [x], and so are all of its parts:
    either an object older than the [n]-th, or a new one without location. *)
Inductive stx (n : nat) (h : heap) : val -> obj -> Prop :=
| SxOld l e loc x : l < n -> nth_error h l = Some (CSyntax e loc) -> datum_of n h e x -> stx n h (VPtr l) x
| SxNew l e x : nth_error h l = Some (CSyntax e VFalse) -> stx_body n h e x -> stx n h (VPtr l) x
with stx_body (n : nat) (h : heap) : val -> obj -> Prop :=
| SbLeaf v x : leaf h v x -> stx_body n h v x
| SbPair l a d x y : nth_error h l = Some (CPair a d) -> stx n h a x -> stx_tail n h d y -> stx_body n h (VPtr l) (OPair x y)
| SbVec l vs xs : nth_error h l = Some (CVec vs) -> stxs n h vs xs -> stx_body n h (VPtr l) (OVec xs)
| SbBox l v x : nth_error h l = Some (CBox v) -> stx n h v x -> stx_body n h (VPtr l) (OBox x)
with stx_tail (n : nat) (h : heap) : val -> obj -> Prop :=
| StNull : stx_tail n h VNull ONull
| StPair l a d x y : nth_error h l = Some (CPair a d) -> stx n h a x -> stx_tail n h d y -> stx_tail n h (VPtr l) (OPair x y)
| StEnd v x : stx n h v x -> stx_tail n h v x
with stxs (n : nat) (h : heap) : list val -> list obj -> Prop :=
| SsNil : stxs n h [] []
| SsCons v vs x xs : stx n h v x -> stxs n h vs xs -> stxs n h (v :: vs) (x :: xs).

Scheme datum_mut := Induction for datum_of Sort Prop with datums_mut := Induction for datums_of Sort Prop.
Combined Scheme datum_of_ind2 from datum_mut, datums_mut.
Scheme stx_mut := Induction for stx Sort Prop with stx_body_mut := Induction for stx_body Sort Prop
  with stx_tail_mut := Induction for stx_tail Sort Prop with stxs_mut := Induction for stxs Sort Prop.
Combined Scheme stx_ind4 from stx_mut, stx_body_mut, stx_tail_mut, stxs_mut.

(** An object that is not a pair. *)
Definition ends (h : heap) (w : val) : Prop :=
  match cell_of h w with Some (CPair _ _) => False | None => forall l, w <> VPtr l | _ => True end.
(** The elements and the end of a list whose tails may be wrapped in a syntax
    object each. *)
Inductive spine (h : heap) : val -> list val -> val -> Prop :=
| SpEnd v : ends h (strip_once h v) -> spine h v [] (strip_once h v)
| SpCons v l a d xs t : strip_once h v = VPtr l -> nth_error h l = Some (CPair a d) -> spine h d xs t -> spine h v (a :: xs) t.

(** ** Lemmas *)
Definition sub (h H : heap) : Prop := forall i c, nth_error h i = Some c -> nth_error H i = Some c.
Lemma sub_ext h H : extends h H -> sub h H. Proof. intros E i c. apply extends_nth; auto. Qed.
Lemma sub_reads h H : sub h H -> (forall v x, reads h v x -> reads H v x) /\ (forall vs xs, reads_list h vs xs -> reads_list H vs xs).
Proof.
  intros E. apply reads_reads_list_ind; intros; first [solve [econstructor; eauto] | eapply RdSyntax; eauto].
Qed.
Lemma sub_cell h H v c : sub h H -> cell_of h v = Some c -> cell_of H v = Some c.
Proof. intros E. destruct v; simpl; auto. Qed.
Lemma reads_cell_none h v x : reads h v x -> cell_of h v = None -> forall l, v <> VPtr l.
Proof. destruct 1; simpl; congruence. Qed.
Lemma sub_leaf h H v x : sub h H -> leaf h v x -> leaf H v x.
Proof.
  intros E [R L]. split; [apply (sub_reads h H E); auto|]. destruct (cell_of h v) eqn:C.
  - rewrite (sub_cell h H v c E C). exact L.
  - assert (N := reads_cell_none _ _ _ R C). destruct v; simpl in *; try discriminate; auto. edestruct N; reflexivity.
Qed.
Lemma sub_datum n h H : sub h H -> (forall v x, datum_of n h v x -> datum_of n H v x) /\ (forall vs xs, datums_of n h vs xs -> datums_of n H vs xs).
Proof.
  intros E. apply datum_of_ind2; intros.
  - apply DtLeaf. eapply sub_leaf; eauto.
  - eapply DtPair; eauto.
  - eapply DtVec; eauto. eapply sub_cell; eauto.
  - eapply DtBox; eauto.
  - eapply DtSyntax; eauto.
  - constructor.
  - constructor; auto.
Qed.

(** [foot n m h H]: [H] has the cells of [h] below [n] and from [m] on. *)
Definition foot (n m : nat) (h H : heap) : Prop := forall i c, i < n \/ m <= i -> nth_error h i = Some c -> nth_error H i = Some c.
Lemma foot_sub h0 h m H : extends h0 h -> foot (length h0) m h H -> sub h0 H.
Proof.
  intros E F i c N. apply F; [left; apply nth_error_Some; congruence|]. eapply extends_nth; eauto.
Qed.
Lemma nth_app_at {A} (h : list A) c : nth_error (h ++ [c]) (length h) = Some c.
Proof. rewrite nth_error_app2, Nat.sub_diag; auto. Qed.

(** [m], run in any extension of [h0], returns a result with [Q] that only
    depends on [h0] and on what [m] allocates; nothing else changes. *)
Definition builds (h0 : heap) (m : M val) (Q : heap -> val -> Prop) : Prop :=
  forall h, extends h0 h -> exists r h', m h = HOk r h' /\ extends h h' /\ forall H, foot (length h0) (length h) h' H -> Q H r.

Lemma builds_ret h0 v (Q : heap -> val -> Prop) : (forall H, sub h0 H -> Q H v) -> builds h0 (ret v) Q.
Proof. intros C h E. exists v, h. split; [reflexivity|]. split; [apply extends_refl|]. intros H F. apply C. eapply foot_sub; eauto. Qed.
Lemma builds_alloc h0 c (Q : heap -> val -> Prop) : (forall H l, sub h0 H -> nth_error H l = Some c -> Q H (VPtr l)) -> builds h0 (m_alloc c) Q.
Proof.
  intros C h E. exists (VPtr (length h)), (h ++ [c]). split; [reflexivity|]. split; [apply extends_snoc|]. intros H F. apply C.
  - eapply foot_sub; [|exact F]. eapply extends_trans; eauto. apply extends_snoc.
  - apply F; [right; auto|apply nth_app_at].
Qed.
(** Allocating after building. *)
Lemma builds_then_alloc h0 m Q (g : val -> cell) (R : heap -> val -> Prop) :
  builds h0 m Q -> (forall H v l, sub h0 H -> Q H v -> nth_error H l = Some (g v) -> R H (VPtr l)) -> builds h0 (bind m (fun x => m_alloc (g x))) R.
Proof.
  intros B C h E. destruct (B h E) as [r [h' [M1 [E1 F1]]]]. exists (VPtr (length h')), (h' ++ [g r]).
  split; [unfold bind; rewrite M1; reflexivity|]. split; [eapply extends_trans; [exact E1|apply extends_snoc]|].
  intros H F. apply (C H r).
  - eapply foot_sub; [|exact F]. eapply extends_trans; [exact E|]. eapply extends_trans; [exact E1|apply extends_snoc].
  - apply F1. intros i c D N. apply F; auto. eapply extends_nth; [apply extends_snoc|exact N].
  - apply F; [right; apply extends_len; exact E1|apply nth_app_at].
Qed.
Lemma builds_weaken h0 m (Q R : heap -> val -> Prop) : (forall H v, sub h0 H -> Q H v -> R H v) -> builds h0 m Q -> builds h0 m R.
Proof.
  intros C B h E. destruct (B h E) as [r [h' [M1 [E1 F1]]]]. exists r, h'. split; auto. split; auto. intros H F. apply C; auto.
  eapply foot_sub; [|exact F]. eapply extends_trans; eauto.
Qed.

Lemma firstn_repl {A} (done : list A) x (y : A) r : firstn (length done) (done ++ x :: r) ++ y :: skipn (S (length done)) (done ++ x :: r) = (done ++ [y]) ++ r.
Proof.
  rewrite firstn_app, Nat.sub_diag, firstn_all. simpl. rewrite app_nil_r. induction done as [|z done IH]; simpl; auto. f_equal. exact IH.
Qed.
Lemma upd_len l c h : length (upd_cell l c h) = length h.
Proof. revert l; induction h; destruct l; simpl; auto. Qed.
Lemma upd_at l c h : l < length h -> nth_error (upd_cell l c h) l = Some c.
Proof. revert l; induction h; destruct l; simpl; intros; try lia; auto. apply IHh. lia. Qed.
Lemma upd_ext h0 h l c : extends h0 h -> length h0 <= l -> extends h0 (upd_cell l c h).
Proof.
  intros [e ->] L. exists (upd_cell (l - length h0) c e). revert l L. induction h0 as [|x h0 IH]; intros l L; [simpl; rewrite Nat.sub_0_r; reflexivity|].
  destruct l; simpl in *; [lia|]. simpl. f_equal. apply IH. lia.
Qed.
Lemma vec_loop_ok h0 rec vs (Qs : list (heap -> val -> Prop)) :
  Forall2 (fun v Q => builds h0 (rec v) Q) vs Qs ->
  forall h w done, extends h0 h -> length h0 <= w -> nth_error h w = Some (CVec (done ++ repeat c_null (length vs))) ->
  exists h' ys, vec_loop rec (VPtr w) (length done) vs h = HOk tt h' /\ length h <= length h' /\
    (forall j, j < length h -> j <> w -> nth_error h' j = nth_error h j) /\ nth_error h' w = Some (CVec (done ++ ys)) /\
    forall H, foot (length h0) (length h) h' H -> Forall2 (fun Q y => Q H y) Qs ys.
Proof.
  induction 1 as [|v Q vs Qs B _ IH]; intros h w done E W N.
  { exists h, []. split; [reflexivity|]. auto 10. }
  destruct (B h E) as [y [h1 [M1 [E1 F1]]]]. cbn [vec_loop]. unfold bind at 1. rewrite M1. cbn [length repeat] in N.
  assert (N1 : nth_error h1 w = Some (CVec (done ++ c_null :: repeat c_null (length vs)))) by (eapply extends_nth; eauto).
  unfold bind. unfold m_set_vec at 1. rewrite N1. replace (Nat.ltb (length done) (length (done ++ c_null :: repeat c_null (length vs)))) with true
    by (symmetry; apply Nat.ltb_lt; rewrite app_length; simpl; lia).
  rewrite firstn_repl. set (c2 := CVec ((done ++ [y]) ++ repeat c_null (length vs))). set (h2 := upd_cell w c2 h1).
  assert (WL : w < length h1) by (apply nth_error_Some; congruence).
  assert (W0 : w < length h) by (apply nth_error_Some; congruence).
  assert (L2 : length h2 = length h1) by (unfold h2; clear; revert w; induction h1; destruct w; simpl; auto).
  assert (E2 : extends h0 h2).
  { apply upd_ext; auto. eapply extends_trans; eauto. }
  assert (N2 : nth_error h2 w = Some c2).
  { unfold h2. clear - WL. revert w WL. induction h1; intros [|w] L; simpl in *; try lia; auto. apply IHh1. lia. }
  destruct (IH h2 w (done ++ [y]) E2 W N2) as [h' [ys [M2 [L3 [K [N3 F2]]]]]].
  replace (length (done ++ [y])) with (S (length done)) in M2 by (rewrite app_length; simpl; lia).
  assert (L1 := extends_len _ _ E1).
  exists h', (y :: ys). split; [exact M2|]. split; [lia|]. split; [|split].
  - intros j J NE. rewrite K by (try rewrite L2; try lia; auto). unfold h2. rewrite upd_cell_ne by congruence.
    destruct (nth_error h j) eqn:X; [eapply extends_nth; eauto|]. apply nth_error_None in X. lia.
  - rewrite N3, <- app_assoc. reflexivity.
  - intros H F. constructor.
    + apply F1. intros i c D X. apply F; auto. destruct (Nat.eq_dec i w) as [->|NE]; [exfalso; lia|].
      assert (i < length h1) by (apply nth_error_Some; congruence). rewrite K by (try rewrite L2; auto). unfold h2. rewrite upd_cell_ne; auto.
    + apply F2. intros i c D X. apply F; auto. destruct D; [left; auto|right; lia].
Qed.

(** The loop of pair_to_syntax started at [it] leaves the syntax of [it] in the
    cdr of [tl]. *)
Definition loops (h0 : heap) (n : nat) (rec : val -> M val) (it : val) (Q : heap -> val -> Prop) : Prop :=
  forall h l a d, extends h0 h -> length h0 <= l -> nth_error h l = Some (CPair a d) ->
  exists h' d', pair_loop rec n it (VPtr l) h = HOk tt h' /\ length h <= length h' /\
    (forall j, j < length h -> j <> l -> nth_error h' j = nth_error h j) /\ nth_error h' l = Some (CPair a d') /\
    forall H, foot (length h0) (length h) h' H -> Q H d'.
Lemma set_cdr_eq l a d x h : nth_error h l = Some (CPair a d) -> m_set_cdr (VPtr l) x h = HOk tt (upd_cell l (CPair a x) h).
Proof. intros N. unfold m_set_cdr. cbn [pair_at]. rewrite N. reflexivity. Qed.

Lemma loops_null h0 n rec (Q : heap -> val -> Prop) : (forall H, Q H VNull) -> loops h0 (S n) rec VNull Q.
Proof.
  intros C h l a d E L N. assert (l < length h) by (apply nth_error_Some; congruence). exists (upd_cell l (CPair a VNull) h), VNull.
  split; [cbn; rewrite N; reflexivity|]. rewrite upd_len. split; auto. split; [|split; auto].
  - intros j J NE. apply upd_cell_ne. auto.
  - apply upd_at. auto.
Qed.
Lemma loops_end h0 n rec it (Q : heap -> val -> Prop) :
  match cell_of h0 it with Some (CPair _ _) => False | None => forall l, it <> VPtr l | _ => True end -> it <> VNull ->
  builds h0 (rec it) Q -> loops h0 (S n) rec it Q.
Proof.
  intros NP NN B h l a d E L N. destruct (B h E) as [r [h1 [M1 [E1 F1]]]].
  assert (N1 : nth_error h1 l = Some (CPair a d)) by (eapply extends_nth; eauto).
  assert (LL : l < length h) by (apply nth_error_Some; congruence). assert (L1 := extends_len _ _ E1).
  exists (upd_cell l (CPair a r) h1), r. split.
  { cbn [pair_loop]. unfold bind at 1. unfold m_cell.
    assert (X : (x <- rec it;; m_set_cdr (VPtr l) x)%m h = HOk tt (upd_cell l (CPair a r) h1)) by (unfold bind; rewrite M1; apply (set_cdr_eq l a d); auto).
    assert (NL : nullp it = false) by (destruct it; auto; contradiction). rewrite NL.
    destruct (cell_of h0 it) as [c|] eqn:C0.
    - rewrite (sub_cell h0 h it c (sub_ext _ _ E) C0). destruct c; auto. contradiction.
    - replace (cell_of h it) with (@None cell); auto. destruct it; simpl in C0 |- *; try congruence. }
  rewrite upd_len. split; [lia|]. split; [|split; [apply upd_at; lia|]].
  - intros j J NE. rewrite upd_cell_ne by auto. destruct (nth_error h j) eqn:X; [eapply extends_nth; eauto|]. apply nth_error_None in X. lia.
  - intros H F. apply F1. intros i c D X. apply F; auto. rewrite upd_cell_ne; auto. intros ->. lia.
Qed.
Lemma loops_pair h0 n rec l0 a0 d0 (Qa Qd Q : heap -> val -> Prop) :
  nth_error h0 l0 = Some (CPair a0 d0) -> builds h0 (rec a0) Qa -> loops h0 n rec d0 Qd ->
  (forall H p x y, Qa H x -> Qd H y -> nth_error H p = Some (CPair x y) -> Q H (VPtr p)) ->
  loops h0 (S n) rec (VPtr l0) Q.
Proof.
  intros N0 B IL C h l a d E L N. destruct (B h E) as [x [h1 [M1 [E1 F1]]]].
  assert (N1 : nth_error h1 l = Some (CPair a d)) by (eapply extends_nth; eauto).
  assert (LL : l < length h) by (apply nth_error_Some; congruence). assert (L1 := extends_len _ _ E1).
  set (p := length h1). set (h2 := h1 ++ [CPair x c_null]). set (h3 := upd_cell l (CPair a (VPtr p)) h2).
  assert (N2 : nth_error h2 l = Some (CPair a d)) by (eapply extends_nth; [apply extends_snoc|exact N1]).
  assert (E3 : extends h0 h3) by (apply upd_ext; auto; eapply extends_trans; [exact E|]; eapply extends_trans; [exact E1|apply extends_snoc]).
  assert (LE0 := extends_len _ _ E).
  assert (N3 : nth_error h3 p = Some (CPair x c_null)) by (unfold h3; rewrite upd_cell_ne by (unfold p; lia); apply nth_app_at).
  destruct (IL h3 p x c_null E3 ltac:(unfold p; lia) N3) as [h' [y [M3 [L3 [K [N4 F3]]]]]].
  assert (L2 : length h3 = S (length h1)) by (unfold h3, h2; rewrite upd_len, app_length; simpl; lia).
  exists h', (VPtr p). split.
  { cbn [pair_loop]. unfold bind at 1. unfold m_cell. cbn [cell_of]. rewrite (extends_nth _ _ _ _ E N0). unfold bind at 1. rewrite M1.
    unfold bind at 1. unfold m_cons at 1. fold p. fold h2. unfold bind at 1. rewrite (set_cdr_eq l a d (VPtr p) h2 N2). fold h3. exact M3. }
  split; [lia|]. split; [|split].
  - intros j J NE. rewrite K by (unfold p; lia). unfold h3, h2. rewrite upd_cell_ne by auto. rewrite nth_error_app1 by lia.
    destruct (nth_error h j) eqn:X; [eapply extends_nth; eauto|]. apply nth_error_None in X. lia.
  - rewrite K by (unfold p; lia). unfold h3, h2. rewrite upd_at; auto. rewrite app_length. lia.
  - intros H F. apply (C H p x y).
    + apply F1. intros i c D X. assert (I : i < length h1) by (apply nth_error_Some; congruence). apply F; auto.
      rewrite K by (unfold p; lia). unfold h3, h2. rewrite upd_cell_ne by (intros ->; lia). rewrite nth_error_app1; auto.
    + apply F3. intros i c D X. apply F; auto. destruct D; [left; auto|right; lia].
    + apply F; auto.
Qed.

Lemma leaf_cases h v x : leaf h v x -> (cell_of h v = None /\ forall l, v <> VPtr l) \/ (exists b, cell_of h v = Some (CStr b)) \/ exists k, cell_of h v = Some (COther k).
Proof.
  intros [R L]. destruct (cell_of h v) as [[]|] eqn:C; try contradiction; eauto. left. split; auto. eapply reads_cell_none; eauto.
Qed.
Lemma cell_none_ext h H v : cell_of h v = None -> (forall l, v <> VPtr l) -> cell_of H v = None.
Proof. intros C N. destruct v; simpl in *; auto; try discriminate. edestruct N; reflexivity. Qed.

Definition to_ok (N0 : nat) (h0 : heap) (v : val) (x : obj) : Prop :=
  exists n, forall f, n <= f -> builds h0 (to_syntax f v) (fun H r => stx N0 H r x) /\
    forall g, n <= g -> loops h0 g (to_syntax f) v (fun H r => stx_tail N0 H r x).

Lemma to_ok_end N0 h0 v x n : 1 <= n ->
  match cell_of h0 v with Some (CPair _ _) => False | None => forall l, v <> VPtr l | _ => True end -> v <> VNull ->
  (forall f, n <= f -> builds h0 (to_syntax f v) (fun H r => stx N0 H r x)) -> to_ok N0 h0 v x.
Proof.
  intros N1 C NN B. exists n. intros f L. split; auto. intros g G. destruct g as [|g]; [lia|]. apply loops_end; auto.
  eapply builds_weaken; [|apply B; auto]. intros H r _ X. apply StEnd. exact X.
Qed.
Lemma builds_eq h0 (m m' : M val) Q : (forall h, extends h0 h -> m h = m' h) -> builds h0 m' Q -> builds h0 m Q.
Proof. intros X B h E. rewrite X by auto. apply B; auto. Qed.
Lemma to_syntax_cell h0 f v c h : extends h0 h -> cell_of h0 v = Some c -> to_syntax (S f) v h =
  match c with
  | CSyntax _ _ => ret v h
  | CPair a d => (x <- to_syntax f a;; hd <- m_cons x c_null;; pair_loop (to_syntax f) f d hd;;; m_alloc (CSyntax hd VFalse))%m h
  | CVec xs => (w <- m_alloc (CVec (repeat c_null (length xs)));; vec_loop (to_syntax f) w 0 xs;;; m_alloc (CSyntax w VFalse))%m h
  | CBox y => (x <- to_syntax f y;; b <- m_alloc (CBox x);; m_alloc (CSyntax b VFalse))%m h
  | _ => m_alloc (CSyntax v VFalse) h
  end.
Proof.
  intros E C. cbn [to_syntax]. unfold bind at 1. unfold m_cell. rewrite (sub_cell h0 h v c (sub_ext _ _ E) C). destruct c; reflexivity.
Qed.
Lemma to_syntax_none h0 f v : cell_of h0 v = None -> (forall l, v <> VPtr l) -> forall h, to_syntax (S f) v h = m_alloc (CSyntax v VFalse) h.
Proof. intros C N h. cbn [to_syntax]. unfold bind at 1. unfold m_cell. rewrite (cell_none_ext h0 h v C N). reflexivity. Qed.

Lemma strip_cell h0 f v c h : extends h0 h -> cell_of h0 v = Some c -> strip_syntax (S f) v h =
  match c with
  | CSyntax e _ => strip_syntax f e h
  | CPair a d => (x <- strip_syntax f a;; y <- strip_syntax f d;; m_cons x y)%m h
  | CBox y => (x <- strip_syntax f y;; m_alloc (CBox x))%m h
  | CVec xs => (w <- m_alloc (CVec (repeat c_null (length xs)));; vec_loop (strip_syntax f) w 0 xs;;; ret w)%m h
  | _ => ret v h
  end.
Proof.
  intros E C. cbn [strip_syntax]. unfold bind at 1. unfold m_cell. rewrite (sub_cell h0 h v c (sub_ext _ _ E) C). destruct c; reflexivity.
Qed.
Lemma strip_none h0 f v : cell_of h0 v = None -> (forall l, v <> VPtr l) -> forall h, strip_syntax (S f) v h = ret v h.
Proof. intros C N h. cbn [strip_syntax]. unfold bind at 1. unfold m_cell. rewrite (cell_none_ext h0 h v C N). reflexivity. Qed.

Lemma extends_of_nth (h h' : heap) : length h <= length h' -> (forall j, j < length h -> nth_error h' j = nth_error h j) -> extends h h'.
Proof.
  intros L P. exists (skipn (length h) h'). rewrite <- (firstn_skipn (length h) h') at 1. f_equal. revert h' L P.
  induction h as [|c h IH]; intros h' L P; [reflexivity|].
  destruct h' as [|c' h']; [simpl in L; lia|]. cbn [length firstn]. assert (X := P 0 ltac:(simpl; lia)). simpl in X. injection X as ->. f_equal.
  apply IH; [simpl in L; lia|]. intros j J. apply (P (S j)). simpl. lia.
Qed.
(** A vector that is allocated, filled and then [k]. *)
Lemma builds_vec h0 rec vs Qs (R : heap -> val -> Prop) :
  Forall2 (fun v Q => builds h0 (rec v) Q) vs Qs ->
  (forall H w ys, sub h0 H -> nth_error H w = Some (CVec ys) -> Forall2 (fun Q y => Q H y) Qs ys -> R H (VPtr w)) ->
  builds h0 (w <- m_alloc (CVec (repeat c_null (length vs)));; vec_loop rec w 0 vs;;; ret w)%m R.
Proof.
  intros B C h E. set (w := length h). set (h1 := h ++ [CVec (repeat c_null (length vs))]).
  assert (E1 : extends h0 h1) by (eapply extends_trans; [exact E|apply extends_snoc]).
  assert (LE := extends_len _ _ E).
  destruct (vec_loop_ok h0 rec vs Qs B h1 w [] E1 LE (nth_app_at _ _)) as [h' [ys [M1 [L1 [K [N1 F1]]]]]].
  assert (LH : length h1 = S (length h)) by (unfold h1; rewrite app_length; simpl; lia).
  exists (VPtr w), h'. split; [unfold bind at 1; unfold m_alloc; fold w; fold h1; unfold bind; simpl length in M1; rewrite M1; reflexivity|].
  assert (EX : extends h h').
  { apply extends_of_nth; [lia|]. intros j J. rewrite K by (unfold w; lia). unfold h1. apply nth_error_app1. auto. }
  split; auto. intros H F. apply (C H w ys).
  - eapply foot_sub; [|exact F]. exact (extends_trans _ _ _ E EX).
  - apply F; [right; unfold w; lia|exact N1].
  - apply F1. intros i c D X. apply F; auto. destruct D; [left; auto|right; lia].
Qed.

Lemma to_syntax_ok N0 h0 :
  (forall v x, datum_of N0 h0 v x -> to_ok N0 h0 v x) /\
  (forall vs xs, datums_of N0 h0 vs xs -> exists n, forall f, n <= f ->
     Forall2 (fun v Q => builds h0 (to_syntax f v) Q) vs (map (fun x H r => stx N0 H r x) xs)).
Proof.
  apply datum_of_ind2.
  - intros v x L.
    assert (B : forall f, 1 <= f -> builds h0 (to_syntax f v) (fun H r => stx N0 H r x)).
    { intros f F. destruct f as [|f]; [lia|].
      assert (A : builds h0 (m_alloc (CSyntax v VFalse)) (fun H r => stx N0 H r x)).
      { apply builds_alloc. intros H l S N. eapply SxNew; eauto. apply SbLeaf. eapply sub_leaf; eauto. }
      eapply builds_eq; [|exact A]. intros h E.
      destruct (leaf_cases _ _ _ L) as [[C N]|[[b C]|[k C]]]; [apply (to_syntax_none h0); auto|rewrite (to_syntax_cell h0 f v _ h E C); auto..]. }
    destruct (leaf_cases _ _ _ L) as [[C N]|[[b C]|[k C]]].
    + destruct v; try (apply (to_ok_end N0 h0 _ x 1); [lia|rewrite C; auto|discriminate|auto]; fail); try (edestruct N; reflexivity); [].
      exists 1. intros f F. split; auto. intros g G. destruct g as [|g]; [lia|]. apply loops_null. intros H. destruct L as [R _]. inversion R; subst. constructor.
    + apply (to_ok_end N0 h0 _ x 1); [lia|rewrite C; auto| |auto]. intros ->. discriminate.
    + apply (to_ok_end N0 h0 _ x 1); [lia|rewrite C; auto| |auto]. intros ->. discriminate.
  - intros l a d x y N _ [na A] _ [nd D]. exists (S (Nat.max na nd)). intros f F. destruct f as [|f]; [lia|]. split.
    + destruct (A f ltac:(lia)) as [A1 _]. destruct (D f ltac:(lia)) as [_ D2]. specialize (D2 f ltac:(lia)).
      intros h E. assert (C : cell_of h0 (VPtr l) = Some (CPair a d)) by exact N. rewrite (to_syntax_cell h0 f _ _ h E C).
      destruct (A1 h E) as [r [h1 [M1 [E1 F1]]]]. set (p := length h1). set (h2 := h1 ++ [CPair r c_null]).
      assert (E2 : extends h0 h2) by (eapply extends_trans; [exact E|]; eapply extends_trans; [exact E1|apply extends_snoc]).
      assert (LE := extends_len _ _ E). assert (LE1 := extends_len _ _ E1).
      destruct (D2 h2 p r c_null E2 ltac:(unfold p; lia) (nth_app_at _ _)) as [h3 [d' [M3 [L3 [K [N3 F3]]]]]].
      assert (L2 : length h2 = S (length h1)) by (unfold h2; rewrite app_length; simpl; lia).
      exists (VPtr (length h3)), (h3 ++ [CSyntax (VPtr p) VFalse]). split.
      { unfold bind at 1. rewrite M1. unfold bind at 1. unfold m_cons. fold p. fold h2. unfold bind. rewrite M3. reflexivity. }
      assert (P : forall j c, nth_error h1 j = Some c -> nth_error h3 j = Some c).
      { intros j c X. assert (j < length h1) by (apply nth_error_Some; congruence). rewrite K by (unfold p; lia). unfold h2. rewrite nth_error_app1; auto. }
      assert (EX : extends h h3).
      { apply extends_of_nth; [lia|]. intros j J. destruct (nth_error h j) eqn:X; [apply P; eapply extends_nth; eauto|]. apply nth_error_None in X. lia. }
      split; [eapply extends_trans; [exact EX|apply extends_snoc]|].
      intros H FF. eapply SxNew; [apply FF; [right|apply nth_app_at]; lia|].
      eapply SbPair.
      * apply FF; [right; unfold p; lia|]. eapply extends_nth; [apply extends_snoc|exact N3].
      * apply F1. intros i c Di X. apply FF; auto. eapply extends_nth; [apply extends_snoc|]. apply P. exact X.
      * apply F3. intros i c Di X. apply FF; [destruct Di; [left; auto|right; lia]|]. eapply extends_nth; [apply extends_snoc|exact X].
    + intros g G. destruct g as [|g]; [lia|]. eapply loops_pair; [exact N|apply (proj1 (A (S f) ltac:(lia)))|apply (proj2 (D (S f) ltac:(lia)) g); lia|].
      intros H p u w SA SD NP. simpl in SA, SD. eapply StPair; eauto.
  - intros v vs xs C _ [n IH]. apply (to_ok_end N0 h0 _ _ (S n)); [lia|rewrite C; auto|intros ->; discriminate|].
    intros f F. destruct f as [|f]; [lia|]. specialize (IH f ltac:(lia)).
    set (m := (w <- m_alloc (CVec (repeat c_null (length vs)));; vec_loop (to_syntax f) w 0 vs;;; ret w)%m).
    assert (B : builds h0 m (fun H r => stx_body N0 H r (OVec xs))).
    { eapply builds_vec; [exact IH|]. intros H w ys S N Q. eapply SbVec; eauto. clear - Q. revert ys Q.
      induction xs as [|x xs IHx]; intros ys Q; simpl in Q; inversion Q; subst; constructor; auto. }
    eapply builds_eq; [|eapply (builds_then_alloc h0 m _ (fun r => CSyntax r VFalse)); [exact B|]].
    + intros h E. rewrite (to_syntax_cell h0 f _ _ h E C). unfold m, bind, m_alloc, ret. destruct (vec_loop _ _ _ _ _); reflexivity.
    + intros H w l S X N. eapply SxNew; eauto.
  - intros l v x N _ [n IH]. assert (C : cell_of h0 (VPtr l) = Some (CBox v)) by exact N.
    apply (to_ok_end N0 h0 _ _ (S n)); [lia|rewrite C; auto|discriminate|].
    intros f F. destruct f as [|f]; [lia|]. destruct (IH f ltac:(lia)) as [B _].
    eapply builds_eq; [|eapply (builds_then_alloc h0 (x <- to_syntax f v;; m_alloc (CBox x))%m _ (fun r => CSyntax r VFalse))].
    + intros h E. rewrite (to_syntax_cell h0 f _ _ h E C). unfold bind. destruct (to_syntax f v h); reflexivity.
    + eapply (builds_then_alloc h0 _ _ (fun r => CBox r)); [exact B|]. intros H w p S X NP. instantiate (1 := fun H r => stx_body N0 H r (OBox x)).
      simpl in X |- *. eapply SbBox; eauto.
    + intros H w p S X NP. eapply SxNew; eauto.
  - intros l e loc x LN N De _. assert (C : cell_of h0 (VPtr l) = Some (CSyntax e loc)) by exact N.
    apply (to_ok_end N0 h0 _ _ 1); [lia|rewrite C; auto|discriminate|].
    intros f F. destruct f as [|f]; [lia|]. eapply builds_eq; [intros h E; apply (to_syntax_cell h0 f _ _ h E C)|].
    apply builds_ret. intros H S. eapply SxOld; [exact LN|apply S; eauto|apply (sub_datum N0 _ _ S); auto].
  - exists 0. intros f _. constructor.
  - intros v vs x xs _ [n1 B] _ [n2 R]. exists (Nat.max n1 n2). intros f F. constructor; [apply B; lia|apply R; lia].
Qed.

Definition strip_ok (h0 : heap) (v : val) (x : obj) : Prop :=
  exists n, forall f, n <= f -> builds h0 (strip_syntax f v) (fun H r => reads H r x).
Lemma strip_syntax_ok N0 h0 :
  (forall v x, datum_of N0 h0 v x -> strip_ok h0 v x) /\
  (forall vs xs, datums_of N0 h0 vs xs -> exists n, forall f, n <= f ->
     Forall2 (fun v Q => builds h0 (strip_syntax f v) Q) vs (map (fun x H r => reads H r x) xs)).
Proof.
  apply datum_of_ind2.
  - intros v x L. exists 1. intros f F. destruct f as [|f]; [lia|].
    assert (A : builds h0 (ret v) (fun H r => reads H r x)) by (apply builds_ret; intros H S; apply (sub_leaf _ _ _ _ S L)).
    eapply builds_eq; [|exact A]. intros h E.
    destruct (leaf_cases _ _ _ L) as [[C N]|[[b C]|[k C]]]; [apply (strip_none h0); auto|rewrite (strip_cell h0 f v _ h E C); auto..].
  - intros l a d x y N _ [na A] _ [nd D]. exists (S (Nat.max na nd)). intros f F. destruct f as [|f]; [lia|].
    specialize (A f ltac:(lia)). specialize (D f ltac:(lia)). intros h E. assert (C : cell_of h0 (VPtr l) = Some (CPair a d)) by exact N.
    rewrite (strip_cell h0 f _ _ h E C). destruct (A h E) as [r [h1 [M1 [E1 F1]]]]. destruct (D h1 (extends_trans _ _ _ E E1)) as [r2 [h2 [M2 [E2 F2]]]].
    exists (VPtr (length h2)), (h2 ++ [CPair r r2]). split; [unfold bind; rewrite M1, M2; reflexivity|].
    split; [eapply extends_trans; [exact E1|]; eapply extends_trans; [exact E2|apply extends_snoc]|].
    assert (LE1 := extends_len _ _ E1). assert (LE2 := extends_len _ _ E2).
    intros H FF. eapply RdPair; [apply FF; [right; lia|apply nth_app_at]| |].
    + apply F1. intros i c Di X. apply FF; auto. eapply extends_nth; [apply extends_snoc|]. eapply extends_nth; eauto.
    + apply F2. intros i c Di X. apply FF; [destruct Di; [left; auto|right; lia]|]. eapply extends_nth; [apply extends_snoc|exact X].
  - intros v vs xs C _ [n IH]. exists (S n). intros f F. destruct f as [|f]; [lia|]. specialize (IH f ltac:(lia)).
    eapply builds_eq; [intros h E; apply (strip_cell h0 f _ _ h E C)|]. eapply builds_vec; [exact IH|]. intros H w ys S N Q. eapply RdVec; eauto.
    clear - Q. revert ys Q. induction xs as [|x xs IHx]; intros ys Q; simpl in Q; inversion Q; subst; constructor; auto.
  - intros l v x N _ [n IH]. assert (C : cell_of h0 (VPtr l) = Some (CBox v)) by exact N. exists (S n). intros f F. destruct f as [|f]; [lia|].
    eapply builds_eq; [intros h E; apply (strip_cell h0 f _ _ h E C)|]. eapply (builds_then_alloc h0 _ _ (fun r => CBox r)); [apply IH; lia|].
    intros H w p S X NP. eapply RdBox; eauto.
  - intros l e loc x LN N _ [n IH]. assert (C : cell_of h0 (VPtr l) = Some (CSyntax e loc)) by exact N. exists (S n). intros f F. destruct f as [|f]; [lia|].
    eapply builds_eq; [intros h E; apply (strip_cell h0 f _ _ h E C)|]. apply IH. lia.
  - exists 0. intros f _. constructor.
  - intros v vs x xs _ [n1 B] _ [n2 R]. exists (Nat.max n1 n2). intros f F. constructor; [apply B; lia|apply R; lia].
Qed.

Lemma foot_all n m h : foot n m h h. Proof. intros i c _ X. exact X. Qed.
Lemma datum_mono n m h : n <= m -> (forall v x, datum_of n h v x -> datum_of m h v x) /\ (forall vs xs, datums_of n h vs xs -> datums_of m h vs xs).
Proof.
  intros L. apply datum_of_ind2; intros.
  - apply DtLeaf. auto.
  - eapply DtPair; eauto.
  - eapply DtVec; eauto.
  - eapply DtBox; eauto.
  - eapply DtSyntax; eauto. lia.
  - constructor.
  - constructor; auto.
Qed.
Lemma stx_datum n h : n <= length h ->
  (forall v x, stx n h v x -> datum_of (length h) h v x) /\ (forall v x, stx_body n h v x -> datum_of (length h) h v x) /\
  (forall v x, stx_tail n h v x -> datum_of (length h) h v x) /\ (forall vs xs, stxs n h vs xs -> datums_of (length h) h vs xs).
Proof.
  intros L.
  apply stx_ind4; intros; auto.
  - eapply DtSyntax; eauto; [lia|]. eapply datum_mono; eauto.
  - eapply DtSyntax; eauto. apply nth_error_Some. congruence.
  - apply DtLeaf. auto.
  - eapply DtPair; eauto.
  - eapply DtVec; eauto.
  - eapply DtBox; eauto.
  - apply DtLeaf. split; [constructor|exact Logic.I].
  - eapply DtPair; eauto.
  - constructor.
  - constructor; auto.
Qed.
Lemma plain_reads h : (forall v x, datum_of 0 h v x -> reads h v x) /\ (forall vs xs, datums_of 0 h vs xs -> reads_list h vs xs).
Proof.
  apply datum_of_ind2; intros; try lia; try (econstructor; eauto; fail).
  - destruct l. auto.
  - destruct v; simpl in e; try discriminate; [injection e as <-; inversion H; subst; constructor|]. eapply RdVec; eauto.
Qed.

(** The outcome does not depend on the fuel. *)
Lemma to_syntax_mono1 f f1 : f <= f1 -> (forall w hh a b, to_syntax f w hh = HOk a b -> to_syntax f1 w hh = HOk a b) ->
  forall w hh a b, to_syntax (S f) w hh = HOk a b -> to_syntax (S f1) w hh = HOk a b.
Proof.
  intros LF G w hh a b.
  assert (PL : forall n it tl hh b, pair_loop (to_syntax f) n it tl hh = HOk tt b -> forall n', n <= n' -> pair_loop (to_syntax f1) n' it tl hh = HOk tt b).
  { clear - G. induction n as [|n IHn]; intros it tl hh b; [discriminate|]. intros H n' L. destruct n' as [|n']; [lia|].
    cbn [pair_loop] in H |- *. unfold bind at 1 in H. unfold bind at 1. revert H. unfold m_cell.
    assert (END : (if nullp it then m_set_cdr tl VNull else (x <- to_syntax f it;; m_set_cdr tl x)%m) hh = HOk tt b ->
      (if nullp it then m_set_cdr tl VNull else (x <- to_syntax f1 it;; m_set_cdr tl x)%m) hh = HOk tt b).
    { destruct (nullp it); auto. unfold bind. destruct (to_syntax f it hh) eqn:T; try discriminate. rewrite (G _ _ _ _ T). auto. }
    destruct (cell_of hh it) as [[]|]; auto. unfold bind. destruct (to_syntax f a hh) eqn:T; try discriminate. rewrite (G _ _ _ _ T).
    destruct (m_cons a0 c_null h) eqn:C; try discriminate. destruct (m_set_cdr tl a1 h0) eqn:SC; try discriminate. intros H. apply IHn; auto. lia. }
  assert (VL : forall xs w i hh b, vec_loop (to_syntax f) w i xs hh = HOk tt b -> vec_loop (to_syntax f1) w i xs hh = HOk tt b).
  { clear - G. induction xs as [|x xs IHx]; intros w i hh b; auto. cbn [vec_loop]. unfold bind. destruct (to_syntax f x hh) eqn:T; try discriminate.
    rewrite (G _ _ _ _ T). destruct (m_set_vec w i a h) eqn:SV; try discriminate. apply IHx. }
  cbn [to_syntax]. unfold bind at 1. intros H. unfold bind at 1. revert H. unfold m_cell.
  destruct (cell_of hh w) as [[]|]; auto; unfold bind.
  - destruct (to_syntax f a0 hh) eqn:T; try discriminate. rewrite (G _ _ _ _ T). destruct (m_cons a1 c_null h) eqn:C; try discriminate.
    destruct (pair_loop (to_syntax f) f d a2 h0) as [[]| | |] eqn:L; try discriminate. rewrite (PL _ _ _ _ _ L f1) by lia. auto.
  - destruct (m_alloc (CVec (repeat c_null (length xs))) hh) eqn:A; try discriminate.
    destruct (vec_loop (to_syntax f) a0 0 xs h) as [[]| | |] eqn:L; try discriminate. rewrite (VL _ _ _ _ _ L). auto.
  - destruct (to_syntax f v hh) eqn:T; try discriminate. rewrite (G _ _ _ _ T). auto.
Qed.
Lemma to_syntax_mono f g : f <= g -> forall w hh a b, to_syntax f w hh = HOk a b -> to_syntax g w hh = HOk a b.
Proof.
  assert (Q : forall f w hh a b, to_syntax f w hh = HOk a b -> to_syntax (S f) w hh = HOk a b).
  { induction f0 as [|f0 IH]; [discriminate|]. apply to_syntax_mono1; auto. }
  induction 1; auto.
Qed.

(** ** C26 *)

(** [datum->syntax] of any datum (with or without syntax objects in it) returns,
    with all parts made into syntax objects, and changes no existing object. *)
Theorem C26_datum_to_syntax n h v x : datum_of n h v x ->
  exists k, forall f, k <= f -> exists r h', to_syntax f v h = HOk r h' /\ extends h h' /\ stx n h' r x.
Proof.
  intros D. destruct (proj1 (to_syntax_ok n h) v x D) as [k K]. exists k. intros f F. destruct (K f F) as [B _].
  destruct (B h (extends_refl h)) as [r [h' [M1 [E1 F1]]]]. exists r, h'. split; auto. split; auto. apply F1. apply foot_all.
Qed.
(** A syntax object is its own syntax. *)
Theorem C26_syntax_of_syntax f v h : syntaxp h v = true -> to_syntax (S f) v h = HOk v h.
Proof.
  unfold syntaxp. intros S. cbn [to_syntax]. unfold bind, m_cell. destruct (cell_of h v) as [[]|]; try discriminate. reflexivity.
Qed.
(** [syntax->datum] of any syntax object returns the datum in it, without syntax
    objects, and changes no existing object. *)
Theorem C26_syntax_to_datum n h v x : datum_of n h v x -> syntaxp h v = true ->
  exists k, forall f, k <= f -> exists r h', syntax_to_datum f v h = HOk r h' /\ extends h h' /\ reads h' r x.
Proof.
  intros D S. destruct (proj1 (strip_syntax_ok n h) v x D) as [k K]. exists k. intros f F.
  destruct (K f F h (extends_refl h)) as [r [h' [M1 [E1 F1]]]]. exists r, h'. unfold syntax_to_datum, guarded. rewrite S. split; auto. split; auto. apply F1. apply foot_all.
Qed.
Theorem C26_not_syntax_is_an_error f h v : syntaxp h v = false ->
  syntax_to_datum f v h = HErr (EArg "syntax->datum" v) h /\ syntax_list f v h = HErr (EArg "syntax->list" v) h /\
  syntax_e v h = HErr (EArg "syntax-e" v) h /\ syntax_loc v h = HErr (EArg "syntax-loc" v) h.
Proof. intros S. unfold syntax_to_datum, syntax_list, syntax_e, syntax_loc, guarded. rewrite S. auto. Qed.

Lemma stx_syntaxp n h v x : stx n h v x -> syntaxp h v = true.
Proof. unfold syntaxp. destruct 1; cbn [cell_of]; rewrite H || rewrite H0; reflexivity. Qed.
(** The round trip: the result is [equal?] to the datum it started from, which is
    still what it was. *)
Theorem C26_round_trip h v x : datum_of 0 h v x ->
  exists k, forall f, k <= f -> exists s h1 r h2,
    to_syntax f v h = HOk s h1 /\ syntaxp h1 s = true /\ syntax_to_datum f s h1 = HOk r h2 /\ extends h h2 /\
    reads h2 v x /\ reads h2 r x /\ forall ext, exists g, equal_p ext g h2 v r = Some true.
Proof.
  intros D. assert (R := proj1 (plain_reads h) v x D). destruct (C26_datum_to_syntax 0 h v x D) as [k1 K1].
  destruct (K1 k1 (le_n _)) as [s [h1 [T1 [E1 S1]]]].
  assert (D1 := proj1 (stx_datum 0 h1 ltac:(lia)) s x S1). assert (P1 := stx_syntaxp _ _ _ _ S1).
  destruct (C26_syntax_to_datum (length h1) h1 s x D1 P1) as [k2 K2].
  exists (Nat.max k1 k2). intros f F. assert (T2 := to_syntax_mono k1 f ltac:(lia) _ _ _ _ T1).
  destruct (K2 f ltac:(lia)) as [r [h2 [T3 [E3 R3]]]]. exists s, h1, r, h2. split; auto. split; auto. split; auto.
  assert (E2 := extends_trans _ _ _ E1 E3). split; auto. assert (RV := proj1 (sub_reads h h2 (sub_ext _ _ E2)) v x R). split; auto. split; auto.
  intros ext. destruct (C15_equal_decides_structure ext h2 v x r x (S (osize x)) RV R3 ltac:(lia)) as [b [EQ B]]. exists (S (osize x)).
  rewrite EQ. f_equal. apply B. reflexivity.
Qed.

(** ** syntax->list *)
Lemma ends_ext h h1 w : extends h h1 -> ends h w -> ends h1 w.
Proof.
  intros E. unfold ends. destruct (cell_of h w) as [c|] eqn:C; [rewrite (sub_cell _ _ _ _ (sub_ext _ _ E) C); auto|].
  intros N. rewrite (cell_none_ext h h1 w C N). exact N.
Qed.
Lemma list_loop_end n w hd tl h : ends h w ->
  list_loop (S n) w hd tl h = (if nullp w then (m_set_cdr tl VNull;;; ret hd)%m else ret VFalse) h.
Proof. unfold ends. cbn [list_loop]. unfold bind at 1. unfold m_cell. destruct (cell_of h w) as [[]|]; auto. contradiction. Qed.
Definition valid (h : heap) (v : val) : Prop := forall l, v = VPtr l -> l < length h.
Lemma strip_once_ext h h1 v : extends h h1 -> valid h v -> strip_once h1 v = strip_once h v.
Proof.
  intros E V. unfold strip_once. destruct (cell_of h v) as [c|] eqn:C; [rewrite (sub_cell _ _ _ _ (sub_ext _ _ E) C); auto|].
  rewrite (cell_none_ext h h1 v C); auto. intros l ->. assert (X := V l eq_refl). simpl in C. apply nth_error_None in C. lia.
Qed.
Lemma spine_valid h v xs t : spine h v xs t -> valid h v.
Proof.
  intros Sp l ->. apply nth_error_Some. intros N. inversion Sp as [w EN|w l0 a d ys u SO NP]; subst.
  - unfold strip_once in EN. cbn [cell_of] in EN. rewrite N in EN. unfold ends in EN. cbn [cell_of] in EN. rewrite N in EN. apply (EN l). reflexivity.
  - unfold strip_once in SO. cbn [cell_of] in SO. rewrite N in SO. congruence.
Qed.
Lemma list_loop_ok h it xs t : spine h it xs t ->
  forall g, length xs < g -> forall h1 hd l a d, extends h h1 -> length h <= l -> nth_error h1 l = Some (CPair a d) ->
  exists h' d', list_loop g (strip_once h it) hd (VPtr l) h1 = HOk (if nullp t then hd else VFalse) h' /\ length h1 <= length h' /\
    (forall j, j < length h1 -> j <> l -> nth_error h' j = nth_error h1 j) /\ nth_error h' l = Some (CPair a d') /\
    (t = VNull -> forall H, (forall i c, length h1 <= i -> nth_error h' i = Some c -> nth_error H i = Some c) -> list_at H d' xs).
Proof.
  induction 1 as [v EN|v l0 a0 d0 xs t SO N0 Sp IH]; intros g G h1 hd l a d E L N; (destruct g as [|g]; [simpl in G; lia|]);
    assert (LL : l < length h1) by (apply nth_error_Some; congruence).
  - rewrite (list_loop_end g _ hd (VPtr l) h1 (ends_ext _ _ _ E EN)). set (w := strip_once h v) in *. destruct (nullp w) eqn:NW.
    + exists (upd_cell l (CPair a VNull) h1), VNull. split; [unfold bind; rewrite (set_cdr_eq l a d VNull h1 N); reflexivity|].
      rewrite upd_len. split; auto. split; [intros; apply upd_cell_ne; auto|]. split; [apply upd_at; auto|]. intros _ H _. constructor.
    + exists h1, d. split; [reflexivity|]. split; auto. split; auto. split; auto. intros X. rewrite X in NW. discriminate.
  - set (p := length h1). set (h2 := h1 ++ [CPair a0 c_null]). set (h3 := upd_cell l (CPair a (VPtr p)) h2).
    assert (N2 : nth_error h2 l = Some (CPair a d)) by (eapply extends_nth; [apply extends_snoc|exact N]).
    assert (E3 : extends h h3) by (apply upd_ext; auto; eapply extends_trans; [exact E|apply extends_snoc]).
    assert (N3 : nth_error h3 p = Some (CPair a0 c_null)) by (unfold h3; rewrite upd_cell_ne by (unfold p; lia); apply nth_app_at).
    assert (LE := extends_len _ _ E). cbn [length] in G.
    destruct (IH g ltac:(lia) h3 hd p a0 c_null E3 ltac:(unfold p; lia) N3) as [h' [y [M3 [L3 [K [N4 F3]]]]]].
    assert (L2 : length h3 = S (length h1)) by (unfold h3, h2; rewrite upd_len, app_length; simpl; lia).
    exists h', (VPtr p). split.
    { rewrite SO. cbn [list_loop]. unfold bind at 1. unfold m_cell. cbn [cell_of]. rewrite (extends_nth _ _ _ _ E N0).
      unfold bind at 1. unfold m_cons at 1. fold p. fold h2. unfold bind at 1. rewrite (set_cdr_eq l a d (VPtr p) h2 N2). fold h3.
      unfold bind at 1. unfold m_strip_once. rewrite (strip_once_ext h h3 d0 E3 (spine_valid _ _ _ _ Sp)). exact M3. }
    split; [lia|]. split; [|split].
    + intros j J NE. rewrite K by (unfold p; lia). unfold h3, h2. rewrite upd_cell_ne by auto. apply nth_error_app1. auto.
    + rewrite K by (unfold p; lia). unfold h3, h2. rewrite upd_at; auto. rewrite app_length. lia.
    + intros T H F. eapply LCons; [apply F; [unfold p; lia|exact N4]|]. apply (F3 T). intros i c I X. apply F; auto. lia.
Qed.

(** [syntax->list] looks through one syntax object at the start and at each tail.
    If the list ends in the empty list the result is a fresh list of the elements;
    otherwise it is #f. *)
Theorem C26_syntax_to_list h v xs t f : spine h v xs t -> syntaxp h v = true -> length xs < f ->
  exists r h', syntax_list f v h = HOk r h' /\ extends h h' /\ (t = VNull -> list_at h' r xs) /\ (t <> VNull -> r = VFalse).
Proof.
  intros Sp Sy F. unfold syntax_list, guarded. rewrite Sy. unfold syntax_to_list. unfold bind at 1. unfold m_strip_once at 1. unfold bind at 1. unfold m_cell.
  inversion Sp as [w EN|w l0 a0 d0 ys u SO N0 Sp2]; subst.
  - set (w := strip_once h v) in *. assert (Y : (if nullp w then ret w else ret VFalse) h = HOk (if nullp w then w else VFalse) h) by (destruct (nullp w); reflexivity).
    exists (if nullp w then w else VFalse), h. split.
    { unfold ends in EN. destruct (cell_of h w) as [[]|]; try contradiction; exact Y. }
    split; [apply extends_refl|]. destruct w; simpl; split; intros; try constructor; congruence.
  - rewrite SO. cbn [cell_of]. rewrite N0. cbn [length] in F. set (p := length h). set (h1 := h ++ [CPair a0 c_null]).
    destruct (list_loop_ok h d0 ys t Sp2 f ltac:(lia) h1 (VPtr p) p a0 c_null (extends_snoc _ _) (le_n _) (nth_app_at _ _)) as [h' [d' [M1 [L1 [K [N1 F1]]]]]].
    assert (LH : length h1 = S (length h)) by (unfold h1; rewrite app_length; simpl; lia).
    exists (if nullp t then VPtr p else VFalse), h'. split.
    { unfold bind at 1. unfold m_cons. fold p. fold h1. unfold bind at 1. unfold m_strip_once.
      rewrite (strip_once_ext h h1 d0 (extends_snoc _ _) (spine_valid _ _ _ _ Sp2)). exact M1. }
    split; [apply extends_of_nth; [lia|]; intros j J; rewrite K by (unfold p; lia); unfold h1; apply nth_error_app1; auto|].
    split; [intros ->; eapply LCons; eauto|]. intros NT. destruct t; auto. contradiction.
Qed.

(** The spine of the syntax of a list without syntax objects. *)
Fixpoint olist (l : list obj) : obj := match l with [] => ONull | x :: q => OPair x (olist q) end.
Lemma leaf_null h v : leaf h v ONull -> v = VNull.
Proof. intros [R _]. inversion R; auto. Qed.
Lemma ends_null h : ends h VNull. Proof. intros l. discriminate. Qed.
Lemma tail_spine h xs :
  (forall v, stx_tail 0 h v (olist xs) -> exists ys, spine h v ys VNull /\ Forall2 (stx 0 h) ys xs) /\
  (forall l e, nth_error h l = Some (CSyntax e VFalse) -> stx_body 0 h e (olist xs) -> exists ys, spine h (VPtr l) ys VNull /\ Forall2 (stx 0 h) ys xs).
Proof.
  induction xs as [|x xs [IH1 IH2]].
  - assert (B : forall l e, nth_error h l = Some (CSyntax e VFalse) -> stx_body 0 h e (olist []) -> exists ys, spine h (VPtr l) ys VNull /\ Forall2 (stx 0 h) ys []).
    { intros l e N SB. exists []. split; [|constructor]. simpl in SB. inversion SB; subst. apply leaf_null in H. subst e.
      assert (X : strip_once h (VPtr l) = VNull) by (unfold strip_once; cbn [cell_of]; rewrite N; reflexivity).
      rewrite <- X. apply SpEnd. rewrite X. apply ends_null. }
    split; auto. intros v T. inversion T as [| |w y SX]; subst.
    + exists []. split; [|constructor]. apply (SpEnd h VNull). apply ends_null.
    + inversion SX as [l e loc y LT|l e y N SB]; subst; [lia|]. eapply B; eauto.
  - assert (B : forall l e, nth_error h l = Some (CSyntax e VFalse) -> stx_body 0 h e (olist (x :: xs)) -> exists ys, spine h (VPtr l) ys VNull /\ Forall2 (stx 0 h) ys (x :: xs)).
    { intros l e N SB. simpl in SB. inversion SB as [v y LF|l0 a d y z N0 SA ST| |]; subst.
      - exfalso. destruct LF as [R C]. inversion R; subst. simpl in C. rewrite H1 in C. contradiction.
      - destruct (IH1 d ST) as [ys [Sp F]]. exists (a :: ys). split; [|constructor; auto]. eapply SpCons; eauto.
        unfold strip_once. cbn [cell_of]. rewrite N. reflexivity. }
    split; auto. intros v T. inversion T as [|l0 a d y z N0 SA ST|w y SX]; subst.
    + destruct (IH1 d ST) as [ys [Sp F]]. exists (a :: ys). split; [|constructor; auto]. eapply SpCons; eauto.
      unfold strip_once. cbn [cell_of]. rewrite N0. reflexivity.
    + inversion SX as [l e loc y LT|l e y N SB]; subst; [lia|]. eapply B; eauto.
Qed.
(** [syntax->list] of the syntax of a list without syntax objects is the list of
    the syntax of its elements. *)
Theorem C26_list_elements h v xs : datum_of 0 h v (olist xs) ->
  exists k, forall f, k <= f -> exists s h1 r h2 ys,
    to_syntax f v h = HOk s h1 /\ syntax_list f s h1 = HOk r h2 /\ extends h h2 /\ list_at h2 r ys /\ Forall2 (stx 0 h1) ys xs.
Proof.
  intros D. destruct (C26_datum_to_syntax 0 h v _ D) as [k K]. exists (Nat.max k (S (length xs))). intros f F. destruct (K f ltac:(lia)) as [s [h1 [T1 [E1 S1]]]].
  assert (P1 := stx_syntaxp _ _ _ _ S1). inversion S1 as [l e loc y LT|l e y N SB]; subst; [lia|].
  destruct (proj2 (tail_spine h1 xs) l e N SB) as [ys [Sp Fa]].
  assert (LY : length ys = length xs) by (clear - Fa; induction Fa; simpl; auto).
  destruct (C26_syntax_to_list h1 _ ys VNull f Sp P1 ltac:(lia)) as [r [h2 [T2 [E2 [LA _]]]]]. exists (VPtr l), h1, r, h2, ys.
  split; auto. split; auto. split; [eapply extends_trans; eauto|]. split; auto.
Qed.
(** ** Examples *)
(** #(1 ("s" . sym) #&()) with the empty vector in a list *)
Definition ex_heap : heap :=
  [CStr (s2b "s"); CPair (VPtr 0) (VSym (s2b "sym")); CBox VNull; CPair VEmptyVec VNull; CVec [VFix 1; VPtr 1; VPtr 2; VPtr 3]].
Definition ex_datum : obj :=
  OVec [OFix 1; OPair (OStr (s2b "s")) (OSym (s2b "sym")); OBox ONull; OPair (OVec []) ONull].
Lemma ex_leaf h v x : reads h v x -> cell_of h v = None -> datum_of 0 h v x.
Proof. intros R C. apply DtLeaf. split; auto. rewrite C. exact Logic.I. Qed.
Example C26_datum_ex : datum_of 0 ex_heap (VPtr 4) ex_datum.
Proof.
  eapply DtVec; [reflexivity|]. constructor; [apply ex_leaf; [constructor|reflexivity]|]. constructor.
  { eapply DtPair; [reflexivity| |apply ex_leaf; [constructor|reflexivity]]. apply DtLeaf. split; [|exact Logic.I].
    apply (RdStr ex_heap 0 (s2b "s")). reflexivity. }
  constructor; [eapply DtBox; [reflexivity|]; apply ex_leaf; [constructor|reflexivity]|]. constructor; [|constructor].
  eapply DtPair; [reflexivity| |apply ex_leaf; [constructor|reflexivity]]. eapply DtVec; [reflexivity|constructor].
Qed.
Example C26_run_ex : exists s h1 r h2, to_syntax 20 (VPtr 4) ex_heap = HOk s h1 /\ syntax_to_datum 20 s h1 = HOk r h2 /\
  r <> VPtr 4 /\ equal_p (fun _ _ => None) 20 h2 (VPtr 4) r = Some true.
Proof. eexists _, _, _, _. split; [vm_compute; reflexivity|]. split; [vm_compute; reflexivity|]. split; [discriminate|vm_compute; reflexivity]. Qed.
(** A syntax object inside a datum is kept. *)
Example C26_mixed_ex : let h := [CSyntax (VFix 1) (VFix 9); CPair (VPtr 0) VNull] in
  datum_of 1 h (VPtr 1) (OPair (OFix 1) ONull) /\ exists s h1, to_syntax 9 (VPtr 1) h = HOk s h1 /\ nth_error h1 2 = Some (CPair (VPtr 0) VNull).
Proof.
  split.
  - eapply DtPair; [reflexivity| |].
    + eapply DtSyntax; [lia|reflexivity|]. apply DtLeaf. split; [constructor|exact Logic.I].
    + apply DtLeaf. split; [constructor|exact Logic.I].
  - eexists _, _. split; vm_compute; reflexivity.
Qed.
Example C26_list_ex : datum_of 0 [CPair (VFix 1) (VPtr 1); CPair (VSym (s2b "a")) VNull] (VPtr 0) (olist [OFix 1; OSym (s2b "a")]).
Proof.
  eapply DtPair; [reflexivity|apply ex_leaf; [constructor|reflexivity]|]. eapply DtPair; [reflexivity|apply ex_leaf; [constructor|reflexivity]|].
  apply ex_leaf; [constructor|reflexivity].
Qed.
(** An improper list has no list of elements. *)
Example C26_improper_ex : exists s h1 h2, to_syntax 9 (VPtr 0) [CPair (VFix 1) (VFix 2)] = HOk s h1 /\ syntax_list 9 s h1 = HOk VFalse h2.
Proof. eexists _, _, _. split; vm_compute; reflexivity. Qed.
Print Assumptions C26_datum_to_syntax.
Print Assumptions C26_syntax_of_syntax.
Print Assumptions C26_syntax_to_datum.
Print Assumptions C26_not_syntax_is_an_error.
Print Assumptions C26_round_trip.
Print Assumptions C26_syntax_to_list.
Print Assumptions C26_list_elements.
