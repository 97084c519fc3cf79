(** Specification and proofs for the module system (C54). *)
From Coq Require Import Ascii String List Arith Bool Lia Relations Operators_Properties.
From Verif Require Import Path PathThm Modules.
Import ListNotations.
Local Open Scope list_scope.

Lemma abs_split p d e : is_absolute p = true -> split_path p = Some (Some d, e) -> is_absolute d = true.
Proof.
  intros A H. unfold split_path in H. destruct (path_list_elements p) as (xs & P & EL). rewrite P in H.
  destruct p as [|c p]; [discriminate|]. simpl in A. apply slash_dec in A. subst c.
  assert (X : exists ys, xs = [slash] :: ys).
  { inversion EL; subst.
    - exfalso. match goal with K : ~ In slash _ |- _ => apply K; now left end.
    - exfalso. destruct e0 as [|a e0]; [congruence|]. match goal with K : _ = slash :: _ |- _ => injection K; intros; subst end.
      match goal with K : ~ In slash _ |- _ => apply K; now left end.
    - eauto. }
  destruct X as (ys & ->). simpl in H. destruct ys as [|y ys] using rev_ind; [discriminate|]. clear IHys.
  rewrite rev_app_distr in H. simpl in H. rewrite rev_app_distr, rev_involutive in H. simpl in H.
  destruct (rev ys ++ [[slash]]) eqn:R; [destruct (rev ys); discriminate|].
  destruct (build_path [slash] ys) as [b|] eqn:B; [|discriminate]. injection H as <- <-.
  rewrite (C47_absolute [slash] ys b); auto; discriminate.
Qed.

Section Spec.
Variables X V E W : Type.
Variable files : str -> res (list (form E)).
Variable expandm : str -> list E -> xforms X -> env V -> list str -> W -> res (list E * xforms X * env V * W).
Variable evalm : list E -> env V -> W -> res (env V * W).
Variable base : env V.
Variable stxbase : env V -> env V.
Variable cwd : str.
Notation entry := (entry X V).
Notation event := (event X V E).
Notation state := (state X V E W).

(** ** Specification *)

(** The paths a module imports, in the order of its import forms. *)
Definition form_imports (dir : option str) (f : form E) : list str :=
  match f with
  | FImport l _ => flat_map (fun i => match i with
                                      | IStr s => match sub_path dir s with Some q => [q] | None => [] end
                                      | IBad => [] end) l
  | _ => []
  end.
Definition import_list (p : str) : list str :=
  match split_path p, files p with
  | Some (dir, _), Ok fs => flat_map (form_imports dir) fs
  | _, _ => []
  end.
Definition imports (p q : str) : Prop := In q (import_list p).
(** [reaches p q]: [q] is [p] or imported by it, directly or indirectly *)
Definition reaches : str -> str -> Prop := clos_refl_trans _ imports.
Definition on_cycle (p : str) : Prop := clos_trans _ imports p p.

(** The expressions of a module: its forms other than imports and exports. *)
Definition body_of (p : str) : list E :=
  match files p with
  | Ok fs => flat_map (fun f => match f with FExpr e => [e] | _ => [] end) fs
  | _ => []
  end.

(** [p] has been recorded with exports [t]. *)
Definition is_done (p : str) (t : entry) (l : list event) : Prop := exists e, In (Done p t e) l.

(** The value (transformer) of a name imported from several modules: that of
    the first module that exports it. *)
Fixpoint first_value (ts : list entry) (n : str) : option V :=
  match ts with
  | [] => None
  | t :: r => match assocl n (snd t) with Some v => Some v | None => first_value r n end
  end.
Fixpoint first_xform (ts : list entry) (n : str) : option X :=
  match ts with
  | [] => None
  | t :: r => match assocl n (fst t) with Some v => Some v | None => first_xform r n end
  end.
Definition visible (ts : list entry) (n : str) : option V :=
  match first_value ts n with Some v => Some v | None => base n end.

Definition names (t : entry) : list str := map fst (fst t) ++ map fst (snd t).
(** The names [p] lists in its export forms, [(all "q")] meaning those [q] exports. *)
Definition listed (l : list event) (p n : str) : Prop :=
  exists dir f fs xl b, split_path p = Some (dir, f) /\ files p = Ok fs /\ In (FExport xl b) fs /\
  (In (XName n) xl \/
   exists s q t, In (XAll s) xl /\ sub_path dir s = Some q /\ is_done q t l /\ In n (names t)).

Definition ev_path (ev : event) : str :=
  match ev with Expanding p _ _ _ => p | Started p _ => p | Done p _ _ => p end.

(** States after any history of imports from the start, each of which succeeded
    or failed with an error. *)
Inductive reachable (w : W) : state -> Prop :=
| reach0 : reachable w (state0 X V E W w)
| reach_step st f name r st' : reachable w st ->
    load_or_import X V E W files expandm evalm base stxbase cwd f name st = (r, st') -> r <> Hang ->
    reachable w st'.

(** ** What holds of every log *)
Definition not_done p (l : list event) := forall t, ~ is_done p t l.
Definition expand_ok l p es xs stx : Prop :=
  not_done p l /\ es = body_of p /\
  exists ts e0, Forall2 (fun q t => is_done q t l) (import_list p) ts /\
    (forall n, assocl n xs = first_xform ts n) /\ stx = stxbase e0 /\ (forall n, e0 n = visible ts n).
Definition start_ok l p (e : env V) : Prop :=
  not_done p l /\
  exists ts, Forall2 (fun q t => is_done q t l) (import_list p) ts /\ (forall n, e n = visible ts n).
Definition done_ok l p (t : entry) (e : env V) : Prop :=
  not_done p l /\
  (exists xs0 stx sc w es xs stx' w' e0 w1 w2,
    In (Expanding p (body_of p) xs0 stx) l /\ In (Started p e0) l /\
    expandm p (body_of p) xs0 stx sc w = Ok (es, xs, stx', w') /\
    evalm es e0 w1 = Ok (e, w2) /\
    (forall n x, In (n, x) (fst t) -> assocl n xs = Some x) /\
    (forall n v, In (n, v) (snd t) -> assocl n xs = None /\ e n = Some v)) /\
  (forall n, In n (names t) <-> listed l p n).
Inductive wf : list event -> Prop :=
| wf_nil : wf []
| wf_exp l p es xs stx : wf l -> expand_ok l p es xs stx -> wf (l ++ [Expanding p es xs stx])
| wf_start l p e : wf l -> start_ok l p e -> wf (l ++ [Started p e])
| wf_done l p t e : wf l -> done_ok l p t e -> wf (l ++ [Done p t e]).

Lemma is_done_app p t l l' : is_done p t l -> is_done p t (l ++ l').
Proof. intros (e & H). exists e. apply in_or_app; auto. Qed.
Lemma is_done_snoc p t l ev : is_done p t (l ++ [ev]) <-> is_done p t l \/ exists e, ev = Done p t e.
Proof.
  split.
  - intros (e & H). apply in_app_or in H as [H|[H|[]]]; [left; exists e; auto|right; eauto].
  - intros [H|(e & ->)]; [now apply is_done_app|]. exists e. apply in_or_app. right. now left.
Qed.
Lemma done_all_app l l' qs ts : Forall2 (fun q t => is_done q t l) qs ts -> Forall2 (fun q t => is_done q t (l ++ l')) qs ts.
Proof. induction 1; constructor; auto using is_done_app. Qed.

Lemma wf_done_inv l p t : wf l -> is_done p t l -> exists l1 e l2, l = l1 ++ Done p t e :: l2 /\ wf l1 /\ done_ok l1 p t e.
Proof.
  induction 1; intros D.
  - destruct D as (e & []).
  - apply is_done_snoc in D as [D|(e & D)]; [|discriminate]. destruct (IHwf D) as (l1 & e & l2 & -> & A).
    exists l1, e, (l2 ++ [Expanding p0 es xs stx]). rewrite <- app_assoc. auto.
  - apply is_done_snoc in D as [D|(e' & D)]; [|discriminate]. destruct (IHwf D) as (l1 & e' & l2 & -> & A).
    exists l1, e', (l2 ++ [Started p0 e]). rewrite <- app_assoc. auto.
  - apply is_done_snoc in D as [D|(e' & D)].
    + destruct (IHwf D) as (l1 & e' & l2 & -> & A).
      exists l1, e', (l2 ++ [Done p0 t0 e]). rewrite <- app_assoc. auto.
    + injection D as -> -> ->. exists l, e', []. auto.
Qed.
Lemma wf_prefix l l' : wf (l ++ l') -> wf l.
Proof.
  revert l. induction l' as [|ev l' IH] using rev_ind; intros l H; [now rewrite app_nil_r in H|].
  apply IH. rewrite app_assoc in H. inversion H; repeat match goal with K : _ ++ [_] = _ ++ [_] |- _ => apply app_inj_tail in K as (K & _) end;
    subst; auto. destruct (l ++ l'); discriminate.
Qed.
Lemma wf_at l1 ev l2 : wf (l1 ++ ev :: l2) ->
  match ev with
  | Expanding p es xs stx => expand_ok l1 p es xs stx
  | Started p e => start_ok l1 p e
  | Done p t e => done_ok l1 p t e
  end.
Proof.
  intros H. change (ev :: l2) with ([ev] ++ l2) in H. rewrite app_assoc in H. apply wf_prefix in H.
  inversion H; match goal with K : _ ++ [_] = _ ++ [_] |- _ => apply app_inj_tail in K as (<- & <-); auto | _ => idtac end.
  destruct l1; discriminate.
Qed.
Lemma done_unique l p t t' : wf l -> is_done p t l -> is_done p t' l -> t = t'.
Proof.
  intros H. revert t t'. induction H; intros t1 t2 A B.
  - destruct A as (? & []).
  - apply is_done_snoc in A as [A|(? & A)]; [|discriminate]. apply is_done_snoc in B as [B|(? & B)]; [|discriminate]. eauto.
  - apply is_done_snoc in A as [A|(? & A)]; [|discriminate]. apply is_done_snoc in B as [B|(? & B)]; [|discriminate]. eauto.
  - destruct H0 as (ND & _). apply is_done_snoc in A. apply is_done_snoc in B.
    destruct A as [A|(? & A)]; destruct B as [B|(? & B)]; eauto.
    + injection B; intros; subst. destruct (ND _ A).
    + injection A; intros; subst. destruct (ND _ B).
    + injection A; injection B; intros; subst; auto.
Qed.
Lemma started_imports l p e : wf l -> In (Started p e) l -> Forall (fun q => exists t, is_done q t l) (import_list p).
Proof.
  intros H I. apply in_split in I as (l1 & l2 & ->). pose proof (wf_at _ _ _ H) as (_ & ts & F & _).
  revert F. generalize (import_list p). intros qs F. induction F; constructor; auto.
  exists y. now apply is_done_app.
Qed.
Lemma done_acc l p t : wf l -> is_done p t l -> Acc (fun q p => imports p q) p.
Proof.
  intros H. revert p t. induction H; intros q tq A.
  - destruct A as (? & []).
  - apply is_done_snoc in A as [A|(? & A)]; [|discriminate]. eauto.
  - apply is_done_snoc in A as [A|(? & A)]; [|discriminate]. eauto.
  - apply is_done_snoc in A as [A|(? & A)]; [eauto|]. injection A; intros; subst.
    destruct H0 as (_ & (xs0 & stx & sc & w & es & xs & stx' & w' & e0 & w1 & w2 & _ & S0 & _) & _).
    pose proof (started_imports _ _ _ H S0) as F. constructor. intros q' I. unfold imports in I.
    rewrite Forall_forall in F. destruct (F _ I) as (t' & D'). eauto.
Qed.
Lemma acc_no_cycle p : Acc (fun q p => imports p q) p -> ~ on_cycle p.
Proof.
  induction 1 as [p _ IH]. intros C. unfold on_cycle in C.
  assert (exists q, imports p q /\ on_cycle q) as (q & I1 & C').
  { clear IH. apply Operators_Properties.clos_trans_t1n in C. inversion C; subst.
    - exists p. split; auto. unfold on_cycle. now apply t_step.
    - exists y. split; auto. unfold on_cycle. eapply t_trans; [apply Operators_Properties.clos_t1n_trans; eassumption|]. now apply t_step. }
  exact (IH q I1 C').
Qed.
Lemma done_not_cycle l p t : wf l -> is_done p t l -> ~ on_cycle p.
Proof. intros. eapply acc_no_cycle, done_acc; eauto. Qed.

(** ** The invariant *)
Definition inv (st : state) : Prop :=
  wf (log st) /\ (forall p t, assocl p (tbl st) = Some t <-> is_done p t (log st)) /\
  (forall p, is_absolute p = false -> not_done p (log st)).
Definition ext (p : str) (st st' : state) : Prop :=
  exists evs, log st' = log st ++ evs /\ Forall (fun ev => reaches p (ev_path ev)) evs.
Definition load_spec (load : str -> state -> res unit * state) : Prop :=
  forall p st r st', is_absolute p = true -> inv st -> load p st = (r, st') ->
    inv st' /\ ext p st st' /\ (r = Ok tt -> exists t, is_done p t (log st')) /\ (r <> Ok tt -> not_done p (log st')).

Lemma reaches_trans a b c : reaches a b -> reaches b c -> reaches a c.
Proof. intros. eapply rt_trans; eauto. Qed.
Lemma ext_refl p st : ext p st st.
Proof. exists []. rewrite app_nil_r. auto. Qed.
Lemma ext_trans p a b c : ext p a b -> ext p b c -> ext p a c.
Proof.
  intros (e1 & H1 & F1) (e2 & H2 & F2). exists (e1 ++ e2). rewrite H2, H1, app_assoc. split; auto. apply Forall_app; auto.
Qed.
(** The same for events of modules strictly below [p]. *)
Definition extx (p : str) (st st' : state) : Prop :=
  exists evs, log st' = log st ++ evs /\ Forall (fun ev => clos_trans _ imports p (ev_path ev)) evs.
Lemma extx_refl p st : extx p st st.
Proof. exists []. rewrite app_nil_r. auto. Qed.
Lemma extx_trans p a b c : extx p a b -> extx p b c -> extx p a c.
Proof.
  intros (e1 & H1 & F1) (e2 & H2 & F2). exists (e1 ++ e2). rewrite H2, H1, app_assoc. split; auto. apply Forall_app; auto.
Qed.
Lemma ct_rt a b : clos_trans _ imports a b -> reaches a b.
Proof. induction 1; [now apply rt_step|eapply rt_trans; eauto]. Qed.
Lemma step_rt_ct a q b : imports a q -> reaches q b -> clos_trans _ imports a b.
Proof.
  intros I1 R. unfold reaches in R. apply clos_rt_rtn1 in R. induction R; [now apply t_step|].
  eapply t_trans; [exact IHR|]. now apply t_step.
Qed.
Lemma extx_ext p a b : extx p a b -> ext p a b.
Proof. intros (es & H & F). exists es. split; auto. eapply Forall_impl; [|exact F]. intros. now apply ct_rt. Qed.
Lemma ext_extx p q a b : imports p q -> ext q a b -> extx p a b.
Proof. intros I1 (es & H & F). exists es. split; auto. eapply Forall_impl; [|exact F]. intros. eapply step_rt_ct; eauto. Qed.
Lemma ext_lift p q a b : reaches p q -> ext q a b -> ext p a b.
Proof.
  intros R (es & H & F). exists es. split; auto. eapply Forall_impl; [|exact F]. intros; eapply reaches_trans; eauto.
Qed.
Lemma ext_done p a b q t : ext p a b -> is_done q t (log a) -> is_done q t (log b).
Proof. intros (es & -> & _). apply is_done_app. Qed.
Lemma ext_done_all p a b qs ts : ext p a b -> Forall2 (fun q t => is_done q t (log a)) qs ts -> Forall2 (fun q t => is_done q t (log b)) qs ts.
Proof. intros (es & -> & _). apply done_all_app. Qed.

(** ** Association lists *)
Lemma assocl_app {B} n (l l' : list (str * B)) : assocl n (l ++ l') = match assocl n l with Some b => Some b | None => assocl n l' end.
Proof. induction l as [|[m b] l IH]; simpl; auto. destruct (str_eq_dec n m); auto. Qed.
Lemma assocl_In {B} n (l : list (str * B)) b : assocl n l = Some b -> In (n, b) l.
Proof. induction l as [|[m c] l IH]; simpl; [discriminate|]. destruct (str_eq_dec n m); [injection 1 as ->; subst; auto|auto]. Qed.
Lemma assocl_None {B} n (l : list (str * B)) : assocl n l = None <-> ~ In n (map fst l).
Proof.
  induction l as [|[m c] l IH]; simpl; [tauto|]. destruct (str_eq_dec n m) as [->|N].
  - split; [discriminate|]. intros H. destruct H. auto.
  - rewrite IH. split; [intros H [K|K]; [congruence|auto]|tauto].
Qed.
Lemma merge_lookup {B} n : forall new xs : list (str * B),
  assocl n (merge_xforms xs new) = match assocl n xs with Some b => Some b | None => assocl n new end.
Proof.
  induction new as [|[m b] new IH]; intros xs; simpl; [now destruct (assocl n xs)|].
  destruct (assocl m xs) eqn:Em; rewrite IH.
  - destruct (assocl n xs) eqn:En; auto. destruct (str_eq_dec n m); [congruence|auto].
  - simpl. destruct (str_eq_dec n m) as [->|]; [now rewrite Em|auto].
Qed.
Lemma eval_env_lookup n : forall (l : vals V) (e : env V),
  eval_environment V e l n = match assocl n (rev l) with Some v => Some v | None => e n end.
Proof.
  induction l as [|[m v] l IH]; intros e; simpl; auto. rewrite IH, assocl_app. simpl. unfold env_set.
  destruct (assocl n (rev l)); auto. destruct (str_eq_dec n m); auto.
Qed.
Definition consistent (l : vals V) := forall n v v', In (n, v) l -> In (n, v') l -> v = v'.
Lemma assocl_rev n (l : vals V) : consistent l -> assocl n (rev l) = assocl n l.
Proof.
  intros C. destruct (assocl n l) as [v|] eqn:A.
  - destruct (assocl n (rev l)) as [v'|] eqn:B.
    + f_equal. apply assocl_In in A. apply assocl_In in B. apply in_rev in B. eapply C; eauto.
    + apply assocl_None in B. destruct B. apply assocl_In in A. rewrite map_rev. apply -> in_rev. now apply (in_map fst) in A.
  - apply assocl_None in A. apply assocl_None. rewrite map_rev. now rewrite <- in_rev.
Qed.

(** The imported values after importing modules with exports [ts] in order. *)
Lemma imported_visible ts n : Forall (fun t : entry => consistent (snd t)) ts ->
  eval_environment V base (List.concat (rev (map snd ts))) n = visible ts n.
Proof.
  intros F. rewrite eval_env_lookup. unfold visible.
  assert (H : assocl n (rev (List.concat (rev (map snd ts)))) = first_value ts n).
  { induction F as [|t ts C F IH]; simpl; auto.
    rewrite concat_app, rev_app_distr, assocl_app. simpl. rewrite app_nil_r, (assocl_rev _ _ C).
    destruct (assocl n (snd t)); auto. }
  now rewrite H.
Qed.

Lemma wf_consistent l p t : wf l -> is_done p t l -> consistent (snd t).
Proof.
  intros H D. destruct (wf_done_inv _ _ _ H D) as (l1 & e & l2 & _ & _ & (_ & (xs0 & stx & sc & w & es & xs & stx' & w' & e0 & w1 & w2 & _ & _ & _ & _ & _ & C) & _)).
  intros n v v' A B. destruct (C _ _ A). destruct (C _ _ B). congruence.
Qed.
Lemma wf_consistent_all l qs ts : wf l -> Forall2 (fun q t => is_done q t l) qs ts -> Forall (fun t : entry => consistent (snd t)) ts.
Proof. intros H F. induction F; constructor; eauto using wf_consistent. Qed.

(** ** The import phase *)
Section Phase.
Variable load : str -> state -> res unit * state.
Hypothesis LS : load_spec load.
Variable p : str.
Variable dir : option str.
Variable fname : str.
Variable fs : list (form E).
Hypothesis PA : is_absolute p = true.
Hypothesis SP : split_path p = Some (dir, fname).
Hypothesis FS : files p = Ok fs.

Lemma sub_abs s q : sub_path dir s = Some q -> is_absolute q = true.
Proof.
  unfold sub_path. destruct dir as [d|]; [|discriminate]. intros H.
  pose proof (abs_split _ _ _ PA SP) as A. rewrite (C47_absolute d [s] q); auto. destruct d; discriminate.
Qed.

(** What the local variables of $load-module hold after the imports [qs] (with
    exports [ts]), the exports and the expressions seen so far. *)
Record mi_ok (st : state) (done : list (form E)) (qs : list str) (ts : list entry) (m : minfo X V E) : Prop := {
  mo_done : Forall2 (fun q t => is_done q t (log st)) qs ts;
  mo_imported : m_imported _ _ _ m = List.concat (rev (map snd ts));
  mo_xforms : forall n, assocl n (m_xforms _ _ _ m) = first_xform ts n;
  mo_modules : forall q, In q (m_modules _ _ _ m) <-> In q qs;
  mo_eval : m_eval _ _ _ m = flat_map (fun f => match f with FExpr e => [e] | _ => [] end) done;
}.

Lemma first_xform_app ts t n : first_xform (ts ++ [t]) n = match first_xform ts n with Some x => Some x | None => assocl n (fst t) end.
Proof. induction ts as [|a ts IH]; simpl; [now destruct (assocl n (fst t))|]. destruct (assocl n (fst a)); auto. Qed.

Lemma imports_loop_ok done : forall l proper m st r st' qs ts,
  inv st -> (forall s q, In (IStr s) l -> sub_path dir s = Some q -> imports p q) ->
  mi_ok st done qs ts m ->
  imports_loop X V E W load dir l proper m st = (r, st') ->
  inv st' /\ extx p st st' /\
  forall m', r = Ok m' -> m_exported _ _ _ m' = m_exported _ _ _ m /\ exists ts',
    mi_ok st' done (qs ++ form_imports dir (FImport l proper)) (ts ++ ts') m'.
Proof.
  induction l as [|[s|] l IH]; intros proper m st r st' qs ts IV IM MO H; cbn [imports_loop] in H.
  - injection H as <- <-. split; auto. split; [apply extx_refl|]. intros m' Q. destruct proper; [|discriminate].
    injection Q as <-. split; auto. exists []. simpl. now rewrite !app_nil_r.
  - destruct (sub_path dir s) as [q|] eqn:Sq.
    2:{ injection H as <- <-. split; auto. split; [apply extx_refl|]. discriminate. }
    assert (Pq : imports p q) by (eapply IM; eauto; now left).
    destruct (load q st) as [rq st1] eqn:Lq.
    destruct (LS q st rq st1 (sub_abs _ _ Sq) IV Lq) as (IV1 & EX1 & OK1 & _).
    assert (EXp : extx p st st1) by (eapply ext_extx; eauto).
    destruct rq as [[]| |].
    2,3: injection H as <- <-; split; auto; split; [auto|discriminate].
    destruct (OK1 eq_refl) as (t & Dt). pose proof IV1 as (WF1 & TB1 & AB1). apply TB1 in Dt as At. rewrite At in H.
    destruct t as [fx fv].
    match type of H with imports_loop _ _ _ _ _ _ _ _ ?m1 _ = _ =>
      destruct (IH proper m1 st1 r st' (qs ++ [q]) (ts ++ [(fx, fv)]) IV1) as (IV2 & EX2 & OK2); [| |exact H|] end.
    + intros; eapply IM; eauto. now right.
    + destruct MO. constructor; simpl.
      * apply Forall2_app; [now apply (ext_done_all _ _ _ _ _ (extx_ext _ _ _ EXp))|]. repeat constructor; auto.
      * rewrite map_app, rev_app_distr. simpl. now rewrite mo_imported0.
      * intros n. rewrite merge_lookup, first_xform_app, mo_xforms0. reflexivity.
      * intros q'. rewrite in_app_iff, mo_modules0. simpl. intuition.
      * exact mo_eval0.
    + split; auto. split; [eapply extx_trans; eauto|]. intros m' Q. destruct (OK2 m' Q) as (XE & ts' & MO'). simpl in XE.
      split; auto. exists ((fx, fv) :: ts').
      cbn [form_imports flat_map]. rewrite Sq. rewrite <- app_assoc in MO'. rewrite <- app_assoc in MO'. exact MO'.
  - injection H as <- <-. split; auto. split; [apply extx_refl|]. discriminate.
Qed.

Lemma mi_ok_exported st done qs ts m xs : mi_ok st done qs ts m ->
  mi_ok st done qs ts (mkmi _ _ _ (m_scope _ _ _ m) xs (m_imported _ _ _ m) (m_xforms _ _ _ m) (m_modules _ _ _ m) (m_eval _ _ _ m)).
Proof. intros []. constructor; auto. Qed.

Definition listed_in (l : list event) (xl : list xp) (n : str) : Prop :=
  In (XName n) xl \/ exists s q t, In (XAll s) xl /\ sub_path dir s = Some q /\ is_done q t l /\ In n (names t).

Lemma exports_loop_ok done st qs ts : inv st -> forall xl proper m m',
  mi_ok st done qs ts m -> exports_loop X V E W dir xl proper m st = Ok m' ->
  mi_ok st done qs ts m' /\
  forall n, In n (m_exported _ _ _ m') <-> In n (m_exported _ _ _ m) \/ listed_in (log st) xl n.
Proof.
  intros IV. induction xl as [|[nm|s|] xl IH]; intros proper m m' MO H; cbn [exports_loop] in H.
  - destruct proper; [|discriminate]. injection H as <-. split; auto. intros n. unfold listed_in. simpl. split; auto.
    intros [A|[[]|(s & q & t & [] & _)]]; auto.
  - destruct (IH proper _ m' (mi_ok_exported _ _ _ _ _ _ MO) H) as (MO' & L). split; auto. intros n. rewrite L. simpl.
    unfold listed_in. simpl. split.
    + intros [[<-|A]|[A|(s & q & t & A & B)]]; auto. right. right. exists s, q, t. auto.
    + intros [A|[[A|A]|(s & q & t & [A|A] & B)]]; auto; [injection A as <-; auto|discriminate|]. right. right. exists s, q, t. auto.
  - destruct (sub_path dir s) as [q|] eqn:Sq; [|discriminate]. destruct (in_dec str_eq_dec q (m_modules _ _ _ m)) as [I|]; [|discriminate].
    destruct (assocl q (tbl st)) as [[fx fv]|] eqn:Aq; [|discriminate].
    pose proof IV as (WF & TB & AB). apply TB in Aq.
    destruct (IH proper _ m' (mi_ok_exported _ _ _ _ _ _ MO) H) as (MO' & L). split; auto. intros n. rewrite L. simpl.
    rewrite app_assoc, in_app_iff. unfold listed_in. simpl. split.
    + intros [[A|A]|[A|(s' & q' & t & A & B)]]; auto.
      * right. right. exists s, q, (fx, fv). auto.
      * right. right. exists s', q', t. auto.
    + intros [A|[[A|A]|(s' & q' & t & [A|A] & B & C & D)]]; auto; [discriminate| |].
      * injection A as <-. rewrite Sq in B. injection B as <-.
        pose proof (done_unique _ _ _ _ WF C Aq). subst t. left. left. exact D.
      * right. right. exists s', q', t. auto.
  - discriminate.
Qed.

Definition listed_forms (l : list event) (done : list (form E)) (n : str) : Prop :=
  exists xl b, In (FExport xl b) done /\ listed_in l xl n.

(** [l1] records everything the [(all q)] exports of [done] refer to. *)
Definition all_known (l : list event) (done : list (form E)) : Prop :=
  forall xl b s q, In (FExport xl b) done -> In (XAll s) xl -> sub_path dir s = Some q -> exists t, is_done q t l.

Lemma listed_in_mono l l' xl n : wf (l ++ l') ->
  (forall s q, In (XAll s) xl -> sub_path dir s = Some q -> exists t, is_done q t l) ->
  listed_in l xl n <-> listed_in (l ++ l') xl n.
Proof.
  intros WF K. split; intros [A|(s & q & t & A & B & C & D)]; [now left| |now left|].
  - right. exists s, q, t. auto using is_done_app.
  - destruct (K _ _ A B) as (t' & D'). pose proof (done_unique _ _ _ _ WF C (is_done_app _ _ _ l' D')). subst t'.
    right. exists s, q, t. auto.
Qed.
Lemma listed_forms_mono l l' done n : wf (l ++ l') -> all_known l done ->
  listed_forms l done n <-> listed_forms (l ++ l') done n.
Proof.
  intros WF K. split; intros (xl & b & A & B); exists xl, b; (split; [auto|]);
    pose proof (listed_in_mono l l' xl n WF (fun s q => K xl b s q A)); tauto.
Qed.

Lemma exports_known st xl : forall proper m m', inv st ->
  exports_loop X V E W dir xl proper m st = Ok m' ->
  forall s q, In (XAll s) xl -> sub_path dir s = Some q -> exists t, is_done q t (log st).
Proof.
  induction xl as [|[nm|s0|] xl IH]; intros proper m m' IV H s q; cbn [exports_loop] in H; simpl.
  - tauto.
  - intros [A|A]; [discriminate|]. eapply IH; eauto.
  - destruct (sub_path dir s0) as [q0|] eqn:Sq; [|discriminate]. destruct (in_dec str_eq_dec q0 (m_modules _ _ _ m)) as [I|]; [|discriminate].
    destruct (assocl q0 (tbl st)) as [[fx fv]|] eqn:Aq; [|discriminate].
    intros [A|A] B; [|eapply IH; eauto]. injection A as <-. rewrite Sq in B. injection B as <-.
    exists (fx, fv). now apply IV.
  - discriminate.
Qed.

Lemma import_phase_ok : forall todo done m st r st' qs ts, done ++ todo = fs ->
  inv st -> mi_ok st done qs ts m -> qs = flat_map (form_imports dir) done ->
  all_known (log st) done ->
  (forall n, In n (m_exported _ _ _ m) <-> listed_forms (log st) done n) ->
  import_phase X V E W load dir todo m st = (r, st') ->
  inv st' /\ extx p st st' /\
  forall m', r = Ok m' -> exists ts',
    mi_ok st' fs (import_list p) ts' m' /\ all_known (log st') fs /\ (forall n, In n (m_exported _ _ _ m') <-> listed_forms (log st') fs n).
Proof.
  induction todo as [|f todo IH]; intros done m st r st' qs ts SPL IV MO QS AK XL H; cbn [import_phase] in H.
  - injection H as <- <-. rewrite app_nil_r in SPL. subst done. split; auto. split; [apply extx_refl|]. intros m' Q. injection Q as <-.
    exists ts. assert (IL : import_list p = qs) by (unfold import_list; rewrite SP, FS; auto). rewrite IL. auto.
  - assert (SPL' : (done ++ [f]) ++ todo = fs) by (rewrite <- app_assoc; exact SPL).
    destruct f as [l proper|l proper|e].
    + destruct (imports_loop X V E W load dir l proper m st) as [r1 st1] eqn:L1.
      assert (IMP : forall s q, In (IStr s) l -> sub_path dir s = Some q -> imports p q).
      { intros s q A B. unfold imports, import_list. rewrite SP, FS. rewrite <- SPL. apply in_flat_map. exists (FImport l proper).
        split; [apply in_or_app; right; now left|]. simpl. apply in_flat_map. exists (IStr s). rewrite B. split; [auto|now left]. }
      destruct (imports_loop_ok done l proper m st r1 st1 qs ts IV IMP MO L1) as (IV1 & EX1 & OK1).
      destruct r1 as [m1| |].
      2,3: injection H as <- <-; split; auto; split; auto; discriminate.
      destruct (OK1 m1 eq_refl) as (XE & ts1 & MO1).
      assert (EXL : exists evs, log st1 = log st ++ evs) by (destruct EX1 as (evs & Q & _); eauto). destruct EXL as (evs & EQ).
      destruct (IH (done ++ [FImport l proper]) m1 st1 r st' (qs ++ form_imports dir (FImport l proper)) (ts ++ ts1) SPL' IV1) as (IV2 & EX2 & OK2); [| | | |exact H|].
      * destruct MO1. constructor; eauto. rewrite flat_map_app. simpl. rewrite app_nil_r. assumption.
      * rewrite QS, flat_map_app. simpl. now rewrite app_nil_r.
      * intros xl b s q A. apply in_app_or in A as [A|[A|[]]]; [|discriminate]. rewrite EQ. intros B C.
        destruct (AK _ _ _ _ A B C) as (t & D). exists t. now apply is_done_app.
      * intros n. rewrite XE, XL, EQ. rewrite (listed_forms_mono (log st) evs); auto.
        2:{ rewrite <- EQ. apply IV1. }
        unfold listed_forms. split; intros (xl & b & A & B); exists xl, b; (split; [|auto]).
        -- apply in_or_app; auto.
        -- apply in_app_or in A as [A|[A|[]]]; [auto|discriminate].
      * split; auto. split; [eapply extx_trans; eauto|auto].
    + destruct (exports_loop X V E W dir l proper m st) as [m1| |] eqn:L1.
      2,3: injection H as <- <-; split; auto; split; [apply extx_refl|discriminate].
      destruct (exports_loop_ok done st qs ts IV l proper m m1 MO L1) as (MO1 & LL).
      eapply (IH (done ++ [FExport l proper]) m1 st r st' qs ts SPL' IV); auto.
      * destruct MO1. constructor; auto. rewrite flat_map_app. simpl. now rewrite app_nil_r.
      * rewrite QS, flat_map_app. simpl. now rewrite app_nil_r.
      * intros xl b s q A B C. apply in_app_or in A as [A|[A|[]]]; [eauto|]. injection A as <- <-. eapply exports_known; eauto.
      * intros n. rewrite LL, XL. unfold listed_forms. split.
        -- intros [(xl & b & A & B)|A]; [exists xl, b; split; auto; apply in_or_app; auto|].
           exists l, proper. split; auto. apply in_or_app. right. now left.
        -- intros (xl & b & A & B). apply in_app_or in A as [A|[A|[]]]; [eauto|]. injection A as <- <-. auto.
    + eapply (IH (done ++ [FExpr e]) _ st r st' qs ts SPL' IV); [| | | |exact H].
      * destruct MO. constructor; auto. simpl. rewrite flat_map_app. simpl. now rewrite mo_eval0.
      * rewrite QS, flat_map_app. simpl. now rewrite app_nil_r.
      * intros xl b s q A. apply in_app_or in A as [A|[A|[]]]; [eauto|discriminate].
      * intros n. cbn [m_exported]. rewrite XL. unfold listed_forms. split; intros (xl & b & A & B); exists xl, b; (split; [|auto]).
        -- apply in_or_app; auto.
        -- apply in_app_or in A as [A|[A|[]]]; [auto|discriminate].
Qed.
End Phase.

(** ** The export loop *)
Lemma export_loop_ok xs (e : env V) : forall l acc t,
  export_loop X V l xs e acc = Ok t ->
  (forall n x, In (n, x) (fst acc) -> assocl n xs = Some x) ->
  (forall n v, In (n, v) (snd acc) -> assocl n xs = None /\ e n = Some v) ->
  (forall n x, In (n, x) (fst t) -> assocl n xs = Some x) /\
  (forall n v, In (n, v) (snd t) -> assocl n xs = None /\ e n = Some v) /\
  forall n, In n (names t) <-> In n (names acc) \/ In n l.
Proof.
  induction l as [|n l IH]; intros acc t H A B; cbn [export_loop] in H.
  - injection H as <-. split; auto. split; auto. simpl. tauto.
  - destruct (assocl n xs) as [x|] eqn:An.
    + destruct (IH _ _ H) as (P & Q & R); simpl; auto.
      * intros m y [K|K]; [injection K; intros; subst; auto|auto].
      * split; auto. split; auto. intros m. rewrite R. unfold names. simpl. intuition.
    + destruct (e n) as [v|] eqn:En; [|discriminate]. destruct (IH _ _ H) as (P & Q & R); simpl; auto.
      * intros m y [K|K]; [injection K; intros; subst; auto|auto].
      * split; auto. split; auto. intros m. rewrite R. unfold names. simpl. rewrite !in_app_iff. simpl. intuition.
Qed.

(** ** Loading *)
Lemma mi_ok0 st : mi_ok st [] [] [] (minfo0 X V E).
Proof. constructor; simpl; auto; tauto. Qed.

Lemma inv_same (st st' : state) : tbl st' = tbl st -> log st' = log st -> inv st -> inv st'.
Proof. unfold inv. intros -> ->. auto. Qed.
Lemma inv_snoc (st st' : state) ev : tbl st' = tbl st -> log st' = log st ++ [ev] ->
  (forall p t e, ev <> Done p t e) -> wf (log st ++ [ev]) -> inv st -> inv st'.
Proof.
  unfold inv. intros -> -> ND WF (A & B & C). split; auto.
  assert (D : forall p t, is_done p t (log st ++ [ev]) <-> is_done p t (log st)).
  { intros. rewrite is_done_snoc. split; [intros [K|(e & K)]; [auto|destruct (ND _ _ _ K)]|auto]. }
  split.
  - intros. now rewrite D.
  - intros p Ap t Dt. apply D in Dt. exact (C p Ap t Dt).
Qed.


Lemma load_checked_ok f (G : forall p st r st', is_absolute p = true -> inv st -> not_done p (log st) ->
      no_check X V E W files expandm evalm base stxbase cwd f p st = (r, st') ->
      inv st' /\ ext p st st' /\ (r = Ok tt -> exists t, is_done p t (log st')) /\ (r <> Ok tt -> not_done p (log st'))) :
  load_spec (load_checked X V E W cwd (no_check X V E W files expandm evalm base stxbase cwd f)).
Proof.
  intros p st r st' A IV H. unfold load_checked, resolve in H. rewrite A in H.
  destruct (assocl p (tbl st)) as [t|] eqn:T.
  - injection H as <- <-. split; auto. split; [apply ext_refl|]. split; [|congruence]. intros _. exists t. now apply IV.
  - refine (G p st r st' A IV _ H). intros t D. destruct IV as (_ & TB & _). apply TB in D. congruence.
Qed.

Lemma no_check_ok : forall f p st r st', is_absolute p = true -> inv st -> not_done p (log st) ->
  no_check X V E W files expandm evalm base stxbase cwd f p st = (r, st') ->
  inv st' /\ ext p st st' /\ (r = Ok tt -> exists t, is_done p t (log st')) /\ (r <> Ok tt -> not_done p (log st')).
Proof.
  induction f as [|f IH]; intros p st r st' A IV ND H; cbn [no_check] in H.
  - injection H as <- <-. split; auto. split; [apply ext_refl|split; [discriminate|auto]].
  - pose proof (load_checked_ok f IH) as LS.
    remember (load_checked X V E W cwd (no_check X V E W files expandm evalm base stxbase cwd f)) as load eqn:EL. clear EL.
    unfold load_module in H.
    destruct (split_path p) as [[dir fname]|] eqn:SP.
    2:{ injection H as <- <-. split; auto. split; [apply ext_refl|split; [discriminate|auto]]. }
    destruct (files p) as [fs| |] eqn:FS.
    2,3: injection H as <- <-; split; auto; split; [apply ext_refl|split; [discriminate|auto]].
    destruct (import_phase X V E W load dir fs (minfo0 X V E) st) as [rm st1] eqn:IP.
    assert (AK0 : all_known dir (log st) []) by (intros xl b s q []).
    assert (XL0 : forall n, In n (m_exported X V E (minfo0 X V E)) <-> listed_forms dir (log st) [] n).
    { intros n. simpl. split; [tauto|]. intros (xl & b & [] & _). }
    destruct (import_phase_ok load LS p dir fname fs A SP FS fs [] _ _ _ _ [] [] eq_refl IV (mi_ok0 st) eq_refl AK0 XL0 IP)
      as (IV1 & EX1 & OK1).
    pose proof (extx_ext _ _ _ EX1) as EX1'.
    pose proof IV1 as (WF1 & TB1 & AB1).
    assert (ND1 : not_done p (log st1)).
    { intros t D. apply (done_not_cycle _ _ _ WF1 D). destruct EX1 as (evs & EQ & F). rewrite EQ in D.
      destruct D as (e & D). apply in_app_or in D as [D|D]; [destruct (ND t); exists e; auto|].
      rewrite Forall_forall in F. exact (F _ D). }
    destruct rm as [m| |].
    2,3: injection H as <- <-; split; auto; split; [auto|split; [discriminate|auto]].
    destruct (OK1 m eq_refl) as (ts & MO & AK & XL). clear OK1.
    destruct MO as [MD MI MX MM ME].
    assert (BO : m_eval X V E m = body_of p) by (rewrite ME; unfold body_of; now rewrite FS).
    assert (VIS : forall n, eval_environment V base (m_imported X V E m) n = visible ts n).
    { intros n. rewrite MI. apply imported_visible. eapply wf_consistent_all; eauto. }
    cbv zeta in H. cbn [tbl envs world log] in H.
    set (evE := Expanding p (m_eval X V E m) (m_xforms X V E m) (stxbase (eval_environment V base (m_imported X V E m)))) in *.
    assert (WFE : wf (log st1 ++ [evE])).
    { apply wf_exp; auto. split; auto. split; auto. exists ts, (eval_environment V base (m_imported X V E m)). auto. }
    assert (EXE : forall w ev w', ext p st (mkst (tbl st1) ev w' (log st1 ++ [evE])) /\ inv (mkst (tbl st1) ev w (log st1 ++ [evE]))).
    { intros w ev w'. split.
      - destruct EX1' as (evs & EQ & F). exists (evs ++ [evE]). cbn [log]. rewrite EQ, app_assoc. split; auto.
        apply Forall_app. split; auto. constructor; [simpl; apply rt_refl|constructor].
      - eapply inv_snoc with (st := st1) (ev := evE); auto. intros; discriminate. }
    assert (ND2 : not_done p (log st1 ++ [evE])).
    { intros t D. apply is_done_snoc in D as [D|(e & D)]; [exact (ND1 t D)|discriminate]. }
    destruct (expandm p (m_eval X V E m) (m_xforms X V E m) (stxbase (eval_environment V base (m_imported X V E m))) (m_scope X V E m) (world st1))
      as [[[[es xs] stx'] w1]| |] eqn:EXP.
    2,3: pose proof (EXE (world st1) (envs st1) (world st1)) as (P1 & P2); injection H as <- <-; split; [exact P2|split; [exact P1|split; [discriminate|auto]]].
    cbn [l_exprs l_xforms l_imports l_exports l_stxenv tbl envs world log] in H.
    set (e0 := eval_environment V base (m_imported X V E m)) in *.
    set (evS := Started p e0) in *.
    assert (WFS : wf ((log st1 ++ [evE]) ++ [evS])).
    { apply wf_start; auto. split; auto. exists ts. split; auto. now apply done_all_app. }
    assert (EXS : forall w ev w', ext p st (mkst (tbl st1) ev w' ((log st1 ++ [evE]) ++ [evS])) /\ inv (mkst (tbl st1) ev w ((log st1 ++ [evE]) ++ [evS]))).
    { intros w ev w'. split.
      - destruct (EXE w ev w') as ((evs & EQ & F) & _). exists (evs ++ [evS]). cbn [log] in EQ |- *. rewrite EQ, app_assoc. split; auto.
        apply Forall_app. split; auto. constructor; [simpl; apply rt_refl|constructor].
      - destruct (EXE w ev w') as (_ & IVE). refine (inv_snoc (mkst (tbl st1) ev w (log st1 ++ [evE]))
          (mkst (tbl st1) ev w ((log st1 ++ [evE]) ++ [evS])) evS eq_refl eq_refl _ WFS IVE). intros; discriminate. }
    assert (ND3 : not_done p ((log st1 ++ [evE]) ++ [evS])).
    { intros t' D. apply is_done_snoc in D as [D|(e & D)]; [exact (ND2 t' D)|discriminate]. }
    destruct (evalm es e0 w1) as [[e1 w2]| |] eqn:EV.
    2,3: pose proof (EXS w1 (envs st1) w1) as (P1 & P2); injection H as <- <-; split; [exact P2|split; [exact P1|split; [discriminate|auto]]].
    destruct (export_loop X V (m_exported X V E m) xs e1 ([], [])) as [t| |] eqn:XO.
    2,3: pose proof (EXS w2 (envs st1) w2) as (P1 & P2); injection H as <- <-; split; [exact P2|split; [exact P1|split; [discriminate|auto]]].
    injection H as <- <-.
    destruct (export_loop_ok _ _ _ _ _ XO) as (PX & PV & PN); [simpl; tauto..|].
    assert (WFD : wf (((log st1 ++ [evE]) ++ [evS]) ++ [Done p t e1])).
    { apply wf_done; auto. split; auto. split.
      - exists (m_xforms X V E m), (stxbase e0), (m_scope X V E m), (world st1), es, xs, stx', w1, e0, w1, w2.
        rewrite BO in EXP. split; [|split; [|split; [|split; [|split]]]]; auto.
        + rewrite <- BO. apply in_or_app. left. apply in_or_app. right. now left.
        + apply in_or_app. right. now left.
      - intros n. rewrite PN, XL. cbn [names fst snd map app]. rewrite <- (app_assoc (log st1)).
        rewrite (listed_forms_mono dir (log st1) ([evE] ++ [evS]) fs n); auto; [|rewrite app_assoc; auto].
        unfold listed, listed_forms, listed_in, is_done. simpl. split.
        + intros [[]|(xl & b & I1 & L)]. exists dir, fname, fs, xl, b. auto.
        + intros (dir' & f' & fs' & xl & b & S' & F' & I1 & L). rewrite S' in SP. rewrite F' in FS.
          injection SP; injection FS; intros; subst. right. exists xl, b. auto. }
    split; [|split; [|split; [|congruence]]].
    + destruct (EXS w1 (envs st1) w1) as (_ & (_ & TB & AB)). cbn [tbl log] in TB, AB. split; [exact WFD|]. cbn [tbl log].
      split.
      * intros q t'. cbn [assocl]. rewrite is_done_snoc, <- TB. destruct (str_eq_dec q p) as [->|N].
        -- split; [injection 1 as ->; right; eauto|]. intros [K|(e & K)]; [|injection K; intros; subst; auto].
           apply TB in K. destruct (ND3 _ K).
        -- split; [auto|]. intros [K|(e & K)]; auto. injection K; intros; subst; congruence.
      * intros q Aq t' D. apply is_done_snoc in D as [D|(e & D)]; [exact (AB q Aq t' D)|]. injection D; intros; subst. congruence.
    + destruct (EXS w1 (envs st1) w1) as ((evs & EQ & F) & _). cbn [log] in EQ. exists (evs ++ [Done p t e1]). cbn [log].
      rewrite EQ, app_assoc. split; auto. apply Forall_app. split; auto. constructor; [simpl; apply rt_refl|constructor].
    + intros _. exists t. cbn [log]. apply is_done_snoc. right. eauto.
Qed.

Notation no_check' := (no_check X V E W files expandm evalm base stxbase cwd).
Notation load_checked' := (load_checked X V E W cwd).
Notation load_or_import' := (load_or_import X V E W files expandm evalm base stxbase cwd).

Lemma resolve_abs name p : is_absolute cwd = true -> resolve cwd name = Some p -> is_absolute p = true.
Proof.
  intros A. unfold resolve. destruct (is_absolute name) eqn:N; [congruence|]. intros H.
  rewrite (C47_absolute cwd [name] p); auto. destruct cwd; discriminate.
Qed.
Lemma load_ok f name st r st' : is_absolute cwd = true -> inv st -> load_or_import' f name st = (r, st') ->
  inv st' /\ (forall p, resolve cwd name = Some p -> ext p st st' /\ (r = Ok tt -> exists t, is_done p t (log st')) /\ (r <> Ok tt -> not_done p (log st'))).
Proof.
  intros A IV H. unfold load_or_import, load_checked in H. destruct (resolve cwd name) as [p|] eqn:R.
  2:{ injection H as <- <-. split; auto. discriminate. }
  assert (Q : load_checked' (no_check' f) p st = (r, st')).
  { unfold load_checked. unfold resolve. rewrite (resolve_abs _ _ A R). exact H. }
  destruct (load_checked_ok f (no_check_ok f) p st r st' (resolve_abs _ _ A R) IV Q) as (G1 & G2 & G3 & G4). clear Q.
  split; auto. intros p' Q. injection Q as <-. auto.
Qed.
Lemma inv0 w : inv (state0 X V E W w).
Proof.
  split; [constructor|]. split; simpl.
  - intros p t. split; [discriminate|]. intros (e & []).
  - intros p _ t (e & []).
Qed.
Lemma reachable_inv w st : is_absolute cwd = true -> reachable w st -> inv st.
Proof. intros A. induction 1; [apply inv0|]. eapply load_ok; eauto. Qed.

Lemma done_imports l p t : wf l -> is_done p t l -> Forall (fun q => exists t', is_done q t' l) (import_list p).
Proof.
  intros H D. destruct (wf_done_inv _ _ _ H D) as (l1 & e & l2 & -> & W1 & (_ & (xs0 & stx & sc & w & es & xs & stx' & w' & e0 & w1 & w2 & _ & S0 & _) & _)).
  pose proof (started_imports _ _ _ W1 S0) as F. eapply Forall_impl; [|exact F]. intros q (t' & Dq). exists t'. now apply is_done_app.
Qed.
Lemma done_closed l p q : wf l -> reaches p q -> (exists t, is_done p t l) -> exists t, is_done q t l.
Proof.
  intros H R. unfold reaches in R. apply clos_rt_rt1n in R. induction R as [p|p q r I1 R IH]; auto.
  intros (t & D). apply IH. pose proof (done_imports _ _ _ H D) as F. rewrite Forall_forall in F. apply F. exact I1.
Qed.

(** ** More fuel *)
Definition lmono (a b : str -> state -> res unit * state) : Prop :=
  forall p st r st', a p st = (r, st') -> r <> Hang -> b p st = (r, st').
Lemma imports_loop_mono a b dir : lmono a b -> forall l proper m st r st',
  imports_loop X V E W a dir l proper m st = (r, st') -> r <> Hang -> imports_loop X V E W b dir l proper m st = (r, st').
Proof.
  intros M. induction l as [|[s|] l IH]; intros proper m st r st' H N; cbn [imports_loop] in *; auto.
  destruct (sub_path dir s) as [q|]; auto. destruct (a q st) as [r1 st1] eqn:Aq.
  assert (N1 : r1 <> Hang) by (intros ->; injection H as <- <-; congruence).
  rewrite (M _ _ _ _ Aq N1). destruct r1; auto. destruct (assocl q (tbl st1)) as [[fx fv]|]; auto.
Qed.
Lemma import_phase_mono a b dir : lmono a b -> forall fs m st r st',
  import_phase X V E W a dir fs m st = (r, st') -> r <> Hang -> import_phase X V E W b dir fs m st = (r, st').
Proof.
  intros M. induction fs as [|[l pr|l pr|e] fs IH]; intros m st r st' H N; cbn [import_phase] in *; auto.
  - destruct (imports_loop X V E W a dir l pr m st) as [r1 st1] eqn:L.
    assert (N1 : r1 <> Hang) by (intros ->; injection H as <- <-; congruence).
    rewrite (imports_loop_mono _ _ _ M _ _ _ _ _ _ L N1). destruct r1; auto.
  - destruct (exports_loop X V E W dir l pr m st); auto.
Qed.
Lemma load_module_mono a b : lmono a b -> forall p st r st',
  load_module X V E W files expandm base stxbase a p st = (r, st') -> r <> Hang -> load_module X V E W files expandm base stxbase b p st = (r, st').
Proof.
  intros M p st r st' H N. unfold load_module in *. destruct (split_path p) as [[dir fn]|]; auto. destruct (files p); auto.
  destruct (import_phase X V E W a dir _ _ st) as [r1 st1] eqn:L.
  assert (N1 : r1 <> Hang) by (intros ->; injection H as <- <-; congruence).
  rewrite (import_phase_mono _ _ _ M _ _ _ _ _ L N1). auto.
Qed.
Lemma load_checked_mono a b : lmono a b -> lmono (load_checked' a) (load_checked' b).
Proof.
  intros M p st r st' H N. unfold load_checked in *. destruct (resolve cwd p); auto. destruct (assocl _ (tbl st)); auto.
Qed.
Lemma no_check_mono : forall f g, f <= g -> lmono (no_check' f) (no_check' g).
Proof.
  induction f as [|f IH]; intros g L p st r st' H N; cbn [no_check] in H.
  - injection H as <- <-. congruence.
  - destruct g as [|g]; [lia|]. cbn [no_check].
    destruct (load_module X V E W files expandm base stxbase (load_checked' (no_check' f)) p st) as [r1 st1] eqn:LM.
    assert (N1 : r1 <> Hang) by (intros ->; injection H as <- <-; congruence).
    assert (M : lmono (load_checked' (no_check' f)) (load_checked' (no_check' g))) by (apply load_checked_mono, IH; lia).
    rewrite (load_module_mono _ _ M _ _ _ _ LM N1). auto.
Qed.

(** ** Termination *)
Section Term.
Hypothesis HF : forall p, files p <> Hang.
Hypothesis HX : forall p es xs stx sc w, expandm p es xs stx sc w <> Hang.
Hypothesis HE : forall es e w, evalm es e w <> Hang.

Definition stops (load : nat -> str -> state -> res unit * state) p : Prop := forall st, exists f, fst (load f p st) <> Hang.

Lemma imports_loop_stops (load : nat -> str -> state -> res unit * state) dir :
  (forall f g, f <= g -> lmono (load f) (load g)) -> forall l proper m st,
  (forall s q, In (IStr s) l -> sub_path dir s = Some q -> stops load q) ->
  exists f, fst (imports_loop X V E W (load f) dir l proper m st) <> Hang.
Proof.
  intros M. induction l as [|[s|] l IH]; intros proper m st S0; cbn [imports_loop].
  - exists 0. simpl. destruct proper; discriminate.
  - destruct (sub_path dir s) as [q|] eqn:Sq; [|exists 0; discriminate].
    destruct (S0 s q (or_introl eq_refl) Sq st) as (f & Hf). destruct (load f q st) as [r1 st1] eqn:Lf. simpl in Hf.
    destruct r1 as [[]| |]; [|exists f; rewrite Lf; discriminate|congruence].
    destruct (assocl q (tbl st1)) as [[fx fv]|] eqn:Aq; [|exists f; rewrite Lf, Aq; discriminate].
    destruct (IH proper (mkmi _ _ _ (m_scope X V E m ++ map fst fv) (m_exported X V E m) (fv ++ m_imported X V E m)
                (merge_xforms (m_xforms X V E m) fx) (q :: m_modules X V E m) (m_eval X V E m)) st1) as (g & Hg).
    { intros; eapply S0; eauto. now right. }
    exists (Nat.max f g). rewrite (M f (Nat.max f g) (Nat.le_max_l _ _) _ _ _ _ Lf ltac:(discriminate)), Aq.
    match type of Hg with fst ?c <> _ => destruct c as [r2 st2] eqn:L2 end. simpl in Hg.
    erewrite (imports_loop_mono (load g) (load (Nat.max f g)) dir (M g _ (Nat.le_max_r _ _))); eauto.
  - exists 0. discriminate.
Qed.
Lemma exports_no_hang dir xl : forall proper m (st : state), exports_loop X V E W dir xl proper m st <> Hang.
Proof.
  induction xl as [|[n|s|] xl IH]; intros proper m st; cbn [exports_loop]; auto; try discriminate.
  - destruct proper; discriminate.
  - destruct (sub_path dir s); [|discriminate]. destruct (in_dec _ _ _); [|discriminate].
    destruct (assocl _ _) as [[? ?]|]; [auto|discriminate].
Qed.
Lemma import_phase_stops (load : nat -> str -> state -> res unit * state) dir :
  (forall f g, f <= g -> lmono (load f) (load g)) -> forall fs m st,
  (forall q, In q (flat_map (form_imports dir) fs) -> stops load q) ->
  exists f, fst (import_phase X V E W (load f) dir fs m st) <> Hang.
Proof.
  intros M. induction fs as [|[l pr|l pr|e] fs IH]; intros m st S0; cbn [import_phase].
  - exists 0. discriminate.
  - destruct (imports_loop_stops load dir M l pr m st) as (f & Hf).
    { intros s q I1 Sq. apply S0. apply in_flat_map. exists (FImport l pr). split; [now left|]. simpl. apply in_flat_map.
      exists (IStr s). rewrite Sq. split; [auto|now left]. }
    destruct (imports_loop X V E W (load f) dir l pr m st) as [r1 st1] eqn:L1. simpl in Hf.
    destruct r1 as [m1| |]; [|exists f; rewrite L1; discriminate|congruence].
    destruct (IH m1 st1) as (g & Hg).
    { intros q I1. apply S0. simpl. apply in_or_app. auto. }
    exists (Nat.max f g). rewrite (imports_loop_mono _ _ dir (M f _ (Nat.le_max_l f g)) _ _ _ _ _ _ L1 ltac:(discriminate)).
    match type of Hg with fst ?c <> _ => destruct c as [r2 st2] eqn:L2 end. simpl in Hg.
    erewrite (import_phase_mono (load g) (load (Nat.max f g)) dir (M g _ (Nat.le_max_r _ _))); eauto.
  - destruct (exports_loop X V E W dir l pr m st) as [m1| |] eqn:L1.
    + apply IH. intros q I1. apply S0. simpl. auto.
    + exists 0. discriminate.
    + now apply exports_no_hang in L1.
  - apply IH. intros q I1. apply S0. simpl. auto.
Qed.
Lemma export_loop_no_hang xs (e : env V) : forall l acc, export_loop X V l xs e acc <> Hang.
Proof.
  induction l as [|n l IH]; intros acc; cbn [export_loop]; [discriminate|]. destruct (assocl n xs); auto. destruct (e n); auto. discriminate.
Qed.
Lemma acc_stops p : Acc (fun q p => imports p q) p -> is_absolute p = true -> stops (fun f => load_checked' (no_check' f)) p.
Proof.
  induction 1 as [p _ IH]. intros A st.
  unfold load_checked, resolve. rewrite A. destruct (assocl p (tbl st)) eqn:T; [exists 0; discriminate|].
  cut (exists f, fst (no_check' (S f) p st) <> Hang); [intros (f & Hf); exists (S f); exact Hf|].
  cbn [no_check]. unfold load_module. destruct (split_path p) as [[dir fn]|] eqn:SP; [|exists 0; discriminate].
  pose proof (HF p) as NF. destruct (files p) as [fs| |] eqn:FS; [|exists 0; discriminate|congruence].
  destruct (import_phase_stops (fun f => load_checked' (no_check' f)) dir) with (fs := fs) (m := minfo0 X V E) (st := st) as (f & Hf).
  { intros f g L. now apply load_checked_mono, no_check_mono. }
  { intros q Iq. assert (imports p q) as Pq by (unfold imports, import_list; now rewrite SP, FS). apply IH; auto.
    apply in_flat_map in Iq as (fm & I1 & I2). destruct fm as [l pr|l pr|e]; simpl in I2; try tauto.
    apply in_flat_map in I2 as ([s|] & I3 & I4); [|destruct I4]. destruct (sub_path dir s) eqn:Sq; [|destruct I4].
    destruct I4 as [<-|[]]. eapply sub_abs; eauto. }
  exists f. destruct (import_phase X V E W _ dir fs _ st) as [r1 st1]. simpl in Hf.
  destruct r1 as [m| |]; [|discriminate|congruence]. cbv zeta. cbn [tbl envs world log].
  match goal with |- context [expandm ?a ?b ?c ?d ?e ?g] => pose proof (HX a b c d e g) as NX; destruct (expandm a b c d e g) as [[[[es xs] stx'] w1]| |] end;
    [|discriminate|congruence].
  cbn [l_exprs l_xforms l_imports l_exports l_stxenv tbl envs world log].
  match goal with |- context [evalm ?a ?b ?c] => pose proof (HE a b c) as NE; destruct (evalm a b c) as [[e1 w2]| |] end; [|discriminate|congruence].
  match goal with |- context [export_loop X V ?a ?b ?c ?d] => pose proof (export_loop_no_hang b c a d) as NL; destruct (export_loop X V a b c d) end;
    [discriminate|discriminate|congruence].
Qed.
End Term.
End Spec.
