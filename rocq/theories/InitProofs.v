(** Variables used before they are initialised: specification and lemmas. *)
From Coq Require Import ZArith NArith Bool Ascii String List Arith Lia.
From Verif Require Import Base Heap HeapM Ast Sem OptProofs.
Import ListNotations.
Local Open Scope list_scope.

(** * Specification *)

(** ** Parts and free variables of an expression *)
Inductive part_of : expr -> expr -> Prop :=
| PaRefl e : part_of e e
| PaDefine p ids e : part_of p e -> part_of p (EDefine ids e)
| PaSet p x e : part_of p e -> part_of p (ESet x e)
| PaLam p fm body e : In e body -> part_of p e -> part_of p (ELam fm body)
| PaCase p cls fm body e : In (fm, body) cls -> In e body -> part_of p e -> part_of p (ECase cls)
| PaBegin p es e : In e es -> part_of p e -> part_of p (EBegin es)
| PaIf p a b c e : In e [a; b; c] -> part_of p e -> part_of p (EIf a b c)
| PaApp p f es e : In e (f :: es) -> part_of p e -> part_of p (EApp f es)
| PaLetB p bs body ids e : In (ids, e) bs -> part_of p e -> part_of p (ELet bs body)
| PaLet p bs body e : In e body -> part_of p e -> part_of p (ELet bs body)
| PaLetrecB p bs body ids e : In (ids, e) bs -> part_of p e -> part_of p (ELetrec bs body)
| PaLetrec p bs body e : In e body -> part_of p e -> part_of p (ELetrec bs body)
| PaValues p es e : In e es -> part_of p e -> part_of p (EValues es)
| PaCwv p a b e : In e [a; b] -> part_of p e -> part_of p (ECwv a b)
| PaMvCall p a b e : In e [a; b] -> part_of p e -> part_of p (EMvCall a b)
| PaMvLet p a fm b e : In e [a; b] -> part_of p e -> part_of p (EMvLet a fm b)
| PaMvValues p es e : In e es -> part_of p e -> part_of p (EMvValues es).

Definition params (fm : formals) : list ident := req fm ++ match rest fm with Some x => [x] | None => [] end.
Definition bound_by (bs : list (list ident * expr)) : list ident := List.concat (map fst bs).

(** [x] is read in [e] outside of the forms in [e] that bind it. *)
Inductive reads_free (x : ident) : expr -> Prop :=
| FvVar : reads_free x (EVar x)
| FvDefine ids e : reads_free x e -> reads_free x (EDefine ids e)
| FvSet y e : reads_free x e -> reads_free x (ESet y e)
| FvLam fm body e : In e body -> reads_free x e -> ~ In x (params fm) -> reads_free x (ELam fm body)
| FvCase cls fm body e : In (fm, body) cls -> In e body -> reads_free x e -> ~ In x (params fm) -> reads_free x (ECase cls)
| FvBegin es e : In e es -> reads_free x e -> reads_free x (EBegin es)
| FvIf a b c e : In e [a; b; c] -> reads_free x e -> reads_free x (EIf a b c)
| FvApp f es e : In e (f :: es) -> reads_free x e -> reads_free x (EApp f es)
| FvLetB bs body ids e : In (ids, e) bs -> reads_free x e -> reads_free x (ELet bs body)
| FvLet bs body e : In e body -> reads_free x e -> ~ In x (bound_by bs) -> reads_free x (ELet bs body)
| FvLetrecB bs body ids e : In (ids, e) bs -> reads_free x e -> ~ In x (bound_by bs) -> reads_free x (ELetrec bs body)
| FvLetrec bs body e : In e body -> reads_free x e -> ~ In x (bound_by bs) -> reads_free x (ELetrec bs body)
| FvValues es e : In e es -> reads_free x e -> reads_free x (EValues es)
| FvCwv a b e : In e [a; b] -> reads_free x e -> reads_free x (ECwv a b)
| FvMvCall a b e : In e [a; b] -> reads_free x e -> reads_free x (EMvCall a b)
| FvMvLetE a fm b : reads_free x a -> reads_free x (EMvLet a fm b)
| FvMvLet a fm b : reads_free x b -> ~ In x (params fm) -> reads_free x (EMvLet a fm b)
| FvMvValues es e : In e es -> reads_free x e -> reads_free x (EMvValues es).

(** ** Recursive bindings that need not be ready *)
Definition is_procedure (e : expr) : Prop := match e with ELam _ _ => True | ECase cls => cls <> [] | _ => False end.
(** Every right-hand side is a procedure, bound to one name. *)
Definition procedures_only (bs : list (list ident * expr)) : Prop :=
  Forall (fun b => List.length (fst b) = 1 /\ is_procedure (snd b)) bs.
(** [x] is bound in [e] by a letrec-values that binds not only procedures. *)
Definition bound_late (x : ident) (e : expr) : Prop :=
  exists bs body, part_of (ELetrec bs body) e /\ In x (bound_by bs) /\ ~ procedures_only bs.

(** ** Values that mark a variable as uninitialised *)
Definition ready_val (v : val) : Prop := v <> VUnbound.
Definition ready_cell (c : cell) : Prop :=
  match c with
  | CPair a d => ready_val a /\ ready_val d
  | CVec xs => Forall ready_val xs
  | CBox v => ready_val v
  | CRec t xs => ready_val t /\ Forall ready_val xs
  | CSyntax e l => ready_val e /\ ready_val l
  | CStr _ | CHash _ | COther _ => True
  end.
Definition ready_heap (h : heap) : Prop := Forall ready_cell h.
(** Primitives do not invent the mark. *)
Definition no_mark (prim : N -> list val -> heap -> option presult) : Prop :=
  forall p vs h q, Forall ready_val vs -> ready_heap h -> prim p vs h = Some q ->
    match q with PrimVal v h' => ready_val v /\ ready_heap h' | PrimErr _ h' => ready_heap h' end.
(** Source expressions do not contain it. *)
Definition no_mark_in (e : expr) : Prop := ~ part_of EUnbound e /\ ~ part_of (EConst VUnbound) e.

(** * Proofs *)
Lemma nth_snoc {A} (l m : list A) i : nth_error (l ++ m) i = if i <? List.length l then nth_error l i else nth_error m (i - List.length l).
Proof. destruct (Nat.ltb_spec i (List.length l)); [apply nth_error_app1; auto|apply nth_error_app2; auto]. Qed.

Lemma set_nth_len {A} n (a : A) l : List.length (set_nth n a l) = List.length l.
Proof. revert n. induction l; intros [|n]; simpl; auto. Qed.
Lemma set_nth_nth {A} n (a : A) l i : nth_error (set_nth n a l) i = if andb (i =? n) (n <? List.length l) then Some a else nth_error l i.
Proof.
  revert n i. induction l as [|b l IH]; intros n i.
  - simpl. rewrite andb_false_r. destruct n; auto.
  - destruct n as [|n], i as [|i]; simpl; auto. rewrite IH. reflexivity.
Qed.

Lemma glob_set_ref x v g y : glob_ref y (glob_set x v g) = if ident_eqb x y then Some v else glob_ref y g.
Proof.
  induction g as [|[z w] g IH]; simpl; auto.
  destruct (ident_eqb_spec z x) as [->|NE]; simpl.
  - destruct (ident_eqb_spec x y); auto.
  - rewrite IH. destruct (ident_eqb_spec z y) as [->|]; auto. destruct (ident_eqb_spec x y); congruence.
Qed.

Lemma lookup_bind xs : forall base r x l, lookup_env x (bind_env xs base r) = Some l ->
  (exists i, nth_error xs i = Some x /\ l = base + i) \/ ~ In x xs /\ lookup_env x r = Some l.
Proof.
  induction xs as [|y xs IH]; intros base r x l H; simpl in *; auto.
  destruct (IH _ _ _ _ H) as [(i & Q & ->)|(NI & Q)].
  - left. exists (S i). split; auto. lia.
  - simpl in Q. destruct (ident_eqb_spec y x) as [->|NE].
    + injection Q as <-. left. exists 0. split; auto.
    + right. split; auto. intros [->|]; auto.
Qed.
Lemma lookup_bound xs : forall base r x, In x xs \/ lookup_env x r <> None -> lookup_env x (bind_env xs base r) <> None.
Proof.
  induction xs as [|y xs IH]; intros base r x H; simpl in *; [tauto|]. apply IH.
  destruct (in_dec ident_dec x xs) as [|NI]; auto. right. simpl. destruct (ident_eqb_spec y x); [discriminate|]. tauto.
Qed.

Section Init.
  Variable prim : N -> list val -> heap -> option presult.
  Hypothesis NM : no_mark prim.
  (** The names of letrec variables, and of free variables. *)
  Variables late free : ident -> Prop.

  Definition code_ok (r : lenv) (e : expr) : Prop :=
    (forall x, reads_free x e -> lookup_env x r <> None \/ free x) /\ (forall x, bound_late x e -> late x) /\ no_mark_in e.
  (** [W]: the names of the cells. *)
  Definition env_ok (W : list ident) (r : lenv) : Prop := forall x l, lookup_env x r = Some l -> nth_error W l = Some x.
  Record store_but (D : nat -> Prop) (W : list ident) (s : store) : Prop := StoreBut {
    sb_len : List.length W = List.length (cells_of s);
    sb_cells : forall l x, nth_error W l = Some x -> nth_error (cells_of s) l = Some VUnbound -> late x \/ D l;
    sb_heap : ready_heap (heap_of s);
    sb_glob : forall x v, glob_ref x (glob_of s) = Some v -> ready_val v;
    sb_procs : forall l cls r, proc_ref l (procs_of s) = Some (PClo cls r) -> env_ok W r /\ code_ok r (ECase cls) }.
  Definition store_ok := store_but (fun _ => False).
  Definition res_ok (x : res) (s : store) : Prop :=
    match x with
    | RVals vs => Forall ready_val vs
    | RErr (ErrInit y) => late y \/ free y /\ glob_ref y (glob_of s) = None
    | RErr _ => True
    end.
  Definition ares_ok (x : list val + err) (s : store) : Prop := match x with inl vs => Forall ready_val vs | inr y => res_ok (RErr y) s end.
  Definition eres_ok (x : val + err) (s : store) : Prop := match x with inl v => ready_val v | inr y => res_ok (RErr y) s end.
  Definition ores_ok (x : option err) (s : store) : Prop := match x with None => True | Some y => res_ok (RErr y) s end.

  Lemma env_grow W V r : env_ok W r -> env_ok (W ++ V) r.
  Proof. intros H x l L. apply H in L. rewrite nth_error_app1; auto. apply nth_error_Some. congruence. Qed.
  Lemma env_bind W r xs : env_ok W r -> env_ok (W ++ xs) (bind_env xs (List.length W) r).
  Proof.
    intros H x l L. destruct (lookup_bind _ _ _ _ _ L) as [(i & Q & ->)|[_ Q]].
    - rewrite nth_error_app2 by lia. replace (List.length W + i - List.length W) with i by lia. auto.
    - apply (env_grow W xs r H). auto.
  Qed.

  (** Parts of code. *)
  Lemma code_part r r' e p : code_ok r e -> (forall q, part_of q p -> part_of q e) ->
    (forall x, reads_free x p -> lookup_env x r' <> None \/ reads_free x e /\ (lookup_env x r <> None -> lookup_env x r' <> None)) -> code_ok r' p.
  Proof.
    intros (A & B & (C1 & C2)) P F. split; [|split].
    - intros x H. destruct (F _ H) as [|[H1 H2]]; auto. destruct (A _ H1); auto.
    - intros x (bs & body & H & H1). apply B. exists bs, body. split; auto.
    - split; intros H; [apply C1|apply C2]; auto.
  Qed.
  Lemma code_same r e p : code_ok r e -> (forall q, part_of q p -> part_of q e) -> (forall x, reads_free x p -> reads_free x e) -> code_ok r p.
  Proof. intros C P F. apply (code_part r r e p C P). intros x H. right. split; auto. Qed.
  Lemma code_under r r' xs e p : code_ok r e -> (forall q, part_of q p -> part_of q e) ->
    (forall x, reads_free x p -> In x xs \/ reads_free x e) ->
    (forall x, In x xs \/ lookup_env x r <> None -> lookup_env x r' <> None) -> code_ok r' p.
  Proof. intros C P F L. apply (code_part r r' e p C P). intros x H. destruct (F _ H); auto. Qed.

  (** ** The store *)
  Lemma store_grow D W V s s' : store_but D W s -> cells_of s' = cells_of s ++ V -> forall xs, List.length xs = List.length V ->
    (forall i x, nth_error xs i = Some x -> nth_error V i = Some VUnbound -> late x \/ D (List.length W + i)) ->
    heap_of s' = heap_of s -> glob_of s' = glob_of s -> procs_of s' = procs_of s -> store_but D (W ++ xs) s'.
  Proof.
    intros [A B C E F] EC xs LX X EH EG EP. constructor.
    - rewrite EC, !app_length. lia.
    - intros l x Q1 Q2. rewrite EC in Q2. rewrite nth_snoc in Q1. rewrite nth_snoc in Q2. rewrite <- A in Q2. destruct (Nat.ltb_spec l (List.length W)).
      + eauto.
      + destruct (X _ _ Q1 Q2) as [|H1]; auto. right. replace l with (List.length W + (l - List.length W)) by lia. auto.
    - rewrite EH. auto.
    - rewrite EG. auto.
    - rewrite EP. intros l cls r H. destruct (F _ _ _ H). split; auto using env_grow.
  Qed.
  Lemma store_add W s xs vs : store_ok W s -> List.length xs = List.length vs -> Forall ready_val vs -> store_ok (W ++ xs) (add_cells vs s).
  Proof.
    intros S0 L R. apply (store_grow _ W vs s (add_cells vs s) S0 eq_refl xs L); auto. intros i x _ H. exfalso. rewrite Forall_forall in R.
    apply (R VUnbound); [eapply nth_error_In; eauto|auto].
  Qed.
  Lemma store_proc D W s cls r v s1 : store_but D W s -> env_ok W r -> code_ok r (ECase cls) -> new_proc (PClo cls r) s = (v, s1) ->
    store_but D W s1 /\ ready_val v /\ cells_of s1 = cells_of s.
  Proof.
    intros [A B C E F] EO CO H. injection H as <- <-. split; [|split; [discriminate|reflexivity]]. constructor; simpl; auto.
    - apply Forall_app. split; auto. repeat constructor.
    - intros l cls' r' H. destruct (Nat.eqb_spec (List.length (heap_of s)) l); [injection H as <- <-; auto|eauto].
  Qed.
  Lemma store_glob W s x v : store_ok W s -> ready_val v -> store_ok W (set_glob x v s).
  Proof.
    intros [A B C E F] R. constructor; simpl; auto. intros y w H. rewrite glob_set_ref in H.
    destruct (ident_eqb x y); [injection H as <-; auto|eauto].
  Qed.
  Lemma store_globs W xs : forall vs s, store_ok W s -> Forall ready_val vs -> store_ok W (set_globs xs vs s).
  Proof. induction xs as [|x xs IH]; intros [|v vs] s S0 R; simpl; auto. inversion R; subst. auto using store_glob. Qed.
  Lemma store_cell D W s l v : store_but D W s -> ready_val v -> store_but (fun i => D i /\ i <> l) W (set_cell l v s).
  Proof.
    intros [A B C E F] R. constructor; simpl; auto.
    - rewrite set_nth_len. auto.
    - intros i x Q1 Q2. rewrite set_nth_nth in Q2. destruct (Nat.eqb_spec i l) as [->|]; simpl in Q2.
      + destruct (Nat.ltb_spec l (List.length (cells_of s))); [exfalso; apply R; congruence|].
        exfalso. assert (l < List.length W) by (apply nth_error_Some; congruence). lia.
      + destruct (B _ _ Q1 Q2); auto.
  Qed.
  Lemma store_weak (D D' : nat -> Prop) W s : store_but D W s -> (forall l, D l -> D' l) -> store_but D' W s.
  Proof. intros [A B C E F] H. constructor; auto. intros l x Q1 Q2. destruct (B _ _ Q1 Q2); auto. Qed.
  Lemma store_cells W ls : forall vs s, store_ok W s -> Forall ready_val vs -> store_ok W (set_cells ls vs s).
  Proof.
    induction ls as [|l ls IH]; intros [|v vs] s S0 R; simpl; auto. inversion R; subst. apply IH; auto.
    eapply store_weak; [apply store_cell; eauto|]. simpl. tauto.
  Qed.
  Lemma store_heap W s h : store_ok W s -> ready_heap h -> store_ok W (set_heap h s).
  Proof. intros [A B C E F] H. constructor; simpl; auto. Qed.

  Lemma ready_list vs : Forall ready_val vs -> forall b, ready_heap (list_cells b vs).
  Proof.
    induction 1 as [|v vs R _ IH]; intros b; simpl; constructor; auto; [|apply IH]. simpl. split; auto. destruct vs; discriminate.
  Qed.
  Lemma list_ready h v xs : list_at h v xs -> ready_heap h -> Forall ready_val xs.
  Proof.
    induction 1 as [|l x d xs N L IH]; intros R; constructor; auto. unfold ready_heap in R. rewrite Forall_forall in R.
    apply nth_error_In in N. apply R in N. apply N.
  Qed.
  Lemma select_in cls n c : select cls n = Some c -> In c cls /\ accepts (fst c) n = true.
  Proof. induction cls as [|d cls IH]; simpl; [discriminate|]. destruct (accepts (fst d) n) eqn:A; [intros [= <-]; auto|]. intros H. destruct (IH H); auto. Qed.

  Lemma clause_ok W s cls r fm body vs r1 s1 : store_ok W s -> env_ok W r -> code_ok r (ECase cls) ->
    select cls (List.length vs) = Some (fm, body) -> Forall ready_val vs -> bind_clause fm vs r s = (r1, s1) ->
    exists V, store_ok (W ++ V) s1 /\ env_ok (W ++ V) r1 /\ forall e, In e body -> code_ok r1 e.
  Proof.
    intros S0 EO CO SE RV BC. destruct (select_in _ _ _ SE) as [IN AC]. unfold bind_clause in BC. unfold accepts in AC. simpl in AC.
    assert (P : forall e r', In e body -> (forall x, In x (params fm) \/ lookup_env x r <> None -> lookup_env x r' <> None) -> code_ok r' e).
    { intros e r' IE H. eapply (code_under r r' (params fm)); eauto.
      - intros q Q. eapply PaCase; eauto.
      - intros x Q. destruct (in_dec ident_dec x (params fm)); auto. right. eapply FvCase; eauto. }
    assert (LW := sb_len _ _ _ S0). destruct (rest fm) as [y|] eqn:RE.
    - apply Nat.leb_le in AC. destruct (new_list (skipn (List.length (req fm)) vs) (heap_of s)) as [l h] eqn:NL. injection BC as <- <-.
      unfold new_list in NL. injection NL as Hl Hh.
      assert (RV1 : Forall ready_val (firstn (List.length (req fm)) vs) /\ Forall ready_val (skipn (List.length (req fm)) vs)).
      { rewrite <- (firstn_skipn (List.length (req fm)) vs) in RV. apply Forall_app in RV. auto. }
      destruct RV1 as [RV1 RV2].
      assert (RL : ready_val l) by (subst l; destruct (skipn (List.length (req fm)) vs); discriminate).
      exists (req fm ++ [y]). split; [|split].
      + apply (store_heap _ (add_cells (firstn (List.length (req fm)) vs ++ [l]) s) h).
        * apply store_add; auto; [rewrite !app_length, firstn_length; simpl; lia|apply Forall_app; auto].
        * subst h. apply Forall_app. split; [apply S0|apply ready_list; auto].
      + rewrite <- LW. intros x i H. simpl in H. destruct (ident_eqb_spec y x) as [->|NE].
        * injection H as <-. rewrite app_assoc. rewrite nth_error_app2; rewrite app_length; [|lia]. rewrite Nat.sub_diag. auto.
        * rewrite app_assoc. apply (env_grow _ _ _ (env_bind W r (req fm) EO)). auto.
      + intros e IE. apply P; auto. intros x H. simpl. destruct (ident_eqb_spec y x); [discriminate|]. apply lookup_bound.
        destruct H as [H|H]; auto. unfold params in H. rewrite RE in H. apply in_app_or in H as [H|[H|[]]]; auto; congruence.
    - apply Nat.eqb_eq in AC. injection BC as <- <-. exists (req fm). split; [|split].
      + apply store_add; auto.
      + rewrite <- LW. apply env_bind. auto.
      + intros e IE. apply P; auto. intros x H. apply lookup_bound. destruct H as [H|H]; auto. unfold params in H. rewrite RE, app_nil_r in H. auto.
  Qed.
  Lemma lam_case r fm body : code_ok r (ELam fm body) -> code_ok r (ECase [(fm, body)]).
  Proof.
    intros (A & B & (C1 & C2)).
    assert (P : forall q, part_of q (ECase [(fm, body)]) -> q = ECase [(fm, body)] \/ part_of q (ELam fm body)).
    { intros q Q. inversion Q; subst; auto. right. match goal with H : In (_, _) [_] |- _ => destruct H as [H|[]]; injection H as <- <- end. eapply PaLam; eauto. }
    split; [|split].
    - intros x H. apply A. inversion H; subst. match goal with H : In (_, _) [_] |- _ => destruct H as [H|[]]; injection H as <- <- end. eapply FvLam; eauto.
    - intros x (bs & b & Q & H). apply B. exists bs, b. split; auto. destruct (P _ Q); [discriminate|auto].
    - split; intros Q; destruct (P _ Q); auto; discriminate.
  Qed.

  (** Recursive bindings of procedures only: the right-hand sides read no variable. *)
  Lemma procedures_run t r s k bs o s1 : evrec prim t r s k bs o s1 -> procedures_only bs ->
    forall W m, m = k + List.length bs -> store_but (fun l => k <= l < m) W s -> env_ok W r -> (forall ids e, In (ids, e) bs -> code_ok r e) ->
    o = None /\ store_ok W s1.
  Proof.
    assert (CL : forall t r s e x s1 W (D : nat -> Prop), eval prim t r s e x s1 -> is_procedure e -> code_ok r e -> env_ok W r -> store_but D W s ->
              exists v, x = RVals [v] /\ ready_val v /\ store_but D W s1).
    { intros t0 r0 s0 e x s2 W D E P C EO SB. destruct e; try contradiction; inversion E; subst.
      - match goal with H : new_proc _ _ = _ |- _ => destruct (store_proc D W _ _ _ _ _ SB EO (lam_case _ _ _ C) H) as (X1 & X2 & _) end. eauto.
      - match goal with H : new_proc _ _ = _ |- _ => destruct (store_proc D W _ _ _ _ _ SB EO C H) as (X1 & X2 & _) end. eauto. }
    intros H. induction H as [t r s k|t r s k ids e bs vs s1 o s2 E LE H IH|t r s k ids e bs vs s1 E LE|t r s k ids e bs y s1 E];
      intros PO W m M SB EO CO; [|inversion PO as [|b bs' [P1 P2] PO']; subst; simpl in P1, P2; assert (CE := CO ids e (or_introl eq_refl));
        destruct (CL _ _ _ _ _ _ W _ E P2 CE EO SB) as (v & Q & RV & SB1)..].
    - subst. split; auto. eapply store_weak; eauto. simpl. lia.
    - injection Q as ->. destruct ids as [|x [|]]; simpl in P1; try discriminate. simpl in IH. rewrite Nat.add_1_r in IH. 
      apply (IH PO' W (k + S (List.length bs))); auto; [lia| |intros; eapply CO; right; eauto].
      eapply store_weak; [apply store_cell; eauto|]. simpl. lia.
    - injection Q as ->. simpl in LE. congruence.
    - discriminate.
  Qed.

  Lemma seq_in r es : (forall e, In e es -> code_ok r e) -> Forall (code_ok r) es.
  Proof. intros H. apply Forall_forall. auto. Qed.

  Notation SOK := store_ok.
  Notation COK := code_ok.
  Notation ROK := res_ok.
  Definition grown (W W' : list ident) : Prop := exists V, W' = W ++ V.
  Notation fits W s1 P := (exists W', SOK W' s1 /\ grown W W' /\ P).
  Lemma grown_refl W : grown W W.
  Proof. exists []. rewrite app_nil_r. auto. Qed.
  Lemma grown_trans W W1 W2 : grown W W1 -> grown W1 W2 -> grown W W2.
  Proof. intros [V ->] [V2 ->]. exists (V ++ V2). rewrite app_assoc. auto. Qed.
  Lemma grown_app W W1 V : grown W W1 -> grown W (W1 ++ V).
  Proof. intros G. eapply grown_trans; eauto. exists V. auto. Qed.
  Lemma env_grown W W' r : grown W W' -> env_ok W r -> env_ok W' r.
  Proof. intros [V ->]. apply env_grow. Qed.

  Lemma procedures_dec bs : {procedures_only bs} + {~ procedures_only bs}.
  Proof.
    apply Forall_dec. intros [ids e]. simpl. destruct (Nat.eq_dec (List.length ids) 1) as [|N]; [|right; tauto].
    destruct e; simpl; try (left; tauto); try (right; tauto). destruct cls; [right|left; split; auto; discriminate]. intros [_ H]. auto.
  Qed.
  Lemma one_each bs : procedures_only bs -> List.length (bound_by bs) = List.length bs.
  Proof. unfold bound_by. induction 1 as [|[ids e] bs [L _] _ IH]; simpl in *; auto. rewrite app_length, IH, L. auto. Qed.

  (** The right-hand sides of letrec-values. *)
  Lemma letrec_ok t r s bs body o s1 W :
    evrec prim t (bind_env (bound_by bs) (List.length (cells_of s)) r)
      (add_cells (repeat VUnbound (List.length (bound_by bs))) s) (List.length (cells_of s)) bs o s1 ->
    (forall W, SOK W (add_cells (repeat VUnbound (List.length (bound_by bs))) s) ->
       env_ok W (bind_env (bound_by bs) (List.length (cells_of s)) r) ->
       (forall ids e, In (ids, e) bs -> COK (bind_env (bound_by bs) (List.length (cells_of s)) r) e) -> fits W s1 (ores_ok o s1)) ->
    SOK W s -> env_ok W r -> COK r (ELetrec bs body) ->
    exists W', SOK W' s1 /\ grown W W' /\ env_ok W' (bind_env (bound_by bs) (List.length (cells_of s)) r) /\
      Forall (COK (bind_env (bound_by bs) (List.length (cells_of s)) r)) body /\ ores_ok o s1.
  Proof.
    intros EV IH S0 EO CO. rewrite <- (sb_len _ _ _ S0) in *.
    set (r1 := bind_env (bound_by bs) (List.length W) r) in *.
    assert (E1 : env_ok (W ++ bound_by bs) r1) by (apply env_bind; auto).
    assert (LB : forall x, In x (bound_by bs) \/ lookup_env x r <> None -> lookup_env x r1 <> None) by (intros; apply lookup_bound; auto).
    assert (CB : forall ids e, In (ids, e) bs -> COK r1 e).
    { intros ids e IN. apply (code_under r r1 (bound_by bs) _ _ CO); auto.
      - intros q Q. eapply PaLetrecB; eauto.
      - intros x Q. destruct (in_dec ident_dec x (bound_by bs)); auto. right. eapply FvLetrecB; eauto. }
    assert (CS : Forall (COK r1) body).
    { apply Forall_forall. intros e IN. apply (code_under r r1 (bound_by bs) _ _ CO); auto.
      - intros q Q. eapply PaLetrec; eauto.
      - intros x Q. destruct (in_dec ident_dec x (bound_by bs)); auto. right. eapply FvLetrec; eauto. }
    destruct (procedures_dec bs) as [PO|NP].
    - destruct (procedures_run _ _ _ _ _ _ _ EV PO (W ++ bound_by bs) (List.length W + List.length bs) eq_refl) as [-> S1]; auto.
      + apply (store_grow _ W (repeat VUnbound (List.length (bound_by bs))) s); auto.
        * eapply store_weak; eauto. simpl. tauto.
        * rewrite repeat_length. auto.
        * intros i x Q _. right. assert (i < List.length (bound_by bs)) by (apply nth_error_Some; congruence). rewrite one_each in *; auto. lia.
      + exists (W ++ bound_by bs). split; auto. split; [exists (bound_by bs); auto|]. split; auto. split; auto. simpl. auto.
    - destruct (IH (W ++ bound_by bs)) as (W' & S1 & G & R); auto.
      + apply (store_grow _ W (repeat VUnbound (List.length (bound_by bs))) s); auto.
        * rewrite repeat_length. auto.
        * intros i x Q _. left. destruct CO as (_ & CL & _). apply CL. exists bs, body. split; [constructor|]. split; auto. eapply nth_error_In; eauto.
      + exists W'. split; auto. split; [eapply grown_trans; [exists (bound_by bs); reflexivity|auto]|]. split; [eapply env_grown; eauto|]. auto.
  Qed.

  Theorem init_all :
    (forall t r s e x s1, eval prim t r s e x s1 -> forall W, SOK W s -> env_ok W r -> COK r e -> fits W s1 (ROK x s1)) /\
    (forall t r s es x s1, evseq prim t r s es x s1 -> forall W, SOK W s -> env_ok W r -> Forall (COK r) es -> fits W s1 (ROK x s1)) /\
    (forall t r s e x s1, eval1 prim t r s e x s1 -> forall W, SOK W s -> env_ok W r -> COK r e -> fits W s1 (eres_ok x s1)) /\
    (forall t r s es x s1, evargs prim t r s es x s1 -> forall W, SOK W s -> env_ok W r -> Forall (COK r) es -> fits W s1 (ares_ok x s1)) /\
    (forall t r s bs x s1, evbinds prim t r s bs x s1 -> forall W, SOK W s -> env_ok W r -> (forall ids e, In (ids, e) bs -> COK r e) ->
       fits W s1 (ares_ok x s1 /\ forall vs, x = inl vs -> List.length vs = List.length (bound_by bs))) /\
    (forall t r s k bs x s1, evrec prim t r s k bs x s1 -> forall W, SOK W s -> env_ok W r -> (forall ids e, In (ids, e) bs -> COK r e) ->
       fits W s1 (ores_ok x s1)) /\
    (forall s f vs x s1, apply prim s f vs x s1 -> forall W, SOK W s -> Forall ready_val vs -> fits W s1 (ROK x s1)).
  Proof.
    Ltac sub C := apply (code_same _ _ _ C); intros; solve [econstructor; eauto; simpl; auto | econstructor; [|eassumption]; simpl; auto].
    Ltac subs C := solve [sub C | apply Forall_forall; intros; sub C | intros; sub C | apply Forall_forall; intros; simpl in *; sub C].
    Ltac fin tac := match goal with |- exists W', _ => eexists end; split; [tac|split; [eauto 6 using grown_refl, grown_trans, grown_app|simpl in *; auto]].
    Ltac finish := fin ltac:(eauto).
    Ltac vals := simpl in *; repeat match goal with H : Forall ready_val [_] |- _ => inversion H; clear H; subst end; auto.
    Ltac code := first [ assumption | match goal with C : COK _ _ |- _ => subs C end | match goal with C : forall ids e, In _ _ -> COK _ _ |- _ => solve [eapply C; simpl; eauto | intros; eapply C; simpl; eauto] end ].
    Ltac run := match goal with
      | IH : (forall W, SOK W ?s -> env_ok W ?r -> ?C -> _), S0 : SOK ?W ?s, EO : env_ok ?W ?r |- _ =>
          let W' := fresh "W" in let G := fresh "G" in let S' := fresh "SO" in let R' := fresh "RO" in let HC := fresh in
          assert (HC : C) by code; destruct (IH W S0 EO HC) as (W' & S' & G & R'); clear IH HC; assert (env_ok W' r) by (eapply env_grown; eauto)
      | IH : (forall W, SOK W ?s -> Forall ready_val ?vs -> _), S0 : SOK ?W ?s |- _ =>
          let W' := fresh "W" in let G := fresh "G" in let S' := fresh "SO" in let R' := fresh "RO" in let HC := fresh in
          assert (HC : Forall ready_val vs) by vals; destruct (IH W S0 HC) as (W' & S' & G & R'); clear IH HC
      end.
    Ltac split_code := repeat match goal with H : Forall (COK _) (_ :: _) |- _ => inversion H; clear H; subst end.
    Ltac go := split_code; repeat run; simpl in *; finish.
    apply eval_min_all; intros; try (go; fail).
    - (* EConst *) finish. constructor; auto. intros ->. destruct H1 as (_ & _ & _ & C). apply C. constructor.
    - (* EUnbound *) destruct H1 as (_ & _ & C & _). exfalso. apply C. constructor.
    - (* EvLocalInit *) finish. left. destruct (sb_cells _ _ _ H1 l x (H2 _ _ H) H0) as [|[]]; auto.
    - (* EvGlobalInit *) finish. destruct H0 as [G|G]; [|exfalso; apply (sb_glob _ _ _ H1 _ _ G); auto].
      destruct H3 as (C & _). destruct (C x (FvVar x)) as [|F]; [congruence|auto].
    - (* EvDefine *) run. fin ltac:(apply store_globs; eauto). repeat constructor; discriminate.
    - (* EvSetLocal *) run. fin ltac:(eapply store_weak; [apply store_cell; eauto; vals|simpl; tauto]). repeat constructor; discriminate.
    - (* EvSetGlobal *) run. fin ltac:(apply store_glob; eauto; vals).
    - (* EvSetGlobalIn *) run. fin ltac:(apply store_glob; eauto; vals). repeat constructor; discriminate.
    - (* EvLam *) destruct (store_proc _ W _ _ _ _ _ H0 H1 (lam_case _ _ _ H2) H) as (X & RV & _). finish.
    - (* EvCase *) destruct (store_proc _ W _ _ _ _ _ H1 H2 H3 H0) as (X & RV & _). finish.
    - (* EvMvLet *) run. assert (LW := sb_len _ _ _ SO). rewrite <- LW in *.
      destruct (H3 (W0 ++ xs)) as (W1 & S1 & G1 & R1); [apply store_add; auto|apply env_bind; auto| |].
      + apply (code_under r _ xs _ _ H6); [intros; eapply PaMvLet; eauto; simpl; auto| |intros; apply lookup_bound; auto].
        intros y Q. destruct (in_dec ident_dec y xs) as [|N]; auto. right. apply FvMvLet; auto. unfold params. simpl. rewrite app_nil_r. auto.
      + exists W1. split; auto. split; auto. eapply grown_trans; [|eauto]. apply grown_app. auto.
    - (* EvLet *) run. destruct RO as [RO LB]. specialize (LB _ eq_refl). assert (LW := sb_len _ _ _ SO). rewrite <- LW in *.
      destruct (H2 (W0 ++ bound_by bs)) as (W1 & S1 & G1 & R1); [apply store_add; auto|apply env_bind; auto| |].
      + apply Forall_forall. intros e IN. apply (code_under r _ (bound_by bs) _ _ H5); [intros; eapply PaLet; eauto| |intros; apply lookup_bound; auto].
        intros y Q. destruct (in_dec ident_dec y (bound_by bs)) as [|N]; auto. right. eapply FvLet; eauto.
      + exists W1. split; auto. split; auto. eapply grown_trans; [|eauto]. apply grown_app. auto.
    - (* EvLetErr *) run. destruct RO as [RO _]. finish.
    - (* EvLetrec *) subst. destruct (letrec_ok _ _ _ _ _ _ _ W H1 H2 H5 H6 H7) as (W0 & S0 & G0 & E0 & C0 & _).
      destruct (H4 W0 S0 E0 C0) as (W1 & S1 & G1 & R1). finish.
    - (* EvLetrecErr *) subst. destruct (letrec_ok _ _ _ _ _ _ _ W H1 H2 H3 H4 H5) as (W0 & S0 & G0 & E0 & C0 & R0). finish.
    - (* EsNil *) finish. repeat constructor; discriminate.
    - (* EsCons *) split_code. run. assert (Forall (COK r) (e' :: es)) by (constructor; auto). destruct (H2 W0) as (W1 & S1 & G1 & R1); auto. finish.
    - (* E1Val *) run. finish. vals.
    - (* EbNil *) finish. split; auto. intros vs [= <-]. auto.
    - (* EbCons *) run. run. destruct RO0 as [R1 L1]. finish. split; [apply Forall_app; auto|]. intros vs0 [= <-]. unfold bound_by in *. simpl.
      rewrite !app_length. rewrite (L1 _ eq_refl). auto.
    - (* EbErrRest *) run. run. destruct RO0 as [R1 _]. finish. split; auto. discriminate.
    - (* EbBad *) run. finish. split; auto. discriminate.
    - (* EbErr *) run. finish. split; auto. discriminate.
    - (* ErCons *) run. destruct (H3 W0) as (W1 & S1 & G1 & R1); auto; [apply store_cells; auto|intros; eapply H6; simpl; eauto|]. finish.
    - (* ApClo *) destruct f; try discriminate. destruct (sb_procs _ _ _ H4 _ _ _ H) as [EO CO].
      destruct (clause_ok _ _ _ _ _ _ _ _ _ H4 EO CO H0 H5 H1) as (V & S1 & E1 & C1).
      destruct (H3 (W ++ V) S1 E1 (seq_in _ _ C1)) as (W1 & S2 & G1 & R1). exists W1. split; auto. split; auto. eapply grown_trans; [|eauto]. apply grown_app, grown_refl.
    - (* ApPrim *) destruct (NM _ _ _ _ H3 (sb_heap _ _ _ H2) H1) as [X1 X2]. exists W. split; [apply store_heap; auto|]. split; [apply grown_refl|]. simpl. auto.
    - (* ApPrimErr *) exists W. split; [apply store_heap; auto; apply (NM _ _ _ _ H3 (sb_heap _ _ _ H2) H1)|]. split; [apply grown_refl|]. simpl. auto.
    - (* ApVoid *) finish. repeat constructor. discriminate.
    - (* ApApply *) inversion H5; subst. apply Forall_app in H9 as [M1 M2]. destruct (H3 W) as (W1 & S1 & G1 & R1); auto.
      + apply Forall_app. split; auto. eapply list_ready; eauto. apply H4.
      + finish.
  Qed.
End Init.

(** ** Global variables stay defined *)
Definition kept (s s1 : store) : Prop := forall x, glob_ref x (glob_of s) <> None -> glob_ref x (glob_of s1) <> None.
Lemma kept_refl s : kept s s.
Proof. intros x. auto. Qed.
Lemma kept_trans a b c : kept a b -> kept b c -> kept a c.
Proof. intros A B x H. auto. Qed.
Lemma kept_same s s1 : glob_of s1 = glob_of s -> kept s s1.
Proof. intros E x. rewrite E. auto. Qed.
Lemma kept_set x v s : kept s (set_glob x v s).
Proof. intros y H. simpl. rewrite glob_set_ref. destruct (ident_eqb x y); auto. discriminate. Qed.
Lemma kept_sets xs : forall vs s, kept s (set_globs xs vs s).
Proof. induction xs as [|x xs IH]; intros [|v vs] s; simpl; auto using kept_refl. eapply kept_trans; [apply kept_set|apply IH]. Qed.
Lemma kept_cells ls : forall vs s, glob_of (set_cells ls vs s) = glob_of s.
Proof. induction ls as [|x xs IH]; intros [|v vs] s; simpl; auto. rewrite IH. auto. Qed.
Lemma kept_bind fm vs r s r1 s1 : bind_clause fm vs r s = (r1, s1) -> glob_of s1 = glob_of s.
Proof. unfold bind_clause. destruct (rest fm); [destruct (new_list _ _)|]; intros E; injection E as <- <-; auto. Qed.
Lemma kept_proc p s v s1 : new_proc p s = (v, s1) -> glob_of s1 = glob_of s.
Proof. intros E. injection E as <- <-. auto. Qed.
Lemma kept_all prim :
  (forall t r s e x s1, eval prim t r s e x s1 -> kept s s1) /\
  (forall t r s es x s1, evseq prim t r s es x s1 -> kept s s1) /\
  (forall t r s e x s1, eval1 prim t r s e x s1 -> kept s s1) /\
  (forall t r s es x s1, evargs prim t r s es x s1 -> kept s s1) /\
  (forall t r s bs x s1, evbinds prim t r s bs x s1 -> kept s s1) /\
  (forall t r s k bs x s1, evrec prim t r s k bs x s1 -> kept s s1) /\
  (forall s f vs x s1, apply prim s f vs x s1 -> kept s s1).
Proof.
  apply eval_min_all; intros; subst; eauto using kept_refl, kept_trans, kept_set, kept_sets, kept_same, kept_proc.
  - eapply kept_trans; eauto. eapply kept_trans; [apply kept_same, kept_cells|]. eauto.
  - eapply kept_trans; [apply kept_same; eapply kept_bind; eauto|]. auto.
Qed.
