(** Which code can change a global variable: specification and lemmas. *)
From Coq Require Import ZArith NArith Bool Ascii String List Arith Lia.
From Verif Require Import Base Heap HeapM Ast Sem OptProofs InitProofs.
Import ListNotations.
Local Open Scope list_scope.

(** * Specification *)

(** [e] contains an expression with the property [B], outside of the forms in [e] that
    bind [x]. *)
Inductive occurs_free (B : expr -> Prop) (x : ident) : expr -> Prop :=
| OfHere e : B e -> occurs_free B x e
| OfDefine ids e : occurs_free B x e -> occurs_free B x (EDefine ids e)
| OfSet y e : occurs_free B x e -> occurs_free B x (ESet y e)
| OfLam fm body e : In e body -> occurs_free B x e -> ~ In x (params fm) -> occurs_free B x (ELam fm body)
| OfCase cls fm body e : In (fm, body) cls -> In e body -> occurs_free B x e -> ~ In x (params fm) -> occurs_free B x (ECase cls)
| OfBegin es e : In e es -> occurs_free B x e -> occurs_free B x (EBegin es)
| OfIf a b c e : In e [a; b; c] -> occurs_free B x e -> occurs_free B x (EIf a b c)
| OfApp f es e : In e (f :: es) -> occurs_free B x e -> occurs_free B x (EApp f es)
| OfLetB bs body ids e : In (ids, e) bs -> occurs_free B x e -> occurs_free B x (ELet bs body)
| OfLet bs body e : In e body -> occurs_free B x e -> ~ In x (bound_by bs) -> occurs_free B x (ELet bs body)
| OfLetrecB bs body ids e : In (ids, e) bs -> occurs_free B x e -> ~ In x (bound_by bs) -> occurs_free B x (ELetrec bs body)
| OfLetrec bs body e : In e body -> occurs_free B x e -> ~ In x (bound_by bs) -> occurs_free B x (ELetrec bs body)
| OfValues es e : In e es -> occurs_free B x e -> occurs_free B x (EValues es)
| OfCwv a b e : In e [a; b] -> occurs_free B x e -> occurs_free B x (ECwv a b)
| OfMvCall a b e : In e [a; b] -> occurs_free B x e -> occurs_free B x (EMvCall a b)
| OfMvLetE a fm b : occurs_free B x a -> occurs_free B x (EMvLet a fm b)
| OfMvLet a fm b : occurs_free B x b -> ~ In x (params fm) -> occurs_free B x (EMvLet a fm b)
| OfMvValues es e : In e es -> occurs_free B x e -> occurs_free B x (EMvValues es).

(** [e] assigns the global variable [x]: by set! outside of the forms that bind [x], or
    by define-values. *)
Definition is_set (x : ident) (e : expr) : Prop := exists rhs, e = ESet x rhs.
Definition is_define (x : ident) (e : expr) : Prop := exists ids rhs, e = EDefine ids rhs /\ In x ids.
Definition assigns (x : ident) (e : expr) : Prop :=
  occurs_free (is_set x) x e \/ exists p, part_of p e /\ is_define x p.
(** [e] contains a procedure that does: calling it later changes the variable. *)
Definition assigns_later (x : ident) (e : expr) : Prop :=
  occurs_free (fun p => is_procedure p /\ occurs_free (is_set x) x p) x e \/
  exists p q, part_of p e /\ is_procedure p /\ part_of q p /\ is_define x q.

(** * Proofs *)
Lemma part_trans a b c : part_of a b -> part_of b c -> part_of a c.
Proof.
  intros A H. induction H; auto; try solve [econstructor; eauto].
Qed.

Section Frame.
  Variable prim : N -> list val -> heap -> option presult.
  Variable x : ident.

  (** Code that is run at once, and code that may only store procedures. *)
  Definition BM (strict : bool) : expr -> Prop :=
    if strict then is_set x else fun p => is_procedure p /\ occurs_free (is_set x) x p.
  Definition DM (strict : bool) (p : expr) : Prop :=
    if strict then is_define x p else is_procedure p /\ exists q, part_of q p /\ is_define x q.
  Definition quiet (m : bool) (r : lenv) (e : expr) : Prop :=
    (occurs_free (BM m) x e -> lookup_env x r <> None) /\ (forall p, part_of p e -> ~ DM m p).
  Definition quiet_store (s : store) : Prop :=
    forall l cls r, proc_ref l (procs_of s) = Some (PClo cls r) -> quiet true r (ECase cls).
  Definition same (s s1 : store) : Prop := glob_ref x (glob_of s1) = glob_ref x (glob_of s).

  Lemma quiet_part m r r' e p : quiet m r e -> part_of p e ->
    (occurs_free (BM m) x p -> lookup_env x r' <> None \/ occurs_free (BM m) x e /\ (lookup_env x r <> None -> lookup_env x r' <> None)) -> quiet m r' p.
  Proof.
    intros [A B] P F. split.
    - intros H. destruct (F H) as [|[H1 H2]]; auto.
    - intros q Q. apply B. eapply part_trans; eauto.
  Qed.
  Lemma quiet_same m r e p : quiet m r e -> part_of p e -> (occurs_free (BM m) x p -> occurs_free (BM m) x e) -> quiet m r p.
  Proof. intros C P F. apply (quiet_part m r r e p C P). auto. Qed.
  Lemma quiet_under m r r' xs e p : quiet m r e -> part_of p e ->
    (occurs_free (BM m) x p -> In x xs \/ occurs_free (BM m) x e) ->
    (In x xs \/ lookup_env x r <> None -> lookup_env x r' <> None) -> quiet m r' p.
  Proof. intros C P F L. apply (quiet_part m r r' e p C P). intros H. destruct (F H); auto. Qed.

  Lemma lam_clause r fm body : quiet true r (ELam fm body) -> quiet true r (ECase [(fm, body)]).
  Proof.
    intros [A B]. split.
    - intros H. apply A. inversion H; subst.
      + destruct H0 as [rhs H0]. discriminate.
      + match goal with H : In (_, _) [_] |- _ => destruct H as [H|[]]; injection H as <- <- end. eapply OfLam; eauto.
    - intros p P D. inversion P; subst.
      + destruct D as (ids & rhs & D & _). discriminate.
      + match goal with H : In (_, _) [_] |- _ => destruct H as [H|[]]; injection H as <- <- end. eapply B; eauto. eapply PaLam; eauto.
  Qed.
  Lemma quiet_proc m r e : is_procedure e -> quiet m r e -> quiet true r e.
  Proof.
    intros P [A B]. destruct m; [split; auto|]. split.
    - intros H. apply A. apply OfHere. split; auto.
    - intros p Q D. apply (B e); [constructor|]. split; eauto.
  Qed.
  Lemma store_clo s cls r v s1 : quiet_store s -> quiet true r (ECase cls) -> new_proc (PClo cls r) s = (v, s1) -> quiet_store s1 /\ same s s1.
  Proof.
    intros S0 Q H. injection H as <- <-. split; [|reflexivity]. intros l cls' r' H. simpl in H.
    destruct (Nat.eqb_spec (List.length (heap_of s)) l); [injection H as <- <-; auto|eauto].
  Qed.
  Lemma same_refl s : same s s.
  Proof. reflexivity. Qed.
  Lemma same_trans a b c : same a b -> same b c -> same a c.
  Proof. unfold same. congruence. Qed.
  Lemma same_glob s s1 : glob_of s1 = glob_of s -> same s s1.
  Proof. unfold same. congruence. Qed.
  Lemma same_set y v s : y <> x -> same s (set_glob y v s).
  Proof. intros N. unfold same. simpl. rewrite glob_set_ref. destruct (ident_eqb_spec y x); congruence. Qed.
  Lemma same_sets ys : forall vs s, ~ In x ys -> same s (set_globs ys vs s).
  Proof.
    induction ys as [|y ys IH]; intros [|v vs] s N; simpl in *; auto using same_refl.
    eapply same_trans; [apply same_set|apply IH]; tauto.
  Qed.
  Lemma procs_sets ys : forall vs s, procs_of (set_globs ys vs s) = procs_of s.
  Proof. induction ys as [|y ys IH]; intros [|v vs] s; simpl; auto. rewrite IH. auto. Qed.
  Lemma procs_cells ls : forall vs s, procs_of (set_cells ls vs s) = procs_of s.
  Proof. induction ls as [|y ys IH]; intros [|v vs] s; simpl; auto. rewrite IH. auto. Qed.
  Lemma quiet_procs s s1 : procs_of s1 = procs_of s -> quiet_store s -> quiet_store s1.
  Proof. intros E S0. unfold quiet_store. rewrite E. auto. Qed.

  Lemma clause_quiet s cls r fm body vs r1 s1 : quiet_store s -> quiet true r (ECase cls) ->
    select cls (List.length vs) = Some (fm, body) -> bind_clause fm vs r s = (r1, s1) ->
    quiet_store s1 /\ same s s1 /\ forall e, In e body -> quiet true r1 e.
  Proof.
    intros S0 CO SE BC. destruct (select_in _ _ _ SE) as [IN _].
    assert (P : forall e r', In e body -> (In x (params fm) \/ lookup_env x r <> None -> lookup_env x r' <> None) -> quiet true r' e).
    { intros e r' IE H. eapply (quiet_under true r r' (params fm)); eauto.
      - eapply PaCase; eauto. constructor.
      - intros Q. destruct (in_dec ident_dec x (params fm)); auto. right. eapply OfCase; eauto. }
    assert (GP : glob_of s1 = glob_of s /\ procs_of s1 = procs_of s).
    { unfold bind_clause in BC. destruct (rest fm); [destruct (new_list _ _)|]; injection BC as <- <-; auto. }
    destruct GP as [G PR]. split; [eapply quiet_procs; eauto|]. split; [apply same_glob; auto|].
    intros e IE. apply P; auto. unfold bind_clause in BC. unfold params. destruct (rest fm) as [y|]; [destruct (new_list _ _)|]; injection BC as <- <-; intros H.
    - simpl. destruct (ident_eqb_spec y x); [discriminate|]. apply lookup_bound. destruct H as [H|H]; auto. apply in_app_or in H as [H|[H|[]]]; auto.
    - rewrite app_nil_r in H. apply lookup_bound. auto.
  Qed.

  Notation goal m s s1 := (quiet_store s1 /\ (m = true -> same s s1)).
  Theorem frame_all :
    (forall t r s e y s1, eval prim t r s e y s1 -> forall m, quiet_store s -> quiet m r e -> goal m s s1) /\
    (forall t r s es y s1, evseq prim t r s es y s1 -> forall m, quiet_store s -> Forall (quiet m r) es -> goal m s s1) /\
    (forall t r s e y s1, eval1 prim t r s e y s1 -> forall m, quiet_store s -> quiet m r e -> goal m s s1) /\
    (forall t r s es y s1, evargs prim t r s es y s1 -> forall m, quiet_store s -> Forall (quiet m r) es -> goal m s s1) /\
    (forall t r s bs y s1, evbinds prim t r s bs y s1 -> forall m, quiet_store s -> (forall ids e, In (ids, e) bs -> quiet m r e) -> goal m s s1) /\
    (forall t r s k bs y s1, evrec prim t r s k bs y s1 -> forall m, quiet_store s -> (forall ids e, In (ids, e) bs -> quiet m r e) -> goal m s s1) /\
    (forall s f vs y s1, apply prim s f vs y s1 -> quiet_store s -> quiet_store s1 /\ same s s1).
  Proof.
    Ltac part := solve [constructor; constructor | econstructor; [|constructor]; simpl; eauto | econstructor; [| |constructor]; simpl; eauto].
    Ltac sub C := apply (quiet_same _ _ _ _ C); [part|intros; solve [econstructor; eauto; simpl; auto | econstructor; [|eassumption]; simpl; auto]].
    Ltac subs C := solve [sub C | apply Forall_forall; intros; sub C | intros; sub C | apply Forall_forall; intros; simpl in *; sub C].
    Ltac code := first [ assumption | match goal with C : quiet _ _ _ |- _ => subs C end | match goal with C : forall ids e, In _ _ -> quiet _ _ _ |- _ => solve [eapply C; simpl; eauto | intros; eapply C; simpl; eauto] end ].
    Ltac run m := match goal with
      | IH : (forall m, quiet_store ?s -> @?C m -> _), S0 : quiet_store ?s |- _ =>
          let S' := fresh "SO" in let R' := fresh "RO" in let HC := fresh in
          assert (HC : C m) by (cbv beta; code); cbv beta in HC; destruct (IH m S0 HC) as (S' & R'); clear IH HC
      | IH : (quiet_store ?s -> _), S0 : quiet_store ?s |- _ =>
          let S' := fresh "SO" in let R' := fresh "RO" in destruct (IH S0) as (S' & R'); clear IH
      end.
    Ltac split_code := repeat match goal with H : Forall (quiet _ _) (_ :: _) |- _ => inversion H; clear H; subst end.
    Ltac finish := split; [eauto 2 using quiet_procs|intros; subst; eauto 7 using same_refl, same_trans].
    Ltac go m := split_code; repeat run m; finish.
    apply eval_min_all; intros;
      try match goal with m : bool |- _ => solve [go m] end; try (solve [go true]).
    - (* EvDefine *) run m. split; [eapply quiet_procs; [apply procs_sets|auto]|]. intros ->. eapply same_trans; [apply RO; auto|]. apply same_sets.
      intros I. destruct H3 as [_ D]. apply (D (EDefine ids e)); [constructor|]. exists ids, e. auto.
    - (* EvSetGlobal *) run m. split; [exact SO|]. intros ->. eapply same_trans; [apply RO; auto|]. apply same_set.
      intros ->. destruct H4 as [D _]. apply D; auto. apply OfHere. exists e. auto.
    - (* EvSetGlobalIn *) run m. split; [exact SO|]. intros ->. eapply same_trans; [apply RO; auto|]. apply same_set.
      intros ->. destruct H3 as [D _]. apply D; auto. apply OfHere. exists e. auto.
    - (* EvLam *) apply (quiet_proc m) in H1; [|exact Logic.I]. destruct (store_clo _ _ _ _ _ H0 (lam_clause _ _ _ H1) H). auto.
    - (* EvCase *) apply (quiet_proc m) in H2; [|exact H]. destruct (store_clo _ _ _ _ _ H1 H2 H0). auto.
    - (* EvMvLet *) run m. destruct (H3 m) as [S1 R1]; [exact SO| |split; auto; intros ->; eapply same_trans; [apply RO; auto|apply R1; auto]].
      apply (quiet_under m r _ xs _ _ H5); [part| |intros; apply lookup_bound; auto].
      intros Q. destruct (in_dec ident_dec x xs) as [|N]; auto. right. apply OfMvLet; auto. unfold params. simpl. rewrite app_nil_r. auto.
    - (* EvLet *) run m. destruct (H2 m) as [S1 R1]; [exact SO| |split; auto; intros ->; eapply same_trans; [apply RO; auto|apply R1; auto]].
      apply Forall_forall. intros e IN. apply (quiet_under m r _ (bound_by bs) _ _ H4); [eapply PaLet; eauto; constructor| |intros; apply lookup_bound; auto].
      intros Q. destruct (in_dec ident_dec x (bound_by bs)) as [|N]; auto. right. eapply OfLet; eauto.
    - (* EvLetrec *) subst. destruct (H2 m) as [S1 R1]; [exact H5| |].
      { intros ids e IN. apply (quiet_under m r _ (bound_by bs) _ _ H6); [eapply PaLetrecB; eauto; constructor| |intros; apply lookup_bound; auto].
        intros Q. destruct (in_dec ident_dec x (bound_by bs)) as [|N]; auto. right. eapply OfLetrecB; eauto. }
      destruct (H4 m) as [S2 R2]; [exact S1| |split; auto; intros ->; eapply same_trans; [apply R1; auto|apply R2; auto]].
      apply Forall_forall. intros e IN. apply (quiet_under m r _ (bound_by bs) _ _ H6); [eapply PaLetrec; eauto; constructor| |intros; apply lookup_bound; auto].
      intros Q. destruct (in_dec ident_dec x (bound_by bs)) as [|N]; auto. right. eapply OfLetrec; eauto.
    - (* EvLetrecErr *) subst. destruct (H2 m) as [S1 R1]; [exact H3| |auto].
      intros ids e IN. apply (quiet_under m r _ (bound_by bs) _ _ H4); [eapply PaLetrecB; eauto; constructor| |intros; apply lookup_bound; auto].
      intros Q. destruct (in_dec ident_dec x (bound_by bs)) as [|N]; auto. right. eapply OfLetrecB; eauto.
    - (* EsCons *) split_code. run m. destruct (H2 m) as [S2 R2]; auto. split; auto. intros ->. eapply same_trans; [apply RO; auto|apply R2; auto].
    - (* ErCons *) run m. destruct (H3 m) as [S2 R2]; [eapply quiet_procs; [apply procs_cells|auto]|intros; eapply H5; simpl; eauto|].
      split; auto. intros ->. eapply same_trans; [apply RO; auto|]. eapply same_trans; [apply same_glob; eapply kept_cells|apply R2; auto].
    - (* ApClo *) destruct f; try discriminate. assert (CO := H4 _ _ _ H). destruct (clause_quiet _ _ _ _ _ _ _ _ H4 CO H0 H1) as (S1 & R1 & C1).
      destruct (H3 true) as [S2 R2]; auto; [apply Forall_forall; auto|]. split; auto. eapply same_trans; eauto.
    - (* ApPrim *) split; [exact H2|reflexivity].
    - (* ApPrimErr *) split; [exact H2|reflexivity].
  Qed.
End Frame.
