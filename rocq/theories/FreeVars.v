(** Specification and lemmas for the analysis of variables
    (src/core/c/jitanalyze.c). *)
From Coq Require Import ZArith NArith Bool Ascii String List Arith Lia.
From Verif Require Import Base Heap Ast.
Import ListNotations.
Local Open Scope list_scope.

(** The core forms: what is left after the optimisation passes. *)
Fixpoint core (e : expr) : bool :=
  match e with
  | EConst _ | EUnbound | EVar _ => true
  | EDefine _ e | ESet _ e => core e
  | ELam _ body => forallb core body
  | ECase cls => forallb (fun c => forallb core (snd c)) cls
  | EBegin es | EMvValues es => forallb core es
  | EIf a b c => core a && core b && core c
  | EApp f es => core f && forallb core es
  | EMvCall p c => core p && core c
  | EMvLet e _ b => core e && core b
  | ELet _ _ | ELetrec _ _ | EValues _ | ECwv _ _ => false
  end.

(** No definition occurs inside the expression. *)
Fixpoint no_define (e : expr) : bool :=
  match e with
  | EConst _ | EUnbound | EVar _ => true
  | EDefine _ _ => false
  | ESet _ e => no_define e
  | ELam _ body => forallb no_define body
  | ECase cls => forallb (fun c => forallb no_define (snd c)) cls
  | EBegin es | EMvValues es => forallb no_define es
  | EIf a b c => no_define a && no_define b && no_define c
  | EApp f es => no_define f && forallb no_define es
  | EMvCall p c => no_define p && no_define c
  | EMvLet e _ b => no_define e && no_define b
  | ELet _ _ | ELetrec _ _ | EValues _ | ECwv _ _ => true
  end.

(** The parameters of a clause or of mv-let. *)
Definition param (x : ident) (fm : formals) : Prop := In x (req fm) \/ rest fm = Some x.

(** Lexical scoping: [x] occurs free.  Only procedures and mv-let bind local
    variables; define-values assigns global ones. *)
Inductive free_in (x : ident) : expr -> Prop :=
| FrVar : free_in x (EVar x)
| FrDefine ids e : free_in x e -> free_in x (EDefine ids e)
| FrSetVar e : free_in x (ESet x e)
| FrSet y e : free_in x e -> free_in x (ESet y e)
| FrLam fm body e : In e body -> free_in x e -> ~ param x fm -> free_in x (ELam fm body)
| FrCase cls fm body e : In (fm, body) cls -> In e body -> free_in x e -> ~ param x fm -> free_in x (ECase cls)
| FrBegin es e : In e es -> free_in x e -> free_in x (EBegin es)
| FrIf1 a b c : free_in x a -> free_in x (EIf a b c)
| FrIf2 a b c : free_in x b -> free_in x (EIf a b c)
| FrIf3 a b c : free_in x c -> free_in x (EIf a b c)
| FrAppF f es : free_in x f -> free_in x (EApp f es)
| FrAppA f es e : In e es -> free_in x e -> free_in x (EApp f es)
| FrMvCallP p c : free_in x p -> free_in x (EMvCall p c)
| FrMvCallC p c : free_in x c -> free_in x (EMvCall p c)
| FrMvLetE e fm b : free_in x e -> free_in x (EMvLet e fm b)
| FrMvLetB e fm b : free_in x b -> ~ param x fm -> free_in x (EMvLet e fm b)
| FrMvValues es e : In e es -> free_in x e -> free_in x (EMvValues es).

(** ** Lemmas *)
Lemma formals_ids_param x fm : In x (formals_ids fm) <-> param x fm.
Proof.
  unfold formals_ids, param. rewrite in_app_iff. destruct (rest fm) as [y|]; simpl; split; intros [H|H]; auto.
  - destruct H as [->|[]]; auto.
  - injection H as ->. auto.
  - destruct H.
  - discriminate.
Qed.

Lemma merge_loop_In x xs1 xs2 fvs :
  In x (merge_loop xs1 xs2 fvs) <-> In x fvs \/ (In x xs1 /\ ~ In x xs2).
Proof.
  revert fvs. induction xs1 as [|y r IH]; intros fvs; simpl; [tauto|].
  rewrite IH. destruct (memb y xs2) eqn:E.
  - apply memb_In in E. split; [tauto|]. intros [H|[[->|H] N]]; tauto.
  - apply memb_false in E. simpl. split.
    + intros [[->|H]|H]; tauto.
    + intros [H|[[->|H] N]]; tauto.
Qed.

Lemma merge_fvs_In x xs1 xs2 : In x (merge_fvs xs1 xs2) <-> In x xs1 \/ In x xs2.
Proof.
  unfold merge_fvs. rewrite merge_loop_In. split; [tauto|].
  intros [H|H]; [|tauto]. destruct (in_dec ident_dec x xs2); tauto.
Qed.

Lemma remove_loop_In x ks fvs acc :
  In x (remove_loop ks fvs acc) <-> In x acc \/ (In x fvs /\ ~ In x ks).
Proof.
  revert acc. induction fvs as [|y r IH]; intros acc; simpl; [tauto|].
  rewrite IH. destruct (memb y ks) eqn:E.
  - apply memb_In in E. split; [tauto|]. intros [H|[[->|H] N]]; tauto.
  - apply memb_false in E. simpl. split.
    + intros [[->|H]|H]; tauto.
    + intros [H|[[->|H] N]]; tauto.
Qed.

Lemma remove_fvs_In x ks fvs : In x (remove_fvs ks fvs) <-> In x fvs /\ ~ In x ks.
Proof. unfold remove_fvs. rewrite remove_loop_In. simpl. tauto. Qed.

Lemma merge_loop_NoDup xs1 xs2 fvs :
  NoDup xs1 -> NoDup fvs -> (forall x, In x fvs -> In x xs1 -> In x xs2) -> NoDup (merge_loop xs1 xs2 fvs).
Proof.
  revert fvs. induction xs1 as [|y r IH]; intros fvs N1 N2 D; simpl; auto.
  inversion N1; subst. apply IH; auto.
  - destruct (memb y xs2) eqn:E; auto. apply memb_false in E. constructor; auto.
    intros I. apply E, D; simpl; auto.
  - intros x I1 I2. destruct (memb y xs2); [apply D; simpl; auto|].
    destruct I1 as [->|I1]; [contradiction|]. apply D; simpl; auto.
Qed.

Lemma merge_fvs_NoDup xs1 xs2 : NoDup xs1 -> NoDup xs2 -> NoDup (merge_fvs xs1 xs2).
Proof. intros. apply merge_loop_NoDup; auto. Qed.

Lemma remove_loop_NoDup ks fvs acc :
  NoDup fvs -> NoDup acc -> (forall x, In x fvs -> ~ In x acc) -> NoDup (remove_loop ks fvs acc).
Proof.
  revert acc. induction fvs as [|y r IH]; intros acc N1 N2 D; simpl; auto.
  inversion N1; subst. apply IH; auto.
  - destruct (memb y ks); auto. constructor; auto. apply D; simpl; auto.
  - intros x I J. destruct (memb y ks).
    + exact (D x (or_intror I) J).
    + destruct J as [->|J]; [contradiction|]. exact (D x (or_intror I) J).
Qed.

Lemma remove_fvs_NoDup ks fvs : NoDup fvs -> NoDup (remove_fvs ks fvs).
Proof. intros. apply remove_loop_NoDup; auto. constructor. Qed.

(** Unfolding the analysis. *)
Lemma fv_begin es : free_vars (EBegin es) = free_vars_seq es [].
Proof.
  cbn [free_vars]. generalize (@nil ident) as acc. induction es as [|e r IH]; intros acc; simpl; auto.
Qed.
Lemma fv_seq_fix es acc :
  (fix seq (es : list expr) (fvs : list ident) : list ident :=
     match es with [] => fvs | x :: r => seq r (merge_fvs (free_vars x) fvs) end) es acc = free_vars_seq es acc.
Proof. revert acc. induction es; intros; simpl; auto. Qed.
Lemma fv_lam fm body : free_vars (ELam fm body) = clause_fvs (fm, body).
Proof. cbn [free_vars]. unfold clause_fvs. cbn [fst snd]. rewrite fv_seq_fix. reflexivity. Qed.
Lemma fv_case cls : free_vars (ECase cls) = free_vars_clauses cls [].
Proof.
  cbn [free_vars].
  assert (G : forall acc, (fix go (cls : list (formals * list expr)) (fvs : list ident) : list ident :=
    match cls with
    | [] => fvs
    | (fm, body) :: r => go r (merge_fvs (remove_fvs (formals_ids fm)
        ((fix seq (es : list expr) (fvs : list ident) : list ident :=
            match es with [] => fvs | x :: r => seq r (merge_fvs (free_vars x) fvs) end) body [])) fvs)
    end) cls acc = free_vars_clauses cls acc); [|apply G].
  induction cls as [|[fm body] r IH]; intros acc; [reflexivity|].
  cbn [free_vars_clauses]. rewrite <- IH. unfold clause_fvs. cbn [fst snd]. rewrite <- (fv_seq_fix body []). reflexivity.
Qed.
Lemma fv_app f es : free_vars (EApp f es) = free_vars_seq es (free_vars f).
Proof. cbn [free_vars]. apply fv_seq_fix. Qed.
Lemma fv_mvvalues es : free_vars (EMvValues es) = free_vars_seq es [].
Proof. cbn [free_vars]. apply fv_seq_fix. Qed.
Lemma fv_mvcall p c : free_vars (EMvCall p c) = free_vars_seq [p; c] [].
Proof. reflexivity. Qed.
Lemma fv_if a b c : free_vars (EIf a b c) = free_vars_seq [a; b; c] [].
Proof. reflexivity. Qed.

Lemma fv_seq_In x es acc : In x (free_vars_seq es acc) <-> In x acc \/ exists e, In e es /\ In x (free_vars e).
Proof.
  revert acc. induction es as [|e r IH]; intros acc; simpl.
  - split; [tauto|]. intros [H|[e [[] _]]]; auto.
  - rewrite IH, merge_fvs_In. split.
    + intros [[H|H]|[e' [I H]]]; eauto.
    + intros [H|[e' [[->|I] H]]]; eauto.
Qed.

Lemma fv_clauses_In x cls acc :
  In x (free_vars_clauses cls acc) <-> In x acc \/ exists c, In c cls /\ In x (clause_fvs c).
Proof.
  revert acc. induction cls as [|c r IH]; intros acc; simpl.
  - split; [tauto|]. intros [H|[c [[] _]]]; auto.
  - rewrite IH, merge_fvs_In. split.
    + intros [[H|H]|[e' [I H]]]; eauto.
    + intros [H|[e' [[->|I] H]]]; eauto.
Qed.

Lemma clause_fvs_In x c :
  In x (clause_fvs c) <-> (exists e, In e (snd c) /\ In x (free_vars e)) /\ ~ param x (fst c).
Proof.
  unfold clause_fvs. rewrite remove_fvs_In, fv_seq_In, formals_ids_param. simpl.
  split; intros [H N]; split; auto. destruct H as [[]|H]; auto.
Qed.

Lemma fv_seq_NoDup es acc : Forall (fun e => NoDup (free_vars e)) es -> NoDup acc -> NoDup (free_vars_seq es acc).
Proof.
  revert acc. induction es as [|e r IH]; intros acc F N; simpl; auto.
  inversion F; subst. apply IH; auto. apply merge_fvs_NoDup; auto.
Qed.

Lemma free_vars_NoDup e : NoDup (free_vars e).
Proof.
  induction e using expr_ind'; try (simpl; constructor; fail).
  - simpl. constructor; [simpl; tauto|constructor].
  - simpl. apply remove_fvs_NoDup; auto.
  - simpl. apply merge_fvs_NoDup; auto. apply merge_fvs_NoDup; [|constructor].
    constructor; [simpl; tauto|constructor].
  - rewrite fv_lam. apply remove_fvs_NoDup. apply fv_seq_NoDup; auto. constructor.
  - rewrite fv_case. assert (G : forall acc, NoDup acc -> NoDup (free_vars_clauses cls acc)).
    { induction cls as [|c r IH]; intros acc N; simpl; auto. inversion H; subst.
      apply IH; auto. apply merge_fvs_NoDup; auto. apply remove_fvs_NoDup. apply fv_seq_NoDup; auto. constructor. }
    apply G. constructor.
  - rewrite fv_begin. apply fv_seq_NoDup; auto. constructor.
  - rewrite fv_if. apply fv_seq_NoDup; auto. constructor.
  - rewrite fv_app. apply fv_seq_NoDup; auto.
  - rewrite fv_mvcall. apply fv_seq_NoDup; auto. constructor.
  - simpl. apply merge_fvs_NoDup; auto. apply remove_fvs_NoDup; auto.
  - rewrite fv_mvvalues. apply fv_seq_NoDup; auto. constructor.
Qed.

Lemma free_vars_sound e : forall x, In x (free_vars e) -> free_in x e.
Proof.
  induction e using expr_ind'; intros y I; try (destruct I; fail).
  - simpl in I. destruct I as [->|[]]. constructor.
  - simpl in I. apply remove_fvs_In in I. destruct I. constructor. auto.
  - cbn [free_vars] in I. rewrite !merge_fvs_In in I. simpl in I.
    destruct I as [I|[[->|[]]|[]]]; [apply FrSet; auto|apply FrSetVar].
  - rewrite fv_lam in I. apply clause_fvs_In in I. destruct I as [[e [I1 I2]] N]. cbn [fst snd] in *.
    rewrite Forall_forall in H. eapply FrLam; eauto.
  - rewrite fv_case in I. apply fv_clauses_In in I. destruct I as [[]|[[fm body] [I1 I2]]].
    apply clause_fvs_In in I2. destruct I2 as [[e [I2 I3]] N]. cbn [fst snd] in *.
    rewrite Forall_forall in H. specialize (H _ I1). cbn [snd] in H. rewrite Forall_forall in H.
    eapply FrCase; eauto.
  - rewrite fv_begin in I. apply fv_seq_In in I. destruct I as [[]|[e [I1 I2]]].
    rewrite Forall_forall in H. eapply FrBegin; eauto.
  - rewrite fv_if in I. apply fv_seq_In in I. destruct I as [[]|[e [I1 I2]]].
    destruct I1 as [<-|[<-|[<-|[]]]]; [apply FrIf1|apply FrIf2|apply FrIf3]; auto.
  - rewrite fv_app in I. apply fv_seq_In in I. destruct I as [I|[e' [I1 I2]]]; [apply FrAppF; auto|].
    rewrite Forall_forall in H. eapply FrAppA; eauto.
  - rewrite fv_mvcall in I. apply fv_seq_In in I. destruct I as [[]|[e [I1 I2]]].
    destruct I1 as [<-|[<-|[]]]; [apply FrMvCallP|apply FrMvCallC]; auto.
  - cbn [free_vars] in I. rewrite merge_fvs_In, remove_fvs_In, formals_ids_param in I.
    destruct I as [[I N]|I]; [apply FrMvLetB|apply FrMvLetE]; auto.
  - rewrite fv_mvvalues in I. apply fv_seq_In in I. destruct I as [[]|[e [I1 I2]]].
    rewrite Forall_forall in H. eapply FrMvValues; eauto.
Qed.

Ltac split_bools := repeat match goal with H : _ && _ = true |- _ => apply andb_prop in H; destruct H end.

Lemma free_vars_complete x e : free_in x e -> no_define e = true -> In x (free_vars e).
Proof.
  induction 1; simpl no_define; intros D; split_bools;
    try (rewrite fv_if; apply fv_seq_In; right; eexists; split; [|eauto]; simpl; tauto).
  - simpl. auto.
  - discriminate.
  - cbn [free_vars]. rewrite !merge_fvs_In. simpl. tauto.
  - cbn [free_vars]. rewrite !merge_fvs_In. auto.
  - rewrite fv_lam. apply clause_fvs_In. cbn [fst snd]. split; auto.
    rewrite forallb_forall in D. exists e; auto.
  - rewrite fv_case. apply fv_clauses_In. right. exists (fm, body); split; auto.
    apply clause_fvs_In. cbn [fst snd]. split; auto.
    rewrite forallb_forall in D. specialize (D _ H). cbn [snd] in D. rewrite forallb_forall in D. eauto.
  - rewrite fv_begin. apply fv_seq_In. right. rewrite forallb_forall in D. eauto.
  - rewrite fv_app. apply fv_seq_In. auto.
  - rewrite fv_app. apply fv_seq_In. right. rewrite forallb_forall in H2. eauto.
  - rewrite fv_mvcall. apply fv_seq_In. right. exists p. simpl. auto.
  - rewrite fv_mvcall. apply fv_seq_In. right. exists c. simpl. auto.
  - cbn [free_vars]. rewrite merge_fvs_In. auto.
  - cbn [free_vars]. rewrite merge_fvs_In, remove_fvs_In, formals_ids_param. auto.
  - rewrite fv_mvvalues. apply fv_seq_In. right. rewrite forallb_forall in D. eauto.
Qed.
