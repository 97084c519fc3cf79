(** The semantics of Sem.v is deterministic. *)
From Coq Require Import ZArith NArith Bool Ascii String List Arith Lia.
From Verif Require Import Base Heap HeapM Ast Sem OptProofs.
Import ListNotations.
Local Open Scope list_scope.

Lemma list_at_one h v xs : list_at h v xs -> forall ys, list_at h v ys -> xs = ys.
Proof.
  induction 1 as [|l x d xs N L IH]; intros ys H; inversion H; subst; auto.
  rewrite N in *. match goal with H : Some _ = Some _ |- _ => injection H as <- <- end. f_equal. auto.
Qed.
Lemma list_at_proper h v xs : list_at h v xs -> improper h v -> False.
Proof.
  induction 1 as [|l x d xs N L IH]; intros H; inversion H; subst; try congruence.
  - simpl in *. discriminate.
  - simpl in *. rewrite N in *. discriminate.
  - simpl in *. rewrite N in *. match goal with H : Some _ = Some _ |- _ => injection H as <- <- end. auto.
Qed.

Section Fun.
  Variable prim : N -> list val -> heap -> option presult.
  Notation eval := (eval prim).
  Notation evseq := (evseq prim).
  Notation eval1 := (eval1 prim).
  Notation evargs := (evargs prim).
  Notation evbinds := (evbinds prim).
  Notation evrec := (evrec prim).
  Notation apply := (apply prim).

  Ltac inj := repeat match goal with
    | H : _ /\ _ |- _ => destruct H
    | H : Some _ = Some _ |- _ => injection H as H; try subst
    | H : RVals _ = RVals _ |- _ => injection H as H; try subst
    | H : RErr _ = RErr _ |- _ => injection H as H; try subst
    | H : inl _ = inl _ |- _ => injection H as H; try subst
    | H : inr _ = inr _ |- _ => injection H as H; try subst
    | H : [_] = [_] |- _ => injection H as H; try subst
    | H : (_, _) = (_, _) |- _ => injection H as H; try subst
    end.
  Ltac use := match goal with
    | IH : forall x' s1', ?R ?t ?r ?s ?e x' s1' -> _ , H : ?R ?t ?r ?s ?e ?y ?s2 |- _ => destruct (IH _ _ H); clear H; subst; inj
    | IH : forall x' s1', ?R ?t ?r ?s ?k ?e x' s1' -> _ , H : ?R ?t ?r ?s ?k ?e ?y ?s2 |- _ => destruct (IH _ _ H); clear H; subst; inj
    | IH : forall x' s1', ?R ?s ?f ?vs x' s1' -> _ , H : ?R ?s ?f ?vs ?y ?s2 |- _ => destruct (IH _ _ H); clear H; subst; inj
    | A : ?x = _, B : ?x = _ |- _ => rewrite A in B; try discriminate; inj
    end.
  Ltac fin := try discriminate; try contradiction; try congruence; auto; try (exfalso; simpl in *; lia).
  Ltac go := intros; match goal with H : _ |- _ => inversion H; subst; clear H end; inj; fin; repeat (use; fin); fin.

  Theorem eval_fun_all :
    (forall t r s e x s1, eval t r s e x s1 -> forall x' s1', eval t r s e x' s1' -> x = x' /\ s1 = s1') /\
    (forall t r s es x s1, evseq t r s es x s1 -> forall x' s1', evseq t r s es x' s1' -> x = x' /\ s1 = s1') /\
    (forall t r s e x s1, eval1 t r s e x s1 -> forall x' s1', eval1 t r s e x' s1' -> x = x' /\ s1 = s1') /\
    (forall t r s es x s1, evargs t r s es x s1 -> forall x' s1', evargs t r s es x' s1' -> x = x' /\ s1 = s1') /\
    (forall t r s bs x s1, evbinds t r s bs x s1 -> forall x' s1', evbinds t r s bs x' s1' -> x = x' /\ s1 = s1') /\
    (forall t r s k bs x s1, evrec t r s k bs x s1 -> forall x' s1', evrec t r s k bs x' s1' -> x = x' /\ s1 = s1') /\
    (forall s f vs x s1, apply s f vs x s1 -> forall x' s1', apply s f vs x' s1' -> x = x' /\ s1 = s1').
  Proof.
    apply eval_min_all; try (go; fail).
    - intros t r s x v L G N x' s1' H. inversion H; subst; try congruence; [split; congruence|].
      exfalso. destruct H5; congruence.
    - intros t r s x L G x' s1' H. inversion H; subst; try congruence; auto. exfalso. destruct G; congruence.
    - intros s f g mid l elems x s1 P G L A IH x' s1' H. inversion H; subst; try congruence; try (rewrite P in *; discriminate).
      + match goal with E : _ :: _ = _ :: _ |- _ => idtac | E : _ ++ [_] = _ ++ [_] |- _ => apply app_inj_tail in E; destruct E; subst end.
        assert (elems = elems0) by (eapply list_at_one; eauto). subst. auto.
      + exfalso. simpl in *. rewrite app_length in *. simpl in *. lia.
      + match goal with E : _ ++ [_] = _ ++ [_] |- _ => apply app_inj_tail in E; destruct E; subst end.
        exfalso. eapply list_at_proper; eauto.
    - intros s f vs P L x' s1' H. inversion H; subst; try congruence; try (rewrite P in *; discriminate); auto.
      + exfalso. simpl in *. rewrite app_length in *. simpl in *. lia.
      + exfalso. simpl in *. destruct vs0; [congruence|simpl in *; lia].
      + exfalso. simpl in *. rewrite app_length in *. simpl in *. lia.
    - intros s f g vs P G N x' s1' H. inversion H; subst; try congruence; try (rewrite P in *; discriminate); auto.
      exfalso. destruct vs; [congruence|simpl in *; lia].
    - intros s f g mid l P G I x' s1' H. inversion H; subst; try congruence; try (rewrite P in *; discriminate).
      + match goal with E : _ ++ [_] = _ ++ [_] |- _ => apply app_inj_tail in E; destruct E; subst end.
        exfalso. eapply list_at_proper; eauto.
      + exfalso. simpl in *. rewrite app_length in *. simpl in *. lia.
      + match goal with E : _ ++ [_] = _ ++ [_] |- _ => apply app_inj_tail in E; destruct E; subst end. auto.
  Qed.
  Theorem eval_fun t r s e x s1 x' s1' : eval t r s e x s1 -> eval t r s e x' s1' -> x = x' /\ s1 = s1'.
  Proof. intros H. apply (proj1 eval_fun_all _ _ _ _ _ _ H). Qed.
End Fun.
