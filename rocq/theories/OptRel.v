(** States before and after optimisation.

    The optimised program does not allocate the same objects as the original one:
    procedures that are called at once are never created, and new variables hold
    intermediate results.  So the two executions are compared up to a renaming of
    addresses. *)
From Coq Require Import ZArith NArith Bool Ascii String List Arith Lia.
From Verif Require Import Base Heap HeapM Ast Sem Opt.
Import ListNotations.
Local Open Scope list_scope.

(** ** Renaming addresses *)

(** [h l = Some l']: the object at [l] before corresponds to the object at [l']. *)
Definition renaming := nat -> option nat.
Definition injective (h : renaming) : Prop := forall l1 l2 l', h l1 = Some l' -> h l2 = Some l' -> l1 = l2.
Definition extends (h h' : renaming) : Prop := forall l l', h l = Some l' -> h' l = Some l'.

(** The same value up to renaming.  [u]: the mark of uninitialised variables may
    occur as a value. *)
Definition vrel (u : bool) (h : renaming) (v v' : val) : Prop :=
  match v with
  | VPtr l => match h l with Some l' => v' = VPtr l' | None => False end
  | VUnbound => u = true /\ v' = VUnbound
  | _ => v' = v
  end.
Definition vsrel u h := Forall2 (vrel u h).
Definition crel (u : bool) (h : renaming) (c c' : cell) : Prop :=
  match c, c' with
  | CPair a d, CPair a' d' => vrel u h a a' /\ vrel u h d d'
  | CVec xs, CVec xs' => vsrel u h xs xs'
  | CStr b, CStr b' => b = b'
  | CBox v, CBox v' => vrel u h v v'
  | CRec t xs, CRec t' xs' => vrel u h t t' /\ vsrel u h xs xs'
  | CHash n, CHash n' => n = n'
  | CSyntax e l, CSyntax e' l' => vrel u h e e' /\ vrel u h l l'
  | COther n, COther n' => n = n'
  | _, _ => False
  end.
Definition hrel (u : bool) (h : renaming) (a b : heap) : Prop :=
  forall l l', h l = Some l' -> exists c c', nth_error a l = Some c /\ nth_error b l' = Some c' /\ crel u h c c'.

Definition herel (u : bool) (h : renaming) (e e' : herr) : Prop :=
  match e, e' with
  | EArg w v, EArg w' v' => w = w' /\ vrel u h v v'
  | ERange w v, ERange w' v' => w = w' /\ vrel u h v v'
  | HeapM.EUnbound x, HeapM.EUnbound x' => x = x'
  | EArity w, EArity w' => w = w'
  | EOther w vs, EOther w' vs' => w = w' /\ vsrel u h vs vs'
  | _, _ => False
  end.
(** Errors about numbers of arguments or results are not compared. *)
Definition errrel (u : bool) (h : renaming) (y y' : err) : Prop :=
  match y, y' with
  | ErrInit x, ErrInit x' => x = x'
  | ErrNotProc v, ErrNotProc v' => vrel u h v v'
  | ErrApply v, ErrApply v' => vrel u h v v'
  | ErrPrim e, ErrPrim e' => herel u h e e'
  | _, _ => False
  end.
Definition rrel (u : bool) (h : renaming) (x x' : res) : Prop :=
  match x, x' with
  | RVals vs, RVals vs' => vsrel u h vs vs'
  | RErr y, RErr y' => errrel u h y y'
  | _, _ => False
  end.
Definition count_err (y : err) : bool := match y with ErrArity _ _ | ErrResults _ _ => true | _ => false end.
Definition count_error (x : res) : bool := match x with RErr y => count_err y | RVals _ => false end.

Definition orel {A B} (R : A -> B -> Prop) (a : option A) (b : option B) : Prop :=
  match a, b with
  | Some x, Some y => R x y
  | None, None => True
  | _, _ => False
  end.

(** What is assumed of the primitives: they do not depend on addresses, they
    allocate new objects but move or free none. *)
Definition presult_heap (p : presult) : heap := match p with PrimVal _ h | PrimErr _ h => h end.
Definition prel_result u h (p p' : presult) : Prop :=
  match p, p' with
  | PrimVal v _, PrimVal v' _ => vrel u h v v'
  | PrimErr e _, PrimErr e' _ => herel u h e e'
  | _, _ => False
  end.
Definition allocates (prim : N -> list val -> heap -> option presult) : Prop :=
  forall p vs a q, prim p vs a = Some q -> List.length a <= List.length (presult_heap q).
Definition address_free (prim : N -> list val -> heap -> option presult) : Prop :=
  forall u h a b p vs vs' q,
    injective h -> hrel u h a b -> vsrel u h vs vs' -> prim p vs a = Some q ->
    exists q' h', prim p vs' b = Some q' /\ prel_result u h' q q' /\
      hrel u h' (presult_heap q) (presult_heap q') /\ injective h' /\ extends h h' /\
      (forall l l', h' l = Some l' -> h l = Some l' \/ (List.length a <= l /\ List.length b <= l')).

(** ** Facts *)
Lemma vrel_mono u h h' v v' : extends h h' -> vrel u h v v' -> vrel u h' v v'.
Proof. intros E. destruct v; simpl; auto. destruct (h l) eqn:Q; [|tauto]. rewrite (E _ _ Q). auto. Qed.
Lemma vsrel_mono u h h' vs vs' : extends h h' -> vsrel u h vs vs' -> vsrel u h' vs vs'.
Proof. intros E H. induction H; constructor; eauto using vrel_mono. Qed.
Lemma crel_mono u h h' c c' : extends h h' -> crel u h c c' -> crel u h' c c'.
Proof.
  intros E. destruct c, c'; simpl; auto; intuition eauto using vrel_mono, vsrel_mono.
Qed.
Lemma herel_mono u h h' e e' : extends h h' -> herel u h e e' -> herel u h' e e'.
Proof. intros E. destruct e, e'; simpl; auto; intuition eauto using vrel_mono, vsrel_mono. Qed.
Lemma errrel_mono u h h' e e' : extends h h' -> errrel u h e e' -> errrel u h' e e'.
Proof. intros E. destruct e, e'; simpl; auto; eauto using vrel_mono, herel_mono. Qed.
Lemma rrel_mono u h h' x x' : extends h h' -> rrel u h x x' -> rrel u h' x x'.
Proof. intros E. destruct x, x'; simpl; auto; eauto using vsrel_mono, errrel_mono. Qed.
Lemma extends_refl h : extends h h.
Proof. red; auto. Qed.
Lemma extends_trans a b c : extends a b -> extends b c -> extends a c.
Proof. unfold extends; auto. Qed.
Lemma vsrel_length u h vs vs' : vsrel u h vs vs' -> List.length vs' = List.length vs.
Proof. induction 1; simpl; auto. Qed.
Lemma vsrel_app u h a a' b b' : vsrel u h a a' -> vsrel u h b b' -> vsrel u h (a ++ b) (a' ++ b').
Proof. intros. apply Forall2_app; auto. Qed.

Lemma list_at_rel u h a b v v' xs : hrel u h a b -> vrel u h v v' -> list_at a v xs -> exists xs', list_at b v' xs' /\ vsrel u h xs xs'.
Proof.
  intros H V L. revert v' V. induction L as [|l x d xs N L IH]; intros v' V.
  - simpl in V. subst. exists []. split; constructor.
  - simpl in V. destruct (h l) as [l'|] eqn:Q; [|tauto]. subst v'. destruct (H _ _ Q) as [c [c' [N1 [N2 C]]]].
    rewrite N in N1. injection N1 as <-. destruct c'; simpl in C; try tauto. destruct C as [C1 C2].
    destruct (IH _ C2) as [xs' [L' F]]. exists (a0 :: xs'). split; econstructor; eauto.
Qed.
Lemma improper_rel u h a b v v' : hrel u h a b -> vrel u h v v' -> improper a v -> improper b v'.
Proof.
  intros H V I. revert v' V. induction I as [v P N|v x d P I IH]; intros v' V.
  - apply ImpEnd.
    + destruct v; simpl in V; try (subst v'; auto; fail); [destruct V; subst; auto|].
      destruct (h l) as [l'|] eqn:Q; [|tauto]. subst v'. destruct (H _ _ Q) as [c [c' [N1 [N2 C]]]].
      simpl in *. rewrite N1 in P. rewrite N2. destruct c, c'; simpl in C; try tauto; discriminate.
    + destruct v; simpl in V; try congruence; [destruct V; congruence|]. destruct (h l); [congruence|tauto].
  - destruct v; try discriminate. simpl in V. destruct (h l) as [l'|] eqn:Q; [|tauto]. subst v'.
    destruct (H _ _ Q) as [c [c' [N1 [N2 C]]]]. simpl in P. rewrite N1 in P. destruct c; try discriminate. injection P as -> ->.
    destruct c'; simpl in C; try tauto. destruct C as [C1 C2]. eapply ImpCons; [simpl; rewrite N2; reflexivity|auto].
Qed.

Lemma lookup_bind_env_not x xs n r : ~ In x xs -> lookup_env x (bind_env xs n r) = lookup_env x r.
Proof.
  revert n r. induction xs as [|y ys IH]; intros n r N; simpl; auto. rewrite IH; [|intros I; apply N; right; auto]. simpl.
  destruct (ident_eqb_spec y x); auto. subst. destruct N. left. auto.
Qed.
Lemma lookup_bind_env_in x xs n r : In x xs -> exists k, lookup_env x (bind_env xs n r) = Some (n + k) /\ nth_error xs k = Some x.
Proof.
  revert n r. induction xs as [|y ys IH]; intros n r I; [destruct I|]. simpl.
  destruct (in_dec ident_dec x ys) as [J|J].
  - destruct (IH (S n) ((y, n) :: r) J) as [k [A B]]. exists (S k). rewrite A. split; auto. f_equal. lia.
  - rewrite lookup_bind_env_not; auto. simpl. destruct I as [->|I]; [|tauto]. rewrite ident_eqb_refl. exists 0. split; auto.
Qed.
(** The position does not depend on the environment. *)
Lemma lookup_bind_env_shift x xs n r n' r' k :
  In x xs -> lookup_env x (bind_env xs n r) = Some (n + k) -> lookup_env x (bind_env xs n' r') = Some (n' + k).
Proof.
  revert n r n' r' k. induction xs as [|y ys IH]; intros n r n' r' k I E; [destruct I|]. simpl in *.
  destruct (in_dec ident_dec x ys) as [J|J].
  - destruct (lookup_bind_env_in x ys (S n) ((y, n) :: r) J) as [m [A B]]. rewrite A in E. injection E as E.
    rewrite (IH _ _ (S n') ((y, n') :: r') _ J A). f_equal. lia.
  - rewrite lookup_bind_env_not in E |- * by auto. simpl in *. destruct I as [->|I]; [|tauto]. rewrite ident_eqb_refl in *.
    injection E as E. f_equal. lia.
Qed.
