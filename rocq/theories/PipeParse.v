(** C27: the two ways in which the model takes expressions apart agree: on data (Check.v's
    [parse], where C27 says which data have an expression) and on objects in memory
    (Pipe.v's [hparse], from which C70 starts). *)
From Coq Require Import ZArith NArith Bool Ascii String List Arith Lia.
From Verif Require Import Base Heap HeapM Ast Sem Reader Check CheckThm Pipe PipeProofs PipeThm.
Import ListNotations.
Local Open Scope list_scope.
Local Open Scope nat_scope.

(** The same expression, with literals related by [R]. *)
Section Like.
  Variable R : val -> val -> Prop.
  Inductive like : expr -> expr -> Prop :=
  | LkConst v w : R v w -> like (EConst v) (EConst w)
  | LkUnbound : like EUnbound EUnbound
  | LkVar x : like (EVar x) (EVar x)
  | LkDefine ids a b : like a b -> like (EDefine ids a) (EDefine ids b)
  | LkSet x a b : like a b -> like (ESet x a) (ESet x b)
  | LkLam fm es es' : Forall2 like es es' -> like (ELam fm es) (ELam fm es')
  | LkCase cls cls' : Forall2 (fun c c' => fst c = fst c' /\ Forall2 like (snd c) (snd c')) cls cls' -> like (ECase cls) (ECase cls')
  | LkBegin es es' : Forall2 like es es' -> like (EBegin es) (EBegin es')
  | LkIf a b c a' b' c' : like a a' -> like b b' -> like c c' -> like (EIf a b c) (EIf a' b' c')
  | LkApp f f' es es' : like f f' -> Forall2 like es es' -> like (EApp f es) (EApp f' es')
  | LkMvCall a b a' b' : like a a' -> like b b' -> like (EMvCall a b) (EMvCall a' b')
  | LkMvLet a fm b a' b' : like a a' -> like b b' -> like (EMvLet a fm b) (EMvLet a' fm b')
  | LkMvValues es es' : Forall2 like es es' -> like (EMvValues es) (EMvValues es')
  | LkLet bs bs' es es' : Forall2 (fun b b' => fst b = fst b' /\ like (snd b) (snd b')) bs bs' -> Forall2 like es es' -> like (ELet bs es) (ELet bs' es')
  | LkLetrec bs bs' es es' : Forall2 (fun b b' => fst b = fst b' /\ like (snd b) (snd b')) bs bs' -> Forall2 like es es' -> like (ELetrec bs es) (ELetrec bs' es')
  | LkValues es es' : Forall2 like es es' -> like (EValues es) (EValues es')
  | LkCwv a b a' b' : like a a' -> like b b' -> like (ECwv a b) (ECwv a' b').
End Like.

Section Agree.
  Variable h : heap.
  Variable lit : obj -> val.
  Let R (v w : val) : Prop := exists o, datum_at h v o /\ w = lit o.

  Lemma vkw_rel v o kw : datum_at h v o -> vkw kw v = is_kw kw o.
  Proof. destruct 1; reflexivity. Qed.
  Lemma pair_rel v o : datum_at h v o ->
    match pair_at h v with
    | Some (a, d) => exists x y, o = OPair x y /\ datum_at h a x /\ datum_at h d y
    | None => forall x y, o <> OPair x y
    end.
  Proof.
    destruct 1; unfold pair_at; simpl; try discriminate; try (rewrite H; try discriminate; eauto).
  Qed.
  Lemma hcar_rel v o a b : datum_at h v o -> hcar h v = POk a -> pcar o = POk b -> datum_at h a b.
  Proof.
    intros D A B. apply pair_rel in D. unfold hcar in A. destruct (pair_at h v) as [[x y]|]; [|discriminate]. destruct D as (p & q & -> & D1 & D2).
    injection A as <-. injection B as <-. auto.
  Qed.
  Lemma hcdr_rel v o a b : datum_at h v o -> hcdr h v = POk a -> pcdr o = POk b -> datum_at h a b.
  Proof.
    intros D A B. apply pair_rel in D. unfold hcdr in A. destruct (pair_at h v) as [[x y]|]; [|discriminate]. destruct D as (p & q & -> & D1 & D2).
    injection A as <-. injection B as <-. auto.
  Qed.
  Lemma hident_rel v o x y : datum_at h v o -> hident v = POk x -> pident o = POk y -> x = y.
  Proof. destruct 1; simpl; congruence. Qed.
  Ltac open := repeat match goal with
    | H : pbind ?r _ = POk _ |- _ => let E := fresh "E" in destruct r eqn:E; cbn [pbind] in H; [|discriminate|discriminate|discriminate]
    end.
  Ltac datums := repeat match goal with
    | D : datum_at h ?v ?o, A : hcar h ?v = POk ?a, B : pcar ?o = POk ?b |- _ =>
        let N := fresh "D" in assert (N := hcar_rel _ _ _ _ D A B); clear A B
    | D : datum_at h ?v ?o, A : hcdr h ?v = POk ?a, B : pcdr ?o = POk ?b |- _ =>
        let N := fresh "D" in assert (N := hcdr_rel _ _ _ _ D A B); clear A B
    end.
  Lemma hloop_rel {A B} (P : A -> B -> Prop) (g : val -> pres A) (k : obj -> pres B) :
    (forall v o a b, datum_at h v o -> g v = POk a -> k o = POk b -> P a b) ->
    forall f v o l m, datum_at h v o -> hloop h g f v = POk l -> ploop k o = POk m -> Forall2 P l m.
  Proof.
    intros G. induction f as [|f IH]; intros v o l m D X Y; [discriminate|]. cbn [hloop] in X. assert (Q := pair_rel _ _ D).
    destruct (pair_at h v) as [[a d]|] eqn:E.
    - destruct Q as (x & y & -> & D1 & D2). assert (NV : match v with VNull => False | _ => True end) by (destruct v; auto; discriminate).
      assert (X' : (do a <- hcar h v; do x <- g a; do d <- hcdr h v; do q <- hloop h g f d; POk (x :: q)) = POk l) by (destruct v; auto; contradiction).
      unfold hcar, hcdr in X'. rewrite E in X'. cbn [pbind ploop] in *. open. injection X' as <-. injection Y as <-. constructor; eauto.
    - assert (o = ONull). { destruct D; simpl in Y; try discriminate; auto. destruct (Q _ _ eq_refl). }
      subst. inversion D; subst. injection X as <-. injection Y as <-. constructor.
  Qed.
  Lemma hformals_rel : forall f v o x y, datum_at h v o -> hformals h f v = POk x -> pformals o = POk y -> x = y.
  Proof.
    induction f as [|f IH]; intros v o x y D X Y; [discriminate|]. cbn [hformals] in X. assert (Q := pair_rel _ _ D). destruct (pair_at h v) as [[a d]|] eqn:E.
    - destruct Q as (p & q & -> & D1 & D2). assert (X' : (do x <- hident a; do fm <- hformals h f d; POk (Formals (x :: req fm) (rest fm))) = POk x) by (destruct v; auto; discriminate).
      cbn [pformals] in Y. open. injection X' as <-. injection Y as <-. assert (a0 = a2) by (eapply hident_rel; [exact D1| |]; eauto). assert (a1 = a3) by eauto. congruence.
    - destruct D; simpl in X, Y; congruence.
  Qed.
  Lemma parse_rel : forall f g v o e e', datum_at h v o -> hparse h f v = POk e -> parse lit g o = POk e' -> like R e e'.
  Proof.
    induction f as [|f IH]; intros [|g] v o e e' D X Y; try discriminate. cbn [hparse parse] in X, Y. assert (Q := pair_rel _ _ D).
    assert (BD : forall v o l m, datum_at h v o -> hloop h (hparse h f) f v = POk l -> ploop (parse lit g) o = POk m -> Forall2 (like R) l m)
      by (intros; eapply (hloop_rel (like R)); [intros; eapply IH| | |]; eauto).
    assert (ID : forall v o l m, datum_at h v o -> hloop h hident f v = POk l -> ploop pident o = POk m -> l = m).
    { intros v1 o1 l m D1 H1 H2. assert (F := hloop_rel eq hident pident (fun v o a b D A B => hident_rel v o a b D A B) _ _ _ _ _ D1 H1 H2).
      clear H1 H2. induction F; congruence. }
    destruct (pair_at h v) as [[hd q]|] eqn:E.
    - destruct Q as (ho & qo & -> & DH & DQ). rewrite <- !(vkw_rel hd ho) in Y by auto.
      repeat match type of X with (if ?b then _ else _) = _ => destruct b end;
      open; datums; injection X as <-; injection Y as <-;
      repeat match goal with
      | D : datum_at h ?v ?o, A : hident ?v = POk ?a, B : pident ?o = POk ?b |- _ => assert (a = b) by (eapply hident_rel; [exact D| |]; auto); subst; clear A B
      | D : datum_at h ?v ?o, A : hformals h ?n ?v = POk ?a, B : pformals ?o = POk ?b |- _ => assert (a = b) by (eapply hformals_rel; [exact D| |]; eauto); subst; clear A B
      | D : datum_at h ?v ?o, A : hloop h hident ?n ?v = POk ?a, B : ploop pident ?o = POk ?b |- _ => assert (a = b) by (eapply ID; [exact D| |]; auto); subst; clear A B
      end;
      try (constructor; eauto; fail).
      + constructor; eauto. eapply hloop_rel; [|exact D0| |]; [|eassumption|eassumption].
        intros v1 o1 p1 p2 DD A B. cbv beta in A, B. open. datums. injection A as <-. injection B as <-. simpl.
        repeat match goal with
        | D : datum_at h ?v ?o, A : hloop h hident ?n ?v = POk ?a, B : ploop pident ?o = POk ?b |- _ => assert (a = b) by (eapply ID; [exact D| |]; auto); subst; clear A B
        end. eauto.
      + constructor; eauto. eapply hloop_rel; [|exact D0| |]; [|eassumption|eassumption].
        intros v1 o1 p1 p2 DD A B. cbv beta in A, B. open. datums. injection A as <-. injection B as <-. simpl.
        repeat match goal with
        | D : datum_at h ?v ?o, A : hloop h hident ?n ?v = POk ?a, B : ploop pident ?o = POk ?b |- _ => assert (a = b) by (eapply ID; [exact D| |]; auto); subst; clear A B
        end. eauto.
      + constructor. eapply hloop_rel; [|exact DQ| |]; [|eassumption|eassumption].
        intros v1 o1 p1 p2 DD A B. cbv beta in A, B. open. datums. injection A as <-. injection B as <-. simpl.
        repeat match goal with
        | D : datum_at h ?v ?o, A : hformals h ?n ?v = POk ?a, B : pformals ?o = POk ?b |- _ => assert (a = b) by (eapply hformals_rel; [exact D| |]; eauto); subst; clear A B
        end. eauto.
      + constructor. unfold R. eauto.
    - destruct D as [ | | | | | | | | | |l a d x y N D1 D2|l vs xs N D1|l b N|l w x N D1]; cbn [pbind hident pident] in X, Y; try discriminate;
        try (injection X as <-; injection Y as <-; constructor; unfold R; eauto using datum_at; fail).
      + destruct (Q _ _ eq_refl).
      + rewrite N in X. injection X as <-. injection Y as <-. constructor. exists (OVec xs). eauto using datum_at.
      + rewrite N in X. injection X as <-. injection Y as <-. constructor. exists (OStr b). eauto using datum_at.
      + rewrite N in X. injection X as <-. injection Y as <-. constructor. exists (OBox x). eauto using datum_at.
  Qed.
End Agree.

(** What [parse] makes of a datum is what the object in memory denotes, literal for
    literal. *)
Theorem C27_parse_denotes h v o e e' lit f : datum_at h v o -> denotes h v e -> parse lit f o = POk e' ->
  like (fun v w => exists d, datum_at h v d /\ w = lit d) e e'.
Proof. intros D DN P. destruct (proj1 (denotes_parses h) _ _ DN) as [g H]. eapply parse_rel; [exact D|apply (H g); lia|exact P]. Qed.

(** (if x 1 'a) in memory meets the hypotheses. *)
Definition ex_if : obj := olist [sym "if"; sym "x"; OFix 1; olist [sym "quote"; sym "a"]].
Definition ex_if_heap : heap := Eval vm_compute in snd (place ex_if []).
Definition ex_if_val : val := Eval vm_compute in fst (place ex_if []).
Example C27_parse_denotes_met :
  datum_at ex_if_heap ex_if_val ex_if /\ denotes ex_if_heap ex_if_val (EIf (EVar (Id "x")) (EConst (VFix 1)) (EConst (VSym (s2b "a")))) /\
  exists e, parse (fun _ => VVoid) 20 ex_if = POk e.
Proof.
  split; [vm_compute; repeat (first [apply DaSym|apply DaFix|apply DaNull|eapply DaPair; [reflexivity| |]])|]. split; [|eexists; vm_compute; reflexivity].
  eapply DnIf; [repeat (econstructor; [reflexivity|]); constructor| | |].
  - apply (DnVar _ (VSym (s2b "x"))). constructor.
  - apply DnSelf. constructor.
  - eapply (DnQuote _ _ "quote"%string); [simpl; auto|]. repeat (econstructor; [reflexivity|]). constructor.
Qed.
Print Assumptions C27_parse_denotes.
