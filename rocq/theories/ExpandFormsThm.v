(** C55, continued: malformed forms and definitions are refused, begin at the top
    level is spliced, and the macros that a macro sees. *)
From Coq Require Import ZArith NArith Bool Ascii String List Arith Lia.
From Verif Require Import Base Heap Ast Check Expand CheckThm ExpandProofs ExpandThm.
Import ListNotations.
Local Open Scope list_scope.

(** ** Malformed forms

    What may follow a keyword: [shaped k q], [q] the rest of the form. *)
Inductive shaped : string -> obj -> Prop :=
| ShQuote k d : In k ["quote"; "quote-syntax"]%string -> shaped k (olist [d])
| ShIf a b c : shaped "if" (olist [a; b; c])
| ShSet x e : symbol x -> shaped "set!" (olist [x; e])
| ShLambda fm body : body <> [] -> shaped "lambda" (OPair fm (olist body))
| ShCase cls : (forall c, In c cls -> snd c <> []) -> shaped "case-lambda" (oclauses cls)
| ShLet k bs body : In k ["let-values"; "letrec-values"]%string -> (forall x, bound_by bs x -> symbol x) ->
    NoDup (List.concat (map fst bs)) -> body <> [] -> shaped k (OPair (obindings bs) (olist body))
| ShBegin es : shaped "begin" (olist es).

Lemma ident_list_spec o l : ident_list o = Some l -> o = olist l /\ forall x, In x l -> symbol x.
Proof.
  unfold ident_list. destruct (to_list o) as [m|] eqn:E; [|discriminate]. destruct (forallb symbolp m) eqn:F; [|discriminate].
  intros H. injection H as <-. split; [apply to_list_spec; auto|]. intros x I. rewrite forallb_forall in F. apply symbolp_spec. auto.
Qed.
Lemma check_bindings_spec l : forall bs, check_bindings l = Some bs -> olist l = obindings bs /\ forall x, bound_by bs x -> symbol x.
Proof.
  induction l as [|b l IH]; intros bs H; simpl in H.
  - injection H as <-. split; auto. intros x [c [[] _]].
  - destruct (to_list b) as [[|ids [|e [|? ?]]]|] eqn:E; try discriminate. destruct (ident_list ids) as [i|] eqn:EI; [|discriminate].
    destruct (check_bindings l) as [q|] eqn:EQ; [|discriminate]. injection H as <-. apply to_list_spec in E. apply ident_list_spec in EI as [EI S].
    destruct (IH q eq_refl) as [A B]. subst. split.
    + unfold obindings in *. cbn [map fst snd]. rewrite olist_cons, A. reflexivity.
    + intros x [c [[<-|I] J]]; [apply S; auto|]. apply B. exists c. auto.
Qed.
Lemma duplicate_spec ids : forall seen, (forall x, In x ids -> symbol x) -> duplicate seen ids = false -> NoDup ids /\ forall x, In x ids -> ~ In x seen.
Proof.
  induction ids as [|i ids IH]; intros seen S H; simpl in H; [split; [constructor|intros x []]|].
  apply orb_false_iff in H as [H1 H2]. destruct (IH (i :: seen) (fun x I => S x (or_intror I)) H2) as [A B]. split.
  - constructor; auto. intros I. apply (B i I). left; auto.
  - intros x [<-|I] J; [|apply (B x I); right; auto].
    assert (T : existsb (obj_sym_dec i) seen = true); [|congruence]. apply existsb_exists. exists i. split; auto.
    apply obj_sym_dec_spec; auto. apply S. left; auto.
Qed.
Lemma dup_bindings_spec bs : forall seen, (forall x, bound_by bs x -> symbol x) -> dup_bindings seen bs = false ->
  NoDup (List.concat (map fst bs)) /\ forall x, bound_by bs x -> ~ In x seen.
Proof.
  induction bs as [|[ids e] bs IH]; intros seen S H; simpl in H; [split; [constructor|intros x [c [[] _]]]|].
  apply orb_false_iff in H as [H1 H2].
  assert (B : forall x, In x ids -> bound_by ((ids, e) :: bs) x) by (intros x I; exists (ids, e); split; auto; left; auto).
  assert (B' : forall x, bound_by bs x -> bound_by ((ids, e) :: bs) x) by (intros x [b [I J]]; exists b; split; auto; right; auto).
  destruct (duplicate_spec ids seen (fun x I => S x (B x I)) H1) as [N1 D1]. destruct (IH (ids ++ seen) (fun x I => S x (B' x I)) H2) as [N2 D2]. split.
  - cbn [map fst List.concat]. clear - N1 N2 D2. induction ids as [|i ids IHi]; auto. inversion N1; subst. cbn [app]. constructor.
    + intros I. apply in_app_or in I as [I|I]; auto. apply bound_by_concat in I. apply (D2 i I). left; auto.
    + apply IHi; auto. intros x I J. apply (D2 x I). right; auto.
  - intros x [b [[<-|I] J]] K; [apply (D1 x J); auto|]. apply (D2 x); [exists b; auto|]. apply in_or_app; auto.
Qed.
Lemma check_clause_spec q fm body : check_clause q = Some (fm, body) -> q = OPair fm (olist body) /\ body <> [].
Proof.
  unfold check_clause. destruct q; try discriminate. destruct (to_list q2) as [[|b r]|] eqn:E; try discriminate. intros H. injection H as <- <-.
  apply to_list_spec in E. subst. split; [reflexivity|discriminate].
Qed.
Lemma check_clauses_spec l : forall cls, check_clause_list l = Some cls -> olist l = oclauses cls /\ forall c, In c cls -> snd c <> [].
Proof.
  induction l as [|c l IH]; intros cls H; simpl in H; [injection H as <-; split; auto; intros c []|].
  destruct (check_clause c) as [[fm body]|] eqn:E; [|discriminate]. destruct (check_clause_list l) as [q|]; [|discriminate]. injection H as <-.
  apply check_clause_spec in E as [-> NE]. destruct (IH q eq_refl) as [A B]. split.
  - unfold oclauses in *. cbn [map fst snd]. rewrite olist_cons, A. reflexivity.
  - intros c [<-|I]; auto.
Qed.

Theorem C55_malformed_refused evalx k q :
  In k ["quote"; "quote-syntax"; "if"; "set!"; "lambda"; "case-lambda"; "let-values"; "letrec-values"; "begin"]%string ->
  ~ shaped k q -> forall f xf rb, expand_expr evalx (S f) xf rb (OPair (sym k) q) = XErr.
Proof.
  intros K N f xf rb. simpl in K.
  assert (L : In k ["let-values"; "letrec-values"]%string -> match check_let_form (OPair (sym k) q) with Some (bs, _) => dup_bindings [] bs = true | None => True end).
  { intros KL. destruct (check_let_form (OPair (sym k) q)) as [[bs body]|] eqn:E; auto. destruct (dup_bindings [] bs) eqn:D; auto. exfalso. apply N.
    unfold check_let_form in E. destruct q as [| | | | | | | | | |b r| | | | | | |]; try discriminate. destruct (to_list b) as [l|] eqn:EB; [|discriminate].
    destruct (to_list r) as [[|x y]|] eqn:ER; try discriminate. destruct (check_bindings l) as [p|] eqn:EC; [|discriminate]. injection E as <- <-.
    apply to_list_spec in EB, ER. subst. apply check_bindings_spec in EC as [A B]. rewrite A. destruct (dup_bindings_spec p [] B D) as [ND _].
    apply ShLet; auto; discriminate. }
  destruct K as [<-|[<-|[<-|[<-|[<-|[<-|[<-|[<-|[<-|[]]]]]]]]]].
  - cbn -[check_1ary]. destruct (check_1ary _) eqn:E; auto. exfalso. apply N. destruct q as [| | | | | | | | | |d []| | | | | | |]; try discriminate. apply ShQuote; simpl; auto.
  - cbn -[check_1ary]. destruct (check_1ary _) eqn:E; auto. exfalso. apply N. destruct q as [| | | | | | | | | |d []| | | | | | |]; try discriminate. apply ShQuote; simpl; auto.
  - cbn -[check_if_form]. destruct (check_if_form _) as [[[a b] c]|] eqn:E; auto. exfalso. apply N.
    destruct q as [| | | | | | | | | |x [| | | | | | | | | |y [| | | | | | | | | |z []| | | | | | |]| | | | | | |]| | | | | | |]; try discriminate. apply (ShIf x y z).
  - cbn -[check_set_form]. destruct (check_set_form _) as [[x e]|] eqn:E; auto. exfalso. apply N.
    destruct q as [| | | | | | | | | |y [| | | | | | | | | |z []| | | | | | |]| | | | | | |]; try discriminate. cbn in E. destruct (symbolp y) eqn:SY; [|discriminate].
    apply (ShSet y z). apply symbolp_spec; auto.
  - cbn -[check_clause]. destruct (check_clause q) as [[fm body]|] eqn:E; auto. exfalso. apply N. apply check_clause_spec in E as [-> NE]. apply ShLambda; auto.
  - cbn -[check_clause_list]. destruct (to_list q) as [l|] eqn:E; auto. destruct (check_clause_list l) as [cls|] eqn:EC; auto. exfalso. apply N.
    apply to_list_spec in E. subst. apply check_clauses_spec in EC as [-> NE]. apply ShCase; auto.
  - cbn -[check_let_form dup_bindings]. specialize (L (or_introl eq_refl)). destruct (check_let_form _) as [[bs body]|]; auto. rewrite L. auto.
  - cbn -[check_let_form dup_bindings]. specialize (L (or_intror (or_introl eq_refl))). destruct (check_let_form _) as [[bs body]|]; auto. rewrite L. auto.
  - cbn. destruct (to_list q) as [l|] eqn:E; auto. exfalso. apply N. apply to_list_spec in E. subst. apply ShBegin.
Qed.
(** A form that is not a list, with an operator that is not a keyword or a macro, is
    refused too, and so is anything that is not a form, a symbol or a literal. *)
Theorem C55_improper_refused evalx xf rb f h q :
  (forall k, In k ("define-values" :: "define-syntaxes" :: "let-syntaxes" :: expr_keywords)%string -> h <> sym k) ->
  lookup_xform h xf = None -> (forall l, q <> olist l) -> expand_expr evalx (S f) xf rb (OPair h q) = XErr.
Proof.
  intros P LX NL. assert (KF : forall k, In k ("define-values" :: "define-syntaxes" :: "let-syntaxes" :: expr_keywords)%string -> is_kw k h = false).
  { intros k I. apply is_kw_false. apply P; auto. }
  assert (T : to_list (OPair h q) = None).
  { cbn [to_list]. destruct (to_list q) as [l|] eqn:E; auto. apply to_list_spec in E. destruct (NL l E). }
  remember (to_list (OPair h q)) as tl0 eqn:ET. cbn [expand_expr self_eval].
  repeat match goal with |- context[is_kw ?k h] => rewrite (KF k) by (unfold expr_keywords; cbn; tauto) end. cbn [orb].
  rewrite LX. rewrite <- ET, T. reflexivity.
Qed.

(** ** Definitions of a module *)
Definition definition_form (k : string) (e : obj) : Prop := exists q, e = OPair (sym k) q.
Definition well_defined (k : string) (e : obj) : Prop := exists ids rhs, e = olist [sym k; olist ids; rhs] /\ forall x, In x ids -> symbol x.
Lemma check_define_spec k q ids rhs : check_define_form (OPair (sym k) q) = Some (ids, rhs) -> OPair (sym k) q = olist [sym k; olist ids; rhs] /\ forall x, In x ids -> symbol x.
Proof.
  unfold check_define_form. destruct q as [| | | | | | | | | |i [| | | | | | | | | |r []| | | | | | |]| | | | | | |]; try discriminate.
  destruct (ident_list i) as [l|] eqn:E; [|discriminate]. intros H. injection H as <- <-. apply ident_list_spec in E as [-> S]. auto.
Qed.
Lemma expand_top_define k q f xf : In k ["define-values"; "define-syntaxes"; "begin"]%string -> expand_top (S f) (OPair (sym k) q) xf = XOk (OPair (sym k) q, xf).
Proof. intros [<-|[<-|[<-|[]]]]; reflexivity. Qed.
Lemma record_ids ids : forall fs st, define_ids (record_xforms ids fs st) = define_ids st.
Proof.
  induction ids as [|i ids IH]; intros [|g fs] st; simpl; auto. rewrite IH. destruct i; auto.
Qed.

Section Module.
  Variable evalx : obj -> option (list tr).
  Notation non_define := (non_define evalx).

  Lemma nd_grows f : forall es sc st es' st', non_define f es sc st = XOk (es', st') -> incl (define_ids st) (define_ids st').
  Proof.
    induction f as [|f IH]; [discriminate|]. intros es sc st es' st' H. cbn [Expand.non_define] in H. destruct es as [|e0 r].
    - destruct sc; [discriminate|]. injection H as <- <-. apply incl_refl.
    - destruct (expand_top f e0 _) as [[e isc]| |]; try discriminate. cbn [xbind] in H.
      destruct (form_is "define-syntaxes" e).
      { destruct (check_define_form e) as [[ids rhs]|]; [|discriminate]. destruct (duplicate (xform_ids st) ids); [discriminate|].
        destruct (expand_expr evalx f isc true rhs) as [rhs'| |]; try discriminate. cbn [xbind] in H. destruct (evalx rhs') as [fs|]; [|discriminate].
        destruct (List.length ids =? List.length fs); [|discriminate]. apply IH in H. rewrite record_ids in H. auto. }
      destruct (form_is "define-values" e).
      { destruct (check_define_form e) as [[ids rhs]|]; [|discriminate]. destruct (duplicate (define_ids st) ids); [discriminate|].
        destruct (non_define f r None _) as [[e1 s1]| |] eqn:E; try discriminate. cbn [xbind] in H. injection H as <- <-. apply IH in E. cbn [define_ids] in E.
        intros x I. apply E. apply in_or_app; auto. }
      destruct (form_is "begin" e).
      { destruct (to_list e) as [l|]; [|discriminate]. destruct (tl l) as [|a forms]; [eapply IH; eauto|].
        destruct (non_define f (a :: forms) (Some isc) st) as [[e1 s1]| |] eqn:E1; try discriminate. cbn [xbind] in H.
        destruct (non_define f r None s1) as [[e2 s2]| |] eqn:E2; try discriminate. cbn [xbind] in H. injection H as <- <-.
        eapply incl_tran; [eapply IH; exact E1|eapply IH; exact E2]. }
      destruct (expand_expr evalx f isc true e) as [v| |]; try discriminate. cbn [xbind] in H.
      destruct (non_define f r None st) as [[e1 s1]| |] eqn:E; try discriminate. cbn [xbind] in H. injection H as <- <-. eapply IH; eauto.
  Qed.
  (** what one form does, then the others *)
  Lemma nd_cons f : forall e r sc st es' st', non_define f (e :: r) sc st = XOk (es', st') ->
    exists f' s1 es1, non_define f' r None s1 = XOk (es1, st') /\ incl (define_ids st) (define_ids s1) /\
    (forall k, In k ["define-values"; "define-syntaxes"]%string -> definition_form k e -> well_defined k e) /\
    (forall ids rhs x, e = olist [sym "define-values"; olist ids; rhs] -> In x ids -> ~ In x (define_ids st) /\ In x (define_ids s1)).
  Proof.
    destruct f as [|f]; [discriminate|]. intros e0 r sc st es' st' H. cbn [Expand.non_define] in H.
    destruct (expand_top f e0 _) as [[e isc]| |] eqn:ET; try discriminate. cbn [xbind] in H.
    assert (SAME : forall k, In k ["define-values"; "define-syntaxes"]%string -> definition_form k e0 -> e = e0).
    { intros k K [q ->]. destruct f; [discriminate|]. rewrite expand_top_define in ET by (simpl in *; tauto). congruence. }
    assert (OTHER : form_is "define-syntaxes" e = false -> form_is "define-values" e = false ->
       (forall k, In k ["define-values"; "define-syntaxes"]%string -> definition_form k e0 -> well_defined k e0) /\
       (forall ids rhs x, e0 = olist [sym "define-values"; olist ids; rhs] -> In x ids -> ~ In x (define_ids st) /\ In x (define_ids st))).
    { intros F1 F2. assert (NO : forall k, In k ["define-values"; "define-syntaxes"]%string -> ~ definition_form k e0).
      { intros k K D. assert (E := SAME k K D). destruct D as [q ->]. subst e. simpl in K. destruct K as [<-|[<-|[]]]; discriminate. }
      split; [intros k K D; destruct (NO k K D)|]. intros ids rhs x E _. exfalso. apply (NO "define-values"%string); simpl; auto. exists (olist [olist ids; rhs]). exact E. }
    destruct (form_is "define-syntaxes" e) eqn:F1.
    { destruct (check_define_form e) as [[ids rhs]|] eqn:EC; [|discriminate]. destruct (duplicate (xform_ids st) ids); [discriminate|].
      destruct (expand_expr evalx f isc true rhs) as [rhs'| |]; try discriminate. cbn [xbind] in H. destruct (evalx rhs') as [fs|]; [|discriminate].
      destruct (List.length ids =? List.length fs); [|discriminate].
      exists f, (record_xforms ids fs st), es'. split; [exact H|]. split; [rewrite record_ids; apply incl_refl|].
      apply form_is_spec in F1 as [q ->]. apply check_define_spec in EC as [EC S]. split.
      - intros k K D. assert (E := SAME k K D). subst e0. destruct D as [q' E']. simpl in K. destruct K as [<-|[<-|[]]]; [discriminate E'|]. exists ids, rhs. auto.
      - intros i h x E _. assert (X : OPair (sym "define-syntaxes") q = e0).
        { apply (SAME "define-values"%string); simpl; auto. rewrite E. eexists. reflexivity. }
        rewrite E in X. discriminate. }
    destruct (form_is "define-values" e) eqn:F2.
    { destruct (check_define_form e) as [[ids rhs]|] eqn:EC; [|discriminate]. destruct (duplicate (define_ids st) ids) eqn:ED; [discriminate|].
      destruct (non_define f r None _) as [[e1 s1]| |] eqn:E; try discriminate. cbn [xbind] in H. injection H as <- <-.
      exists f, (mkmst (x_forms st) (ids ++ define_ids st) (xform_ids st)), e1. split; [exact E|]. split; [intros x I; cbn [define_ids]; apply in_or_app; auto|].
      apply form_is_spec in F2 as [q ->]. apply check_define_spec in EC as [EC S]. split.
      - intros k K D. assert (EE := SAME k K D). subst e0. destruct D as [q' E']. simpl in K. destruct K as [<-|[<-|[]]]; [|discriminate E']. exists ids, rhs. auto.
      - intros i h x EX I. assert (X : OPair (sym "define-values") q = e0).
        { apply (SAME "define-values"%string); simpl; auto. rewrite EX. eexists. reflexivity. }
        rewrite EX in X. rewrite EC in X. apply olist_inj in X. injection X as X _. apply olist_inj in X. subst i.
        destruct (duplicate_spec ids _ S ED) as [_ D]. split; [apply D; auto|]. cbn [define_ids]. apply in_or_app; auto. }
    destruct (OTHER eq_refl eq_refl) as [O1 O2].
    destruct (form_is "begin" e) eqn:F3.
    { destruct (to_list e) as [l|]; [|discriminate]. destruct (tl l) as [|a forms].
      - exists f, st, es'. split; [exact H|]. split; [apply incl_refl|]. auto.
      - destruct (non_define f (a :: forms) (Some isc) st) as [[e1 s1]| |] eqn:E1; try discriminate. cbn [xbind] in H.
        destruct (non_define f r None s1) as [[e2 s2]| |] eqn:E2; try discriminate. cbn [xbind] in H. injection H as <- <-.
        exists f, s1, e2. split; [exact E2|]. assert (G := nd_grows _ _ _ _ _ _ E1). split; [exact G|]. split; auto.
        intros ids rhs x EX I. destruct (O2 ids rhs x EX I). split; auto. }
    destruct (expand_expr evalx f isc true e) as [v| |]; try discriminate. cbn [xbind] in H.
    destruct (non_define f r None st) as [[e1 s1]| |] eqn:E; try discriminate. cbn [xbind] in H. injection H as <- <-.
    exists f, st, e1. split; [exact E|]. split; [apply incl_refl|]. auto.
  Qed.
  Lemma nd_well_defined es : forall f sc st r, non_define f es sc st = XOk r ->
    forall e k, In e es -> In k ["define-values"; "define-syntaxes"]%string -> definition_form k e -> well_defined k e.
  Proof.
    induction es as [|e0 es IH]; intros f sc st [es' st'] H e k I K D; [destruct I|].
    destruct (nd_cons _ _ _ _ _ _ _ H) as [f' [s1 [es1 [H1 [_ [W _]]]]]]. destruct I as [<-|I]; eauto.
  Qed.
  Lemma nd_fresh es : forall f sc st r, non_define f es sc st = XOk r ->
    forall ids rhs x, In (olist [sym "define-values"; olist ids; rhs]) es -> In x ids -> ~ In x (define_ids st).
  Proof.
    induction es as [|e0 es IH]; intros f sc st [es' st'] H ids rhs x I J; [destruct I|].
    destruct (nd_cons _ _ _ _ _ _ _ H) as [f' [s1 [es1 [H1 [G [_ W]]]]]]. destruct I as [->|I]; [eapply W; eauto|].
    intros K. eapply (IH _ _ _ _ H1); eauto.
  Qed.
  Lemma nd_once es : forall f sc st r, non_define f es sc st = XOk r ->
    forall a b d1 d2 i1 i2 r1 r2 x, es = a ++ d1 :: b -> In d2 b -> d1 = olist [sym "define-values"; olist i1; r1] ->
    d2 = olist [sym "define-values"; olist i2; r2] -> In x i1 -> In x i2 -> False.
  Proof.
    induction es as [|e0 es IH]; intros f sc st [es' st'] H a b d1 d2 i1 i2 r1 r2 x E I E1 E2 X1 X2; [destruct a; discriminate|].
    destruct (nd_cons _ _ _ _ _ _ _ H) as [f' [s1 [es1 [H1 [G [_ W]]]]]]. destruct a as [|a0 a]; injection E as -> E.
    - subst b. destruct (W i1 r1 x E1 X1) as [_ Y]. subst d2. eapply (nd_fresh _ _ _ _ _ H1); eauto.
    - eapply (IH _ _ _ _ H1); eauto.
  Qed.

  (** *** Begin *)
  Lemma nd_le f g es sc st r : f <= g -> non_define f es sc st = XOk r -> non_define g es sc st = XOk r.
  Proof.
    intros L H. destruct (ap_le (fun f => non_define f es sc st) (fun f => non_define_mono1 evalx f es sc st) f g L) as [E|E]; congruence.
  Qed.
  Definition nds (es : list obj) (st : mst) (o : list obj) (st' : mst) : Prop := exists f, non_define f es None st = XOk (o, st').
  Lemma nds_app a : forall b st o st', nds (a ++ b) st o st' <-> exists o1 s1 o2, nds a st o1 s1 /\ nds b s1 o2 st' /\ o = o1 ++ o2.
  Proof.
    induction a as [|e0 a IH]; intros b st o st'.
    - split; [intros H; exists [], st, o; split; [exists 1; reflexivity|auto]|]. intros [o1 [s1 [o2 [[[|f] H1] [H2 ->]]]]]; [discriminate|].
      cbn in H1. injection H1 as <- <-. exact H2.
    - cbn [app]. split.
      + intros [[|f] H]; [discriminate|]. cbn [Expand.non_define] in H.
        assert (STEP : forall k : list obj -> list obj, forall st0 o0, nds (a ++ b) st0 o0 st' -> o = k o0 -> (forall x y, k (x ++ y) = k x ++ y) ->
           (forall o1 s1, nds a st0 o1 s1 -> nds (e0 :: a) st (k o1) s1) -> exists o1 s1 o2, nds (e0 :: a) st o1 s1 /\ nds b s1 o2 st' /\ o = o1 ++ o2).
        { intros k st0 o0 N EO KA NA. apply IH in N as [o1 [s1 [o2 [A1 [A2 ->]]]]]. exists (k o1), s1, o2. split; auto. split; auto. rewrite EO, KA. auto. }
        destruct (expand_top f e0 _) as [[e isc]| |] eqn:ET; try discriminate. cbn [xbind] in H.
        assert (ET' : forall g, f <= g -> expand_top g e0 (x_forms st) = XOk (e, isc)).
        { intros g L. destruct (ap_le (fun f => expand_top f e0 (x_forms st)) (fun f => expand_top_mono1 f e0 (x_forms st)) f g L) as [X|X]; congruence. }
        assert (EE : forall g xf rb z y, f <= g -> expand_expr evalx f xf rb z = XOk y -> expand_expr evalx g xf rb z = XOk y) by (intros; eapply expand_le; eauto).
        destruct (form_is "define-syntaxes" e) eqn:F1.
        { destruct (check_define_form e) as [[ids rhs]|] eqn:EC; [|discriminate]. destruct (duplicate (xform_ids st) ids) eqn:ED; [discriminate|].
          destruct (expand_expr evalx f isc true rhs) as [rhs'| |] eqn:ER; try discriminate. cbn [xbind] in H. destruct (evalx rhs') as [fs|] eqn:EV; [|discriminate].
          destruct (List.length ids =? List.length fs) eqn:EL; [|discriminate].
          apply (STEP (fun l => l) (record_xforms ids fs st) o); [exists f; exact H|auto|auto|].
          intros o1 s1 [g G]. exists (S (f + g)). cbn [Expand.non_define]. rewrite ET' by lia. cbn [xbind]. rewrite F1, EC, ED, (EE (f + g) isc true rhs rhs') by (auto; lia). cbn [xbind].
          rewrite EV, EL. eapply nd_le; [|exact G]. lia. }
        destruct (form_is "define-values" e) eqn:F2.
        { destruct (check_define_form e) as [[ids rhs]|] eqn:EC; [|discriminate]. destruct (duplicate (define_ids st) ids) eqn:ED; [discriminate|].
          destruct (non_define f (a ++ b) None _) as [[e1 s1]| |] eqn:E; try discriminate. cbn [xbind] in H. injection H as <- <-.
          apply (STEP (cons e) (mkmst (x_forms st) (ids ++ define_ids st) (xform_ids st)) e1); [exists f; exact E|auto|auto|].
          intros o1 s2 [g G]. exists (S (f + g)). cbn [Expand.non_define]. rewrite ET' by lia. cbn [xbind]. rewrite F1, F2, EC, ED.
          rewrite (nd_le g (f + g) _ _ _ _ ltac:(lia) G). reflexivity. }
        destruct (form_is "begin" e) eqn:F3.
        { destruct (to_list e) as [l|] eqn:EL; [|discriminate]. destruct (tl l) as [|x forms] eqn:ETL.
          - apply (STEP (fun l => l) st o); [exists f; exact H|auto|auto|]. intros o1 s1 [g G]. exists (S (f + g)). cbn [Expand.non_define]. rewrite ET' by lia. cbn [xbind].
            rewrite F1, F2, F3, EL, ETL. eapply nd_le; [|exact G]. lia.
          - destruct (non_define f (x :: forms) (Some isc) st) as [[e1 s1]| |] eqn:E1; try discriminate. cbn [xbind] in H.
            destruct (non_define f (a ++ b) None s1) as [[e2 s2]| |] eqn:E2; try discriminate. cbn [xbind] in H. injection H as <- <-.
            apply (STEP (app e1) s1 e2); [exists f; exact E2|auto|intros; apply app_assoc|]. intros o1 s3 [g G]. exists (S (f + g)).
            remember (x :: forms) as xs. cbn [Expand.non_define]. rewrite ET' by lia. cbn [xbind]. rewrite F1, F2, F3, EL, ETL. subst xs.
            rewrite (nd_le f (f + g) _ _ _ _ ltac:(lia) E1). cbn [xbind]. rewrite (nd_le g (f + g) _ _ _ _ ltac:(lia) G). reflexivity. }
        destruct (expand_expr evalx f isc true e) as [v| |] eqn:EX; try discriminate. cbn [xbind] in H.
        destruct (non_define f (a ++ b) None st) as [[e1 s1]| |] eqn:E; try discriminate. cbn [xbind] in H. injection H as <- <-.
        apply (STEP (cons v) st e1); [exists f; exact E|auto|auto|]. intros o1 s2 [g G]. exists (S (f + g)). cbn [Expand.non_define]. rewrite ET' by lia. cbn [xbind].
        rewrite F1, F2, F3, (EE (f + g) isc true e v) by (auto; lia). cbn [xbind]. rewrite (nd_le g (f + g) _ _ _ _ ltac:(lia) G). reflexivity.
      + intros [o1 [s1 [o2 [[[|f] H] [B ->]]]]]; [discriminate|]. cbn [Expand.non_define] in H.
        assert (STEP : forall k : list obj -> list obj, forall st0 o0, nds a st0 o0 s1 -> o1 = k o0 -> (forall x y, k (x ++ y) = k x ++ y) ->
           (forall o3, nds (a ++ b) st0 o3 st' -> nds (e0 :: a ++ b) st (k o3) st') -> nds (e0 :: a ++ b) st (o1 ++ o2) st').
        { intros k st0 o0 N EO KA NA. rewrite EO, <- KA. apply NA. apply IH. exists o0, s1, o2. auto. }
        destruct (expand_top f e0 _) as [[e isc]| |] eqn:ET; try discriminate. cbn [xbind] in H.
        assert (ET' : forall g, f <= g -> expand_top g e0 (x_forms st) = XOk (e, isc)).
        { intros g L. destruct (ap_le (fun f => expand_top f e0 (x_forms st)) (fun f => expand_top_mono1 f e0 (x_forms st)) f g L) as [X|X]; congruence. }
        assert (EE : forall g xf rb z y, f <= g -> expand_expr evalx f xf rb z = XOk y -> expand_expr evalx g xf rb z = XOk y) by (intros; eapply expand_le; eauto).
        destruct (form_is "define-syntaxes" e) eqn:F1.
        { destruct (check_define_form e) as [[ids rhs]|] eqn:EC; [|discriminate]. destruct (duplicate (xform_ids st) ids) eqn:ED; [discriminate|].
          destruct (expand_expr evalx f isc true rhs) as [rhs'| |] eqn:ER; try discriminate. cbn [xbind] in H. destruct (evalx rhs') as [fs|] eqn:EV; [|discriminate].
          destruct (List.length ids =? List.length fs) eqn:EL; [|discriminate].
          apply (STEP (fun l => l) (record_xforms ids fs st) o1); [exists f; exact H|auto|auto|].
          intros o3 [g G]. exists (S (f + g)). cbn [Expand.non_define]. rewrite ET' by lia. cbn [xbind]. rewrite F1, EC, ED, (EE (f + g) isc true rhs rhs') by (auto; lia). cbn [xbind].
          rewrite EV, EL. eapply nd_le; [|exact G]. lia. }
        destruct (form_is "define-values" e) eqn:F2.
        { destruct (check_define_form e) as [[ids rhs]|] eqn:EC; [|discriminate]. destruct (duplicate (define_ids st) ids) eqn:ED; [discriminate|].
          destruct (non_define f a None _) as [[e1 s2]| |] eqn:E; try discriminate. cbn [xbind] in H. injection H as <- <-.
          apply (STEP (cons e) (mkmst (x_forms st) (ids ++ define_ids st) (xform_ids st)) e1); [exists f; exact E|auto|auto|].
          intros o3 [g G]. exists (S (f + g)). cbn [Expand.non_define]. rewrite ET' by lia. cbn [xbind]. rewrite F1, F2, EC, ED.
          rewrite (nd_le g (f + g) _ _ _ _ ltac:(lia) G). reflexivity. }
        destruct (form_is "begin" e) eqn:F3.
        { destruct (to_list e) as [l|] eqn:EL; [|discriminate]. destruct (tl l) as [|x forms] eqn:ETL.
          - apply (STEP (fun l => l) st o1); [exists f; exact H|auto|auto|]. intros o3 [g G]. exists (S (f + g)). cbn [Expand.non_define]. rewrite ET' by lia. cbn [xbind].
            rewrite F1, F2, F3, EL, ETL. eapply nd_le; [|exact G]. lia.
          - destruct (non_define f (x :: forms) (Some isc) st) as [[e1 s2]| |] eqn:E1; try discriminate. cbn [xbind] in H.
            destruct (non_define f a None s2) as [[e2 s3]| |] eqn:E2; try discriminate. cbn [xbind] in H. injection H as <- <-.
            apply (STEP (app e1) s2 e2); [exists f; exact E2|auto|intros; apply app_assoc|]. intros o3 [g G]. exists (S (f + g)).
            remember (x :: forms) as xs. cbn [Expand.non_define]. rewrite ET' by lia. cbn [xbind]. rewrite F1, F2, F3, EL, ETL. subst xs.
            rewrite (nd_le f (f + g) _ _ _ _ ltac:(lia) E1). cbn [xbind]. rewrite (nd_le g (f + g) _ _ _ _ ltac:(lia) G). reflexivity. }
        destruct (expand_expr evalx f isc true e) as [v| |] eqn:EX; try discriminate. cbn [xbind] in H.
        destruct (non_define f a None st) as [[e1 s2]| |] eqn:E; try discriminate. cbn [xbind] in H. injection H as <- <-.
        apply (STEP (cons v) st e1); [exists f; exact E|auto|auto|]. intros o3 [g G]. exists (S (f + g)). cbn [Expand.non_define]. rewrite ET' by lia. cbn [xbind].
        rewrite F1, F2, F3, (EE (f + g) isc true e v) by (auto; lia). cbn [xbind]. rewrite (nd_le g (f + g) _ _ _ _ ltac:(lia) G). reflexivity.
  Qed.
  Lemma nds_begin forms st o st' : nds [OPair (sym "begin") (olist forms)] st o st' <-> nds forms st o st'.
  Proof.
    assert (SC : forall f a l, non_define f (a :: l) (Some (x_forms st)) st = non_define f (a :: l) None st) by (intros [|f] a l; reflexivity).
    split.
    - intros [[|[|f]] H]; try discriminate. remember (S f) as f1. cbn [Expand.non_define] in H. rewrite Heqf1 in H at 1. rewrite expand_top_define in H by (simpl; auto). cbn [xbind] in H.
      change (form_is "define-syntaxes" (OPair (sym "begin") (olist forms))) with false in H. change (form_is "define-values" (OPair (sym "begin") (olist forms))) with false in H.
      change (form_is "begin" (OPair (sym "begin") (olist forms))) with true in H. cbn iota in H.
      change (OPair (sym "begin") (olist forms)) with (olist (sym "begin" :: forms)) in H. rewrite to_olist in H. cbn [tl] in H. subst f1.
      destruct forms as [|a forms].
      + exists (S f). exact H.
      + rewrite SC in H. destruct (non_define (S f) (a :: forms) None st) as [[e1 s1]| |] eqn:E1; try discriminate. cbn in H. injection H as <- <-. exists (S f). rewrite app_nil_r. auto.
    - intros [f H]. exists (S (S f)). remember (S f) as f1. cbn [Expand.non_define]. rewrite Heqf1 at 1. rewrite expand_top_define by (simpl; auto). cbn [xbind].
      change (form_is "define-syntaxes" (OPair (sym "begin") (olist forms))) with false. change (form_is "define-values" (OPair (sym "begin") (olist forms))) with false.
      change (form_is "begin" (OPair (sym "begin") (olist forms))) with true. cbn iota.
      change (OPair (sym "begin") (olist forms)) with (olist (sym "begin" :: forms)). rewrite to_olist. cbn [tl].
      apply (nd_le f f1) in H; [|lia]. destruct forms as [|a forms]; [exact H|]. rewrite SC, H. subst f1. cbn. rewrite app_nil_r. auto.
  Qed.
  Lemma module_nds es xf sc out : (exists f, expand_module evalx f es xf sc = XOk out) <->
    exists es1 st, nds es (mkmst xf [] []) es1 st /\ exists f, (let! es2 := mapx (define_values1 evalx f (x_forms st)) es1 in let! _ := check_module f es2 sc in XOk (es2, x_forms st)) = XOk out.
  Proof.
    split.
    - intros [f H]. unfold expand_module in H. destruct (non_define f es None _) as [[es1 st]| |] eqn:E; try discriminate. cbn [xbind] in H.
      exists es1, st. split; [exists f; exact E|]. exists f. exact H.
    - intros [es1 [st [[f E] [g H]]]]. exists (f + g). unfold expand_module. rewrite (nd_le f (f + g) _ _ _ _ ltac:(lia) E). cbn [xbind].
      assert (A : ap (let! es2 := mapx (define_values1 evalx g (x_forms st)) es1 in let! _ := check_module g es2 sc in XOk (es2, x_forms st))
                     (let! es2 := mapx (define_values1 evalx (f + g) (x_forms st)) es1 in let! _ := check_module (f + g) es2 sc in XOk (es2, x_forms st))).
      { apply (ap_le (fun g => let! es2 := mapx (define_values1 evalx g (x_forms st)) es1 in let! _ := check_module g es2 sc in XOk (es2, x_forms st))); [|lia].
        intros n. apply ap_bind.
        - apply ap_map. intros e. unfold define_values1. destruct (form_is "define-values" e); [|apply ap_refl].
          destruct (to_list e) as [[|a [|b [|v r]]]|]; try apply ap_refl. apply ap_bind; [apply expand_mono1|]. intros ?. apply ap_refl.
        - intros es2. apply ap_bind; [apply check_module_mono1|]. intros ?. apply ap_refl. }
      destruct A as [A|A]; congruence.
  Qed.
End Module.

(** A module with a definition that is not [(define-values (id <ellipsis>) e)], or the
    same for define-syntaxes, among its forms is refused. *)
Theorem C55_malformed_definition_refused evalx es e k : In e es -> In k ["define-values"; "define-syntaxes"]%string -> definition_form k e -> ~ well_defined k e ->
  forall f xf sc r, expand_module evalx f es xf sc <> XOk r.
Proof.
  intros I K D N f xf sc r H. unfold expand_module in H. destruct (non_define evalx f es None _) as [r1| |] eqn:E; try discriminate.
  apply N. eapply nd_well_defined; eauto.
Qed.
(** So is a module that defines a variable twice. *)
Theorem C55_redefinition_refused evalx a b c i1 i2 r1 r2 x : In x i1 -> In x i2 ->
  forall f xf sc r, expand_module evalx f (a ++ olist [sym "define-values"; olist i1; r1] :: b ++ olist [sym "define-values"; olist i2; r2] :: c) xf sc <> XOk r.
Proof.
  intros X1 X2 f xf sc r H. unfold expand_module in H. destruct (non_define evalx f _ None _) as [o| |] eqn:E; try discriminate.
  eapply (nd_once evalx _ _ _ _ _ E); eauto. apply in_or_app. right. left. auto.
Qed.
(** [(begin form <ellipsis>)] among the forms of a module is the same as the forms in
    its place. *)
Theorem C55_begin_spliced evalx a forms b xf sc out :
  (exists f, expand_module evalx f (a ++ OPair (sym "begin") (olist forms) :: b) xf sc = XOk out) <->
  (exists f, expand_module evalx f (a ++ forms ++ b) xf sc = XOk out).
Proof.
  rewrite !module_nds. change (a ++ OPair (sym "begin") (olist forms) :: b) with (a ++ [OPair (sym "begin") (olist forms)] ++ b).
  split; intros [es1 [st [H T]]]; exists es1, st; (split; [|exact T]); clear T.
  - apply nds_app in H as [o1 [s1 [o2 [H1 [H2 ->]]]]]. apply nds_app in H2 as [o3 [s3 [o4 [H3 [H4 ->]]]]]. apply (nds_begin evalx forms) in H3.
    apply nds_app. exists o1, s1, (o3 ++ o4). split; auto. split; auto. apply nds_app. eauto 8.
  - apply nds_app in H as [o1 [s1 [o2 [H1 [H2 ->]]]]]. apply nds_app in H2 as [o3 [s3 [o4 [H3 [H4 ->]]]]]. apply (nds_begin evalx forms) in H3.
    apply nds_app. exists o1, s1, (o3 ++ o4). split; auto. split; auto. apply nds_app. eauto 8.
Qed.

(** ** The macros a macro sees

    At the use of a macro: the macros there, and those of its definition whose names
    are not used there. *)
Theorem C55_macros_at_use n xs new : xassoc n (merge xs new) = match xassoc n xs with Some x => Some x | None => xassoc n new end.
Proof.
  revert xs. induction new as [|[m x] new IH]; intros xs; simpl; [destruct (xassoc n xs); auto|].
  destruct (xassoc m xs) as [y|] eqn:E; rewrite IH.
  - destruct (xassoc n xs) eqn:E2; auto. destruct (name_dec n m); auto. subst. congruence.
  - simpl. destruct (name_dec n m); [subst; rewrite E; auto|auto].
Qed.
(** A macro that a module defines sees every macro known then and itself, and the
    macros that the module defined before see it. *)
Theorem C55_module_macro_scope st n fn m g :
  NoDup (map fst (x_forms st)) -> ~ In n (map fst (x_forms st)) -> (m = n \/ (In (OSym m) (xform_ids st) /\ finds m (x_forms st) g)) ->
  exists x sc, xassoc m (x_forms (record_xform (OSym n) fn st)) = Some (Xf x sc) /\ finds n sc fn /\ forall k h, finds k (x_forms st) h -> finds k sc h.
Proof.
  intros ND NI D.
  assert (F : finds m (x_forms (record_xform (OSym n) fn st)) (if name_dec m n then fn else g)).
  { destruct (C55_macro_recorded st n fn ND NI) as [_ [A B]]. destruct (name_dec m n) as [->|NE]; [exact A|]. apply B; auto. destruct D as [D|[_ D]]; [congruence|auto]. }
  destruct F as [[x sc] [E _]]. exists x, sc. split; [exact E|].
  destruct (C55_macro_recorded st n fn ND NI) as [ND' _]. apply xassoc_in in E; auto. cbn [record_xform x_forms] in E. apply in_rev in E.
  rewrite in_map_iff in E. destruct E as [[m' [v s]] [E I]]. cbn [fst snd] in E.
  assert (M : m' = m). { destruct (mem_sym _ _); injection E; auto. }
  subst m'. assert (MS : mem_sym (OSym m) (OSym n :: xform_ids st) = true).
  { unfold mem_sym. apply existsb_exists. exists (OSym m). split; [|apply obj_sym_dec_spec; auto; left; eauto]. destruct D as [->|[D _]]; [left; auto|right; auto]. }
  rewrite MS in E. injection E as _ <-. split.
  - exists (Xf fn []). simpl. destruct (name_dec n n); [auto|congruence].
  - intros k h [y [Y1 Y2]]. exists y. split; auto. simpl. destruct (name_dec k n) as [->|]; auto. exfalso. apply NI.
    apply xassoc_in in Y1; auto. change n with (fst (n, y)). apply in_map. auto.
Qed.
(** A macro of let-syntaxes is found by its name in the body and sees the macros
    around the form. *)
Theorem C55_local_macro_scope ns fs xs : NoDup ns -> List.length ns = List.length fs ->
  (forall i n fn, nth_error ns i = Some n -> nth_error fs i = Some fn ->
     exists sc, xassoc n (bind_xforms (map OSym ns) fs xs) = Some (Xf fn sc) /\ forall k, ~ In k ns -> xassoc k sc = xassoc k xs) /\
  (forall k, ~ In k ns -> xassoc k (bind_xforms (map OSym ns) fs xs) = xassoc k xs).
Proof.
  revert fs xs. induction ns as [|n ns IH]; intros [|f fs] xs ND L; try discriminate.
  - split; auto. intros [|i]; discriminate.
  - inversion ND as [|? ? NI ND']; subst. cbn [map bind_xforms]. destruct (IH fs ((n, Xf f xs) :: xs) ND' ltac:(simpl in L; lia)) as [A B]. split.
    + intros [|i] m fn E1 E2; cbn in E1, E2.
      * injection E1 as <-. injection E2 as <-. exists xs. split; auto. rewrite B by auto. simpl. destruct (name_dec n n); [auto|congruence].
      * destruct (A i m fn E1 E2) as [sc [C D]]. exists sc. split; auto. intros k K. rewrite D by (intros X; apply K; right; auto).
        simpl. destruct (name_dec k n) as [->|]; auto. exfalso. apply K. left; auto.
    + intros k K. rewrite B by (intros X; apply K; right; auto). simpl. destruct (name_dec k n) as [->|]; auto. exfalso. apply K. left; auto.
Qed.

(** ** Concrete cases *)
Example C55_malformed_cases : ~ shaped "quote" (olist [OFix 1; OFix 2]) /\ ~ shaped "set!" (olist [sym "x"; OFix 1; OFix 2]) /\
  ~ shaped "let-values" (olist [olist [olist [olist [sym "x"; sym "x"]; OFix 1]]; OFix 2]) /\ shaped "if" (olist [OFix 1; OFix 2; OFix 3]) /\
  ~ well_defined "define-values" (olist [sym "define-values"; olist [sym "x"]; OFix 1; OFix 2]).
Proof.
  split; [|split; [|split; [|split]]].
  - intros H. inversion H as [k d K E1 E2| | | | |k bs body K E0 E1 E2 E3 E4| ]; subst. destruct K as [E|[E|[]]]; discriminate E.
  - intros H. inversion H as [k d K E1 E2| | | | |k bs body K E0 E1 E2 E3 E4| ]; subst. destruct K as [E|[E|[]]]; discriminate E.
  - intros H. inversion H as [k d K E1 E2| | | | |k bs body K S N B E1 E2| ]; subst. change (OPair (OPair (OPair (sym "x") (OPair (sym "x") ONull)) (OPair (OFix 1) ONull)) ONull)
      with (obindings [([sym "x"; sym "x"], OFix 1)]) in E2. apply obindings_inj in E2. subst bs. cbn in N. inversion N as [|? ? NI]; subst. apply NI. left; auto.
  - apply ShIf.
  - intros [ids [rhs [E _]]]. discriminate E.
Qed.
Example C55_begin_case : exists xf, expand_module (fun _ => None) 9
  [olist [sym "define-values"; olist [sym "a"]; OFix 1]; olist [sym "begin"; olist [sym "define-values"; olist [sym "b"]; sym "a"]; sym "b"]; OFix 3] [] [] =
  XOk ([olist [sym "define-values"; olist [sym "a"]; OFix 1]; olist [sym "define-values"; olist [sym "b"]; sym "a"]; sym "b"; OFix 3], xf).
Proof. eexists. reflexivity. Qed.

Print Assumptions C55_malformed_refused.
Print Assumptions C55_improper_refused.
Print Assumptions C55_malformed_definition_refused.
Print Assumptions C55_redefinition_refused.
Print Assumptions C55_begin_spliced.
Print Assumptions C55_macros_at_use.
Print Assumptions C55_module_macro_scope.
Print Assumptions C55_local_macro_scope.
