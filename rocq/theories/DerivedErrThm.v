(** C56, continued: which uses of the derived forms are refused. *)
From Coq Require Import ZArith NArith Bool Ascii String List Arith Lia.
From Verif Require Import Base Heap HeapM Ast Sem Check Expand Derived CheckThm ExpandProofs BodyProofs DerivedProofs DerivedThm.
Import ListNotations.
Local Open Scope list_scope.

(** * Specification *)

(** A sequence of bindings [(name value) ...]. *)
Inductive binding_seq : obj -> Prop :=
| BsNil : binding_seq ONull
| BsCons v e d : symbolp v = true -> binding_seq d -> binding_seq (OPair (olist [v; e]) d).
(** The clauses of a case, [((datum ...) expr expr ...)]. *)
Inductive datum_clause : obj -> Prop :=
| DatumClause ks e es : datum_clause (olist (olist ks :: e :: es)).
(** The variables of a do, [((var init step) ...)]. *)
Inductive do_seq : obj -> Prop :=
| DoNil : do_seq ONull
| DoCons v i s d : do_seq d -> do_seq (OPair (olist [v; i; s]) d).

(** The uses of each form that are accepted. *)
Local Open Scope string_scope.
Inductive use_of : string -> obj -> Prop :=
| UAnd h es : use_of "and" (olist (h :: es))
| UOr h es : use_of "or" (olist (h :: es))
| UCondNone h : use_of "cond" (olist [h])
| UCond h test e es cls : test <> sym "else" -> use_of "cond" (olist (h :: olist (test :: e :: es) :: cls))
| UCondElse h e es : use_of "cond" (olist [h; olist (sym "else" :: e :: es)])
| UWhen h c e es : use_of "when" (olist (h :: c :: e :: es))
| UUnless h c e es : use_of "unless" (olist (h :: c :: e :: es))
| ULet h bs e es : binding_seq bs -> use_of "let" (olist (h :: bs :: e :: es))
| ULetName h n bs es : symbolp n = true -> binding_seq bs -> use_of "let" (olist (h :: n :: bs :: es))
| ULetStar h bs e es : binding_seq bs -> use_of "let*" (olist (h :: bs :: e :: es))
| ULetrec h bs e es : binding_seq bs -> use_of "letrec" (olist (h :: bs :: e :: es))
| UDefine h n e : symbolp n = true -> use_of "define" (olist [h; n; e])
| UDefineProc h head fm e es : use_of "define" (olist (h :: OPair head fm :: e :: es))
| UCase h v cls : Forall datum_clause cls -> use_of "case" (olist (h :: v :: cls))
| UCaseElse h v cls e es : Forall datum_clause cls -> use_of "case" (olist (h :: v :: cls ++ [olist (sym "else" :: e :: es)]))
| UDo h specs t es cs : do_seq specs -> use_of "do" (olist (h :: specs :: olist (t :: es) :: cs)).

(** The forms and the transformers of the library. *)
Definition derived : list (string * tr) :=
  [("and", and_tr); ("or", or_tr); ("cond", cond_tr); ("when", when_tr); ("unless", unless_tr); ("let", let_tr); ("let*", let_star_tr);
   ("letrec", letrec_tr); ("define", def_tr); ("case", case_tr); ("do", do_tr)].

(** * Proofs *)
Lemma to_o l : to_list (olist l) = Some l.
Proof. apply to_list_spec. auto. Qed.
Lemma splice_iff o : splice o <> None <-> binding_seq o.
Proof.
  split.
  - assert (H : forall l, splice o = Some l -> binding_seq o).
    { induction o; try (intros ?; discriminate).
      - intros l _. constructor.
      - intros l E. cbn in E. destruct o1 as [| | | | | | | | | | | | | | | | |]; try discriminate.
        match goal with E : context [match ?d with ONull => _ | _ => _ end] |- _ => destruct d; try discriminate end.
        match goal with E : context [match ?d with ONull => _ | _ => _ end] |- _ => destruct d; try discriminate end.
        match goal with E : context [symbolp ?v] |- _ => destruct (symbolp v) eqn:S0; try discriminate end. destruct (splice o2) as [l'|] eqn:D; try discriminate.
        apply (BsCons _ _ o2 S0). eauto. }
    destruct (splice o) as [l|]; [intros _; eauto|congruence].
  - intros H. induction H as [|v e d S0 H IH]; [discriminate|]. cbn. rewrite S0. destruct (splice d); [discriminate|congruence].
Qed.
Lemma specs_iff o : do_specs o <> None <-> do_seq o.
Proof.
  split.
  - assert (H : forall l, do_specs o = Some l -> do_seq o).
    { induction o; try (intros ?; discriminate).
      - intros l _. constructor.
      - intros l E. cbn [do_specs] in E. destruct (to_list o1) as [[|x [|y [|z [|]]]]|] eqn:A; try discriminate.
        destruct (do_specs o2); try discriminate. apply to_list_spec in A. subst o1. constructor. eauto. }
    destruct (do_specs o) as [l|]; [intros _; eauto|congruence].
  - intros H. induction H as [|v i s d H IH]; [discriminate|]. cbn. destruct (do_specs d); [discriminate|congruence].
Qed.
Lemma clause_plain c ks body : case_clause c = Some (Some ks, body) -> datum_clause c.
Proof.
  unfold case_clause. destruct (to_list c) as [[|k [|e es]]|] eqn:C; try discriminate. destruct (is_kw "else" k); try discriminate.
  destruct (to_list k) eqn:K; try discriminate. intros _. apply to_list_spec in C, K. subst. constructor.
Qed.
Lemma clause_else c body : case_clause c = Some (None, body) -> exists e es, c = olist (sym "else" :: e :: es).
Proof.
  unfold case_clause. destruct (to_list c) as [[|k [|e es]]|] eqn:C; try discriminate. destruct (is_kw "else" k) eqn:E.
  - intros _. apply to_list_spec in C. subst. exists e, es. apply is_kw_spec in E. subst. auto.
  - destruct (to_list k); discriminate.
Qed.

Lemma else_clause e es : case_clause (olist (sym "else" :: e :: es)) = Some (None, e :: es).
Proof. unfold case_clause. rewrite to_o. reflexivity. Qed.
Lemma datum_is c : datum_clause c -> exists ks body, case_clause c = Some (Some ks, body).
Proof.
  intros [ks e es]. exists ks, (e :: es). unfold case_clause. rewrite to_o. destruct (is_kw "else" (olist ks)) eqn:K.
  - apply is_kw_spec in K. destruct ks; discriminate.
  - rewrite to_o. auto.
Qed.
Lemma clauses_plain cls : forall l, case_clauses cls = Some l -> plain_clauses l = true <-> Forall datum_clause cls.
Proof.
  induction cls as [|c cls IH]; intros l E; cbn in E; [injection E as <-; split; auto|].
  destruct (case_clause c) as [[o body]|] eqn:C; try discriminate. destruct (case_clauses cls) as [l'|] eqn:L; try discriminate. injection E as <-.
  cbn. fold (plain_clauses l'). rewrite andb_true_iff, (IH l' eq_refl). split.
  - intros [A B]. constructor; auto. destruct o; try discriminate. eapply clause_plain; eauto.
  - intros H. inversion H; subst. split; auto. destruct (datum_is c) as (ks & b & D); auto. rewrite D in C. injection C as <- _. auto.
Qed.
Lemma clauses_app a b : case_clauses (a ++ b) = match case_clauses a, case_clauses b with Some x, Some y => Some (x ++ y)%list | _, _ => None end.
Proof.
  induction a as [|c a IH]; cbn; [destruct (case_clauses b); auto|]. rewrite IH. destruct (case_clause c), (case_clauses a), (case_clauses b); auto.
Qed.
Lemma clauses_all cls : Forall datum_clause cls -> exists l, case_clauses cls = Some l /\ plain_clauses l = true.
Proof.
  intros F. assert (H : exists l, case_clauses cls = Some l).
  { induction F as [|c cls D F [l E]]; [exists []; auto|]. destruct (datum_is c D) as (ks & b & C). cbn. rewrite C, E. eauto. }
  destruct H as [l E]. exists l. split; auto. eapply clauses_plain; eauto.
Qed.
Lemma clauses_split cls : forall l q x, case_clauses cls = Some l -> l = (q ++ [(None, x)])%list -> plain_clauses q = true ->
  exists a e es, cls = (a ++ [olist (sym "else" :: e :: es)])%list /\ Forall datum_clause a.
Proof.
  induction cls as [|c cls IH]; intros l q x E Q P; cbn in E; [injection E as <-; destruct q; discriminate|].
  destruct (case_clause c) as [[o body]|] eqn:C; try discriminate. destruct (case_clauses cls) as [l'|] eqn:L; try discriminate. injection E as <-.
  destruct q as [|[o' b'] q]; injection Q as -> -> ->.
  - destruct (clause_else _ _ C) as (e & es & ->). exists [], e, es. split; auto. destruct cls as [|d cls]; auto. cbn in L. destruct (case_clause d), (case_clauses cls); discriminate.
  - cbn in P. apply andb_true_iff in P as [P1 P2]. destruct (IH _ q x eq_refl eq_refl P2) as (a & e & es & -> & F). exists (c :: a), e, es. split; auto.
    constructor; auto. destruct o'; try discriminate. eapply clause_plain; eauto.
Qed.
Lemma plain_rev l : plain_clauses (rev l) = plain_clauses l.
Proof.
  unfold plain_clauses. destruct (forallb _ l) eqn:A.
  - rewrite forallb_forall in *. intros x I. apply A. apply in_rev. auto.
  - destruct (forallb _ (rev l)) eqn:B; auto. rewrite <- A. symmetry. rewrite forallb_forall in *. intros x I. apply B. rewrite <- in_rev. auto.
Qed.

Lemma case_iff o : case_tr o <> None <-> use_of "case" o.
Proof.
  split.
  - intros H. unfold case_tr in H. destruct (to_list o) as [l|] eqn:E; [|congruence]. apply to_list_spec in E. subst o.
    destruct l as [|h [|v cls]]; try congruence. destruct cls as [|c cls]; [apply (UCase h v []); auto|].
    destruct (case_clauses (c :: cls)) as [l|] eqn:L; [|congruence].
    destruct (plain_clauses l) eqn:P; [apply UCase; apply (clauses_plain _ _ L); auto|].
    assert (R : exists q x, l = (q ++ [(None, x)])%list /\ plain_clauses q = true).
    { destruct l as [|[[ks|] b] [|]]; try (exists [], b; auto; fail).
      - cbn in L. destruct (case_clause c), (case_clauses cls); discriminate.
      - discriminate.
      - destruct (rev _) as [|[[|] x] q] eqn:RV in H; try congruence. destruct (plain_clauses q) eqn:PQ; try congruence.
        exists (rev q), x. rewrite plain_rev. split; auto. rewrite <- (rev_involutive (_ :: _ :: _)), RV. auto.
      - destruct (rev _) as [|[[|] x] q] eqn:RV in H; try congruence. destruct (plain_clauses q) eqn:PQ; try congruence.
        exists (rev q), x. rewrite plain_rev. split; auto. rewrite <- (rev_involutive (_ :: _ :: _)), RV. auto. }
    destruct R as (q & x & Q & PQ). destruct (clauses_split _ _ _ _ L Q PQ) as (a & e & es & -> & F). apply UCaseElse. auto.
  - intros H. inversion H as [| | | | | | | | | | | | |h v cls F Q|h v cls e es F Q|]; subst.
    + unfold case_tr. rewrite to_o. destruct cls as [|c cls]; [discriminate|]. destruct (clauses_all _ F) as (l & L & P). rewrite L, P.
      destruct l as [|[[ks|] b] [|]]; try discriminate.
    + unfold case_tr. rewrite to_o. destruct (clauses_all _ F) as (l & L & P). rewrite clauses_app, L. cbn [case_clauses]. rewrite else_clause.
      destruct (cls ++ _)%list as [|c cs] eqn:Q1; [destruct cls; discriminate|]. clear Q1.
      destruct (l ++ [(None, e :: es)])%list as [|[o b] r] eqn:Q2; [destruct l; discriminate|].
      assert (RV : rev ((o, b) :: r) = (None, e :: es) :: rev l) by (rewrite <- Q2, rev_unit; auto). rewrite RV, plain_rev, P.
      destruct o; [|destruct r]; try discriminate. match goal with |- (if ?b then _ else _) <> None => destruct b end; discriminate.
Qed.

(** * The theorems *)

(** A transformer of the library refuses exactly what is not one of the uses listed. *)
Theorem C56_accepted n fn o : In (n, fn) derived -> fn o <> None <-> use_of n o.
Proof.
  intros I. unfold derived in I. repeat (destruct I as [I|I]; [injection I as <- <-|]); [..|destruct I]; try apply case_iff.
  all: split; [intros H; match type of H with ?f _ <> None => unfold f, define_tr in H | ?f _ _ _ <> None => unfold f in H end;
       destruct (to_list o) as [l|] eqn:E; [|congruence]; apply to_list_spec in E; subst o
     | intros H; inversion H; subst; match goal with |- ?f _ <> None => unfold f, def_tr, define_tr end; rewrite to_o ].
  - (* and *) destruct l as [|h es]; [congruence|constructor].
  - destruct es as [|a [|b r]]; discriminate.
  - (* or *) destruct l as [|h es]; [congruence|constructor].
  - destruct es as [|a [|b r]]; discriminate.
  - (* cond *) destruct l as [|h [|c cls]]; [congruence|constructor|]. destruct (to_list c) as [l|] eqn:C; [|congruence]. apply to_list_spec in C. subst c.
    destruct l as [|test [|e es]]; try congruence. destruct (is_kw "else" test) eqn:K.
    + apply is_kw_spec in K. subst. destruct cls; [apply UCondElse|congruence].
    + apply UCond. apply is_kw_false. auto.
  - discriminate.
  - rewrite to_o. match goal with H : _ <> sym "else" |- _ => apply is_kw_false in H; rewrite H end. discriminate.
  - rewrite to_o. change (is_kw "else" (sym "else")) with true. cbv iota. discriminate.
  - (* when *) destruct l as [|h [|c [|e es]]]; try congruence. constructor.
  - discriminate.
  - (* unless *) destruct l as [|h [|c [|e es]]]; try congruence. constructor.
  - discriminate.
  - (* let *) destruct l as [|h [|bs [|e es]]]; try congruence. destruct (symbolp bs) eqn:S0.
    + apply ULetName; auto. apply splice_iff. destruct (splice e); congruence.
    + apply ULet. apply splice_iff. destruct (splice bs); congruence.
  - match goal with H : binding_seq _ |- _ => assert (NS : symbolp bs = false) by (destruct H; auto); apply splice_iff in H end.
    rewrite NS. destruct (splice bs); congruence.
  - match goal with H : binding_seq _ |- _ => apply splice_iff in H end. match goal with H : symbolp _ = true |- _ => rewrite H end. destruct (splice bs); congruence.
  - (* let* *) destruct l as [|h [|bs [|e es]]]; try congruence. constructor. apply splice_iff. destruct (splice bs); congruence.
  - match goal with H : binding_seq _ |- _ => apply splice_iff in H end. destruct (splice bs); congruence.
  - (* letrec *) destruct l as [|h [|bs [|e es]]]; try congruence. constructor. apply splice_iff. destruct (splice bs); congruence.
  - match goal with H : binding_seq _ |- _ => apply splice_iff in H end. destruct (splice bs); congruence.
  - (* define *) destruct l as [|h [|id [|v n]]]; try congruence. destruct (symbolp id) eqn:S0.
    + destruct n; [constructor; auto|congruence].
    + destruct id; try congruence. constructor.
  - match goal with H : symbolp _ = true |- _ => rewrite H end. discriminate.
  - discriminate.
  - (* do *) destruct l as [|h [|specs [|test cs]]]; try congruence. destruct (do_specs specs) as [l|] eqn:S0; [|congruence].
    destruct (to_list test) as [[|t es]|] eqn:T; try congruence. apply to_list_spec in T. subst test. constructor. apply specs_iff. congruence.
  - match goal with H : do_seq _ |- _ => apply specs_iff in H end. rewrite to_o. destruct (do_specs specs); congruence.
Qed.
(** Such a use is refused when the form is expanded, as an expression and at the top
    level, whatever else is in scope. *)
Theorem C56_refused evalx xf rb f n fn sc q :
  In (n, fn) derived -> xassoc (s2b n) xf = Some (Xf fn sc) -> ~ use_of n (OPair (sym n) q) ->
  expand_expr evalx (S f) xf rb (OPair (sym n) q) = XErr /\ expand_top (S f) (OPair (sym n) q) xf = XErr.
Proof.
  intros I X U. assert (F : fn (OPair (sym n) q) = None).
  { destruct (fn (OPair (sym n) q)) eqn:F; auto. exfalso. apply U. apply (C56_accepted n fn _ I). congruence. }
  assert (K : ~ In n all_keywords).
  { unfold derived in I. repeat (destruct I as [I|I]; [injection I as <- _; vm_compute; intros J; repeat destruct J as [J|J]; try discriminate; destruct J|]). destruct I. }
  assert (N : forall k, In k all_keywords -> is_kw k (sym n) = false).
  { intros k J. apply is_kw_false. intros E'. apply sym_inj in E'. congruence. }
  split.
  - rewrite !expand_expr_S. cbv zeta. rewrite !N by (unfold all_keywords, expr_keywords; simpl; tauto). cbn [self_eval orb].
    change (lookup_xform (sym n) xf) with (xassoc (s2b n) xf). rewrite X, F. reflexivity.
  - cbn [expand_top]. rewrite !N by (unfold all_keywords, expr_keywords; simpl; tauto). cbn [orb].
    change (lookup_xform (sym n) xf) with (xassoc (s2b n) xf). rewrite X, F. reflexivity.
Qed.

(** ** Examples *)
(** (let ([x]) x), (let (x 1) x), (let ([x 1])), (define x), (define x 1 2), (define (f)), (when #t),
    (cond [else]), (cond [else 1] [#t 2]), (do ([i 0]) (#t)), (letrec ([5 1]) 2) *)
Definition x1 : obj := sym "x".
Definition bad_uses : list (string * list obj) :=
  [("let", [olist [olist [x1]]; x1]); ("let", [olist [x1; OFix 1]; x1]); ("let", [olist [olist [x1; OFix 1]]]); ("define", [x1]); ("define", [x1; OFix 1; OFix 2]);
   ("define", [olist [sym "f"]]); ("when", [OTrue]); ("cond", [olist [sym "else"]]); ("cond", [olist [sym "else"; OFix 1]; olist [OTrue; OFix 2]]);
   ("do", [olist [olist [sym "i"; OFix 0]]; olist [OTrue]]); ("letrec", [olist [olist [OFix 5; OFix 1]]; OFix 2])].
Example C56_refused_met evalx rb f :
  Forall (fun u => (exists fn, In (fst u, fn) derived) /\ ~ use_of (fst u) (form (fst u) (snd u)) /\
    expand_expr evalx (S f) std rb (form (fst u) (snd u)) = XErr) bad_uses.
Proof.
  assert (Q : forall n fn l, In (n, fn) derived -> fn (form n l) = None -> ~ use_of n (form n l)) by (intros n fn l I E U; apply (C56_accepted n fn _ I) in U; congruence).
  unfold bad_uses. repeat constructor; cbn [fst snd];
    try match goal with |- exists fn, _ => eexists; unfold derived; simpl; tauto end;
    try (match goal with |- ~ use_of ?n (form ?n ?l) => eapply (Q n _ l); [unfold derived; simpl; tauto|reflexivity] end).
Qed.
(** (let loop ([x 1])): the transformer accepts it; the lambda it makes has no body and is refused. *)
Example C56_loop_without_body evalx rb f : use_of "let" (form "let" [sym "loop"; olist [olist [x1; OFix 1]]]) /\
  expand_expr evalx (S (S (S (S f)))) std rb (form "let" [sym "loop"; olist [olist [x1; OFix 1]]]) = XErr.
Proof. split; [apply (ULetName (sym "let") (sym "loop") _ []); [reflexivity|repeat constructor]|]. reflexivity. Qed.
Print Assumptions C56_accepted.
Print Assumptions C56_refused.
