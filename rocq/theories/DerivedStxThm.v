(** C56: the macros do and case, from their source text. *)
From Coq Require Import ZArith NArith Bool Ascii String List Arith Lia.
From Verif Require Import Base Heap Ast Check Reader Expand LibRead LibReadProofs StxCase StxCaseProofs StxCaseThm Template TemplateProofs TemplateThm SynRules SynRulesProofs SynRulesThm MacroProofs Derived DerivedStx DerivedStxProofs.
Import ListNotations.
Local Open Scope list_scope.
Local Open Scope nat_scope.

(** * The source text *)
(** do.min 11-21 *)
Definition do_source : string :=
  "(syntax-rules ()
    [(_ ([var init step] ...)
        (test expr ...)
        command ...)
     (let loop ([var init] ...)
       (if test
           (begin
             expr ...)
           (begin
             command ...
             (loop step ...))))])".
(** case.min 12-19, the clauses with a template *)
Definition case_source : string :=
  "(syntax-case stx (else)
    [(_ v)                                              ; empty case
     #'(begin v (void))]
    [(_ v [else e es ...])                              ; else case
     #'(begin v (let-values () e es ...))]
    [(_ v [(k ...) e es ...] ...)                       ; missing else
     #'(case v [(k ...) e es ...] ... [else (void)])]
    [(_ v [(k ...) e es ...] ... [else x xs ...])       ; general case
     #'(let ([tmp v]) (case/else tmp [(k ...) e es ...] ... [else x xs ...]))])".
(** case.min 37-47 *)
Definition case_else_source : string :=
  "(syntax-case stx (else)
    [(_ v [(k ...) es ...] [else xs ...])
     #'(if (case/test v (k ...))
           (let-values () es ...)
           (let-values () xs ...))]
    [(_ v [(k ...) es ...] rest ... [else xs ...])
     #'(if (case/test v (k ...))
           (let-values () es ...)
           (case/else v rest ... [else xs ...]))]
    [(_ v [else xs ...])
     #'(let-values () xs ...)])".
(** case.min 50-57; (quote-syntax #f) in the first clause is written #'#f *)
Definition case_test_source : string :=
  "(syntax-case stx ()
    [(_ v ())
     #'#f]
    [(_ v (k))
     #'(equal? v 'k)]
    [(_ v (k ks ...))
     #'(if (equal? v 'k) #t (case/test v (ks ...)))])".

(** The library's reader finds the datum [d] in the text and nothing after it. *)
Definition read_text (s : string) (d : obj) : Prop := exists o, lreads (s2b s) o [] /\ strip o = d.
(** The text is the body of a macro (lambda (stx) text). *)
Definition written (s : string) (m : list obj * list (obj * obj)) : Prop :=
  exists d, read_text s d /\ sc_parse (of_list [S_ "lambda"; of_list [S_ "stx"]; d]) = Some m.

Lemma written_do : read_text do_source (rules_text [] do_rules).
Proof. eexists. split; [exists 200; vm_compute; reflexivity|vm_compute; reflexivity]. Qed.
Lemma written_case : written case_source (macro_of [s2b "else"] case_rules).
Proof. eexists. split; [eexists; split; [exists 300; vm_compute; reflexivity|vm_compute; reflexivity]|vm_compute; reflexivity]. Qed.
Lemma written_case_else : written case_else_source (macro_of [s2b "else"] case_else_rules).
Proof. eexists. split; [eexists; split; [exists 300; vm_compute; reflexivity|vm_compute; reflexivity]|vm_compute; reflexivity]. Qed.
Lemma written_case_test : written case_test_source (macro_of [] case_test_rules).
Proof. eexists. split; [eexists; split; [exists 300; vm_compute; reflexivity|vm_compute; reflexivity]|vm_compute; reflexivity]. Qed.

(** * The macros *)
(** The macro that the text of do defines rewrites every use (k . a) as [do_tr] does;
    where [do_tr] has no answer no rule matches. *)
Theorem C56_do_macro : exists d N, read_text do_source d /\ forall f, N <= f -> exists m, define_rules f d = Some m /\
  forall k a, strip (OPair k a) = OPair k a ->
  match do_tr (OPair k a) with
  | Some x => exists v, expand_use f m (OPair k a) = MOk v /\ strip v = x
  | None => expand_use f m (OPair k a) = MNo
  end.
Proof.
  exists (rules_text [] do_rules). destruct (C67_definition [] do_rules ltac:(discriminate) do_ok) as [N1 D]. destruct do_agrees as [N2 A].
  exists (N1 + N2). split; [exact written_do|]. intros f Hf. exists (macro_of [] do_rules). split; [apply D; lia|].
  intros k a P. apply A; auto; lia.
Qed.
(** case: the clauses after these raise errors *)
Theorem C56_case_macro : exists m N, written case_source m /\ forall f, N <= f -> forall k a, strip (OPair k a) = OPair k a ->
  match case_tr (OPair k a) with
  | Some x => exists v, expand_use f m (OPair k a) = MOk v /\ strip v = x
  | None => expand_use f m (OPair k a) = MNo
  end.
Proof. destruct case_agrees as [N A]. eexists. exists N. split; [exact written_case|exact A]. Qed.
Theorem C56_case_else_macro : exists m N, written case_else_source m /\ forall f, N <= f -> forall k a, strip (OPair k a) = OPair k a ->
  match case_else_tr (OPair k a) with
  | Some x => exists v, expand_use f m (OPair k a) = MOk v /\ strip v = x
  | None => expand_use f m (OPair k a) = MNo
  end.
Proof. destruct case_else_agrees as [N A]. eexists. exists N. split; [exact written_case_else|exact A]. Qed.
Theorem C56_case_test_macro : exists m N, written case_test_source m /\ forall f, N <= f -> forall k a, strip (OPair k a) = OPair k a ->
  match case_test_tr (OPair k a) with
  | Some x => exists v, expand_use f m (OPair k a) = MOk v /\ strip v = x
  | None => expand_use f m (OPair k a) = MNo
  end.
Proof. destruct case_test_agrees as [N A]. eexists. exists N. split; [exact written_case_test|exact A]. Qed.

(** Uses with two clauses and with two variables. *)
Ltac reads_ := eexists; split; [exists 200; vm_compute; reflexivity|vm_compute; reflexivity].
Example C56_macro_met :
  (exists d o, read_text "(do ([i 0 (+ i 1)] [s 0 (+ s i)]) ((= i 3) s) (show i))" d /\ strip d = d /\ do_tr d = Some o /\
     read_text "(let loop ([i 0] [s 0]) (if (= i 3) (begin s) (begin (show i) (loop (+ i 1) (+ s i)))))" o) /\
  (exists d o, read_text "(case x [(1 2) a] [else b c])" d /\ strip d = d /\ case_tr d = Some o /\
     read_text "(let ([tmp x]) (case/else tmp [(1 2) a] [else b c]))" o) /\
  (exists d, read_text "(case x [else a] [(1 2) b])" d /\ strip d = d /\ case_tr d = None).
Proof.
  split; [|split].
  - do 2 eexists. split; [reads_|]. split; [reflexivity|]. split; [reflexivity|reads_].
  - do 2 eexists. split; [reads_|]. split; [reflexivity|]. split; [reflexivity|reads_].
  - eexists. split; [reads_|]. split; reflexivity.
Qed.

Print Assumptions C56_do_macro.
Print Assumptions C56_case_macro.
Print Assumptions C56_case_else_macro.
Print Assumptions C56_case_test_macro.
