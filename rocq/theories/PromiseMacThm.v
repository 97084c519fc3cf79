(** C46: the macro delay, from its source text (src/library/private/promise.min 35-39). *)
From Coq Require Import ZArith NArith Bool Ascii String List Arith Lia.
From Verif Require Import Base Heap Ast Check Reader Expand LibRead LibReadProofs StxCase StxCaseProofs StxCaseThm Template TemplateProofs TemplateThm SynRules SynRulesProofs SynRulesThm MacroProofs Derived DerivedStx DerivedStxProofs DerivedStxThm.
Import ListNotations.
Local Open Scope list_scope.
Local Open Scope nat_scope.

(** promise.min 36-38, the clause with a template; the next clause raises an error *)
Definition delay_source : string :=
  "(syntax-case stx ()
    [(_ body ...)
     #'(make-promise (lambda () body ...))])".
Definition delay_rules : list rule :=
  [ Rule (s2b "_") (AEll [] (pv "body") [] None)
      (tl_ [ti "make-promise"; tl_ [ti "lambda"; null_t; TRep (ti "body")]]) ].
(** (delay e ...) becomes (make-promise (lambda () e ...)). *)
Definition delay_tr (d : obj) : option obj :=
  match to_list d with
  | Some (_ :: es) => Some (of_list [OSym (s2b "make-promise"); of_list (OSym (s2b "lambda") :: ONull :: es)])
  | _ => None
  end.
Lemma delay_ok : Forall (rule_ok []) delay_rules.
Proof. unfold delay_rules. constructor; [|constructor]. ok_rule. Qed.
Lemma delay_agrees : agrees [] delay_rules delay_tr.
Proof.
  apply use_agrees; [apply delay_ok| |].
  - intros k a i r bs P F. apply first_head in F as [-> M]. unfold matches, rule_pat in M. cbn [rargs headed] in M. unfold pv in M. inv_pats. from_datum.
    cbn [app] in *. rewrite H. unfold delay_tr. cbn [map]. rewrite to_list_of_list. eexists. split; [reflexivity|].
    cbn [body]. set (rho := env_of _ _). match goal with |- context [map strip ?l] => assert (V : rho (s2b "body") = Some (1, of_list l)) by reflexivity end.
    assert (R1 : rho (s2b "make-promise") = None) by reflexivity. assert (R2 : rho (s2b "lambda") = None) by reflexivity. clearbody rho.
    unfold tl_, ti, null_t. insting. rewrite ?app_nil_r. reflexivity.
  - intros k a x H. unfold delay_tr in H. destruct (to_list (OPair k a)) as [[|q xs]|] eqn:E; try discriminate. apply to_list_is in E.
    exists (R_ delay_rules 0), [of_list (map to_stx xs)]. split; [left; reflexivity|]. unfold matches, rule_pat. rewrite E. cbn [R_ delay_rules nth rargs headed].
    apply (m_rest [PWild] _ _ [to_stx q] (map to_stx xs) []); [apply (slist_stx (q :: xs))|]. apply (m_cons PWild [] (to_stx q) [] [] []); constructor.
Qed.
Theorem C46_delay_macro : exists m N, written delay_source m /\ forall f, N <= f -> forall k a, strip (OPair k a) = OPair k a ->
  match delay_tr (OPair k a) with
  | Some x => exists v, expand_use f m (OPair k a) = MOk v /\ strip v = x
  | None => expand_use f m (OPair k a) = MNo
  end.
Proof.
  destruct delay_agrees as [N A]. exists (macro_of [] delay_rules), N. split; [|exact A].
  eexists. split; [eexists; split; [exists 200; vm_compute; reflexivity|vm_compute; reflexivity]|vm_compute; reflexivity].
Qed.
Example C46_delay_met : exists d o, read_text "(delay (show 1) (+ x 1))" d /\ strip d = d /\ delay_tr d = Some o /\
  read_text "(make-promise (lambda () (show 1) (+ x 1)))" o.
Proof. do 2 eexists. split; [reads_|]. split; [reflexivity|]. split; [reflexivity|reads_]. Qed.
Print Assumptions C46_delay_macro.
