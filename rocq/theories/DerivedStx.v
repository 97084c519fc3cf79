(** The library macros that are written with patterns and templates, as the text of
    their definitions: do (src/library/private/do.min) and case (case.min). *)
From Coq Require Import ZArith NArith Bool Ascii String List Arith Lia.
From Verif Require Import Base Check Expand LibRead StxCase StxCaseProofs Template TemplateProofs SynRules SynRulesProofs.
Import ListNotations.
Local Open Scope list_scope.

(** abbreviations for names in patterns and templates *)
Definition pv (s : string) : pat := PVar (s2b s).
Definition kw (s : string) : pat := PLit (OSym (s2b s)).
Definition ti (s : string) : tmpl := TId (s2b s).
Definition tl_ (es : list tmpl) : tmpl := TList es None.
(** p <ellipsis> alone in a list *)
Definition seqp (p : pat) : pat := PEll [] p [] None.

(** do, do.min 10-21: a syntax-rules form without literals *)
Definition do_rules : list rule :=
  [ Rule (s2b "_")
      (AEll [seqp (PList [pv "var"; pv "init"; pv "step"] None); PEll [pv "test"] (pv "expr") [] None] (pv "command") [] None)
      (tl_ [ti "let"; ti "loop"; tl_ [TRep (tl_ [ti "var"; ti "init"])];
            tl_ [ti "if"; ti "test"; tl_ [ti "begin"; TRep (ti "expr")];
                 tl_ [ti "begin"; TRep (ti "command"); tl_ [ti "loop"; TRep (ti "step")]]]]) ].

(** the part (k <ellipsis>) e es <ellipsis> of the patterns and templates of case *)
Definition clause_p : pat := PEll [seqp (pv "k"); pv "e"] (pv "es") [] None.
Definition clause_t : tmpl := tl_ [tl_ [TRep (ti "k")]; ti "e"; TRep (ti "es")].
Definition null_t : tmpl := TConst ONull.
(** case, case.min 11-19: the clauses with a template, in order.  The other clauses,
    20-34, are tried when none of these matches; they raise errors. *)
Definition case_rules : list rule :=
  [ Rule (s2b "_") (AList [pv "v"] None) (tl_ [ti "begin"; ti "v"; tl_ [ti "void"]]);
    Rule (s2b "_") (AList [pv "v"; PEll [kw "else"; pv "e"] (pv "es") [] None] None)
      (tl_ [ti "begin"; ti "v"; tl_ [ti "let-values"; null_t; ti "e"; TRep (ti "es")]]);
    Rule (s2b "_") (AEll [pv "v"] clause_p [] None)
      (tl_ [ti "case"; ti "v"; TRep clause_t; tl_ [ti "else"; tl_ [ti "void"]]]);
    Rule (s2b "_") (AEll [pv "v"] clause_p [PEll [kw "else"; pv "x"] (pv "xs") [] None] None)
      (tl_ [ti "let"; tl_ [tl_ [ti "tmp"; ti "v"]];
            tl_ [ti "case/else"; ti "tmp"; TRep clause_t; tl_ [ti "else"; ti "x"; TRep (ti "xs")]]]) ].
(** case/else, case.min 36-47 *)
Definition sel_p : pat := PEll [seqp (pv "k")] (pv "es") [] None.
Definition else_p : pat := PEll [kw "else"] (pv "xs") [] None.
Definition test_t : tmpl := tl_ [ti "case/test"; ti "v"; tl_ [TRep (ti "k")]].
Definition case_else_rules : list rule :=
  [ Rule (s2b "_") (AList [pv "v"; sel_p; else_p] None)
      (tl_ [ti "if"; test_t; tl_ [ti "let-values"; null_t; TRep (ti "es")]; tl_ [ti "let-values"; null_t; TRep (ti "xs")]]);
    Rule (s2b "_") (AEll [pv "v"; sel_p] (pv "rest") [else_p] None)
      (tl_ [ti "if"; test_t; tl_ [ti "let-values"; null_t; TRep (ti "es")];
            tl_ [ti "case/else"; ti "v"; TRep (ti "rest"); tl_ [ti "else"; TRep (ti "xs")]]]);
    Rule (s2b "_") (AList [pv "v"; else_p] None)
      (tl_ [ti "let-values"; null_t; TRep (ti "xs")]) ].
(** case/test, case.min 49-57.  Simplification: (quote-syntax #f) in the first clause
    is taken as a template. *)
Definition equal_t : tmpl := tl_ [ti "equal?"; ti "v"; tl_ [ti "quote"; ti "k"]].
Definition case_test_rules : list rule :=
  [ Rule (s2b "_") (AList [pv "v"; PList [] None] None) (TConst OFalse);
    Rule (s2b "_") (AList [pv "v"; PList [pv "k"] None] None) equal_t;
    Rule (s2b "_") (AList [pv "v"; PEll [pv "k"] (pv "ks") [] None] None)
      (tl_ [ti "if"; equal_t; TConst OTrue; tl_ [ti "case/test"; ti "v"; tl_ [TRep (ti "ks")]]]) ].
