(** The derived macro forms of src/library/private/stxcase-extra.min: syntax-rules and
    with-syntax, as the compositions of syntax-case (StxCase.v) and of templates
    (Template.v) that they are written as.

    Simplifications: the two forms are themselves macros written with syntax-case and
    a template; their patterns and templates are the ones of the source.  The text a
    macro returns is put through datum->syntax by the expander; the source locations
    of its parts are dropped, no definition looks at them.  The fender of
    syntax-rules looks at the bindings of lit and k themselves and not at the list
    built from them by a template. *)
From Coq Require Import ZArith NArith Bool Ascii String List Arith Lia.
From Verif Require Import Base Check Expand LibRead StxCase Template.
Import ListNotations.
Local Open Scope list_scope.

Definition sym (s : string) : obj := OSym (s2b s).
Definition dots : obj := sym "...".

(** The pattern variables that a clause binds, stxcase.min 638-689: their names and
    depths from get-pattern-vars, their values from the matcher *)
Definition bind_vars (lits : list obj) (f : nat) (p : obj) (bs : list obj) : list byte -> option (nat * obj) := fun x =>
  match gvars lits f 0 p with
  | Some vs =>
      match find (fun e => match fst (fst e) with OSym y => if list_eq_dec ascii_dec y x then true else false | _ => false end)
                 (combine vs bs) with
      | Some e => Some (snd (fst e), snd e)
      | None => None
      end
  | None => None
  end.

Definition of_tres (r : tres obj) : mres obj :=
  match r with TOk v => MOk v | TBad | TErr => MErr | TFuel => MFuel end.

(** A syntax-case form whose clauses are a pattern, a fender and a template *)
Definition case_template (lits : list obj) (f : nat) (v : obj) (cls : list (obj * (list obj -> option bool) * obj)) : mres obj :=
  match syntax_case lits f v (map fst cls) with
  | MOk (i, bs) =>
      match nth_error cls i with
      | Some (p, _, t) => of_tres (template (bind_vars lits f p bs) f t)
      | None => MErr
      end
  | MNo => MNo | MErr => MErr | MFuel => MFuel
  end.

(** syntax-rules, stxcase-extra.min 12-19.
    The pattern (_ (lit <ellipsis>) [(k . p) t] <ellipsis>) *)
Definition sr_pattern : obj :=
  to_stx (of_list [sym "_"; of_list [sym "lit"; dots]; of_list [OPair (sym "k") (sym "p"); sym "t"]; dots]).
(** the fender: all the literals and keywords are identifiers *)
Definition sr_fender (bs : list obj) : option bool :=
  match bs with
  | l :: k :: _ => match to_list l, to_list k with
                   | Some l, Some k => Some (forallb identifierp (l ++ k))
                   | _, _ => None
                   end
  | _ => None
  end.
(** the template
    (lambda (stx) (syntax-case stx (lit <ellipsis>) [(_ . p) (syntax t)] <ellipsis>)) *)
Definition sr_template : obj :=
  to_stx (of_list [sym "lambda"; of_list [sym "stx"];
    of_list [sym "syntax-case"; sym "stx"; of_list [sym "lit"; dots];
             of_list [OPair (sym "_") (sym "p"); of_list [sym "syntax"; sym "t"]]; dots]]).
Definition syntax_rules (f : nat) (form : obj) : mres obj :=
  case_template [] f form [(sr_pattern, sr_fender, sr_template)].

(** How syntax-case takes its form apart when every clause is a pattern and a
    template, stxcase.min 9-50: at least one clause, the literals are identifiers *)
Fixpoint sc_clauses (l : list obj) : option (list (obj * obj)) :=
  match l with
  | [] => Some []
  | cl :: r =>
      match to_list cl, sc_clauses r with
      | Some [p; OPair (OSym s) (OPair t ONull)], Some cs =>
          if list_eq_dec ascii_dec s (s2b "syntax") then Some ((to_stx p, to_stx t) :: cs) else None
      | _, _ => None
      end
  end.
Definition symp (o : obj) : bool := match o with OSym _ => true | _ => false end.
(** the transformer denoted by (lambda (stx) (syntax-case stx lits clause <ellipsis>)) *)
Definition sc_parse (d : obj) : option (list obj * list (obj * obj)) :=
  match to_list d with
  | Some [_; _; body] =>
      match to_list body with
      | Some (_ :: _ :: lits :: c :: cs) =>
          match to_list lits, sc_clauses (c :: cs) with
          | Some ls, Some cl => if forallb symp ls then Some (ls, cl) else None
          | _, _ => None
          end
      | _ => None
      end
  | _ => None
  end.

(** The transformer that the definition (define-syntax name form) binds, form a
    syntax-rules form *)
Definition define_rules (f : nat) (form : obj) : option (list obj * list (obj * obj)) :=
  match syntax_rules f form with MOk v => sc_parse (strip v) | _ => None end.
(** A use of it *)
Definition expand_use (f : nat) (m : list obj * list (obj * obj)) (d : obj) : mres obj :=
  case_template (fst m) f d (map (fun c => (fst c, fun _ : list obj => Some true, snd c)) (snd m)).

(** with-syntax, stxcase-extra.min 21-25: the bindings in force in the body, given the
    patterns and the values of the expressions *)
Definition with_syntax (f : nat) (ps : list obj) (vs : list obj) : mres (list obj) :=
  match syntax_case [] f (of_list vs) [(to_stx (of_list ps), fun _ => Some true)] with
  | MOk (_, bs) => MOk bs
  | MNo => MNo | MErr => MErr | MFuel => MFuel
  end.
