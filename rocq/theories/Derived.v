(** Model of the syntactic forms the standard library defines as macros:
    src/library/private/{and-or,cond,let,when-unless,define,case,do}.min.

    Simplifications: as in Expand.v, transformers work on data.  The error
    messages are dropped: every raised error is [None], and so is the error that
    car and cdr raise on an object that is not a pair.  The forms in case.min and
    do.min are written with syntax-case and templates; that the text of those
    definitions rewrites as the functions below is proved in DerivedStxThm.v. *)
From Coq Require Import ZArith NArith Bool Ascii String List Arith Lia.
From Verif Require Import Base Heap Ast Check Expand.
Import ListNotations.
Local Open Scope list_scope.

(** and, and-or.min:8-23 *)
Definition and_tr : tr := fun stx =>
  match to_list stx with
  | Some (_ :: []) => Some OTrue
  | Some (_ :: [a]) => Some a
  | Some (_ :: a :: r) => Some (of_list [sym "if"; a; OPair (sym "and") (of_list r); OFalse])
  | _ => None
  end.
(** or, and-or.min:25-45 *)
Definition or_tr : tr := fun stx =>
  match to_list stx with
  | Some (_ :: []) => Some OFalse
  | Some (_ :: [a]) => Some a
  | Some (_ :: a :: r) =>
      Some (of_list [sym "let-values"; of_list [of_list [of_list [sym "or-t"]; a]];
                     of_list [sym "if"; sym "or-t"; sym "or-t"; OPair (sym "or") (of_list r)]])
  | _ => None
  end.
(** then-clause, cond.min:20-27 *)
Definition then_clause (body : list obj) : obj :=
  match body with
  | [a] => a
  | _ => OPair (sym "let") (OPair ONull (of_list body))
  end.
(** cond, cond.min:8-44.  The test for an empty clause looks at a syntax object
    (line 17) and never succeeds: car then fails. *)
Definition cond_tr : tr := fun stx =>
  match to_list stx with
  | Some (_ :: []) => Some (of_list [sym "void"])
  | Some (_ :: c :: r) =>
      match to_list c with
      | Some (_ :: []) => None
      | Some (test :: body) =>
          if is_kw "else" test
          then match r with [] => Some (then_clause body) | _ => None end
          else Some (of_list [sym "if"; test; then_clause body; OPair (sym "cond") (of_list r)])
      | _ => None
      end
  | _ => None
  end.
(** else, cond.min:46-48 *)
Definition else_tr : tr := fun _ => None.
(** when, when-unless.min:8-24; unless, 26-42 *)
Definition when_tr : tr := fun stx =>
  match to_list stx with
  | Some (_ :: c :: b :: r) =>
      Some (of_list [sym "if"; c; OPair (sym "let-values") (OPair ONull (of_list (b :: r))); of_list [sym "void"]])
  | _ => None
  end.
Definition unless_tr : tr := fun stx =>
  match to_list stx with
  | Some (_ :: c :: b :: r) =>
      Some (of_list [sym "if"; c; of_list [sym "void"]; OPair (sym "let") (OPair ONull (of_list (b :: r)))])
  | _ => None
  end.
(** splice-bindings, let.min:22-40, 91-109, 149-167 *)
Fixpoint splice (o : obj) : option (list (obj * obj)) :=
  match o with
  | ONull => Some []
  | OPair (OPair var (OPair val ONull)) d =>
      if symbolp var then match splice d with Some l => Some ((var, val) :: l) | None => None end else None
  | _ => None
  end.
Definition binding_list (l : list (obj * obj)) : obj :=
  of_list (map (fun b => of_list [of_list [fst b]; snd b]) l).
(** let, let.min:8-77 *)
Definition let_tr : tr := fun stx =>
  match to_list stx with
  | Some (_ :: bs :: e :: r) =>
      if symbolp bs then
        match splice e with
        | Some l =>
            Some (of_list [sym "letrec-values";
                           of_list [of_list [of_list [bs]; OPair (sym "lambda") (OPair (of_list (map fst l)) (of_list r))]];
                           OPair bs (of_list (map snd l))])
        | None => None
        end
      else match splice bs with
           | Some l => Some (OPair (sym "let-values") (OPair (binding_list l) (of_list (e :: r))))
           | None => None
           end
  | _ => None
  end.
(** let*, let.min:79-135: the loop *)
Fixpoint let_star (l : list (obj * obj)) (body : list obj) : obj :=
  match l with
  | [] => OPair (sym "let-values") (OPair ONull (of_list body))
  | [b] => OPair (sym "let-values") (OPair (binding_list [b]) (of_list body))
  | b :: r => of_list [sym "let-values"; binding_list [b]; let_star r body]
  end.
Definition let_star_tr : tr := fun stx =>
  match to_list stx with
  | Some (_ :: bs :: e :: r) => match splice bs with Some l => Some (let_star l (e :: r)) | None => None end
  | _ => None
  end.
(** letrec, let.min:137-185 *)
Definition letrec_tr : tr := fun stx =>
  match to_list stx with
  | Some (_ :: bs :: e :: r) =>
      match splice bs with
      | Some l => Some (OPair (sym "letrec-values") (OPair (binding_list l) (of_list (e :: r))))
      | None => None
      end
  | _ => None
  end.
(** define and define-syntax, define.min:8-46 *)
Definition define_tr (def vals : string) : tr := fun stx =>
  match to_list stx with
  | Some (_ :: id :: v :: n) =>
      if symbolp id then match n with [] => Some (of_list [sym vals; of_list [id]; v]) | _ => None end
      else match id with
           | OPair head formals =>
               Some (of_list [sym def; head; OPair (sym "lambda") (OPair formals (of_list (v :: n)))])
           | _ => None
           end
  | _ => None
  end.

(** case, case.min:11-34, case/else, 36-47, and case/test, 49-57.  A clause is the
    list of its data and its body; [None] is an else clause. *)
Definition case_clause (o : obj) : option (option (list obj) * list obj) :=
  match to_list o with
  | Some (k :: e :: es) =>
      if is_kw "else" k then Some (None, e :: es)
      else match to_list k with Some ks => Some (Some ks, e :: es) | None => None end
  | _ => None
  end.
Fixpoint case_clauses (l : list obj) : option (list (option (list obj) * list obj)) :=
  match l with
  | [] => Some []
  | c :: r => match case_clause c, case_clauses r with Some a, Some b => Some (a :: b) | _, _ => None end
  end.
Definition plain_clauses (l : list (option (list obj) * list obj)) : bool :=
  forallb (fun c => match fst c with Some _ => true | None => false end) l.
Definition case_tr : tr := fun stx =>
  match to_list stx with
  | Some [_; v] => Some (of_list [sym "begin"; v; of_list [sym "void"]])
  | Some (_ :: v :: cls) =>
      match case_clauses cls with
      | Some [(None, body)] => Some (of_list [sym "begin"; v; OPair (sym "let-values") (OPair ONull (of_list body))])
      | Some l =>
          if plain_clauses l
          then Some (OPair (sym "case") (OPair v (of_list (cls ++ [of_list [sym "else"; of_list [sym "void"]]]))))
          else match rev l with
               | (None, _) :: q =>
                   if plain_clauses q
                   then Some (of_list [sym "let"; of_list [of_list [sym "tmp"; v]]; OPair (sym "case/else") (OPair (sym "tmp") (of_list cls))])
                   else None
               | _ => None
               end
      | None => None
      end
  | _ => None
  end.
Definition case_else_tr : tr := fun stx =>
  match to_list stx with
  | Some (_ :: v :: c :: rest) =>
      match to_list c with
      | Some (k :: body) =>
          match rest with
          | [] => if is_kw "else" k then Some (OPair (sym "let-values") (OPair ONull (of_list body))) else None
          | [d] =>
              match to_list k, to_list d with
              | Some _, Some (e :: last) =>
                  if is_kw "else" e
                  then Some (of_list [sym "if"; of_list [sym "case/test"; v; k];
                                      OPair (sym "let-values") (OPair ONull (of_list body));
                                      OPair (sym "let-values") (OPair ONull (of_list last))])
                  else None
              | _, _ => None
              end
          | _ =>
              match to_list k, to_list (last rest ONull) with
              | Some _, Some (e :: _) =>
                  if is_kw "else" e
                  then Some (of_list [sym "if"; of_list [sym "case/test"; v; k];
                                      OPair (sym "let-values") (OPair ONull (of_list body));
                                      OPair (sym "case/else") (OPair v (of_list rest))])
                  else None
              | _, _ => None
              end
          end
      | _ => None
      end
  | _ => None
  end.
Definition case_test_tr : tr := fun stx =>
  match to_list stx with
  | Some [_; v; ks] =>
      match to_list ks with
      | Some [] => Some OFalse
      | Some [k] => Some (of_list [sym "equal?"; v; of_list [sym "quote"; k]])
      | Some (k :: r) => Some (of_list [sym "if"; of_list [sym "equal?"; v; of_list [sym "quote"; k]]; OTrue; of_list [sym "case/test"; v; of_list r]])
      | None => None
      end
  | _ => None
  end.

(** do, do.min:10-21 *)
Fixpoint do_specs (o : obj) : option (list (obj * obj * obj)) :=
  match o with
  | ONull => Some []
  | OPair b d =>
      match to_list b, do_specs d with
      | Some [var; init; step], Some l => Some ((var, init, step) :: l)
      | _, _ => None
      end
  | _ => None
  end.
Definition do_tr : tr := fun stx =>
  match to_list stx with
  | Some (_ :: specs :: test :: commands) =>
      match do_specs specs, to_list test with
      | Some l, Some (t :: es) =>
          Some (of_list [sym "let"; sym "loop"; of_list (map (fun b => of_list [fst (fst b); snd (fst b)]) l);
                         of_list [sym "if"; t; OPair (sym "begin") (of_list es);
                                  OPair (sym "begin") (of_list (commands ++ [OPair (sym "loop") (of_list (map snd l))]))]])
      | _, _ => None
      end
  | _ => None
  end.
