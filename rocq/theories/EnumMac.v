(** The macros of src/library/private/enum.min 191-231: define-enumeration, and the two
    macros that its expansion defines.

    Simplifications: an error is one outcome, whatever its message ([MErr]); the source
    locations of syntax objects are dropped, as in SynRules.v. *)
From Coq Require Import ZArith NArith Bool Ascii String List Arith Lia.
From Verif Require Import Base Check Expand LibRead StxCase StxCaseProofs Template TemplateProofs SynRules SynRulesProofs DerivedStx GenTemp.
Import ListNotations.
Local Open Scope list_scope.

(** ** define-enumeration *)
(** The patterns of the clauses, enum.min 193, 222, 224, 226, 228 *)
Definition enum_pat : pat := PList [PWild; pv "name"; seqp (pv "values"); pv "constructor"] None.
Definition enum_bad : list pat :=
  [ PEll [PWild; pv "name"; pv "value-spec"; pv "constructor"] PWild [] None;
    PList [PWild; pv "name"; pv "value-spec"] None;
    PList [PWild; pv "name"] None;
    PList [PWild] (Some PWild) ].
(** The template, enum.min 204-220 *)
Definition str_t (s : string) : tmpl := TConst (OStr (s2b s)).
Definition quote_t (t : tmpl) : tmpl := tl_ [ti "quote"; t].
Definition syntax_t (t : tmpl) : tmpl := tl_ [ti "syntax"; t].
Definition any_p : tmpl := TList [ti "_"] (Some (ti "_")).
Definition values_t : tmpl := quote_t (tl_ [TRep (ti "values")]).
Definition bad_t (who : string) (msg : string) (more : list tmpl) : tmpl :=
  tl_ (ti "raise-syntax-error" :: quote_t (ti who) :: str_t msg :: ti "stx" :: more).
Definition elt_t : tmpl := syntax_t (ti "elt").
Definition enum_tmpl : tmpl :=
  tl_ [ti "begin";
    tl_ [ti "define"; ti "id"; tl_ [ti "make-enumeration"; values_t]];
    tl_ [ti "define-syntax"; tl_ [ti "constructor"; ti "stx"];
      tl_ [ti "syntax-case"; ti "stx"; null_t;
        tl_ [tl_ [ti "_"; TRep (ti "elts")];
             syntax_t (tl_ [tl_ [ti "enum-set-constructor"; ti "id"]; quote_t (tl_ [TRep (ti "elts")])])];
        tl_ [any_p; bad_t "constructor" "bad syntax" []]]];
    tl_ [ti "define-syntax"; tl_ [ti "name"; ti "stx"];
      tl_ [ti "syntax-case"; ti "stx"; null_t;
        tl_ [tl_ [ti "_"; ti "elt"];
             tl_ [ti "if"; tl_ [ti "identifier?"; elt_t];
                  tl_ [ti "if"; tl_ [ti "member"; tl_ [ti "syntax->datum"; elt_t]; values_t];
                       syntax_t (quote_t (ti "elt"));
                       bad_t "name" "identifier not in universe" [elt_t]];
                  bad_t "name" "expected an identifier" [elt_t]]];
        tl_ [any_p; bad_t "name" "bad syntax" []]]]].
(** The patterns and values of with-syntax, enum.min 202-203 *)
Definition with_pats : list pat := [seqp (pv "elts"); pv "id"].
Definition with_vals (id : obj) : list obj := [of_list [sym "elts"; dots]; id].

(** symbol->string of syntax->datum *)
Definition stx_name (o : obj) : option (list byte) :=
  match o with OSyntax (OSym n) _ | OSyntax (OGensym n _) _ => Some n | _ => None end.
(** The variables of the inner pattern hide those of the outer one. *)
Definition over (a b : env) : env := fun x => match a x with Some v => Some v | None => b x end.
(** A use of define-enumeration, with the counter of gen-temp.min: the expansion and the
    counter afterwards.  enum.min 193-230 *)
Definition define_enum (f : nat) (c : N) (form : obj) : mres (obj * N) :=
  match syntax_case [] f form (map (fun p => (pobj p, fun _ : list obj => Some true)) (enum_pat :: enum_bad)) with
  | MOk (O, bs) =>
      match bs with
      | [nm; vals; con] =>
          match stx_name nm, to_list vals with
          | Some n, Some ids =>
              if forallb identifierp ids && identifierp con then
                let '(id, c') := gen_temp n c in
                match with_syntax f (map pobj with_pats) (with_vals id) with
                | MOk ws =>
                    match template (over (bind_vars [] f (pobj (PList with_pats None)) ws) (bind_vars [] f (pobj enum_pat) bs)) f (tobj enum_tmpl) with
                    | TOk v => MOk (v, c') | TBad | TErr => MErr | TFuel => MFuel
                    end
                | MNo | MErr => MErr | MFuel => MFuel
                end
              else MErr
          | _, _ => MErr
          end
      | _ => MErr
      end
  | MOk (S _, _) => MErr
  | MNo | MErr => MErr | MFuel => MFuel
  end.

(** ** The macros it defines *)
(** The first clause of the constructor, enum.min 209-210, [id] the temporary; the second
    clause raises an error. *)
Definition con_rules (id : list byte) : list rule :=
  [ Rule (s2b "_") (AEll [] (pv "elts") [] None)
      (tl_ [tl_ [ti "enum-set-constructor"; TId id]; quote_t (tl_ [TRep (ti "elts")])]) ].
(** The name of the enumeration, enum.min 214-220: [vals] are the symbols of the
    definition, compared with member. *)
Definition elt_pat : pat := PList [PWild; pv "elt"] None.
Definition name_use (f : nat) (vals : list obj) (form : obj) : mres obj :=
  match syntax_case [] f form [(pobj elt_pat, fun _ => Some true); (pobj (PList [PWild] (Some PWild)), fun _ => Some true)] with
  | MOk (O, bs) =>
      match bs with
      | [e] =>
          if identifierp e && existsb (obj_sym_dec (strip e)) vals
          then of_tres (template (bind_vars [] f (pobj elt_pat) bs) f (tobj (quote_t (ti "elt"))))
          else MErr
      | _ => MErr
      end
  | MOk (S _, _) => MErr
  | MNo | MErr => MErr | MFuel => MFuel
  end.
