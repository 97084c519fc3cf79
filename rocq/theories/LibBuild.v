(** How the boot file is made: src/library/gen-boot.min 34-54, on top of the reader of
    src/library/read.min (LibRead.v), the loader of src/library/module.min 20-124 and the
    expander of src/library/expander.min (Expand.v).

    Simplifications: the expander works on data, that is on syntax objects without
    their locations (as in Expand.v).  The transformers in scope of the modules are the
    functions of Derived.v, DefRecord.v and Generics.v for the forms that pre-base.min,
    record.min and generics.min export; each is closed over no others (Expand.v merges
    the ones at the place of use).  Evaluating the right-hand side of a macro definition
    is [eval_macro]: syntax-rules is SynRules.v; the macros written with syntax-case that
    these modules define (define-generics, define-record-type) are not used by the module
    that defines them, and any transformer stands for them.  import and export forms are
    dropped; what they bring in is given as the table of transformers and the scope. *)
From Coq Require Import ZArith NArith Bool Ascii String List Arith.
From Verif Require Import Base Reader LibRead StxCase Template SynRules Expand Derived LibSource LibBoot.
From Verif Require DefRecord Generics.
Import ListNotations.
Local Open Scope string_scope.
Local Open Scope list_scope.

Definition newline : string := String "010"%char "".
(** The text of a file given by its lines *)
Definition text (ls : list string) : list byte := list_ascii_of_string (String.concat newline ls).

(** $read of $load-module, module.min 38-47: reading up to the end of the file.  [n]
    bounds the number of forms, [f] the depth of one. *)
Fixpoint read_forms (n f : nat) (s : list byte) : option (list obj) :=
  match n with
  | O => None
  | S n => match lread f s with
           | LOk OEof _ => Some []
           | LOk o k => option_map (cons (strip o)) (read_forms n f k)
           | _ => None
           end
  end.
(** $import of $load-module, module.min 50-110: what is left of the forms *)
Definition evaluable (es : list obj) : list obj := filter (fun e => negb (form_is "import" e || form_is "export" e)) es.

(** A use of a macro defined with syntax-rules, and the definition of one.  syntax-rules
    itself is a transformer; here it leaves its form as it is, quoted, for [eval_macro]. *)
Definition use_rules (f : nat) (m : list obj * list (obj * obj)) : tr := fun e =>
  match expand_use f m e with MOk v => Some (strip v) | _ => None end.
Definition as_is : tr := fun e => Some (of_list [sym "quote"; e]).
Definition eval_macro (f : nat) (e : obj) : option (list tr) :=
  match to_list e with
  | Some [_; form] => match define_rules f form with Some m => Some [use_rules f m] | None => None end
  | Some [_; _; _] => Some [fun _ => None]
  | _ => None
  end.

Definition q (o : obj) : obj := of_list [sym "quote"; o].
Definition or_false (o : option obj) : obj := match o with Some x => x | None => OFalse end.
Fixpoint number {A} (i : nat) (l : list A) : list (nat * A) := match l with [] => [] | a :: r => (i, a) :: number (S i) r end.
(** The template of define-record-type, record.min 211-243 *)
Definition record_text (d : DefRecord.rdef) : obj :=
  let l := of_list in
  let name := DefRecord.d_name d in let c := DefRecord.d_clauses d in let fs := number 0 (DefRecord.d_fields d) in
  l [sym "begin";
     l [sym "define"; name;
        l [sym "let"; l [l [sym "p"; or_false (DefRecord.c_parent c)]];
           l [sym "if"; l [sym "and"; sym "p"; l [sym "record-type-sealed?"; sym "p"]];
              l [sym "raise-argument-error"; q (sym "define-record-type"); OStr (s2b "non-sealed parent record"); sym "p"];
              l [sym "make-record-type-descriptor"; q name; sym "p"; or_false (DefRecord.c_uid c); or_false (DefRecord.c_sealed c); or_false (DefRecord.c_opaque c);
                 q (OVec (map (fun f => l [sym (match DefRecord.f_mut (snd f) with Some _ => "mutable" | None => "immutable" end); DefRecord.f_name (snd f)]) fs))]]]];
     l (sym "begin" :: map (fun m =>
         l [sym "let"; l [];
            l [sym "define"; sym "methods"; l [sym "cons"; fst m; l (sym "list" :: snd m)]];
            l [sym "define"; sym "gen-id"; l [sym "car"; sym "methods"]];
            l [sym "define"; sym "fns"; l [sym "cdr"; sym "methods"]];
            l [sym "record-type-add-generic!"; name; sym "gen-id"; sym "fns"]]) (DefRecord.c_methods c));
     l [sym "when"; l [sym "gen:equal+hash?"; name];
        l [sym "define"; sym "get-equal-proc"; l [sym "generics-accessor"; sym "gen:equal+hash"; q (sym "equal-proc")]];
        l [sym "define"; sym "get-hash-proc"; l [sym "generics-accessor"; sym "gen:equal+hash"; q (sym "hash-proc")]];
        l [sym "record-type-equal-procedure"; name; l [sym "get-equal-proc"; name]];
        l [sym "record-type-hash-procedure"; name; l [sym "get-hash-proc"; name]]];
     l [sym "when"; l [sym "gen:custom-write?"; name];
        l [sym "define"; sym "get-write-proc"; l [sym "generics-accessor"; sym "gen:custom-write"; q (sym "write-proc")]];
        l [sym "record-writer"; name; l [sym "get-write-proc"; name]]];
     l [sym "define"; DefRecord.d_make d;
        l [sym "let"; l [l [sym "c"; l [sym "record-constructor"; name]]; l [sym "p"; or_false (DefRecord.c_protocol c)]];
           l [sym "if"; sym "p"; l [sym "p"; sym "c"]; sym "c"]]];
     l [sym "define"; DefRecord.d_is d; l [sym "record-predicate"; name]];
     l (sym "begin" :: map (fun f => l [sym "define"; DefRecord.f_acc (snd f); l [sym "record-accessor"; name; OFix (Z.of_nat (fst f))]]) fs);
     l (sym "begin" :: flat_map (fun f => match DefRecord.f_mut (snd f) with
                                          | Some m => [l [sym "define"; m; l [sym "record-mutator"; name; OFix (Z.of_nat (fst f))]]]
                                          | None => []
                                          end) fs)].
(** define-record-type, record.min 58-256 *)
Definition record_tr : tr := fun e =>
  match to_list e with
  | Some (_ :: spec :: cls) => option_map record_text (DefRecord.define_record_type spec cls)
  | _ => None
  end.
(** define-generics, generics.min 132-182, with the template of 168-171 *)
Definition generics_tr : tr := fun e =>
  match to_list e with
  | Some (_ :: name :: cls) =>
      match Generics.define_generics 0 name cls, Generics.generic_ids name with
      | Some g, Some (gid, gp) =>
          Some (of_list [sym "define-values"; of_list [gid; gp];
            of_list [sym "let-values"; of_list [of_list [of_list [sym ":gen"];
                of_list [sym "$make-generics-type"; q name; q (of_list (map (fun m => OPair (fst m) (snd m)) (Generics.gmethods g)))]]];
              of_list [sym "values"; sym ":gen"; of_list [sym "generic-instance?"; sym ":gen"]]]])
      | _, _ => None
      end
  | _ => None
  end.
(** The forms that pre-base.min 5-27, record.min 9-12 export, as far as the modules use
    them *)
Definition provided : xforms :=
  map (fun p => (s2b (fst p), Xf (snd p) []))
   [("and", and_tr); ("or", or_tr); ("cond", cond_tr); ("else", else_tr); ("when", when_tr); ("unless", unless_tr);
    ("let", let_tr); ("let*", let_star_tr); ("letrec", letrec_tr); ("define", define_tr "define" "define-values");
    ("define-syntax", define_tr "define-syntax" "define-syntaxes"); ("syntax-rules", as_is); ("syntax-case", as_is);
    ("define-record-type", record_tr); ("define-generics", generics_tr)].

(** read/module, module.min 224-230: the expanded forms of a file *)
Definition load_module (f : nat) (file : list byte) (scope : list obj) : option (list obj) :=
  match read_forms f f file with
  | Some es => match expand_module (eval_macro f) f (evaluable es) provided scope with XOk (es', _) => Some es' | _ => None end
  | None => None
  end.
(** module-definitions, gen-boot.min 34-44: the define-values forms, each with its first
    name: (first (second expr)), which fails when the form defines no name *)
Definition entry (d : obj) : option (obj * obj) :=
  match to_list d with
  | Some (_ :: ids :: _) => match to_list ids with Some (n :: _) => Some (n, d) | _ => None end
  | _ => None
  end.
Fixpoint entries (es : list obj) : option (list (obj * obj)) :=
  match es with
  | [] => Some []
  | e :: r =>
      if form_is "define-values" e then
        match entry e, entries r with Some a, Some q => Some (a :: q) | _, _ => None end
      else entries r
  end.
(** write-module-definitions, gen-boot.min 46-56, for the entries of a module *)
Definition write_entries (exclude : list obj) (ds : list (obj * obj)) : list byte :=
  flat_map (fun e => if existsb (obj_sym_dec (fst e)) exclude then [] else write (snd e) ++ ["010"%char]) ds.

(** main, gen-boot.min 60-78: the boot file for modules, the scopes they are expanded
    in, and the names to exclude (the rest of the module's row of boot-info, 12-22) *)
Fixpoint gen_boot (f : nat) (ms : list (list byte * list obj * list obj)) : option (list byte) :=
  match ms with
  | [] => Some []
  | (file, scope, exclude) :: r =>
      match load_module f file scope with
      | Some es => match entries es, gen_boot f r with
                   | Some ds, Some k => Some (write_entries exclude ds ++ k)
                   | _, _ => None
                   end
      | None => None
      end
  end.

(** The ten modules of boot-info, gen-boot.min 12-22, each with the names that its
    expansion takes from other modules and from the interpreter; import gives every
    module a scope that has these. *)
Definition list_uses : list string :=
  ["+"; "-"; "="; "append"; "caar"; "car"; "cdr"; "cons"; "equal?"; "errorf"; "list?"; "non-negative-integer?";
   "not"; "null?"; "pair?"; "raise-argument-error"; "reverse"; "void"].
Definition path_uses : list string :=
  ["+"; "-"; "="; ">"; "apply"; "car"; "cdr"; "cons"; "eq?"; "list"; "null?"; "pair?"; "raise-argument-error";
   "reverse"; "string-append"; "string-length"; "string-ref"; "string?"; "substring"; "void"].
Definition generics_uses : list string :=
  ["+"; "="; "andmap"; "assoc"; "car"; "cdr"; "cons"; "equal?"; "error"; "for-each"; "format";
   "hashtable-contains?"; "hashtable-ref"; "hashtable-set!"; "index-of"; "length"; "list"; "list-ref"; "list?";
   "make-hashtable"; "make-record-type-descriptor"; "map"; "null?"; "procedure-arity"; "procedure?";
   "raise-argument-error"; "record-accessor"; "record-constructor"; "record-predicate";
   "record-type-descriptor?"; "symbol?"; "values"; "void"].
Definition record_uses : list string :=
  ["$make-generics-type"; "generic-instance?"; "values"].
Definition set_uses : list string :=
  ["="; "car"; "cdr"; "cons"; "for-each"; "hashtable-clear!"; "hashtable-contains?"; "hashtable-delete!";
   "hashtable-keys"; "hashtable-set!"; "hashtable-size"; "make-hashtable"; "make-record-type-descriptor"; "map";
   "not"; "null?"; "raise-argument-error"; "record-accessor"; "record-constructor"; "record-predicate";
   "record-type-sealed?"; "values"; "vector->list"; "void"; "record-type-add-generic!"; "list";
   "gen:equal+hash?"; "generics-accessor"; "record-type-equal-procedure"; "record-type-hash-procedure";
   "gen:custom-write?"; "record-writer"; "gen:equal+hash"; "gen:custom-write"; "fprintf"; "+"].
Definition string_uses : list string :=
  ["+"; "-"; "<="; "="; "make-string"; "non-negative-integer?"; "raise-argument-error"; "raise-range-error";
   "string-length"; "string-ref"; "string-set!"; "string?"; "values"; "void"].
Definition stx_uses : list string :=
  ["+"; "<"; "="; "andmap"; "append"; "apply"; "car"; "cdr"; "cons"; "eq?"; "list?"; "map"; "not"; "null";
   "null?"; "pair?"; "raise-argument-error"; "symbol?"; "syntax-e"; "syntax?"; "values"; "vector-ref"; "vector?"].
Definition expander_uses : list string :=
  ["="; "andmap"; "append"; "assoc"; "boolean?"; "box?"; "caar"; "cadar"; "cadr"; "call-with-values"; "car";
   "cddr"; "cdr"; "char?"; "cons"; "cons*"; "copy-environment"; "datum->syntax"; "environment-set!";
   "environment-symbols"; "eq?"; "error"; "eval"; "exit"; "filter"; "first"; "for-each"; "identifier?"; "length";
   "list"; "list?"; "make-base-environment"; "make-record-type-descriptor"; "make-set"; "map"; "not"; "null";
   "null?"; "number?"; "pair?"; "pattern-variable?"; "printf"; "procedure?"; "raise-argument-error";
   "raise-syntax-error"; "record-accessor"; "record-constructor"; "record-mutator"; "record-predicate";
   "record-type-sealed?"; "reverse"; "second"; "set->list"; "set-add!"; "set-member?"; "string?"; "stx-car";
   "stx-cdr"; "stx-null?"; "stx-pair?"; "symbol?"; "syntax->datum"; "syntax->list"; "syntax-e"; "syntax?";
   "third"; "values"; "vector?"; "void"; "gen:equal+hash?"; "generics-accessor"; "record-type-equal-procedure";
   "record-type-hash-procedure"; "gen:custom-write?"; "record-writer"; "gen:equal+hash"; "gen:custom-write"].
Definition module_uses : list string :=
  ["$base-env"; "$base-scope"; "$base-stx-env"; "append"; "assoc"; "build-path"; "caar"; "cadr";
   "call-with-values"; "car"; "cdar"; "cddr"; "cdr"; "close-input-port"; "cons"; "copy-environment";
   "current-directory"; "display"; "environment-ref"; "environment-set!"; "eof-object?"; "eq?"; "error"; "eval";
   "exit"; "expand"; "expand/module"; "for-each"; "hashtable-contains?"; "hashtable-ref"; "hashtable-set!";
   "is-absolute-path?"; "list"; "make-hashtable"; "map"; "member"; "merge-xforms"; "newline"; "null?";
   "open-input-file"; "pair?"; "raise-syntax-error"; "read"; "reverse"; "scope-add!"; "scope-extend"; "second";
   "sixth"; "split-path"; "string?"; "symbol?"; "syntax->datum"; "syntax-e"; "values"; "void"; "void?"; "write"].
Definition read_uses : list string :=
  ["*"; "+"; "-"; "<"; "<="; "="; ">="; "apply"; "box"; "char->integer"; "cons"; "current-input-port";
   "datum->syntax"; "eof-object?"; "eq?"; "error"; "errorf"; "input-port?"; "integer->char"; "list";
   "list->vector"; "not"; "peek-char"; "raise-argument-error"; "read-char"; "reverse"; "string";
   "string->symbol"; "string-length"; "string-ref"; "syntax-e"; "values"; "void"].
Definition library : list (list string * list string) :=
  [(list_min, list_uses); (path_min, path_uses); (generics_min, generics_uses); (record_min, record_uses); (set_min, set_uses);
   (string_min, string_uses); (stx_min, stx_uses); (expander_min, expander_uses); (module_min, module_uses); (read_min, read_uses)].
