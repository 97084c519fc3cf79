(** The syntax checker (src/core/c/check.c) that load_file (system.c:110) and the
    main program (src/boot/c/minim.c:108) run on every expression before it is
    compiled, and the way the compiler takes S-expressions apart. *)
From Coq Require Import ZArith NArith Bool Ascii String List Arith Lia.
From Verif Require Import Base Heap Ast.
Import ListNotations.
Local Open Scope list_scope.

(** [CBad]: an error is reported.  [CUndef]: the car or cdr of an object that is
    not a pair is taken.  [CFuel]: the fuel of the model ran out. *)
Inductive cres : Type := COk | CBad | CUndef | CFuel.
Definition cthen (a b : cres) : cres := match a with COk => b | e => e end.

(** minim_symbolp, minim.h *)
Definition symbolp (o : obj) : bool := match o with OSym _ | OGensym _ _ => true | _ => false end.
(** [head == if_symbol] and the like; the symbols are interned, global.c 18-33. *)
Definition is_kw (kw : string) (o : obj) : bool :=
  match o with OSym n => if list_eq_dec Ascii.ascii_dec n (s2b kw) then true else false | _ => false end.

(** The loops over identifier lists: check.c 66-73 and 97-105 (proper lists),
    134-143 and 151-155 (parameters, with an optional rest identifier). *)
Fixpoint ids_list (o : obj) : bool :=
  match o with OPair a d => symbolp a && ids_list d | ONull => true | _ => false end.
Fixpoint params (o : obj) : bool :=
  match o with OPair a d => symbolp a && params d | ONull => true | x => symbolp x end.
(** check_begin, check.c 122-130; minim_listp *)
Fixpoint proper (o : obj) : bool := match o with OPair _ d => proper d | ONull => true | _ => false end.
(** check_let_values, check.c 93-116: the bindings. *)
Fixpoint bindings (o : obj) : bool :=
  match o with
  | OPair (OPair ids (OPair _ ONull)) q => ids_list ids && bindings q
  | ONull => true
  | _ => false
  end.
(** check.c 183-184: the right-hand sides of the bindings. *)
Fixpoint check_rhs (chk : obj -> cres) (o : obj) : cres :=
  match o with
  | OPair (OPair _ (OPair e _)) q => cthen (chk e) (check_rhs chk q)
  | ONull => COk
  | _ => CUndef
  end.
(** check.c 214-224: all expressions of a sequence, the last in the loop. *)
Fixpoint check_seq (chk : obj -> cres) (o : obj) : cres :=
  match o with
  | OPair e ONull => chk e
  | OPair e q => cthen (chk e) (check_seq chk q)
  | _ => CUndef
  end.
(** check.c 228-230 *)
Fixpoint check_args (chk : obj -> cres) (o : obj) : cres :=
  match o with OPair e q => cthen (chk e) (check_args chk q) | ONull => COk | _ => CUndef end.
Definition begin_sym : obj := OSym (s2b "begin").
(** check_case_lambda, check.c 147-162 *)
Fixpoint check_clauses (chk : obj -> cres) (o : obj) : cres :=
  match o with
  | OPair (OPair args body) q =>
      if params args then cthen (chk (OPair begin_sym body)) (check_clauses chk q) else CBad
  | OPair _ _ => CUndef
  | ONull => COk
  | _ => CBad
  end.

(** check_expr, check.c 168-250 *)
Fixpoint check (f : nat) (o : obj) : cres :=
  match f with
  | O => CFuel
  | S f =>
      match o with
      | OPair h q =>
          if is_kw "define-values" h then
            match q with
            | OPair ids (OPair e ONull) => if ids_list ids then check f e else CBad
            | _ => CBad
            end
          else if is_kw "let-values" h || is_kw "letrec-values" h then
            match q with
            | OPair bs (OPair e r) =>
                if bindings bs then cthen (check_rhs (check f) bs) (check f (OPair begin_sym (OPair e r))) else CBad
            | _ => CBad
            end
          else if is_kw "quote" h || is_kw "quote-syntax" h then
            match q with OPair _ ONull => COk | _ => CBad end
          else if is_kw "set!" h then
            match q with OPair x (OPair e ONull) => if symbolp x then check f e else CBad | _ => CBad end
          else if is_kw "if" h then
            match q with
            | OPair a (OPair b (OPair c ONull)) => cthen (check f a) (cthen (check f b) (check f c))
            | _ => CBad
            end
          else if is_kw "lambda" h then
            match q with
            | OPair args body => if params args then check f (OPair begin_sym body) else CBad
            | _ => CUndef
            end
          else if is_kw "case-lambda" h then check_clauses (check f) q
          else if is_kw "begin" h then (if proper q then check_seq (check f) q else CBad)
          else if proper q then check_args (check f) q
          else CBad
      | OTrue | OFalse | OFix _ | OChar _ | OStr _ | OBox _ | OVec _ | OEmptyVec | OSym _ | OGensym _ _ => COk
      | _ => CBad
      end
  end.

(** ** How the compiler takes expressions apart

    L0 (jitopt.c:206-255), L1 (405-470), L2 (562-623) and compile_expr2
    (jitcompile.c:436-497) dispatch on the head symbol and take the parts of a
    form with car and cdr, without looking at the shape; loops run until the
    empty list is met.  [parse] makes the parsed form of Ast.v out of these
    parts.  [lit]: the run-time object of a literal. *)
Inductive pres (A : Type) : Type := POk (a : A) | PErr | PUndef | PFuel.
Arguments POk {A} _. Arguments PErr {A}. Arguments PUndef {A}. Arguments PFuel {A}.
Definition pbind {A B} (r : pres A) (g : A -> pres B) : pres B :=
  match r with POk a => g a | PErr => PErr | PUndef => PUndef | PFuel => PFuel end.
Notation "'do' x <- r ; s" := (pbind r (fun x => s)) (at level 60, x pattern, r at level 50, s at level 60).

(** minim_car, minim_cdr: minim.h *)
Definition pcar (o : obj) : pres obj := match o with OPair a _ => POk a | _ => PUndef end.
Definition pcdr (o : obj) : pres obj := match o with OPair _ d => POk d | _ => PUndef end.
(** [for (it = l; !minim_nullp(it); it = minim_cdr(it)) ... minim_car(it)] *)
Fixpoint ploop {A} (g : obj -> pres A) (l : obj) : pres (list A) :=
  match l with
  | ONull => POk []
  | OPair a d => do x <- g a; do q <- ploop g d; POk (x :: q)
  | _ => PUndef
  end.
(** Identifiers are not inspected; anything that is not a symbol would be used as
    one. *)
Definition pident (o : obj) : pres ident :=
  match o with
  | OSym n => POk (Id (string_of_list_ascii n))
  | OGensym _ i => POk (Gen (N.to_nat i))
  | _ => PUndef
  end.
(** [for (args = ...; minim_consp(args); ...)], then a rest identifier
    (jitcompile.c:118-138). *)
Fixpoint pformals (o : obj) : pres formals :=
  match o with
  | ONull => POk (Formals [] None)
  | OPair a d => do x <- pident a; do fm <- pformals d; POk (Formals (x :: req fm) (rest fm))
  | x => do r <- pident x; POk (Formals [] (Some r))
  end.
Fixpoint parse (lit : obj -> val) (f : nat) (o : obj) : pres expr :=
  match f with
  | O => PFuel
  | S f =>
      let pbody := ploop (parse lit f) in
      let pclause (c : obj) := do a <- pcar c; do fm <- pformals a; do b <- pcdr c; do es <- pbody b; POk (fm, es) in
      let pbinding (b : obj) :=
        do i <- pcar b; do ids <- ploop pident i; do q <- pcdr b; do e <- pcar q; do x <- parse lit f e; POk (ids, x) in
      match o with
      | OPair h q =>
          if is_kw "define-values" h then
            do i <- pcar q; do ids <- ploop pident i; do r <- pcdr q; do e <- pcar r; do x <- parse lit f e; POk (EDefine ids x)
          else if is_kw "let-values" h then
            do b <- pcar q; do bs <- ploop pbinding b; do r <- pcdr q; do es <- pbody r; POk (ELet bs es)
          else if is_kw "letrec-values" h then
            do b <- pcar q; do bs <- ploop pbinding b; do r <- pcdr q; do es <- pbody r; POk (ELetrec bs es)
          else if is_kw "set!" h then
            do i <- pcar q; do x <- pident i; do r <- pcdr q; do e <- pcar r; do y <- parse lit f e; POk (ESet x y)
          else if is_kw "lambda" h then
            do a <- pcar q; do fm <- pformals a; do b <- pcdr q; do es <- pbody b; POk (ELam fm es)
          else if is_kw "case-lambda" h then
            do cls <- ploop pclause q; POk (ECase cls)
          else if is_kw "begin" h then do es <- pbody q; POk (EBegin es)
          else if is_kw "if" h then
            do a <- pcar q; do x <- parse lit f a; do r <- pcdr q; do b <- pcar r; do y <- parse lit f b;
            do s <- pcdr r; do c <- pcar s; do z <- parse lit f c; POk (EIf x y z)
          else if is_kw "quote" h || is_kw "quote-syntax" h then do d <- pcar q; POk (EConst (lit d))
          else if is_kw "#%make-unbound" h then POk EUnbound
          else if is_kw "values" h then do es <- pbody q; POk (EValues es)
          else if is_kw "call-with-values" h then
            do a <- pcar q; do x <- parse lit f a; do r <- pcdr q; do b <- pcar r; do y <- parse lit f b; POk (ECwv x y)
          else if is_kw "#%mv-call" h then
            do a <- pcar q; do x <- parse lit f a; do r <- pcdr q; do b <- pcar r; do y <- parse lit f b; POk (EMvCall x y)
          else if is_kw "#%mv-let" h then
            do a <- pcar q; do x <- parse lit f a; do r <- pcdr q; do i <- pcar r; do fm <- pformals i;
            do s <- pcdr r; do b <- pcar s; do y <- parse lit f b; POk (EMvLet x fm y)
          else if is_kw "#%mv-values" h then do es <- pbody q; POk (EMvValues es)
          else do x <- parse lit f h; do es <- pbody q; POk (EApp x es)
      | OTrue | OFalse | OFix _ | OChar _ | OStr _ | OBox _ | OVec _ | OEmptyVec => POk (EConst (lit o))
      | OSym _ | OGensym _ _ => do x <- pident o; POk (EVar x)
      | _ => PErr
      end
  end.
