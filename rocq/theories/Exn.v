(** Exceptions: the procedures that raise them and the handler that reports them,
    src/core/s/prelude.min 2430-2644, with procedure-arity? (731-752). *)
From Coq Require Import ZArith NArith Bool Ascii String List Arith.
From Verif Require Import Base Heap HeapM Records Port Format.
Import ListNotations.
Local Open Scope list_scope.
Local Open Scope nat_scope.

(** The state: records and other objects, and the ports *)
Record xst : Type := XS { xw : rworld; xps : list port }.
Definition xh (s : xst) : heap := rw_heap (xw s).
(** Results: a value, an exception, the end of the process, an error of the record
    procedures or of format that is not followed further, undefined behaviour. *)
Inductive xres (A : Type) : Type :=
| XOk (a : A) (s : xst) | XRaise (v : val) (s : xst) | XExit (code : Z) (s : xst)
| XRec (e : herr) | XFmt (e : ferr) | XUndef | XFuel.
Arguments XOk {A} _ _. Arguments XRaise {A} _ _. Arguments XExit {A} _ _. Arguments XRec {A} _. Arguments XFmt {A} _. Arguments XUndef {A}. Arguments XFuel {A}.
Definition xbind {A B} (r : xres A) (k : A -> xst -> xres B) : xres B :=
  match r with
  | XOk a s => k a s | XRaise v s => XRaise v s | XExit c s => XExit c s
  | XRec e => XRec e | XFmt e => XFmt e | XUndef => XUndef | XFuel => XFuel
  end.
Local Notation "'do' x ; s <- r ; q" := (xbind r (fun x s => q)) (at level 60, x name, s name, r at level 50, q at level 60).

(** The types, prelude.min 2430-2486 *)
Inductive kind : Type := KExn | KArg | KArity | KRange | KMissing | KSyntax.
(** the own fields of each type *)
Definition own (k : kind) : list string :=
  match k with
  | KExn => ["who"; "message"] | KArg => ["expect"; "actual"] | KArity => ["expect"; "actual"]
  | KRange => ["value"; "description"; "lower"; "upper"; "index"] | KMissing => ["description"; "value"; "key"] | KSyntax => ["form"; "subform"]
  end%string.
Definition type_name (k : kind) : string :=
  match k with
  | KExn => "&exn" | KArg => "&argument-exn" | KArity => "&arity-exn" | KRange => "&range-exn" | KMissing => "&missing-exn" | KSyntax => "&syntax-exn"
  end%string.
Definition kinds : list kind := [KExn; KArg; KArity; KRange; KMissing; KSyntax].
Definition vsym (s : string) : val := VSym (s2b s).
(** The definition of the types: each call of make-record-type-descriptor *)
Definition def_kind (procs : val -> bool) (parent : val) (w : rworld) (k : kind) : rres val * rworld :=
  rstep procs w (RType (vsym (type_name k)) parent VFalse VTrue VTrue (map vsym (own k))).
Definition boot (procs : val -> bool) (w : rworld) : option (list val * rworld) :=
  match def_kind procs VFalse w KExn with
  | (ROk e, w1) =>
      match def_kind procs e w1 KArg with
      | (ROk a, w2) =>
          match def_kind procs e w2 KArity with
          | (ROk b, w3) =>
              match def_kind procs e w3 KRange with
              | (ROk c, w4) =>
                  match def_kind procs e w4 KMissing with
                  | (ROk d, w5) =>
                      match def_kind procs e w5 KSyntax with
                      | (ROk f, w6) => Some ([e; a; b; c; d; f], w6)
                      | _ => None
                      end
                  | _ => None
                  end
              | _ => None
              end
          | _ => None
          end
      | _ => None
      end
  | _ => None
  end.

Section Exn.
Variable procs : val -> bool.
(** What display and write print of a value (as in Format.v) *)
Variables disp wr : heap -> val -> list byte.
(** The types, as boot makes them *)
Variable T : kind -> val.
(** The error port *)
Variable ep : nat.
(** syntax->datum (C26): the datum, and what it allocates *)
Variable datum : heap -> val -> val * list cell.

Definition symbolv (v : val) : bool := match v with VSym _ | VGensym _ _ => true | _ => false end.
Definition string_at (h : heap) (v : val) : option (list byte) :=
  match v with VPtr l => match nth_error h l with Some (CStr b) => Some b | _ => None end | _ => None end.
Definition stringv (h : heap) (v : val) : bool := match string_at h v with Some _ => true | None => false end.
Definition syntaxv (h : heap) (v : val) : bool :=
  match v with VPtr l => match nth_error h l with Some (CSyntax _ _) => true | _ => false end | _ => false end.
Definition intv (v : val) : bool := match v with VFix _ => true | _ => false end.
Definition who_ok (who : val) : bool := if truthy who then symbolv who else true.

(** Allocation of an object.  A string literal is a new string here; in the code it is
    one object. *)
Definition rec_step (s : xst) (o : rop) : xres val :=
  match rstep procs (xw s) o with
  | (ROk v, w) => XOk v (XS w (xps s))
  | (RErr e, _) => XRec e | (RUndef, _) => XUndef | (RFuel, _) => XFuel
  end.
Definition new (c : cell) (s : xst) : xres val := rec_step s (RElse c).
Definition lit (b : list byte) (s : xst) : xres val := new (CStr b) s.
(** The constructors, predicates and accessors of the types *)
Definition make (k : kind) (args : list val) (s : xst) : xres val := rec_step s (RMake (T k) args).
Definition is_a (k : kind) (v : val) (s : xst) : xres val := rec_step s (RIs (T k) v).
Definition get (k : kind) (i : nat) (v : val) (s : xst) : xres val := rec_step s (RGet (T k) (VFix (Z.of_nat i)) v).
Definition raise (r : xres val) : xres val := do v; s <- r; XRaise v s.

(** raise-argument-error with a symbol and a literal *)
Definition bad_arg (who expected : string) (v : val) (s : xst) : xres val :=
  raise (do m; s <- lit (s2b "contract violation") s; do e; s <- lit (s2b expected) s; make KArg [vsym who; m; e; v] s).
(** raise-argument-error, 2591-2598 *)
Definition raise_argument_error (who expected v : val) (s : xst) : xres val :=
  if who_ok who then
    if stringv (xh s) expected then raise (do m; s <- lit (s2b "contract violation") s; make KArg [who; m; expected; v] s)
    else bad_arg "raise-argument-error" "string?" expected s
  else bad_arg "raise-argument-error" "symbol? or #f" who s.

(** Formatted output (Format.v) *)
Definition nl : list byte := [ascii_of_nat 10].
Definition on_fmt {A} (r : fres A * list port) (s : xst) : xres A :=
  match r with
  | (FOk a, ps) => XOk a (XS (xw s) ps)
  | (FErr e, _) => XFmt e | (FUndef, _) => XUndef | (FFuel, _) => XFuel
  end.
Definition fprint (p : nat) (fmt : list byte) (args : list val) (s : xst) : xres unit := on_fmt (fprintf (disp (xh s)) (wr (xh s)) (xps s) p fmt args) s.
Definition format_ (fmt : list byte) (args : list val) (s : xst) : xres (list byte) := on_fmt (format (disp (xh s)) (wr (xh s)) (xps s) fmt args) s.
(** for-each with fprintf, 2572 *)
Fixpoint fprint_all (p : nat) (fmt : list byte) (args : list val) (s : xst) : xres unit :=
  match args with [] => XOk tt s | x :: r => do _u; s <- fprint p fmt [x] s; fprint_all p fmt r s end.
(** error, 2557-2576 *)
Definition error_message (msg : val) (args : list val) (s : xst) : xres val :=
  match pstep (xps s) POpenOut with
  | (ps, PPort p) =>
      do _u; s <- fprint p (s2b "~a" ++ nl) [msg] (XS (xw s) ps);
      do _u; s <- match args with
                  | [x] => fprint p (s2b "  argument: ~s") [x] s
                  | _ => do _v; s <- fprint p (s2b "  arguments...:") [] s; fprint_all p (nl ++ s2b "   ~s") args s
                  end;
      match pstep (xps s) (PGet p) with
      | (ps, PStr t) => new (CStr t) (XS (xw s) ps)
      | (_, PUndef) => XUndef
      | _ => XFmt FPort
      end
  | _ => XFmt FPort
  end.
Definition error (who msg : val) (args : list val) (s : xst) : xres val :=
  if (if truthy who then symbolv who || stringv (xh s) who else true) then
    if stringv (xh s) msg then
      raise (match args with
             | [] => make KExn [who; msg] s
             | _ => do m; s <- error_message msg args s; make KExn [who; m] s
             end)
    else bad_arg "error" "string?" msg s
  else bad_arg "error" "symbol? or string? or #f" who s.
(** errorf, 2578-2584 *)
Definition errorf (who fmt : val) (args : list val) (s : xst) : xres val :=
  if who_ok who then
    match string_at (xh s) fmt with
    | Some f => do t; s <- format_ f args s; do m; s <- new (CStr t) s; error who m [] s
    | None => bad_arg "errorf" "string?" fmt s
    end
  else bad_arg "errorf" "symbol? or #f" who s.

(** procedure-arity?, 731-752.  [pairv]: the pair at a value *)
Definition pairv (h : heap) (v : val) : option (val * val) :=
  match v with VPtr l => match nth_error h l with Some (CPair a d) => Some (a, d) | _ => None end | _ => None end.
Definition natv (v : val) : option Z := match v with VFix z => if (0 <=? z)%Z then Some z else None | _ => None end.
Fixpoint arity_loop (f : nat) (h : heap) (x : val) (p : Z) : option bool :=
  match f with
  | O => None
  | S f =>
      match x with
      | VNull => Some true
      | VFalse => Some true
      | _ => match pairv h x with
             | Some (a, d) => match natv a with
                              | Some n => if (p <? n)%Z then arity_loop f h d n else Some false
                              | None => Some false
                              end
             | None => Some false
             end
      end
  end.
Definition arityp (f : nat) (h : heap) (x : val) : option bool :=
  match natv x with
  | Some _ => Some true
  | None => match pairv h x with
            | Some (a, d) => match natv a with Some n => arity_loop f h d n | None => Some false end
            | None => Some false
            end
  end.
(** raise-arity-error, 2586-2590 *)
Definition raise_arity_error (who arity cnt : val) (s : xst) : xres val :=
  if who_ok who then
    match arityp (S (S (length (xh s)))) (xh s) arity with
    | Some true => raise (do m; s <- lit (s2b "arity mismatch") s; make KArity [who; m; arity; cnt] s)
    | Some false => bad_arg "raise-arity-error" "procedure-arity?" arity s
    | None => XFuel
    end
  else bad_arg "raise-arity-error" "symbol? or #f" who s.
(** raise-range-error, 2600-2614 *)
Definition raise_range_error (who v descr lower upper index : val) (s : xst) : xres val :=
  if who_ok who then
    match string_at (xh s) descr with
    | Some d =>
        if intv lower then
          if intv upper then
            if intv index then
              raise (do m; s <- match shown d with
                                | [] => lit (s2b "index out of bounds") s
                                | _ => do t; s <- format_ (s2b "~a index out of bounds") [descr] s; new (CStr t) s
                                end;
                     make KRange [who; m; v; descr; lower; upper; index] s)
            else bad_arg "raise-range-error" "integer?" index s
          else bad_arg "raise-range-error" "integer?" upper s
        else bad_arg "raise-range-error" "integer?" lower s
    | None => bad_arg "raise-range-error" "string?" descr s
    end
  else bad_arg "raise-range-error" "symbol? or #f" who s.
(** raise-missing-error, 2616-2622 *)
Definition raise_missing_error (who descr x k : val) (s : xst) : xres val :=
  if who_ok who then
    if stringv (xh s) descr then
      raise (do t; s <- format_ (s2b "~a not found") [descr] s; do m; s <- new (CStr t) s; make KMissing [who; m; descr; x; k] s)
    else bad_arg "raise-argument-error" "string?" descr s
  else bad_arg "raise-argument-error" "symbol? or #f" who s.
(** raise-syntax-error, 2624-2644; a missing form is #f *)
Fixpoint news (cs : list cell) (s : xst) : xres unit :=
  match cs with [] => XOk tt s | c :: r => do _v; s <- new c s; news r s end.
Definition datum_of (stx : val) (s : xst) : xres val :=
  if syntaxv (xh s) stx then let (v, cs) := datum (xh s) stx in do _u; s <- news cs s; XOk v s else XOk VFalse s.
Definition raise_syntax_error (who msg stx sub : val) (s : xst) : xres val :=
  if who_ok who then
    if stringv (xh s) msg then
      if (if truthy stx then syntaxv (xh s) stx else true) then
        if (if truthy sub then syntaxv (xh s) sub else true) then
          raise (do a; s <- datum_of stx s; do b; s <- datum_of sub s; make KSyntax [who; msg; a; b] s)
        else bad_arg "syntax-error" "syntax or #f" sub s
      else bad_arg "syntax-error" "syntax or #f" stx s
    else bad_arg "syntax-error" "string" msg s
  else bad_arg "syntax-error" "symbol? or #f" who s.

(** The default handler, 2488-2553.  eprintf, 2250-2253, writes to the error port. *)
Definition eprint (fmt : list byte) (args : list val) (s : xst) : xres unit := on_fmt (checked (disp (xh s)) (wr (xh s)) (xps s) ep fmt args) s.
(** car and cdr of the prelude, 37-47 *)
Definition car (x : val) (s : xst) : xres val := match pairv (xh s) x with Some (a, _) => XOk a s | None => bad_arg "car" "pair?" x s end.
Definition cdr (x : val) (s : xst) : xres val := match pairv (xh s) x with Some (_, d) => XOk d s | None => bad_arg "cdr" "pair?" x s end.
Definition display_exn (v : val) (s : xst) : xres unit :=
  do who; s <- get KExn 0 v s;
  if truthy who then
    do who; s <- get KExn 0 v s; do m; s <- get KExn 1 v s; eprint (s2b "~a: ~a" ++ nl) [who; m] s
  else do m; s <- get KExn 1 v s; eprint (s2b "error: ~a" ++ nl) [m] s.
Fixpoint arity_tail (f : nat) (x : val) (s : xst) : xres unit :=
  match f with
  | O => XFuel
  | S f =>
      match x with
      | VNull => eprint nl [] s
      | _ =>
          do d; s <- cdr x s;
          do a; s <- car x s;
          if truthy d then do _u; s <- eprint (s2b ", ~a") [a] s; arity_tail f d s
          else eprint (s2b ", at least ~a" ++ nl) [a] s
      end
  end.
Definition display_arity (f : nat) (x : val) (s : xst) : xres unit :=
  if intv x then eprint (s2b "~a" ++ nl) [x] s
  else
    do d; s <- cdr x s;
    do a; s <- car x s;
    if truthy d then do _u; s <- eprint (s2b "~a") [a] s; arity_tail f d s
    else eprint (s2b "at least ~a" ++ nl) [a] s.
Definition report (f : nat) (v : val) (s : xst) : xres unit :=
  do b; s <- is_a KArg v s;
  if truthy b then
    do _u; s <- display_exn v s;
    do e; s <- get KArg 0 v s; do _u; s <- eprint (s2b "  expected: ~a" ++ nl) [e] s;
    do a; s <- get KArg 1 v s; eprint (s2b "  given: ~a" ++ nl) [a] s
  else do b; s <- is_a KArity v s;
  if truthy b then
    do _u; s <- display_exn v s;
    do _u; s <- eprint (s2b "  expected: ") [] s;
    do e; s <- get KArity 0 v s; do _u; s <- display_arity f e s;
    do a; s <- get KArity 1 v s; eprint (s2b "  given: ~a" ++ nl) [a] s
  else do b; s <- is_a KRange v s;
  if truthy b then
    do _u; s <- display_exn v s;
    do lo; s <- get KRange 2 v s; do up; s <- get KRange 3 v s; do _u; s <- eprint (s2b "  range: [~a, ~a)" ++ nl) [lo; up] s;
    do d; s <- get KRange 1 v s;
    match string_at (xh s) d with
    | None => do _v; s <- bad_arg "string-length" "string?" d s; XOk tt s
    | Some b =>
        do _u; s <- match shown b with
                    | [] => do i; s <- get KRange 4 v s; eprint (s2b "  index: ~a" ++ nl) [i] s
                    | _ => do d; s <- get KRange 1 v s; do i; s <- get KRange 4 v s; eprint (s2b "  ~a index: ~a" ++ nl) [d; i] s
                    end;
        do x; s <- get KRange 0 v s; eprint (s2b "  in: ~a" ++ nl) [x] s
    end
  else do b; s <- is_a KMissing v s;
  if truthy b then
    do _u; s <- display_exn v s;
    do d; s <- get KMissing 0 v s; do k; s <- get KMissing 2 v s; do _u; s <- eprint (s2b "  ~a: ~a" ++ nl) [d; k] s;
    do x; s <- get KMissing 1 v s; eprint (s2b "  in: ~a" ++ nl) [x] s
  else do b; s <- is_a KSyntax v s;
  if truthy b then
    do _u; s <- display_exn v s;
    do form; s <- get KSyntax 0 v s;
    do _u; s <- if truthy form then (do form; s <- get KSyntax 0 v s; eprint (s2b "  in: ~a" ++ nl) [form] s) else XOk tt s;
    do sub; s <- get KSyntax 1 v s;
    if truthy sub then (do sub; s <- get KSyntax 1 v s; eprint (s2b "  at: ~a" ++ nl) [sub] s) else XOk tt s
  else do b; s <- is_a KExn v s;
  if truthy b then display_exn v s
  else eprint (s2b "uncaught exception: ~a" ++ nl) [v] s.
Definition handler (f : nat) (v : val) (s : xst) : xres unit := do _u; s <- report f v s; XExit 1 s.
(** While the default handler is installed, an exception that it raises is given to it
    again (C50). *)
Fixpoint handled (f : nat) (v : val) (s : xst) : xres unit :=
  match f with
  | O => XFuel
  | S f' => match handler f v s with XRaise v' s' => handled f' v' s' | r => r end
  end.
End Exn.
