(** From the text of a program to what is printed: the loop of the main program,
    src/boot/c/minim.c:100-121, with the reader (Reader.v), the checker (Check.v), the
    optimiser (Opt.v), the compiler (Compile.v) and the machine (Vm.v) in the order in
    which it calls them.

    Simplifications.  The code reads a form, evaluates it and reads the next one; here all
    forms are read, checked and taken apart first: reading depends on nothing that a program
    does, and nothing else refers to the objects of a form before it is evaluated.  Addresses
    are the order of allocation; what the reader allocates and drops is left out. *)
From Coq Require Import ZArith NArith Bool Ascii String List Arith Lia.
From Verif Require Import Base Heap HeapM Ast Sem Reader Check Code Compile Opt Vm SimThm OptThm.
Import ListNotations.
Local Open Scope list_scope.
Local Open Scope nat_scope.

(** ** Objects made by the reader

    Mcons, Mstring, Mvector, Mbox as read.c calls them, car before cdr (read.c:189-232),
    elements in order (234-258).  The last three kinds are never made by the reader. *)
Fixpoint place (o : obj) (h : heap) {struct o} : val * heap :=
  let fix places (l : list obj) (h : heap) {struct l} : list val * heap :=
    match l with
    | [] => ([], h)
    | x :: q => let '(v, h1) := place x h in let '(vs, h2) := places q h1 in (v :: vs, h2)
    end in
  match o with
  | ONull => (VNull, h) | OTrue => (VTrue, h) | OFalse => (VFalse, h) | OEof => (VEof, h) | OVoid => (VVoid, h)
  | OSym n => (VSym n, h)
  | OGensym n i => (VGensym n i, h)
  | OFix z => (VFix z, h)
  | OChar c => (VChar c, h)
  | OEmptyVec => (VEmptyVec, h)
  | OBaseRtd => (VBaseRtd, h)
  | OStr b => alloc (CStr b) h
  | OPair a d => let '(va, h1) := place a h in let '(vd, h2) := place d h1 in alloc (CPair va vd) h2
  | OVec l => let '(vs, h1) := places l h in alloc (CVec vs) h1
  | OBox x => let '(v, h1) := place x h in alloc (CBox v) h1
  | ORec _ _ | OSyntax _ _ | OOther _ => alloc (COther 0) h
  end.

(** ** Taking a form apart

    As Check.v's [parse], but in the heap: a literal is the object that the reader made. *)
Section Take.
  Variable h : heap.
  (** [head == if_symbol] and the like *)
  Definition vkw (kw : string) (v : val) : bool :=
    match v with VSym n => if list_eq_dec Ascii.ascii_dec n (s2b kw) then true else false | _ => false end.
  (** minim_car, minim_cdr: minim.h *)
  Definition hcar (v : val) : pres val := match pair_at h v with Some (a, _) => POk a | None => PUndef end.
  Definition hcdr (v : val) : pres val := match pair_at h v with Some (_, d) => POk d | None => PUndef end.
  (** [for (it = l; !minim_nullp(it); it = minim_cdr(it)) ... minim_car(it)] *)
  Fixpoint hloop {A} (g : val -> pres A) (f : nat) (l : val) : pres (list A) :=
    match f with
    | O => PFuel
    | S f =>
        match l with
        | VNull => POk []
        | _ => do a <- hcar l; do x <- g a; do d <- hcdr l; do q <- hloop g f d; POk (x :: q)
        end
    end.
  Definition hident (v : val) : pres ident :=
    match v with
    | VSym n => POk (Id (string_of_list_ascii n))
    | VGensym _ i => POk (Gen (N.to_nat i))
    | _ => PUndef
    end.
  (** [for (args = ...; minim_consp(args); ...)], then a rest identifier, jitcompile.c:118-138 *)
  Fixpoint hformals (f : nat) (v : val) : pres formals :=
    match f with
    | O => PFuel
    | S f =>
        match v with
        | VNull => POk (Formals [] None)
        | _ =>
            match pair_at h v with
            | Some (a, d) => do x <- hident a; do fm <- hformals f d; POk (Formals (x :: req fm) (rest fm))
            | None => do r <- hident v; POk (Formals [] (Some r))
            end
        end
    end.
  (** The branches of compile_expr2, jitcompile.c:436-497, and of the passes before it,
      jitopt.c; the order of the tests is that of Check.v's [parse]. *)
  Fixpoint hparse (f : nat) (v : val) : pres expr :=
    match f with
    | O => PFuel
    | S f =>
        let pbody := hloop (hparse f) f in
        let pclause (c : val) := do a <- hcar c; do fm <- hformals f a; do b <- hcdr c; do es <- pbody b; POk (fm, es) in
        let pbinding (b : val) :=
          do i <- hcar b; do ids <- hloop hident f i; do q <- hcdr b; do e <- hcar q; do x <- hparse f e; POk (ids, x) in
        match pair_at h v with
        | Some (hd, q) =>
            if vkw "define-values" hd then
              do i <- hcar q; do ids <- hloop hident f i; do r <- hcdr q; do e <- hcar r; do x <- hparse f e; POk (EDefine ids x)
            else if vkw "let-values" hd then
              do b <- hcar q; do bs <- hloop pbinding f b; do r <- hcdr q; do es <- pbody r; POk (ELet bs es)
            else if vkw "letrec-values" hd then
              do b <- hcar q; do bs <- hloop pbinding f b; do r <- hcdr q; do es <- pbody r; POk (ELetrec bs es)
            else if vkw "set!" hd then
              do i <- hcar q; do x <- hident i; do r <- hcdr q; do e <- hcar r; do y <- hparse f e; POk (ESet x y)
            else if vkw "lambda" hd then
              do a <- hcar q; do fm <- hformals f a; do b <- hcdr q; do es <- pbody b; POk (ELam fm es)
            else if vkw "case-lambda" hd then do cls <- hloop pclause f q; POk (ECase cls)
            else if vkw "begin" hd then do es <- pbody q; POk (EBegin es)
            else if vkw "if" hd then
              do a <- hcar q; do x <- hparse f a; do r <- hcdr q; do b <- hcar r; do y <- hparse f b;
              do s <- hcdr r; do c <- hcar s; do z <- hparse f c; POk (EIf x y z)
            else if vkw "quote" hd || vkw "quote-syntax" hd then do d <- hcar q; POk (EConst d)
            else if vkw "#%make-unbound" hd then POk EUnbound
            else if vkw "values" hd then do es <- pbody q; POk (EValues es)
            else if vkw "call-with-values" hd then
              do a <- hcar q; do x <- hparse f a; do r <- hcdr q; do b <- hcar r; do y <- hparse f b; POk (ECwv x y)
            else if vkw "#%mv-call" hd then
              do a <- hcar q; do x <- hparse f a; do r <- hcdr q; do b <- hcar r; do y <- hparse f b; POk (EMvCall x y)
            else if vkw "#%mv-let" hd then
              do a <- hcar q; do x <- hparse f a; do r <- hcdr q; do i <- hcar r; do fm <- hformals f i;
              do s <- hcdr r; do b <- hcar s; do y <- hparse f b; POk (EMvLet x fm y)
            else if vkw "#%mv-values" hd then do es <- pbody q; POk (EMvValues es)
            else do x <- hparse f hd; do es <- pbody q; POk (EApp x es)
        | None =>
            match v with
            | VSym _ | VGensym _ _ => do x <- hident v; POk (EVar x)
            | VTrue | VFalse | VFix _ | VChar _ | VEmptyVec => POk (EConst v)
            | VPtr l =>
                match nth_error h l with
                | Some (CStr _) | Some (CBox _) | Some (CVec _) => POk (EConst v)
                | _ => PErr
                end
            | _ => PErr
            end
        end
    end.
End Take.

(** ** The loop *)
(** How a session ends: at the end of the text, with an error of the reader or the checker,
    or with an error of the program that is not handled. *)
Inductive ending : Type := EndOfText | BadText (e : rerr) | BadForm | Stopped.

(** read_object, check_expr and the taking apart of what was read, minim.c:104-108. *)
Inductive source : list byte -> heap -> list expr -> heap -> ending -> Prop :=
| SrcEnd t k h : reads t no_object k -> source t h [] h EndOfText
| SrcForm t o k h v h1 f g e es h2 en :
    reads t o k -> o <> no_object -> check f o = COk -> place o h = (v, h1) -> hparse h1 g v = POk e ->
    source k h1 es h2 en -> source t h (e :: es) h2 en
| SrcBadText t y h : read_fails t y -> source t h [] h (BadText y)
| SrcBadForm t o k h f : reads t o k -> o <> no_object -> check f o = CBad -> source t h [] h BadForm.

(** The datum that write_object finds at a value (print.c:23-129). *)
Inductive datum_at (h : heap) : val -> obj -> Prop :=
| DaNull : datum_at h VNull ONull
| DaTrue : datum_at h VTrue OTrue
| DaFalse : datum_at h VFalse OFalse
| DaEof : datum_at h VEof OEof
| DaVoid : datum_at h VVoid OVoid
| DaSym n : datum_at h (VSym n) (OSym n)
| DaGensym n i : datum_at h (VGensym n i) (OGensym n i)
| DaFix z : datum_at h (VFix z) (OFix z)
| DaChar c : datum_at h (VChar c) (OChar c)
| DaEmptyVec : datum_at h VEmptyVec OEmptyVec
| DaPair l a d x y : nth_error h l = Some (CPair a d) -> datum_at h a x -> datum_at h d y -> datum_at h (VPtr l) (OPair x y)
| DaVec l vs xs : nth_error h l = Some (CVec vs) -> data_at h vs xs -> datum_at h (VPtr l) (OVec xs)
| DaStr l b : nth_error h l = Some (CStr b) -> datum_at h (VPtr l) (OStr b)
| DaBox l v x : nth_error h l = Some (CBox v) -> datum_at h v x -> datum_at h (VPtr l) (OBox x)
with data_at (h : heap) : list val -> list obj -> Prop :=
| DasNil : data_at h [] []
| DasCons v vs x xs : datum_at h v x -> data_at h vs xs -> data_at h (v :: vs) (x :: xs).

Definition newline : byte := "010"%char.
(** One value and the end of the line, minim.c:111-119; the text of a datum is Reader.v's
    [c_write]. *)
Definition line (h : heap) (v : val) (t : list byte) : Prop := exists o, datum_at h v o /\ t = c_write o ++ [newline].
(** minim.c:110-120: nothing for the void object, one line for any other object, and a line
    for each of several values. *)
Definition printed (m : mst) (t : list byte) : Prop :=
  match m_r0 m with
  | RV VVoid => t = []
  | RV v => line (d_heap (m_data m)) v t
  | RValues => exists ts, Forall2 (line (d_heap (m_data m))) (firstn (m_vc m) (m_vals m)) ts /\ t = List.concat ts
  | _ => False
  end.
(** eval_expr and the printing of its result, form by form.  [true]: an error ended it. *)
Inductive prints (prim : N -> list val -> heap -> option presult) : thread -> list expr -> list byte -> bool -> Prop :=
| PrNil t : prints prim t [] [] false
| PrVal t e es c r m out rest b :
    compile_top e = Some c -> Vm.ends prim (start c (t_stk t) 0 (t_vc t) (t_vals t) (t_data t)) (Done r m) ->
    printed m out -> prints prim (left_by m) es rest b -> prints prim t (e :: es) (out ++ rest) b
| PrErr t e es c y m :
    compile_top e = Some c -> Vm.ends prim (start c (t_stk t) 0 (t_vc t) (t_vals t) (t_data t)) (Fail y m) ->
    prints prim t (e :: es) [] true.

Definition with_heap (t : thread) (h : heap) : thread :=
  let d := t_data t in Thread (t_stk t) (t_vc t) (t_vals t) (Data h (d_clos d) (d_cells d) (d_glob d) (d_envs d)).
(** The main program in thread [t], whose next generated symbol has number [n], given [txt]:
    [out] is printed (without the prompts). *)
Definition session (prim : N -> list val -> heap -> option presult) (t : thread) (n : nat) (txt out : list byte) (en : ending) : Prop :=
  exists es h en1 f es' n' b,
    source txt (d_heap (t_data t)) es h en1 /\ optimize_program f n es = Some (es', n') /\
    prints prim (with_heap t h) es' out b /\ en = if b then Stopped else en1.
