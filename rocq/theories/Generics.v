(** Generic interfaces: src/library/private/generics.min.

    Record types and interfaces are records: they are known by their identity (a
    number), since no equality procedure is attached to their types and equal? and
    assoc then compare them with eq? (prelude.min 1887-1896).  The table
    $record-generics (generics.min 43) is a finite map from record types (C05 is about
    the tables themselves).  A procedure is known by its identity and its arity
    (C35).  Simplification: the lists given by the caller are not changed afterwards. *)
From Coq Require Import NArith Bool Ascii String List Arith Lia.
From Verif Require Import Base Ast Code.
Import ListNotations.
Local Open Scope list_scope.
Local Open Scope nat_scope.

(** symbol?, and equal? on symbols, object.c 77-92 *)
Definition symbolp (o : obj) : bool := match o with OSym _ | OGensym _ _ => true | _ => false end.
Definition bytes_dec : forall a b : list byte, {a = b} + {a <> b} := list_eq_dec Ascii.ascii_dec.
Definition same_symbol (a b : obj) : bool :=
  match a, b with
  | OSym m, OSym n => if bytes_dec m n then true else false
  | OGensym m i, OGensym n j => (if bytes_dec m n then true else false) && N.eqb i j
  | _, _ => false
  end.

(** a record of $generics-type, generics.min 19-28: each method is its name and its
    formals *)
Record generic : Type := mkGeneric { gid : nat; gname : obj; gmethods : list (obj * obj) }.

(** what may be passed to the procedures *)
Record proc : Type := mkProc { pid : nat; parity : arity }.
Inductive gval : Type := GRtd (r : nat) | GGeneric (g : generic) | GProc (p : proc) | GData (o : obj).
(** an argument that should be a list *)
Inductive glist : Type := GList (l : list gval) | GNotList (v : gval).
Definition gval_of (l : glist) : gval := match l with GNotList v => v | GList _ => GData ONull end.

(** errors, with the value that the message shows *)
Inductive gerr : Type :=
| EArgument (expected : string) (v : gval)     (* raise-argument-error *)
| EListArgument (expected : string) (v : glist)
| ECount | EArity | EMethod (name : obj) | ENoInstance (g : generic) (r : nat).
Inductive gres (A : Type) : Type := GOk (a : A) | GErr (e : gerr).
Arguments GOk {A} _. Arguments GErr {A} _.
Definition gbind {A B} (x : gres A) (k : A -> gres B) : gres B := match x with GOk a => k a | GErr e => GErr e end.

(** The table: for each record type the interfaces and their implementations. *)
Definition entry := (generic * list proc)%type.
Definition table := nat -> option (list entry).
Definition empty : table := fun _ => None.
Definition store (t : table) (r : nat) (l : list entry) : table := fun x => if x =? r then Some l else t x.

(** $generics-type-method-names, generics.min 36-39 *)
Definition method_names (g : generic) : list obj := map fst (gmethods g).
(** The loop of expected-arity, generics.min 69-73; [None]: cdr of what is neither a
    pair nor a symbol. *)
Fixpoint expected_arity (formals : obj) (i : nat) : option arity :=
  match formals with
  | ONull => Some (AFix i)
  | OSym _ | OGensym _ _ => Some (APair i AFalse)
  | OPair _ d => expected_arity d (i + 1)
  | _ => None
  end.
Definition arity_dec : forall a b : arity, {a = b} + {a <> b}.
Proof. decide equality; apply Nat.eq_dec. Defined.
(** The for-each that validates arities, generics.min 65-81 *)
Fixpoint check_arities (ms : list (obj * obj)) (ps : list proc) : bool :=
  match ms, ps with
  | m :: ms, p :: ps =>
      match expected_arity (snd m) 0 with
      | Some a => if arity_dec (parity p) a then check_arities ms ps else false
      | None => false
      end
  | _, _ => true
  end.
(** (andmap procedure? impls) *)
Fixpoint procedures (l : list gval) : option (list proc) :=
  match l with
  | [] => Some []
  | GProc p :: r => option_map (cons p) (procedures r)
  | _ => None
  end.
(** record-type-add-generic!, generics.min 45-89 *)
Definition add_generic (t : table) (rtd generic : gval) (impls : glist) : gres table :=
  match generic with
  | GGeneric g =>
      match rtd with
      | GRtd r =>
          match impls with
          | GList l =>
              match procedures l with
              | Some ps =>
                  if List.length (method_names g) =? List.length ps
                  then if check_arities (gmethods g) ps
                       then GOk (store t r (match t r with Some es => (g, ps) :: es | None => [(g, ps)] end))
                       else GErr EArity
                  else GErr ECount
              | None => GErr (EListArgument "list of procedures" impls)
              end
          | _ => GErr (EListArgument "list of procedures" impls)
          end
      | v => GErr (EArgument "record-type-descriptor?" v)
      end
  | v => GErr (EArgument "generics interface" v)
  end.

(** index-of, list.min 119-124 *)
Fixpoint index_of (k : obj) (l : list obj) (i : nat) : option nat :=
  match l with
  | [] => None
  | x :: r => if same_symbol k x then Some i else index_of k r (i + 1)
  end.
(** assoc, list.min 111-117, on the entries *)
Fixpoint assoc (g : generic) (l : list entry) : option entry :=
  match l with
  | [] => None
  | e :: r => if gid g =? gid (fst e) then Some e else assoc g r
  end.
(** generics-accessor, generics.min 91-100: the interface and the position that the
    closure holds.  The error about a name that is no symbol shows the interface (95). *)
Definition generics_accessor (g name : gval) : gres (generic * nat) :=
  match g with
  | GGeneric g' =>
      match name with
      | GData n =>
          if symbolp n
          then match index_of n (method_names g') 0 with
               | Some i => GOk (g', i)
               | None => GErr (EMethod n)
               end
          else GErr (EArgument "symbol?" g)
      | _ => GErr (EArgument "symbol?" g)
      end
  | v => GErr (EArgument "generics interface" v)
  end.
(** The closure applied to a record type, generics.min 101-110.  [list-ref] stays
    within the list (add_generic compares the lengths); the default is not reached. *)
Definition accessor_apply (t : table) (a : generic * nat) (rtd : gval) : gres (option proc) :=
  match rtd with
  | GRtd r =>
      match assoc (fst a) (match t r with Some es => es | None => [] end) with
      | Some e => GOk (nth_error (snd e) (snd a))
      | None => GErr (ENoInstance (fst a) r)
      end
  | v => GErr (EArgument "record-type-descriptor?" v)
  end.
(** generic-instance? applied to an interface and then to a value, generics.min
    112-118: #f ([None]) or the entry *)
Definition generic_instance (t : table) (g v : gval) : gres (option entry) :=
  match g with
  | GGeneric g' =>
      GOk (match v with
           | GRtd r => match t r with Some es => assoc g' es | None => None end
           | _ => None
           end)
  | w => GErr (EArgument "generics interface" w)
  end.

(** ** define-generics, generics.min 132-182, on data: the clauses [[method . formals]]
    of the form; [None] is a syntax error.  The closing branch of the macro (173-182)
    only chooses the message. *)
Fixpoint check_formals (o : obj) : bool :=
  match o with
  | ONull | OSym _ | OGensym _ _ => true
  | OPair a d => symbolp a && check_formals d
  | _ => false
  end.
(** the loop over the clauses, 141-164: [table] grows at the front *)
Fixpoint method_loop (cls : list obj) (tbl : list (obj * obj)) : option (list (obj * obj)) :=
  match cls with
  | [] => Some tbl
  | OPair m f :: r => if symbolp m && check_formals f then method_loop r ((m, f) :: tbl) else None
  | _ => None
  end.
(** the whole macro; [id]: the identity of the record that $make-generics-type returns *)
Definition define_generics (id : nat) (name : obj) (cls : list obj) : option generic :=
  if symbolp name then option_map (fun tbl => mkGeneric id name (rev tbl)) (method_loop cls []) else None.
(** the names that it defines, 139, 166-167: gen:NAME and gen:NAME? *)
Definition generic_ids (name : obj) : option (obj * obj) :=
  match name with
  | OSym n | OGensym n _ => Some (OSym (s2b "gen:" ++ n), OSym (s2b "gen:" ++ n ++ s2b "?"))
  | _ => None
  end.

(** Programs: calls of record-type-add-generic!; a call that fails changes nothing. *)
Record call : Type := Add { c_rtd : gval; c_generic : gval; c_impls : glist }.
Definition step (t : table) (c : call) : table :=
  match add_generic t (c_rtd c) (c_generic c) (c_impls c) with GOk t' => t' | GErr _ => t end.
Definition run (cs : list call) : table := fold_left step cs empty.
