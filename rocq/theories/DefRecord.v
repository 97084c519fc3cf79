(** define-record-type, src/library/private/record.min 58-256, on the records of
    Records.v.

    The macro is a function on data (what syntax-case and templates do is C58, C59); it
    returns what its expansion (211-243) defines.  Simplifications: the expressions in
    the parent, uid, protocol and methods clauses are evaluated by the caller, who gives
    their values; the interfaces of the methods clauses are kept in the order of the
    clauses (the code enumerates a hashtable); what they install is not run here (C45,
    C61); the field descriptors '#(fields ...) are any values, one for each field. *)
From Coq Require Import ZArith NArith Bool Ascii String List Arith Lia.
From Verif Require Import Base Heap HeapM Records.
Import ListNotations.
Local Open Scope list_scope.

(** data *)
Definition sym (s : string) : obj := OSym (s2b s).
Definition symbolp (o : obj) : bool := match o with OSym _ | OGensym _ _ => true | _ => false end.
Definition is_kw (kw : string) (o : obj) : bool := match o with OSym n => bytes_eqb n (s2b kw) | _ => false end.
Fixpoint to_list (o : obj) : option (list obj) :=
  match o with
  | ONull => Some []
  | OPair a d => option_map (cons a) (to_list d)
  | _ => None
  end.
(** symbol->string *)
Definition text (o : obj) : list byte := match o with OSym n | OGensym n _ => n | _ => [] end.
(** (string->symbol (string-append a "-" b)), and with "-set!" *)
Definition acc_name (rname f : obj) : obj := OSym (text rname ++ s2b "-" ++ text f).
Definition mut_name (rname f : obj) : obj := OSym (text rname ++ s2b "-" ++ text f ++ s2b "-set!").

(** A field: its name, the name of its accessor and, if it is mutable, of its mutator. *)
Record field : Type := mkField { f_name : obj; f_acc : obj; f_mut : option obj }.
(** The clauses for one field specification, record.min 127-171; [None] is a syntax
    error *)
Definition plain_field (rname s : obj) : option field := if symbolp s then Some (mkField s (acc_name rname s) None) else None.
Definition field_of (rname s : obj) : option field :=
  match to_list s with
  | Some [k; f; a] =>
      if is_kw "immutable" k then (if symbolp f && symbolp a then Some (mkField f a None) else None) else plain_field rname s
  | Some [k; f; a; m] =>
      if is_kw "mutable" k then (if symbolp f && symbolp a && symbolp m then Some (mkField f a (Some m)) else None) else plain_field rname s
  | Some [k; f] =>
      if is_kw "immutable" k then (if symbolp f then Some (mkField f (acc_name rname f) None) else None)
      else if is_kw "mutable" k then (if symbolp f then Some (mkField f (acc_name rname f) (Some (mut_name rname f))) else None)
      else plain_field rname s
  | _ => plain_field rname s
  end.
Fixpoint fields_of (rname : obj) (l : list obj) : option (list field) :=
  match l with
  | [] => Some []
  | s :: r => match field_of rname s, fields_of rname r with Some f, Some fs => Some (f :: fs) | _, _ => None end
  end.

(** What the loop over the clauses collects, record.min 63-70: [None] for #f, '() *)
Record clauses : Type := mkClauses {
  c_parent : option obj; c_uid : option obj; c_sealed : option obj; c_opaque : option obj; c_protocol : option obj;
  c_fields : option (list field); c_methods : list (obj * list obj) }.
Definition no_clauses : clauses := mkClauses None None None None None None [].
Definition booleanp (o : obj) : bool := match o with OTrue | OFalse => true | _ => false end.
Definition same_sym (a b : obj) : bool :=
  match a, b with
  | OSym m, OSym n => bytes_eqb m n
  | OGensym m i, OGensym n j => bytes_eqb m n && N.eqb i j
  | _, _ => false
  end.
(** One clause, record.min 76-172 *)
Definition clause1 (rname : obj) (st : clauses) (c : obj) : option clauses :=
  match to_list c with
  | Some (k :: args) =>
      if is_kw "methods" k then
        match args with
        | g :: impls =>
            if symbolp g then
              if existsb (fun m => same_sym g (fst m)) (c_methods st) then None
              else Some (mkClauses (c_parent st) (c_uid st) (c_sealed st) (c_opaque st) (c_protocol st) (c_fields st) (c_methods st ++ [(g, impls)]))
            else None
        | [] => None
        end
      else if is_kw "fields" k then
        match c_fields st with
        | Some _ => None
        | None => match fields_of rname args with
                  | Some fs => Some (mkClauses (c_parent st) (c_uid st) (c_sealed st) (c_opaque st) (c_protocol st) (Some fs) (c_methods st))
                  | None => None
                  end
        end
      else
        match args with
        | [x] =>
            if is_kw "parent" k then
              match c_parent st with None => Some (mkClauses (Some x) (c_uid st) (c_sealed st) (c_opaque st) (c_protocol st) (c_fields st) (c_methods st)) | Some _ => None end
            else if is_kw "uid" k then
              match c_uid st with None => Some (mkClauses (c_parent st) (Some x) (c_sealed st) (c_opaque st) (c_protocol st) (c_fields st) (c_methods st)) | Some _ => None end
            else if is_kw "opaque" k then
              match c_opaque st with
              | None => if booleanp x then Some (mkClauses (c_parent st) (c_uid st) (c_sealed st) (Some x) (c_protocol st) (c_fields st) (c_methods st)) else None
              | Some _ => None end
            else if is_kw "sealed" k then
              match c_sealed st with
              | None => if booleanp x then Some (mkClauses (c_parent st) (c_uid st) (Some x) (c_opaque st) (c_protocol st) (c_fields st) (c_methods st)) else None
              | Some _ => None end
            else if is_kw "protocol" k then
              match c_protocol st with None => Some (mkClauses (c_parent st) (c_uid st) (c_sealed st) (c_opaque st) (Some x) (c_fields st) (c_methods st)) | Some _ => None end
            else None
        | _ => None
        end
  | _ => None
  end.
(** The loop, record.min 73-173 *)
Fixpoint clause_loop (rname : obj) (cls : list obj) (st : clauses) : option clauses :=
  match cls with
  | [] => Some st
  | c :: r => match clause1 rname st c with Some st' => clause_loop rname r st' | None => None end
  end.

(** What the expansion defines, record.min 186-243: each name, and what it is: the
    type, its constructor, its predicate, the accessor or mutator of a field *)
Inductive what : Type := WType | WMake | WIs | WGet (i : nat) | WPut (i : nat).
(** the lists accs and muts, 193-210 (enumerate pairs the fields with 0, 1, ...) *)
Fixpoint accs (fs : list field) (i : nat) : list (obj * what) :=
  match fs with [] => [] | f :: r => (f_acc f, WGet i) :: accs r (S i) end.
Fixpoint muts (fs : list field) (i : nat) : list (obj * what) :=
  match fs with
  | [] => []
  | f :: r => match f_mut f with Some m => (m, WPut i) :: muts r (S i) | None => muts r (S i) end
  end.
Record rdef : Type := mkDef { d_name : obj; d_make : obj; d_is : obj; d_clauses : clauses }.
Definition d_fields (d : rdef) : list field := match c_fields (d_clauses d) with Some fs => fs | None => [] end.
Definition d_sealed (d : rdef) : bool := match c_sealed (d_clauses d) with Some OTrue => true | _ => false end.
Definition d_opaque (d : rdef) : bool := match c_opaque (d_clauses d) with Some OTrue => true | _ => false end.
Definition defines (d : rdef) : list (obj * what) :=
  (d_name d, WType) :: (d_make d, WMake) :: (d_is d, WIs) :: accs (d_fields d) 0 ++ muts (d_fields d) 0.

(** The macro: the full form [(define-record-type (name construct predicate) cls ...)] and
    the simplified one, record.min 60, 244-250 *)
Definition define_record_type (spec : obj) (cls : list obj) : option rdef :=
  match to_list spec with
  | Some [n; c; p] =>
      if symbolp n then option_map (mkDef n c p) (clause_loop n cls no_clauses) else None
  | _ =>
      if symbolp spec then
        option_map (mkDef spec (OSym (s2b "make-" ++ text spec)) (OSym (text spec ++ s2b "?"))) (clause_loop spec cls no_clauses)
      else None
  end.

(** ** Running the expansion *)
Definition bool_val (b : bool) : val := if b then VTrue else VFalse.
Definition rtd_sealed (h : heap) (v : val) : option val := rec_ref h v 3.
(** The definition of the type, record.min 212-220: [p] is the value of the parent
    expression (#f without one); record-type-sealed?, prelude.min:1331-1339. *)
Definition make_type (procs : val -> bool) (w : rworld) (name p uid : val) (d : rdef) (descr : list val) : rres val * rworld :=
  let go := rstep procs w (RType name p uid (bool_val (d_sealed d)) (bool_val (d_opaque d)) descr) in
  if truthy p then
    if rtdp (rw_heap w) p then
      match rtd_sealed (rw_heap w) p with
      | Some s => if truthy s then (RErr (EArg "define-record-type" p), w) else go
      | None => (RUndef, w)
      end
    else (RErr (EArg "record-type-sealed?" p), w)
  else go.
(** A call of a procedure that a definition of the type [r] made (without protocol) *)
Definition call_op (r : val) (x : what) (args : list val) : option rop :=
  match x, args with
  | WMake, _ => Some (RMake r args)
  | WIs, [v] => Some (RIs r v)
  | WGet i, [v] => Some (RGet r (VFix (Z.of_nat i)) v)
  | WPut i, [v; y] => Some (RPut r (VFix (Z.of_nat i)) v y)
  | _, _ => None
  end.

(** Programs that use records only through define-record-type: definitions, calls of
    the procedures that the definitions made, and allocation of anything else.  [known]
    are the types defined so far. *)
Inductive cmd : Type :=
| DDef (d : rdef) (name p uid : val) (descr : list val)
| DCall (r : val) (x : obj) (args : list val)
| DElse (c : cell).
Record dworld : Type := DW { dw : rworld; known : list (val * rdef) }.
Definition dworld0 : dworld := DW rworld0 [].
(** the type [r] and the meaning of the name [x] in its definition *)
Fixpoint lookup_type (k : list (val * rdef)) (r : val) : option rdef :=
  match k with [] => None | (r', d) :: q => if eqp r r' then Some d else lookup_type q r end.
Fixpoint lookup_name (l : list (obj * what)) (x : obj) : option what :=
  match l with [] => None | (y, k) :: q => if same_sym x y then Some k else lookup_name q x end.
(** One command.  A name that the definition does not define, and a call with a wrong
    number of arguments, are errors. *)
Definition dstep (procs : val -> bool) (s : dworld) (c : cmd) : rres val * dworld :=
  match c with
  | DDef d name p uid descr =>
      match make_type procs (dw s) name p uid d descr with
      | (ROk r, w) => (ROk r, DW w ((r, d) :: known s))
      | (e, w) => (e, DW w (known s))
      end
  | DCall r x args =>
      match lookup_type (known s) r with
      | None => (RErr (EUnbound "procedure"), s)
      | Some d =>
          match lookup_name (defines d) x with
          | None => (RErr (EUnbound "procedure"), s)
          | Some k => match call_op r k args with
                      | Some o => let (v, w) := rstep procs (dw s) o in (v, DW w (known s))
                      | None => (RErr (EArity "procedure"), s)
                      end
          end
      end
  | DElse c => let (v, w) := rstep procs (dw s) (RElse c) in (v, DW w (known s))
  end.
Fixpoint drun (procs : val -> bool) (s : dworld) (cs : list cmd) : dworld :=
  match cs with [] => s | c :: q => drun procs (snd (dstep procs s c)) q end.
