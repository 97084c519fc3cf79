(** The names of procedures: minim_closure_name, set where values are bound
    (src/core/c/eval.c:7-13, 268-305, 342-369), read and changed by procedure-name and
    procedure-rename (src/core/c/procedure.c:34-57), shown by write
    (src/core/c/print.c:60-67) and by the arity error (src/core/c/eval.c:27-62).

    The machine is that of Vm.v; the names are kept beside its closures, by address. *)
From Coq Require Import ZArith NArith Bool Ascii String List Arith Lia.
From Verif Require Import Base Heap HeapM Ast Code Sem Vm Decimal.
Import ListNotations.
Local Open Scope list_scope.

(** The symbol of an identifier; the temporaries of the optimiser are made by
    Mgensym with the prefix t and the value of its counter (jitopt.c:28-41,
    symbol.c:192-206). *)
Definition ident_val (x : ident) : val :=
  match x with
  | Id s => VSym (s2b s)
  | Gen n => VGensym (s2b "t" ++ print_nat (N.of_nat n)) (N.of_nat n)
  end.

(** The name of the closure at an address; [None] is #f, which Mclosure stores
    (procedure.c:11-19). *)
Definition names := nat -> option val.
Definition no_names : names := fun _ => None.
Definition set_name (l : nat) (x : val) (nm : names) : names := fun k => if Nat.eqb k l then Some x else nm k.

(** SET_NAME_IF_CLOSURE, eval.c:7-13. *)
Definition name_if_closure (d : data) (x : ident) (v : val) (nm : names) : names :=
  match v with
  | VPtr l => match clo_ref l (d_clos d) with
              | Some _ => match nm l with None => set_name l (ident_val x) nm | Some _ => nm end
              | None => nm
              end
  | _ => nm
  end.
(** The loops over the values, eval.c:279-290, 353-359; one value, eval.c:297, 366. *)
Fixpoint name_all (d : data) (ids : list ident) (vs : list val) (nm : names) : names :=
  match ids, vs with
  | x :: xr, v :: vr => name_all d xr vr (name_if_closure d x v nm)
  | _, _ => nm
  end.

Section Names.
  Variable prim : N -> list val -> heap -> option presult.
  (** The numbers of the primitives $procedure-name and $procedure-rename (prim.c:181-182). *)
  Variables p_name p_rename : N.

  (** procedure_name_proc, procedure_rename_proc: procedure.c:34-57.  The copy made by
      the latter is dropped: the result is the argument.  The wrappers
      (prelude.min:760-773) have checked the arguments. *)
  Definition nprim (nm : names) (p : N) (vs : list val) (h : heap) : option presult :=
    if N.eqb p p_name
    then match vs with
         | [VPtr l] => Some (PrimVal (match nm l with Some x => x | None => VFalse end) h)
         | _ => None
         end
    else if N.eqb p p_rename
    then match vs with
         | [VPtr l; x] => Some (PrimVal (VPtr l) h)
         | _ => None
         end
    else prim p vs h.

  (** The names after one instruction. *)
  Definition names_after (i : instr nat code) (m : mst) (nm : names) : names :=
    match i with
    | Ibind_values _ n ids | Itl_bind_values n ids =>
        match result_vals m with
        | Some vs => if List.length vs =? n then name_all (m_data m) ids vs nm else nm
        | None => nm
        end
    | Iccall p =>
        if N.eqb p p_name then nm
        else if N.eqb p p_rename
        then match frame_args m with
             | Some [VPtr l; x] => set_name l x nm
             | _ => nm
             end
        else nm
    | _ => nm
    end.

  (** One step of the machine with names: [None] if the machine stops. *)
  Definition nstep (s : mst * names) : option (mst * names) :=
    match nth_error (instrs_of (m_code (fst s))) (m_pc (fst s)) with
    | None => None
    | Some i =>
        match exec (nprim (snd s)) i (fst s) with
        | Next m' => Some (m', names_after i (fst s) (snd s))
        | _ => None
        end
    end.
  Inductive nreaches : mst * names -> mst * names -> Prop :=
  | NrRefl s : nreaches s s
  | NrStep s s1 s2 : nstep s = Some s1 -> nreaches s1 s2 -> nreaches s s2.
End Names.

(** write_closure, print.c:60-67; a symbol is printed as a C string. *)
Definition symbol_text (x : val) : list byte :=
  match x with VSym b | VGensym b _ => cstr b | _ => [] end.
Definition written_closure (name : option val) : list byte :=
  match name with
  | None => s2b "#<procedure>"
  | Some x => s2b "#<procedure:" ++ symbol_text x ++ s2b ">"
  end.

(** arity_mismatch_exn, eval.c:27-62: the name and what is told of the expected count;
    [None] where the arity is neither a number nor a pair (the C code takes the car of
    something else). *)
Inductive expected : Type :=
| Exactly (k : nat)               (* arity mismatch *)
| AtLeast (k : nat)               (* arity mismatch, expected at least *)
| Between (k : nat) (a : arity).  (* arity mismatch, expected between: the car and the cdr *)
Definition arity_report (nm : names) (d : data) (f : val) : option (option val * expected) :=
  match f with
  | VPtr l => match clo_ref l (d_clos d) with
              | None => None
              | Some c => match arity_of (c_code c) with
                          | AFix k => Some (nm l, Exactly k)
                          | APair k AFalse => Some (nm l, AtLeast k)
                          | APair k a => Some (nm l, Between k a)
                          | _ => None
                          end
              end
  | _ => None
  end.
