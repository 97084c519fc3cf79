(** Code objects: instructions, labels, resolution and writing
    (src/core/c/jit.c:16-147, src/core/c/jitcommon.c:165-221). *)
From Coq Require Import ZArith NArith Bool Ascii String List Arith Lia.
From Verif Require Import Base Heap Ast.
Import ListNotations.
Local Open Scope list_scope.

(** Registers, minim.h (res 0, t0 1, t1 2, cp 3, ac 4). *)
Inductive reg : Type := Rres | Rt0 | Rt1 | Rcp | Rac.

(** Instructions (global.c:35-77, eval.c:475-638) over a type [T] of jump
    targets and a type [C] of what make-closure refers to. *)
Inductive instr (T C : Type) : Type :=
| Iliteral (v : val)
| Ilookup (i : nat)
| Ilookup_cell (i : nat)
| Itl_lookup (x : ident)
| Itl_lookup_cell (x : ident)
| Iset_proc
| Ipush
| Imov (dst src : reg)
| Iclosure_set (dst : reg) (i : nat) (src : reg)
| Iclosure_bind
| Iapply
| Iret
| Iccall (p : N)
| Ibind (i : nat) (x : ident)
| Ibind_values (i n : nat) (ids : list ident)
| Itl_bind_values (n : nat) (ids : list ident)
| Irebind (i : nat)
| Itl_rebind (x : ident)
| Ipush_env (n : nat)
| Isave_cc (t : T)
| Iget_arg (dst : reg) (i : nat)
| Ido_apply
| Ido_arity_error
| Ido_raise
| Ido_rest (i : nat)
| Ido_values
| Ido_with_values
| Iclear_frame
| Ibrancha (t : T)
| Ibranchf (t : T)
| Ibranchgt (n : nat) (t : T)
| Ibranchlt (n : nat) (t : T)
| Ibranchne (n : nat) (t : T)
| Imake_closure (c : C) (n : nat)
| Icheck_stack (n : nat).
Arguments Iliteral {T C}. Arguments Ilookup {T C}. Arguments Ilookup_cell {T C}. Arguments Itl_lookup {T C}.
Arguments Itl_lookup_cell {T C}. Arguments Iset_proc {T C}. Arguments Ipush {T C}. Arguments Imov {T C}.
Arguments Iclosure_set {T C}. Arguments Iclosure_bind {T C}. Arguments Iapply {T C}. Arguments Iret {T C}.
Arguments Iccall {T C}. Arguments Ibind {T C}. Arguments Ibind_values {T C}. Arguments Itl_bind_values {T C}.
Arguments Irebind {T C}. Arguments Itl_rebind {T C}. Arguments Ipush_env {T C}. Arguments Isave_cc {T C}.
Arguments Iget_arg {T C}. Arguments Ido_apply {T C}. Arguments Ido_arity_error {T C}. Arguments Ido_raise {T C}. Arguments Ido_rest {T C}.
Arguments Ido_values {T C}. Arguments Ido_with_values {T C}. Arguments Iclear_frame {T C}. Arguments Ibrancha {T C}.
Arguments Ibranchf {T C}. Arguments Ibranchgt {T C}. Arguments Ibranchlt {T C}. Arguments Ibranchne {T C}.
Arguments Imake_closure {T C}. Arguments Icheck_stack {T C}.

(** procedure arities, jitcompile.c:16-65: [n], [(n . #f)], [(n . arity)].
    [ANull] is the empty list the computation starts from. *)
Inductive arity : Type :=
| ANull
| AFix (n : nat)
| AFalse
| APair (n : nat) (a : arity).

(** What the compiler emits: instructions and labels (strings).  A label is
    known by its identity, here its number in the procedure (jitcommon.c:83-101). *)
Inductive item (C : Type) : Type :=
| Lab (l : nat)
| Ins (i : instr nat C).
Arguments Lab {C}. Arguments Ins {C}.

(** A code object: its instructions, with jumps to positions, its arity and the
    table from labels to positions (minim.h; jit.c:9-14). *)
Inductive code : Type :=
| Code (is : list (instr nat code)) (ar : arity) (reloc : list (nat * nat)).
Definition instrs_of (c : code) := match c with Code is _ _ => is end.
Definition arity_of (c : code) := match c with Code _ a _ => a end.
Definition reloc_of (c : code) := match c with Code _ _ r => r end.

(** assq_ref and assq_set, list.c:281-312. *)
Fixpoint assq {B} (k : nat) (l : list (nat * B)) : option B :=
  match l with
  | [] => None
  | (a, b) :: r => if Nat.eqb a k then Some b else assq k r
  end.
Fixpoint assq_set {B} (k : nat) (b : B) (l : list (nat * B)) : list (nat * B) :=
  match l with
  | [] => [(k, b)]
  | (a, c) :: r => if Nat.eqb a k then (a, b) :: r else (a, c) :: assq_set k b r
  end.

(** ** resolve_refs, jitcommon.c:165-221 *)

(** next_non_label: the instruction that follows.  An instruction is known by
    its identity, here its position in the list of items.  [None]: the error "no
    next instruction". *)
Fixpoint next_non_label {C} (k : nat) (its : list (item C)) : option nat :=
  match its with
  | [] => None
  | Ins _ :: _ => Some k
  | Lab _ :: r => next_non_label (S k) r
  end.

(** The first loop: [lead] is the leading label of the run of labels being read. *)
Fixpoint label_maps {C} (k : nat) (lead : option nat) (its : list (item C)) (reloc lm : list (nat * nat))
  : option (list (nat * nat) * list (nat * nat)) :=
  match its with
  | [] => Some (reloc, lm)
  | Ins _ :: r => label_maps (S k) None r reloc lm
  | Lab l :: r =>
      match lead with
      | None => match next_non_label (S k) r with
                | None => None
                | Some j => label_maps (S k) (Some l) r (assq_set l j reloc) (assq_set l l lm)
                end
      | Some l0 => label_maps (S k) (Some l0) r reloc (assq_set l l0 lm)
      end
  end.

(** The second loop and the writing of instructions replace the target of the
    jump instructions; [None]: the target is not in the table, and the cdr of #f
    is taken.  make-closure's index is replaced by the code object
    (jitcommon.c:211-213). *)
Definition retarget {T T' C C'} (f : T -> option T') (g : C -> option C') (i : instr T C) : option (instr T' C') :=
  match i with
  | Isave_cc t => option_map Isave_cc (f t)
  | Ibrancha t => option_map Ibrancha (f t)
  | Ibranchf t => option_map Ibranchf (f t)
  | Ibranchgt n t => option_map (Ibranchgt n) (f t)
  | Ibranchlt n t => option_map (Ibranchlt n) (f t)
  | Ibranchne n t => option_map (Ibranchne n) (f t)
  | Imake_closure c n => option_map (fun c => Imake_closure c n) (g c)
  | Iliteral v => Some (Iliteral v)
  | Ilookup i => Some (Ilookup i)
  | Ilookup_cell i => Some (Ilookup_cell i)
  | Itl_lookup x => Some (Itl_lookup x)
  | Itl_lookup_cell x => Some (Itl_lookup_cell x)
  | Iset_proc => Some Iset_proc
  | Ipush => Some Ipush
  | Imov d s => Some (Imov d s)
  | Iclosure_set d i s => Some (Iclosure_set d i s)
  | Iclosure_bind => Some Iclosure_bind
  | Iapply => Some Iapply
  | Iret => Some Iret
  | Iccall p => Some (Iccall p)
  | Ibind i x => Some (Ibind i x)
  | Ibind_values i n ids => Some (Ibind_values i n ids)
  | Itl_bind_values n ids => Some (Itl_bind_values n ids)
  | Irebind i => Some (Irebind i)
  | Itl_rebind x => Some (Itl_rebind x)
  | Ipush_env n => Some (Ipush_env n)
  | Iget_arg d i => Some (Iget_arg d i)
  | Ido_apply => Some Ido_apply
  | Ido_arity_error => Some Ido_arity_error
  | Ido_raise => Some Ido_raise
  | Ido_rest i => Some (Ido_rest i)
  | Ido_values => Some Ido_values
  | Ido_with_values => Some Ido_with_values
  | Iclear_frame => Some Iclear_frame
  | Icheck_stack n => Some (Icheck_stack n)
  end.

Fixpoint map_opt {A B} (f : A -> option B) (l : list A) : option (list B) :=
  match l with
  | [] => Some []
  | a :: r => match f a, map_opt f r with Some b, Some s => Some (b :: s) | _, _ => None end
  end.

Definition item_map {C C'} (f : nat -> option nat) (g : C -> option C') (it : item C) : option (item C') :=
  match it with
  | Lab l => Some (Lab l)
  | Ins i => option_map Ins (retarget f g i)
  end.

(** The templates are kept newest first and indexed from the oldest
    (jitcommon.c:26-43).  For a nested procedure resolve_refs is called with a
    scope environment where a procedure environment is expected
    (jitcompile.c:208); the list of templates is then reached through the global
    environment's vector read as a pair, whose cdr is its first element: the
    same list with one more element at the end. *)
Definition template (tmpls : list code) (i : nat) : option code := nth_error (rev tmpls) i.

Definition resolve_refs (tmpls : list code) (its : list (item nat)) : option (list (item code) * list (nat * nat)) :=
  match label_maps 0 None its [] [] with
  | None => None
  | Some (reloc, lm) =>
      match map_opt (item_map (fun l => assq l lm) (template tmpls)) its with
      | None => None
      | Some its' => Some (its', reloc)
      end
  end.

(** ** write_code, jit.c:72-147 *)

(** Items with their identities. *)
Fixpoint number {A} (k : nat) (l : list A) : list (nat * A) :=
  match l with [] => [] | a :: r => (k, a) :: number (S k) r end.

(** remove_labels, jit.c:72-84: the first item is kept whatever it is. *)
Definition is_ins {C} (it : nat * item C) : bool := match snd it with Ins _ => true | Lab _ => false end.
Definition remove_labels {C} (its : list (nat * item C)) : list (nat * item C) :=
  match its with
  | [] => []
  | it :: r => it :: filter is_ins r
  end.

(** The position of an instruction in the stream, jit.c:100-110. *)
Fixpoint find_id {C} (id k : nat) (its : list (nat * item C)) : option nat :=
  match its with
  | [] => None
  | (j, _) :: r => if Nat.eqb j id then Some k else find_id id (S k) r
  end.

(** The new reloc table, jit.c:98-115: entries whose instruction is not found are
    dropped, the order is kept. *)
Fixpoint new_reloc {C} (reloc : list (nat * nat)) (its : list (nat * item C)) : list (nat * nat) :=
  match reloc with
  | [] => []
  | (l, id) :: r => match find_id id 0 its with
                    | Some i => (l, i) :: new_reloc r its
                    | None => new_reloc r its
                    end
  end.

(** [None]: a label is left in the stream, or a jump has no target. *)
Definition write_code (its : list (item code)) (reloc : list (nat * nat)) (ar : arity) : option code :=
  let ins := remove_labels (number 0 its) in
  let rel := new_reloc reloc ins in
  match map_opt (fun it => match snd it with
                           | Ins i => retarget (fun l => assq l rel) Some i
                           | Lab _ => None
                           end) ins with
  | Some is => Some (Code is ar rel)
  | None => None
  end.

(** ** code_to_instrs, jit.c:16-70 *)

Fixpoint inv_reloc (reloc inv : list (nat * nat)) : list (nat * nat) :=
  match reloc with
  | [] => inv
  | (l, p) :: r => inv_reloc r (assq_set p l inv)
  end.

Fixpoint instrs_loop (k : nat) (is : list (instr nat code)) (inv : list (nat * nat)) : option (list (item code)) :=
  match is with
  | [] => Some []
  | i :: r =>
      match retarget (fun p => assq p inv) Some i, instrs_loop (S k) r inv with
      | Some i', Some its => Some (match assq k inv with Some l => [Lab l] | None => [] end ++ Ins i' :: its)
      | _, _ => None
      end
  end.

Definition code_to_instrs (c : code) : option (list (item code)) :=
  instrs_loop 0 (instrs_of c) (inv_reloc (reloc_of c) []).
