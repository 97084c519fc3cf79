(** What the errors of the machine say, and what is printed when nothing handles them:
    src/core/c/eval.c 23-66, 206-212, 264-316, 704, src/core/c/error.c 5-17. *)
From Coq Require Import ZArith NArith Bool Ascii String List Arith.
From Verif Require Import Base Heap HeapM Port Ast Code Sem Vm Names.
Import ListNotations.
Local Open Scope list_scope.
Local Open Scope nat_scope.

(** What C code reports of an error: a name (or NULL), a message and objects. *)
Definition complaint_of : Type := (option (list byte) * list byte * list val)%type.

(** The conversion of a count to short, eval.c:64 (two's complement, 16 bits, which C
    leaves to the implementation and every compiler in use does). *)
Definition to_short (n : nat) : Z := ((Z.of_nat n + 32768) mod 65536 - 32768)%Z.

Section ErrText.
  (** The names of procedures and the closures at the error. *)
  Variable nm : names.
  Variable d : data.
  (** The object that is the given arity (code objects hold it), and the string "list?",
      which C code makes at the error (here it is there before). *)
  Variable arity_obj : arity -> val.
  Variable list_str : val.
  (** What the other C functions say. *)
  Variable prim_says : herr -> complaint_of.

  (** The name of a procedure as a C string, eval.c:31-35 *)
  Definition c_name (x : option val) : option (list byte) := match x with None => None | Some v => Some (symbol_text v) end.

  (** eval.c:312-316 (variables), 704 (application), 27-62 (arity_mismatch_exn),
      64-66 (result_arity_exn), 23-25, 206-212 (apply). *)
  Definition says (e : err) : complaint_of :=
    match e with
    | ErrInit x => (None, s2b "cannot use before initialization", [ident_val x])
    | ErrNotProc v => (None, s2b "expected procedure", [v])
    | ErrArity f n =>
        match arity_report nm d f with
        | Some (x, Exactly k) => (c_name x, s2b "arity mismatch", [VFix (Z.of_nat k); VFix (Z.of_nat n)])
        | Some (x, AtLeast k) => (c_name x, s2b "arity mismatch, expected at least", [VFix (Z.of_nat k); VFix (Z.of_nat n)])
        | Some (x, Between k a) => (c_name x, s2b "arity mismatch, expected between", [VFix (Z.of_nat k); arity_obj a; VFix (Z.of_nat n)])
        | None => (None, [], [])          (* not reached: C code takes the car of another object *)
        end
    | ErrResults k n => (None, s2b "result arity mismatch", [VFix (to_short k); VFix (to_short n)])
    | ErrApply v => (Some (s2b "apply"), s2b "type violation", [list_str; v])
    | ErrPrim p => prim_says p
    end.
End ErrText.

(** do_error2 when there is no handler or no continuation, error.c:8-18: what is added to
    the standard error output; [wr] is write_object. *)
Fixpoint put_objects (wr : val -> list byte) (objs : list val) (out : list byte) : list byte :=
  match objs with
  | [] => out
  | x :: r => put_objects wr r ((out ++ s2b (String (ascii_of_nat 10) " ")) ++ wr x)
  end.
Definition shutdown_text (wr : val -> list byte) (c : complaint_of) (out : list byte) : list byte :=
  let '(name, msg, objs) := c in
  let out := match name with
             | Some n => out ++ s2b "Error in " ++ cstr n ++ s2b ": " ++ cstr msg
             | None => out ++ s2b "Error: " ++ cstr msg
             end in
  put_objects wr objs out ++ [ascii_of_nat 10].
