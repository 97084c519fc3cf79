(** Outcomes of primitive operations. *)
From Coq Require Import Bool Ascii String List.
From Verif Require Import Base.

(** A raised error.  [ArgErr who v] is [raise-argument-error] with the offending
    argument [v] (prelude.min:2478-2644 builds the condition), [UnboundErr id] is
    the "cannot use before initialization" error of eval.c:312,316, [OtherErr]
    carries the message of any other error. *)
Inductive err : Type :=
| ArgErr (who : string) (v : obj)
| UnboundErr (id : string)
| OtherErr (msg : string).

(** [Undef] is C undefined behaviour (overflow, division trap, wild access). *)
Inductive outcome (A : Type) : Type :=
| Val (a : A)
| Err (e : err)
| Undef.
Arguments Val {A}. Arguments Err {A}. Arguments Undef {A}.

Definition obind {A B} (o : outcome A) (k : A -> outcome B) : outcome B :=
  match o with Val a => k a | Err e => Err e | Undef => Undef end.
