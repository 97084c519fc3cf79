(** The text of further procedures for syntax objects: lines of src/boot/s/boot.min, the same as
    the definitions in src/library/private/stx.min.  Verbatim copies, as those of LibText.v. *)
From Coq Require Import String List.
Import ListNotations.
Local Open Scope string_scope.

(** boot.min:68 *)
Definition stx_vector_text : string :=
  "(define-values (stx-vector?) (lambda (t) (if (vector? t) #t (if (syntax? t) (vector? (syntax-e t)) #f))))".
(** boot.min:72 *)
Definition stx_null_f_text : string :=
  "(define-values (stx-null/#f) (lambda (t) (if (null? t) null (if (syntax? t) (if (null? (syntax-e t)) null #f) #f))))".
(** boot.min:76 *)
Definition stx_to_list_text : string :=
  "(define-values (stx->list) (lambda (t) (if (syntax? t) (if (stx-list? t) (syntax-e t) #f) (if (list? t) (if (andmap (lambda (x) (syntax? x)) t) t #f) #f))))".
