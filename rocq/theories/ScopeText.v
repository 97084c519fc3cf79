(** The text of scope-contains?: line 89 of src/boot/s/boot.min, what the expander makes of
    src/library/expander.min:55-59.  A verbatim copy, as those of LibText.v. *)
From Coq Require Import String.
Local Open Scope string_scope.

(** boot.min:89 *)
Definition scope_contains_text : string :=
  "(define-values (scope-contains?) (lambda (scope name) (letrec-values (((loop) (lambda (scope) (if (not scope) #f (if (set-member? (scope-bound scope) name) #t (loop (scope-prev scope))))))) (loop scope))))".
