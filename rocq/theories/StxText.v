(** The text of procedures for syntax objects: lines of src/boot/s/boot.min, the same as the
    definitions in src/library/private/stx.min.  Verbatim copies, as those of LibText.v. *)
From Coq Require Import String List.
Import ListNotations.
Local Open Scope string_scope.

(** boot.min:63 *)
Definition identifier_text : string :=
  "(define-values (identifier?) (lambda (t) (if (syntax? t) (symbol? (syntax-e t)) #f)))".
(** boot.min:64 *)
Definition free_identifier_text : string :=
  "(define-values (free-identifier=?) (lambda (a b) (if (not (identifier? a)) (raise-argument-error (quote free-identifier=?) ""identifier?"" a) (if (not (identifier? b)) (raise-argument-error (quote free-identifier=?) ""identifier?"" b) (eq? (syntax-e a) (syntax-e b))))))".
(** boot.min:65 *)
Definition stx_null_text : string :=
  "(define-values (stx-null?) (lambda (t) (if (null? t) #t (if (syntax? t) (null? (syntax-e t)) #f))))".
(** boot.min:66 *)
Definition stx_pair_text : string :=
  "(define-values (stx-pair?) (lambda (t) (if (pair? t) #t (if (syntax? t) (pair? (syntax-e t)) #f))))".
(** boot.min:67 *)
Definition stx_list_text : string :=
  "(define-values (stx-list?) (lambda (t) (if (list? t) #t (if (syntax? t) (list? (syntax-e t)) #f))))".
(** boot.min:69 *)
Definition stx_car_text : string :=
  "(define-values (stx-car) (lambda (t) (if (pair? t) (car t) (car (syntax-e t)))))".
(** boot.min:70 *)
Definition stx_cdr_text : string :=
  "(define-values (stx-cdr) (lambda (t) (if (pair? t) (cdr t) (cdr (syntax-e t)))))".
(** boot.min:73 *)
Definition cons_f_text : string :=
  "(define-values (cons/#f) (lambda (x1 x2) (if x2 (cons x1 x2) #f)))".
(** boot.min:74 *)
Definition append_f_text : string :=
  "(define-values (append/#f) (lambda (l1 l2) (if l1 (if l2 (if (null? l2) l1 (append l1 l2)) #f) #f)))".

(** In the order of the file. *)
Definition stx_texts : list string :=
  [identifier_text; free_identifier_text; stx_null_text; stx_pair_text; stx_list_text; stx_car_text; stx_cdr_text; cons_f_text; append_f_text].
