(** The text of split-stx-list: line 77 of src/boot/s/boot.min, the same as the definition in
    src/library/private/stx.min:120-136.  A verbatim copy, as those of LibText.v. *)
From Coq Require Import String.
Local Open Scope string_scope.

(** boot.min:77 *)
Definition split_stx_list_text : string :=
  "(define-values (split-stx-list) (lambda (s n prop?) (let-values (((pre post m) (letrec-values (((loop) (lambda (s) (if (stx-pair? s) (let-values (((pre post m) (loop (stx-cdr s)))) (if (< m n) (values null s (+ m 1)) (values (cons (stx-car s) pre) post m))) (values null s (if prop? (if (stx-null? s) 0 -1) 1)))))) (loop s)))) (values pre post (= m n)))))".
