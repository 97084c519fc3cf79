(** The text of substring: line 62 of src/boot/s/boot.min, the expanded form of
    src/library/private/string.min 8-26.  A verbatim copy, as those of LibText.v. *)
From Coq Require Import String List.
Import ListNotations.
Local Open Scope string_scope.

(** boot.min:62 *)
Definition substring_text : string :=
  "(define-values (substring) (lambda (str start end) (letrec-values (((len) (string-length str)) (() (let-values () (if (string? str) (void) (let-values () (raise-argument-error (quote substring) ""string?"" str))) (values))) (() (let-values () (if (non-negative-integer? start) (void) (let-values () (raise-argument-error (quote substring) ""non-negative-integer?"" start))) (values))) (() (let-values () (if (non-negative-integer? end) (void) (let-values () (raise-argument-error (quote substring) ""non-negative-integer?"" end))) (values))) (() (let-values () (if (<= end len) (void) (let-values () (raise-range-error (quote substring) str ""end"" 0 (+ len 1) end))) (values))) (() (let-values () (if (<= start end) (void) (let-values () (raise-range-error (quote substring) str ""start"" 0 end))) (values))) ((sstr) (make-string (- end start)))) (letrec-values (((loop) (lambda (i n) (if (= n end) sstr (let-values () (string-set! sstr i (string-ref str n)) (loop (+ i 1) (+ n 1))))))) (loop 0 start)))))".
