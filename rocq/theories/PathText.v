(** The text of the path procedures: lines 22-25 of src/boot/s/boot.min, the expanded form
    of src/library/private/path.min that the interpreter loads when it starts.  Verbatim
    copies, read and taken apart as those of LibText.v. *)
From Coq Require Import String List.
Import ListNotations.
Local Open Scope string_scope.

(** boot.min:22 *)
Definition is_absolute_path_text : string :=
  "(define-values (is-absolute-path?) (lambda (path) (if (> (string-length path) 0) (eq? (string-ref path 0) #\/) #f)))".

(** boot.min:23 *)
Definition build_path_text : string :=
  "(define-values (build-path) (lambda (base . subpaths) (letrec-values (((string-terminates-with-/?) (lambda (str) (letrec-values (((len) (string-length str))) (eq? (string-ref str (- len 1)) #\/)))) ((paths) (letrec-values (((loop) (lambda (paths accum) (if (null? paths) (reverse accum) (if (= (string-length (car paths)) 0) (loop (cdr paths) accum) (if (string-terminates-with-/? (car accum)) (loop (cdr paths) (cons (car paths) accum)) (loop (cdr paths) (cons (car paths) (cons ""/"" accum))))))))) (loop subpaths (list base))))) (apply string-append paths))))".

(** boot.min:24 *)
Definition split_path_text : string :=
  "(define-values (split-path) (lambda (path) (if (string? path) (void) (let-values () (raise-argument-error (quote split-path) ""string?"" path))) (letrec-values (((path-elems) (reverse (path->list path)))) (if (pair? (cdr path-elems)) (let-values () (letrec-values (((end) (car path-elems)) ((rest) (cdr path-elems))) (cons (apply build-path (reverse rest)) end))) (cons #f (car path-elems))))))".

(** boot.min:25 *)
Definition path_list_text : string :=
  "(define-values (path->list) (lambda (path) (if (string? path) (void) (let-values () (raise-argument-error (quote path->list) ""string?"" path))) (letrec-values (((loop) (lambda (path accum) (if (= (string-length path) 0) (reverse accum) (let-values () (letrec-values (((len) (string-length path))) (letrec-values (((loop2) (lambda (i) (if (= i len) (loop """" (cons path accum)) (if (eq? (string-ref path i) #\/) (if (= i 0) (loop (substring path 1 len) (cons ""/"" accum)) (let-values () (letrec-values (((elem) (substring path 0 i)) ((rest) (substring path (+ i 1) len))) (loop rest (cons elem accum))))) (loop2 (+ i 1))))))) (loop2 0)))))))) (loop path (quote ())))))".

(** In the order of the file. *)
Definition path_texts : list string := [is_absolute_path_text; build_path_text; split_path_text; path_list_text].
