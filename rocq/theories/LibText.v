(** The text of some of the procedures written in Minim itself: car, cdr and reverse from
    src/core/s/prelude.min and the list procedures from src/boot/s/boot.min, the expanded
    form of src/library/private/list.min that the interpreter loads when it starts
    (src/boot/c/minim.c:54-60).  The texts are verbatim copies of those lines; they are
    read with the model of the built-in reader (Reader.v) and taken apart with the model of
    the compiler's forms (Check.v). *)
From Coq Require Import ZArith NArith Bool Ascii String List Arith Lia.
From Verif Require Import Base Heap HeapM Ast Check Reader.
Import ListNotations.
Local Open Scope string_scope.

(** prelude.min:37-41 *)
Definition car_text : string :=
  "(define-values (car)
  (lambda (x) 
    (if (pair? x)
        ($car x)
        (raise-argument-error 'car ""pair?"" x))))".

(** prelude.min:43-47 *)
Definition cdr_text : string :=
  "(define-values (cdr)
  (lambda (x) 
    (if (pair? x)
        ($cdr x)
        (raise-argument-error 'cdr ""pair?"" x))))".

(** prelude.min:935-939 *)
Definition reverse_text : string :=
  "(define-values (reverse)
  (lambda (xs)
    (if (list? xs)
        ($reverse xs)
        (raise-argument-error 'reverse ""list?"" xs))))".

(** boot.min:1 *)
Definition cons_star_text : string :=
  "(define-values (cons*) (lambda (x . xs) (letrec-values (((loop) (lambda (x xs) (if (null? xs) x (cons x (loop (car xs) (cdr xs))))))) (loop x xs))))".

(** boot.min:2 *)
Definition first_text : string :=
  "(define-values (first) (lambda (xs) (if (list? xs) (car xs) (raise-argument-error (quote first) ""list?"" xs))))".

(** boot.min:3 *)
Definition second_text : string :=
  "(define-values (second) (lambda (lst) (if (list? lst) (letrec-values (((loop) (lambda (xs pos) (if (pair? xs) (if (= pos 1) (car xs) (loop (cdr xs) (- pos 1))) (errorf (quote second) ""list contains too few elements: ~a"" lst))))) (loop lst 2)) (raise-argument-error (quote second) ""list?"" lst))))".

(** boot.min:4 *)
Definition third_text : string :=
  "(define-values (third) (lambda (lst) (if (list? lst) (letrec-values (((loop) (lambda (xs pos) (if (pair? xs) (if (= pos 1) (car xs) (loop (cdr xs) (- pos 1))) (errorf (quote third) ""list contains too few elements: ~a"" lst))))) (loop lst 3)) (raise-argument-error (quote third) ""list?"" lst))))".

(** boot.min:5 *)
Definition fourth_text : string :=
  "(define-values (fourth) (lambda (lst) (if (list? lst) (letrec-values (((loop) (lambda (xs pos) (if (pair? xs) (if (= pos 1) (car xs) (loop (cdr xs) (- pos 1))) (errorf (quote fourth) ""list contains too few elements: ~a"" lst))))) (loop lst 4)) (raise-argument-error (quote fourth) ""list?"" lst))))".

(** boot.min:6 *)
Definition fifth_text : string :=
  "(define-values (fifth) (lambda (lst) (if (list? lst) (letrec-values (((loop) (lambda (xs pos) (if (pair? xs) (if (= pos 1) (car xs) (loop (cdr xs) (- pos 1))) (errorf (quote fifth) ""list contains too few elements: ~a"" lst))))) (loop lst 5)) (raise-argument-error (quote fifth) ""list?"" lst))))".

(** boot.min:7 *)
Definition sixth_text : string :=
  "(define-values (sixth) (lambda (lst) (if (list? lst) (letrec-values (((loop) (lambda (xs pos) (if (pair? xs) (if (= pos 1) (car xs) (loop (cdr xs) (- pos 1))) (errorf (quote sixth) ""list contains too few elements: ~a"" lst))))) (loop lst 6)) (raise-argument-error (quote sixth) ""list?"" lst))))".

(** boot.min:8 *)
Definition seventh_text : string :=
  "(define-values (seventh) (lambda (lst) (if (list? lst) (letrec-values (((loop) (lambda (xs pos) (if (pair? xs) (if (= pos 1) (car xs) (loop (cdr xs) (- pos 1))) (errorf (quote seventh) ""list contains too few elements: ~a"" lst))))) (loop lst 7)) (raise-argument-error (quote seventh) ""list?"" lst))))".

(** boot.min:9 *)
Definition eighth_text : string :=
  "(define-values (eighth) (lambda (lst) (if (list? lst) (letrec-values (((loop) (lambda (xs pos) (if (pair? xs) (if (= pos 1) (car xs) (loop (cdr xs) (- pos 1))) (errorf (quote eighth) ""list contains too few elements: ~a"" lst))))) (loop lst 8)) (raise-argument-error (quote eighth) ""list?"" lst))))".

(** boot.min:10 *)
Definition ninth_text : string :=
  "(define-values (ninth) (lambda (lst) (if (list? lst) (letrec-values (((loop) (lambda (xs pos) (if (pair? xs) (if (= pos 1) (car xs) (loop (cdr xs) (- pos 1))) (errorf (quote ninth) ""list contains too few elements: ~a"" lst))))) (loop lst 9)) (raise-argument-error (quote ninth) ""list?"" lst))))".

(** boot.min:11 *)
Definition tenth_text : string :=
  "(define-values (tenth) (lambda (lst) (if (list? lst) (letrec-values (((loop) (lambda (xs pos) (if (pair? xs) (if (= pos 1) (car xs) (loop (cdr xs) (- pos 1))) (errorf (quote tenth) ""list contains too few elements: ~a"" lst))))) (loop lst 10)) (raise-argument-error (quote tenth) ""list?"" lst))))".

(** boot.min:12 *)
Definition list_ref_text : string :=
  "(define-values (list-ref) (lambda (lst k) (if (non-negative-integer? k) (void) (let-values () (raise-argument-error (quote list-ref) ""non-negative-integer?"" k))) (letrec-values (((loop) (lambda (xs i) (if (null? xs) (errorf (quote list-ref) ""index out of bounds ~a for ~a"" k lst) (if (= i k) (car xs) (loop (cdr xs) (+ i 1))))))) (loop lst 0))))".

(** boot.min:13 *)
Definition member_text : string :=
  "(define-values (member) (lambda (k xs) (letrec-values (((loop) (lambda (xs) (if (null? xs) #f (if (pair? xs) (if (equal? (car xs) k) (car xs) (loop (cdr xs))) (raise-argument-error (quote member) ""list?"" xs)))))) (loop xs))))".

(** boot.min:14 *)
Definition remove_text : string :=
  "(define-values (remove) (lambda (k xs) (letrec-values (((loop) (lambda (xs) (if (null? xs) (quote ()) (if (pair? xs) (if (equal? (car xs) k) (loop (cdr xs)) (cons (car xs) (loop (cdr xs)))) (raise-argument-error (quote remove) ""list?"" xs)))))) (loop xs))))".

(** boot.min:15 *)
Definition remove_star_text : string :=
  "(define-values (remove*) (lambda (ks xs) (if (list? ks) (void) (let-values () (raise-argument-error (quote remove*) ""list?"" ks))) (letrec-values (((loop) (lambda (ks xs) (if (null? ks) xs (if (null? xs) (quote ()) (loop (cdr ks) (letrec-values (((loop2) (lambda (xs) (if (null? xs) (quote ()) (if (pair? xs) (if (equal? (car xs) (car ks)) (loop2 (cdr xs)) (cons (car xs) (loop2 (cdr xs)))) (raise-argument-error (quote remove*) ""list?"" xs)))))) (loop2 xs)))))))) (loop ks xs))))".

(** boot.min:16 *)
Definition filter_text : string :=
  "(define-values (filter) (lambda (f lst) (letrec-values (((loop) (lambda (xs acc) (if (null? xs) (reverse acc) (if (pair? xs) (if (f (car xs)) (loop (cdr xs) (cons (car xs) acc)) (loop (cdr xs) acc)) (raise-argument-error (quote filter) ""list?"" lst)))))) (loop lst (quote ())))))".

(** boot.min:17 *)
Definition foldl_text : string :=
  "(define-values (foldl) (lambda (f acc lst) (letrec-values (((loop) (lambda (xs acc) (if (null? xs) acc (if (pair? xs) (loop (cdr xs) (f acc (car xs))) (raise-argument-error (quote foldl) ""list?"" lst)))))) (loop lst acc))))".

(** boot.min:18 *)
Definition foldr_text : string :=
  "(define-values (foldr) (lambda (f acc lst) (letrec-values (((loop) (lambda (xs) (if (null? xs) acc (if (pair? xs) (f (loop (cdr xs)) (car xs)) (raise-argument-error (quote foldr) ""list?"" lst)))))) (loop lst))))".

(** boot.min:19 *)
Definition assoc_text : string :=
  "(define-values (assoc) (lambda (k lst) (letrec-values (((loop) (lambda (xs) (if (null? xs) #f (if (not (pair? xs)) (raise-argument-error (quote assoc) ""list?"" lst) (if (not (pair? (car xs))) (raise-argument-error (quote assoc) ""list?"" lst) (if (equal? k (caar xs)) (car xs) (loop (cdr xs))))))))) (loop lst))))".

(** boot.min:20 *)
Definition index_of_text : string :=
  "(define-values (index-of) (lambda (k lst) (letrec-values (((loop) (lambda (lst i) (if (null? lst) #f (if (equal? k (car lst)) i (loop (cdr lst) (+ i 1))))))) (loop lst 0))))".

(** boot.min:21 *)
Definition list_set_text : string :=
  "(define-values (list-set) (lambda (lst k v) (if (non-negative-integer? k) (void) (let-values () (raise-argument-error (quote list-set) ""non-negative-integer?"" k))) (letrec-values (((loop) (lambda (xs i xs*) (if (null? xs) (errorf (quote list-set) ""index out of bounds ~a for ~a"" k lst) (if (= i k) (append (reverse xs*) (cons v (cdr xs))) (if (pair? xs) (loop (cdr xs) (+ i 1) (cons (car xs) xs*)) (raise-argument-error (quote list-set) ""list?"" lst))))))) (loop lst 0 (quote ())))))".

(** The datum a text holds, and the expression that the compiler makes of it; [lit] gives
    the objects of the literals. *)
Definition datum_of (t : string) : obj :=
  match read_object 400 (list_ascii_of_string t) with ROk o _ => o | _ => ONull end.
Definition code_of (lit : obj -> val) (t : string) : expr :=
  match parse lit 60 (datum_of t) with POk e => e | _ => EUnbound end.
