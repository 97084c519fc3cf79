(** The sources of the library modules from which the boot file is made, verbatim:
    src/library/private/list.min, path.min, generics.min, record.min, set.min, string.min,
    stx.min, and src/library/expander.min, module.min, read.min, in the order of
    boot-info, gen-boot.min 12-22.  Each text is the list of the lines of the file. *)
From Coq Require Import String List.
Import ListNotations.
Local Open Scope string_scope.

(** src/library/private/list.min 1-134 *)
Definition list_min : list string := [
";;";
";;  Lists";
";;";
"";
"(import ""pre-base.min"")";
"(export first second third fourth fifth";
"        sixth seventh eighth ninth tenth";
"        list-ref list-set";
"        cons*";
"        member remove remove*";
"        filter";
"        foldl foldr";
"        assoc";
"        index-of)";
"";
";;;;;;;;;;;;;;;;;;;;;;;;;;;; constructors ;;;;;;;;;;;;;;;;;;;;;;;;;;;;";
"";
"(define (cons* x . xs)";
"  (let loop ([x x] [xs xs])";
"    (cond [(null? xs) x]";
"          [else (cons x (loop (car xs) (cdr xs)))])))";
"";
";;;;;;;;;;;;;;;;;;;;;;;;;;;; accessors ;;;;;;;;;;;;;;;;;;;;;;;;;;;;";
"";
"(define (first xs)";
"  (if (list? xs)";
"      (car xs)";
"      (raise-argument-error 'first ""list?"" xs)))";
"";
"(define-syntax define-list-accessor";
"  (syntax-rules ()";
"    [(_ name npos)";
"     (define (name lst)";
"       (if (list? lst)";
"           (let loop ([xs lst] [pos npos])";
"             (if (pair? xs)";
"                 (if (= pos 1)";
"                     (car xs)";
"                     (loop (cdr xs) (- pos 1)))";
"                 (errorf 'name ""list contains too few elements: ~a"" lst)))";
"           (raise-argument-error 'name ""list?"" lst)))]))";
"";
"(define-list-accessor second 2)";
"(define-list-accessor third 3)";
"(define-list-accessor fourth 4)";
"(define-list-accessor fifth 5)";
"(define-list-accessor sixth 6)";
"(define-list-accessor seventh 7)";
"(define-list-accessor eighth 8)";
"(define-list-accessor ninth 9)";
"(define-list-accessor tenth 10)";
"";
"(define (list-ref lst k)";
"  (unless (non-negative-integer? k)";
"    (raise-argument-error 'list-ref ""non-negative-integer?"" k))";
"  (let loop ([xs lst] [i 0])";
"    (cond [(null? xs) (errorf 'list-ref ""index out of bounds ~a for ~a"" k lst)]";
"          [(= i k) (car xs)]";
"          [else (loop (cdr xs) (+ i 1))])))";
"";
";;;;;;;;;;;;;;;;;;;;;;;;;;;; list operations ;;;;;;;;;;;;;;;;;;;;;;;;;;;;";
"";
"(define (member k xs)";
"  (let loop ([xs xs])";
"    (cond [(null? xs) #f]";
"          [(pair? xs) (if (equal? (car xs) k) (car xs) (loop (cdr xs)))]";
"          [else (raise-argument-error 'member ""list?"" xs)])))";
"";
"(define (remove k xs)";
"  (let loop ([xs xs])";
"    (cond [(null? xs) '()]";
"          [(pair? xs) (if (equal? (car xs) k)";
"                          (loop (cdr xs))";
"                          (cons (car xs) (loop (cdr xs))))]";
"          [else (raise-argument-error 'remove ""list?"" xs)])))";
"";
"(define (remove* ks xs)";
"  (unless (list? ks)";
"    (raise-argument-error 'remove* ""list?"" ks))";
"  (let loop ([ks ks] [xs xs])";
"    (cond [(null? ks) xs]";
"          [(null? xs) '()]";
"          [else (loop (cdr ks)";
"                      (let loop2 ([xs xs])";
"                        (cond [(null? xs) '()]";
"                              [(pair? xs) (if (equal? (car xs) (car ks))";
"                                              (loop2 (cdr xs))";
"                                              (cons (car xs) (loop2 (cdr xs))))]";
"                              [else (raise-argument-error 'remove* ""list?"" xs)])))])))";
"";
"(define (filter f lst)";
"  (let loop ([xs lst] [acc '()])";
"    (cond [(null? xs) (reverse acc)]";
"          [(pair? xs) (if (f (car xs))";
"                          (loop (cdr xs) (cons (car xs) acc))";
"                          (loop (cdr xs) acc))]";
"          [else (raise-argument-error 'filter ""list?"" lst)])))";
"";
"(define (foldl f acc lst)";
"  (let loop ([xs lst] [acc acc])";
"    (cond [(null? xs) acc]";
"          [(pair? xs) (loop (cdr xs) (f acc (car xs)))]";
"          [else (raise-argument-error 'foldl ""list?"" lst)])))";
"";
"(define (foldr f acc lst)";
"  (let loop ([xs lst])";
"    (cond [(null? xs) acc]";
"          [(pair? xs) (f (loop (cdr xs)) (car xs))]";
"          [else (raise-argument-error 'foldr ""list?"" lst)])))";
"";
"(define (assoc k lst)";
"  (let loop ([xs lst])";
"    (cond [(null? xs) #f]";
"          [(not (pair? xs)) (raise-argument-error 'assoc ""list?"" lst)]";
"          [(not (pair? (car xs))) (raise-argument-error 'assoc ""list?"" lst)]";
"          [(equal? k (caar xs)) (car xs)]";
"          [else (loop (cdr xs))])))";
"";
"(define (index-of k lst)";
"  (let loop ([lst lst] [i 0])";
"    (cond";
"      [(null? lst) #f]";
"      [(equal? k (car lst)) i]";
"      [else (loop (cdr lst) (+ i 1))])))";
"";
"(define (list-set lst k v)";
"  (unless (non-negative-integer? k)";
"    (raise-argument-error 'list-set ""non-negative-integer?"" k))";
"  (let loop ([xs lst] [i 0] [xs* '()])";
"    (cond";
"      [(null? xs) (errorf 'list-set ""index out of bounds ~a for ~a"" k lst)]";
"      [(= i k) (append (reverse xs*) (cons v (cdr xs)))]";
"      [(pair? xs) (loop (cdr xs) (+ i 1) (cons (car xs) xs*))]";
"      [else (raise-argument-error 'list-set ""list?"" lst)])))";
""].

(** src/library/private/path.min 1-65 *)
Definition path_min : list string := [
";;;   ";
";;; Paths";
";;;";
"";
"(import ""pre-base.min"" ""string.min"")";
"";
"(export is-absolute-path?";
"        build-path";
"        split-path";
"        path->list)";
"";
"(define (is-absolute-path? path)";
"  (and (> (string-length path) 0)";
"       (eq? (string-ref path 0) #\/)))";
"";
"; paths are unverified";
"(define (build-path base . subpaths)";
"  (define (string-terminates-with-/? str)";
"    (define len (string-length str))";
"    (eq? (string-ref str (- len 1)) #\/))";
"  (define paths";
"    (let loop ([paths subpaths] [accum (list base)])";
"      (cond";
"        [(null? paths) (reverse accum)]";
"        [(= (string-length (car paths)) 0) (loop (cdr paths) accum)]";
"        [(string-terminates-with-/? (car accum)) (loop (cdr paths) (cons (car paths) accum))]";
"        [else (loop (cdr paths) (cons (car paths) (cons ""/"" accum)))])))";
"  (apply string-append paths))";
"";
"(define (split-path path)";
"  (unless (string? path)";
"    (raise-argument-error 'split-path ""string?"" path))";
"  (define path-elems (reverse (path->list path)))";
"  (cond";
"    [(pair? (cdr path-elems))";
"     (define end (car path-elems))";
"     (define rest (cdr path-elems))";
"     (cons (apply build-path (reverse rest)) end)]";
"    [else";
"     (cons #f (car path-elems))]))";
"";
"(define (path->list path)";
"  (unless (string? path)";
"    (raise-argument-error 'path->list ""string?"" path))";
"  (let loop ([path path] [accum '()])";
"    (cond";
"      [(= (string-length path) 0)";
"       (reverse accum)]";
"      [else";
"       (define len (string-length path))";
"       (let loop2 ([i 0])";
"         (cond";
"           [(= i len)";
"            (loop """" (cons path accum))]";
"           [(eq? (string-ref path i) #\/)";
"            (cond";
"              [(= i 0)";
"               ; corner case for unix paths";
"               (loop (substring path 1 len) (cons ""/"" accum))]";
"              [else";
"               (define elem (substring path 0 i))";
"               (define rest (substring path (+ i 1) len))";
"               (loop rest (cons elem accum))])]";
"           [else";
"            (loop2 (+ i 1))]))])))";
""].

(** src/library/private/generics.min 1-183 *)
Definition generics_min : list string := [
";;;";
";;; Generics";
";;;";
"";
"(import ""list.min"" ""pre-base.min"")";
"";
"(export $make-generics-type";
"        $generics-type?";
"        $generics-type-methods";
"        $generics-type-method-names";
"";
"        define-generics";
"        generic-instance?";
"        generics-accessor";
"        record-type-add-generic!)";
"";
";; --------------------------------------------------------";
";; Generics type";
"";
"(define $generics-type";
"  (make-record-type-descriptor 'generics";
"                               #f #f #f #f";
"                               '#((immutable name) (immutable methods))))";
"";
"(define $generics-type? (record-predicate $generics-type))";
"(define $make-generics-type (record-constructor $generics-type))";
"(define $generics-type-name (record-accessor $generics-type 0))";
"(define $generics-type-methods (record-accessor $generics-type 1))";
"";
"(define (non-generics-type-error who v)";
"  (raise-argument-error who ""generics interface"" v))";
"";
"(define (non-rtd-error who v)";
"  (raise-argument-error who ""record-type-descriptor?"" v))";
"";
"(define ($generics-type-method-names generics)";
"  (unless ($generics-type? generics)";
"    (non-generics-type-error '$generics-type-method-names generics))";
"  (map car ($generics-type-methods generics)))";
"";
";; Records";
"";
"(define $record-generics (make-hashtable))";
"";
"(define (record-type-add-generic! rtd generic impls)";
"  ;; validate argument types";
"  (unless ($generics-type? generic)";
"    (non-generics-type-error 'record-type-add-generics! generic))";
"  (unless (record-type-descriptor? rtd)";
"    (non-rtd-error 'record-type-add-generics! rtd))";
"  (unless (and (list? impls) (andmap procedure? impls))";
"    (raise-argument-error 'record-type-add-generics!";
"                          ""list of procedures""";
"                          impls))";
"  ";
"  ;; validate number of methods";
"  (define names ($generics-type-method-names generic))";
"  (unless (= (length names) (length impls))";
"    (error 'record-type-add-generics!";
"           ""number of procedures does not match interface""";
"           (format ""expected: ~a"" (length names))";
"           (format ""got: ~a"" (length impls))))";
"";
"  ;; validate arity";
"  (for-each";
"    (lambda (entry impl)";
"      (define id (car entry))";
"      (define formals (cdr entry))";
"      (define expected-arity";
"        (let loop ([formals formals] [i 0])";
"          (cond [(null? formals) i]";
"                [(symbol? formals) (cons i #f)]";
"                [else (loop (cdr formals) (+ i 1))])))";
"";
"      (define arity (procedure-arity impl))";
"      (unless (equal? arity expected-arity)";
"        (error 'record-type-add-generics!";
"               ""method implementation does not match formals""";
"               (format ""method definition: ~a ~a"" id formals)";
"               (format ""actual arity: ~a"" arity))))";
"    ($generics-type-methods generic) impls)";
"  ";
"  ;; update generics metadata";
"  (hashtable-set! $record-generics rtd";
"                  (cond";
"                    [(hashtable-contains? $record-generics rtd) ";
"                     (cons (cons generic impls) (hashtable-ref $record-generics rtd))]";
"                    [else";
"                     (list (cons generic impls))])))";
"";
"(define (generics-accessor generic name)";
"  (unless ($generics-type? generic)";
"    (non-generics-type-error 'generics-accessor generic))";
"  (unless (symbol? name)";
"    (raise-argument-error 'generics-accessor ""symbol?"" generic))";
"  (define idx (index-of name ($generics-type-method-names generic)))";
"  (unless idx";
"    (error 'generics-accessor";
"           ""method name not associated with generics interface""";
"           name))";
"  (lambda (rtd)";
"    (unless (record-type-descriptor? rtd)";
"      (non-rtd-error #f rtd))";
"    (define rtd-generics (hashtable-ref $record-generics rtd '()))";
"    (define maybe-entry (assoc generic rtd-generics))";
"    (if maybe-entry";
"        (list-ref (cdr maybe-entry) idx)";
"        (error 'generics-accessor";
"               ""generic not associated with record type""";
"               ($generics-type-name generic) rtd))))";
"";
"(define (generic-instance? generic)";
"  (unless ($generics-type? generic)";
"    (non-generics-type-error 'generic-instance? generic))";
"  (lambda (rtd)";
"    (and (record-type-descriptor? rtd)";
"         (let ([generics (hashtable-ref $record-generics rtd #f)])";
"           (and generics (assoc generic generics))))))";
"";
";;";
";;  Syntax";
";;";
";; (define-generics <id>";
";;                  [<method-id> . <formals>]";
";;                  ...)";
";;";
";; <formals> ::= (<arg> ...)";
";;           ::= (<arg> ... . <rest-id>)";
";;           ::= <rest-id>";
";;";
"";
"(define-syntax (define-generics stx)";
"  (syntax-case stx ()";
"    [(_ id [method-id . formals] ...)";
"     (begin";
"       (unless (identifier? #'id)";
"         (raise-syntax-error 'define-generics ""expected an identifier"" stx #'id))";
"       (define method-table (list))";
"       (define gen-id (symbol->string (syntax-e #'id)))";
"";
"       (let loop ([method-ids (syntax->list #'(method-id ...))]";
"                  [formals* (syntax->list #'(formals ...))])";
"         (unless (null? method-ids)";
"           (define mid (car method-ids))";
"           (unless (identifier? mid)";
"             (raise-syntax-error 'define-generics ""expected an identifier"" stx mid))";
"";
"           (define args (car formals*))";
"           (let loop ([args (syntax-e args)])";
"             (unless (or (null? args)";
"                         (symbol? args)";
"                         (identifier? args))";
"               (unless (pair? args)";
"                 (raise-syntax-error 'define-generics ""expected an identifier""";
"                               stx (datum->syntax args)))";
"               (define arg (car args))";
"               (unless (identifier? arg)";
"                 (raise-syntax-error 'define-generics ""expected an identifier""";
"                               stx (datum->syntax arg)))";
"               (loop (cdr args))))";
"           ";
"           (define entry (cons (syntax-e mid) (syntax->datum args)))";
"           (set! method-table (cons entry method-table))";
"           (loop (cdr method-ids) (cdr formals*))))";
"  ";
"       (with-syntax ([gen-id (string->symbol (string-append ""gen:"" gen-id))]";
"                     [gen-id? (string->symbol (string-append ""gen:"" gen-id ""?""))]";
"                     [method-table (reverse method-table)])";
"         #'(define-values (gen-id gen-id?)";
"             (let-values ([(:gen) ($make-generics-type 'id 'method-table)])";
"               (values :gen (generic-instance? :gen))))))]";
"";
"    [(_ id cls ...)";
"     (if (identifier? #'id)";
"         (let loop ([clauses (syntax->list #'(cls ...))])";
"           (unless (null? clauses)";
"             (let ([clause (car clauses)])";
"               (syntax-case clause ()";
"                 [(method-id . _) (loop (cdr clauses))]";
"                 [_ (raise-syntax-error 'define-generics ""malformed generic method"" stx clause)]))))";
"         (raise-syntax-error 'define-generics ""expected an identifier"" stx #'id))]";
"    [_ (raise-syntax-error 'define-generics ""bad syntax"" stx)]))";
"  ";
""].

(** src/library/private/record.min 1-253 *)
Definition record_min : list string := [
";;;";
";;; Records";
";;;";
"";
"(import ""generics.min""";
"        ""pre-base.min""";
"        ""list.min"")";
"";
"(export define-record-type";
"        ";
"        $make-generics-type           ;; re-exported";
"        define-generics               ;; re-exported";
"        generic-instance?             ;; re-exported";
"        generics-accessor             ;; re-exported";
"        record-type-add-generic!      ;; re-exported";
"";
"        gen:equal+hash";
"        gen:equal+hash?";
"        gen:custom-write";
"        gen:custom-write?)";
"";
";;";
";;  Some predefined generics";
";;";
"";
"; Generic interface for comparing and hashing records";
"(define-generics equal+hash";
"                 [equal-proc a b rec-equal?]";
"                 [hash-proc a rec-hash])";
"";
"; Generic interface for writing records";
"(define-generics custom-write";
"                 [write-proc v port mode])";
"";
";;";
";;  High-level macros";
";;";
"";
";;";
";;  Field descriptors have the following possible forms:";
";;";
";;    '(immutable <name> <accessor-name>)";
";;    '(mutable <name> <accessor-name> <mutator-name>)";
";;    '(immutable <name>)";
";;    '(mutable <name>)";
";;    <name>";
";;";
";;  The third and forth forms are just shorthand for";
";;";
";;    '(immutable <name> <rtd-name>-<name>)";
";;    '(mutable <name> <rtd-name>-<name> <rtd-name>-<name>-set!)";
";;";
";;  respectively. The fifth form is just an abbreviation for";
";;";
";;    '(immutable <name>)";
";;";
"";
"(define-syntax (define-record-type stx)";
"  (syntax-case stx ()";
"    [(_ (name construct predicate) cls ...)";
"     ; full form";
"     (let ()";
"       (define clause-types '())";
"       (define parent-rtd #f)";
"       (define uid-rtd #f)";
"       (define sealed?-rtd #f)";
"       (define opaque?-rtd #f)";
"       (define protocol-rtd #f)";
"       (define fields-rtd '())";
"       (define methods-rtd (make-hashtable))";
"";
"       (define rname (syntax->datum #'name))";
"       (let loop ([clauses (syntax->list #'(cls ...))])";
"         (unless (null? clauses)";
"           (define clause (car clauses))";
"           (syntax-case clause (fields parent uid sealed opaque protocol methods)";
"             [(parent prtd)";
"              (begin";
"                (when (member 'parent clause-types)";
"                  (raise-syntax-error 'define-record-type ""duplicate clause"" stx clause))";
"                (set! clause-types (cons 'parent clause-types))";
"                (set! parent-rtd #'prtd))]";
"             [(uid value)";
"              (begin";
"                (when (member 'uid clause-types)";
"                  (raise-syntax-error 'define-record-type ""duplicate clause"" stx clause))";
"                (set! clause-types (cons 'uid clause-types))";
"                (set! uid-rtd #'value))]";
"             [(opaque b)";
"              (begin";
"                (when (member 'opaque clause-types)";
"                  (raise-syntax-error 'define-record-type ""duplicate clause"" stx clause))";
"                (unless (boolean? (syntax->datum #'b))";
"                  (raise-syntax-error 'define-record-type ""expected a boolean"" stx #'b))";
"                (set! clause-types (cons 'opaque clause-types))";
"                (set! opaque?-rtd #'b))]";
"             [(sealed b)";
"              (begin";
"                (when (member 'sealed clause-types)";
"                  (raise-syntax-error 'define-record-type ""duplicate clause"" stx clause))";
"                (unless (boolean? (syntax->datum #'b))";
"                  (raise-syntax-error 'define-record-type ""expected a boolean"" stx #'b))";
"                (set! clause-types (cons 'sealed clause-types))";
"                (set! sealed?-rtd #'b))]";
"             [(protocol proc)";
"              (begin";
"                (when (member 'protocol clause-types)";
"                  (raise-syntax-error 'define-record-type ""duplicate clause"" stx clause))";
"                (set! clause-types (cons 'protocol clause-types))";
"                (set! protocol-rtd #'proc))]";
"             [(methods gen-id impls ...)";
"              (begin";
"                (unless (identifier? #'gen-id)";
"                  (raise-syntax-error 'define-record-type ""expected identifier"" stx #'gen-id))";
"                (when (hashtable-contains? methods-rtd (syntax-e #'gen-id))";
"                  (raise-syntax-error 'define-record-type ""duplicate generics"" stx #'gen-id))";
"                (hashtable-set! methods-rtd (syntax-e #'gen-id) (syntax->list #'(impls ...))))]";
"             [(fields spec ...)";
"              (begin";
"                (when (member 'fields clause-types)";
"                  (raise-syntax-error 'define-record-type ""duplicate clause"" stx clause))";
"                (define sname (symbol->string rname))";
"                (set! clause-types (cons 'fields clause-types))";
"                (set! fields-rtd";
"                  (map";
"                    (lambda (s)";
"                      (syntax-case s (immutable mutable)";
"                        [(immutable fname acc)";
"                         ; full immutable field";
"                         (begin";
"                           (unless (identifier? #'fname)";
"                             (raise-syntax-error 'define-record-type ""expected an identifier"" s #'fname))";
"                           (unless (identifier? #'acc)";
"                             (raise-syntax-error 'define-record-type ""expected an identifier"" s #'acc))";
"                           s)]";
"                        [(mutable fname acc mut)";
"                         ; full mutable field";
"                         (begin";
"                           (unless (identifier? #'fname)";
"                             (raise-syntax-error 'define-record-type ""expected an identifier"" s #'fname))";
"                           (unless (identifier? #'acc)";
"                             (raise-syntax-error 'define-record-type ""expected an identifier"" s #'acc))";
"                           (unless (identifier? #'mut)";
"                             (raise-syntax-error 'define-record-type ""expected an identifier"" s #'mut))";
"                           s)]";
"                        [(immutable fname)";
"                         ; simple immutable field";
"                         (begin";
"                           (unless (identifier? #'fname)";
"                             (raise-syntax-error 'define-record-type ""expected an identifier"" s #'fname))";
"                           (define field (symbol->string (syntax-e #'fname)))";
"                           (with-syntax ([acc (string->symbol (string-append sname ""-"" field))])";
"                             #'(immutable fname acc)))]";
"                        [(mutable fname)";
"                         ; simple mutable field";
"                         (begin";
"                           (unless (identifier? #'fname)";
"                             (raise-syntax-error 'define-record-type ""expected an identifier"" s #'fname))";
"                           (define field (symbol->string (syntax-e #'fname)))";
"                           (with-syntax ([acc (string->symbol (string-append sname ""-"" field))]";
"                                         [mut (string->symbol (string-append sname ""-"" field ""-set!""))])";
"                             #'(mutable fname acc mut)))]";
"                        [fname";
"                         ; identifier";
"                         (begin";
"                           (unless (identifier? #'fname)";
"                             (raise-syntax-error 'define-record-type ""expected an identifier"" #'fname #'fname))";
"                           (define field (symbol->string (syntax-e #'fname)))";
"                           (with-syntax ([acc (string->symbol (string-append sname ""-"" field))])";
"                             #'(immutable fname acc)))]))";
"                    (syntax->list #'(spec ...)))))]";
"             [_ (raise-syntax-error 'define-record-type ""invalid clause"" stx clause)])";
"           (loop (cdr clauses))))";
"       (with-syntax ([parent* parent-rtd]";
"                     [uid* uid-rtd]";
"                     [sealed?* sealed?-rtd]";
"                     [opaque?* opaque?-rtd]";
"                     [protocol* protocol-rtd]";
"                     [(gen-methods ...)";
"                      (map";
"                        (lambda (gen-id)  ; TODO: weird bugs in `with-syntax`?";
"                          (with-syntax ([gen-id gen-id]";
"                                        [(gen-methods ...) (hashtable-ref methods-rtd gen-id)])";
"                            #'(cons gen-id (list gen-methods ...))))";
"                        (vector->list (hashtable-keys methods-rtd)))]";
"                     [(fields ...)";
"                      (map";
"                        (lambda (s)";
"                          (syntax-case s (immutable mutable)";
"                            [(immutable name _) #'(immutable name)]";
"                            [(mutable name _ _) #'(mutable name)]))";
"                        fields-rtd)]";
"                     [(accs ...)";
"                      (map";
"                        (lambda (s/i)";
"                          (with-syntax ([idx (cdr s/i)])";
"                            (syntax-case (car s/i) (immutable mutable)";
"                              [(immutable _ acc) #'(define acc (record-accessor name idx))]";
"                              [(mutable _ acc _) #'(define acc (record-accessor name idx))])))";
"                        (enumerate fields-rtd))]";
"                     [(muts ...)";
"                      (filter";
"                        identity";
"                        (map";
"                          (lambda (s/i)";
"                            (with-syntax ([idx (cdr s/i)])";
"                              (syntax-case (car s/i) (immutable mutable)";
"                                [(immutable _ _) #f]";
"                                [(mutable _ _ mut) #'(define mut (record-mutator name idx))])))";
"                          (enumerate fields-rtd)))])";
"        #'(begin";
"            (define name";
"              (let ([p parent*])";
"                (if (and p (record-type-sealed? p))";
"                    (raise-argument-error";
"                      'define-record-type";
"                      ""non-sealed parent record""";
"                      p)";
"                    (make-record-type-descriptor 'name p";
"                      uid* sealed?* opaque?* '#(fields ...)))))";
"            (begin";
"              (let ()";
"                (define methods gen-methods)";
"                (define gen-id (car methods))";
"                (define fns (cdr methods))";
"                (record-type-add-generic! name gen-id fns))";
"              ...)";
"            (when (gen:equal+hash? name)";
"              (define get-equal-proc (generics-accessor gen:equal+hash 'equal-proc))";
"              (define get-hash-proc (generics-accessor gen:equal+hash 'hash-proc))";
"              (record-type-equal-procedure name (get-equal-proc name))";
"              (record-type-hash-procedure name (get-hash-proc name)))";
"            (when (gen:custom-write? name)";
"              (define get-write-proc (generics-accessor gen:custom-write 'write-proc))";
"              (record-writer name (get-write-proc name)))";
"            (define construct";
"              (let ([c (record-constructor name)]";
"                    [p protocol*])";
"                (if p (p c) c)))";
"            (define predicate (record-predicate name))";
"            (begin accs ...)";
"            (begin muts ...))))]";
"    [(_ name cls ...) ";
"     ; simplified form";
"     (if (identifier? #'name)";
"         (let ([sname (symbol->string (syntax-e #'name))])";
"           (with-syntax ([construct (string->symbol (string-append ""make-"" sname))]";
"                         [predicate (string->symbol (string-append sname ""?""))])";
"             #'(define-record-type (name construct predicate) cls ...)))";
"         (raise-syntax-error 'define-record-type ""expected an identifier"" stx #'name))]";
"    [(_ ...)";
"     ; bad form";
"     (raise-syntax-error 'define-record-type ""missing record name spec"" stx)]))";
""].

(** src/library/private/set.min 1-243 *)
Definition set_min : list string := [
";;;";
";;; Sets";
";;;";
"";
"(import ""pre-base.min""";
"        ""record.min"")";
"";
"(export make-set";
"        set?";
"        set-member?";
"        set-copy";
"        set-empty?";
"        set-count";
"        set->list";
"";
"        subset?";
"        proper-subset?";
"        set=?";
"";
"        set-add!";
"        set-remove!";
"        set-clear!";
"";
"        set-map";
"        set-for-each";
"";
"        set-union";
"        set-intersect";
"        set-subtract";
"        set-symmetric-difference)";
"";
";;";
";;  Definition";
";;";
"";
"(define-record-type set";
"  (opaque #t)";
"  (sealed #t)";
"  (fields store)";
"  (protocol";
"    (lambda (p)";
"      (lambda xs";
"        (define h (make-hashtable))";
"        (for-each (lambda (x) (hashtable-set! h x #f)) xs)";
"        (p h))))";
"  (methods gen:equal+hash";
"    (lambda (a b rec-equal?)";
"      (rec-equal? (set-store a) (set-store b)))";
"    (lambda (a rec-hash)";
"      (+ (rec-hash (set-store a)) 401235121)))";
"  (methods gen:custom-write";
"    (lambda (s port mode)";
"      (fprintf port ""#<set ~s>"" (vector->list (hashtable-keys (set-store s)))))))";
"";
";;";
";;  Basic operations";
";;";
"";
"(define (not-set-error who v)";
"  (raise-argument-error who ""set?"" v))";
"";
"(define (set-member? st v)";
"  (unless (set? st)";
"    (not-set-error 'set-member? st))";
"  (hashtable-contains? (set-store st) v))";
"";
"(define (set-empty? st)";
"  (unless (set? st)";
"    (not-set-error 'set-empty? st))";
"  (= (hashtable-size (set-store st)) 0))";
"";
"(define (set-count st)";
"  (unless (set? st)";
"    (not-set-error 'set-count st))";
"  (hashtable-size (set-store st)))";
"";
"(define (set-copy st)";
"  (unless (set? st)";
"    (not-set-error 'set-copy st))";
"  (define cp (make-set))";
"  (for-each (lambda (x) (set-add! cp x)) (set->list st))";
"  cp)";
"";
"(define (set-add! st v)";
"  (unless (set? st)";
"    (not-set-error 'set-add! st))";
"  (hashtable-set! (set-store st) v #f))";
"";
"(define (set-remove! st v)";
"  (unless (set? st)";
"    (not-set-error 'set-remove! st))";
"  (hashtable-delete! (set-store st) v))";
"";
"(define (set-clear! st)";
"  (unless (set? st)";
"    (not-set-error 'set-clear! st))";
"  (hashtable-clear! (set-store st)))";
"";
"(define (set->list st)";
"  (unless (set? st)";
"    (not-set-error 'set->list st))";
"  (vector->list (hashtable-keys (set-store st))))";
"";
";;";
";;  Set comparison";
";;";
"";
"(define (subset? st st2)";
"  (unless (set? st)";
"    (not-set-error 'subset? st))";
"  (unless (set? st2)";
"    (not-set-error 'subset? st2))";
"  (let loop ([elts (set->list st)])";
"    (cond";
"      [(null? elts) #t]";
"      [(set-member? st2 (car elts)) (loop (cdr elts))]";
"      [else #f])))";
"";
"(define (proper-subset? st st2)";
"  (unless (set? st)";
"    (not-set-error 'proper-subset? st))";
"  (unless (set? st2)";
"    (not-set-error 'proper-subset? st2))";
"  (and (subset? st st2) (not (subset? st2 st))))";
"";
"(define (set=? st st2)";
"  (unless (set? st)";
"    (not-set-error 'set=? st))";
"  (unless (set? st2)";
"    (not-set-error 'set=? st2))";
"  (and (subset? st st2) (subset? st2 st)))";
"";
";;";
";;  Set iteration";
";;";
"";
"(define (set-map proc st)";
"  (unless (set? st)";
"    (not-set-error 'set-map st))";
"  (map proc (set->list st)))";
"";
"(define (set-for-each proc st)";
"  (unless (set? st)";
"    (not-set-error 'set-for-each st))";
"  (for-each proc (set->list st)))";
"";
";;";
";;  Set/Set operations";
";;";
"";
"(define (set-union . ss)";
"  (for-each";
"    (lambda (s)";
"      (unless (set? s)";
"        (not-set-error 'set-union s)))";
"    ss)";
"  (cond";
"    [(null? ss)";
"     (make-set)]";
"    [(null? (cdr ss))";
"     (define s (car ss))";
"     (define c (make-set))";
"     (for-each (lambda (x) (set-add! c x)) (set->list s))";
"     c]";
"    [else";
"     (define u (make-set))";
"     (for-each";
"       (lambda (s)";
"         (for-each";
"           (lambda (x) (set-add! u x))";
"           (set->list s)))";
"       ss)";
"     u]))";
"";
"(define (set-intersect . ss)";
"  (for-each";
"    (lambda (s)";
"      (unless (set? s)";
"        (not-set-error 'set-intersect s)))";
"    ss)";
"  (cond";
"    [(null? ss)";
"     (make-set)]";
"    [(null? (cdr ss))";
"     (define s (car ss))";
"     (define c (make-set))";
"     (for-each (lambda (x) (set-add! c x)) (set->list s))";
"     c]";
"    [else";
"     (define s (car ss))";
"     (define i (make-set))";
"     (for-each (lambda (x) (set-add! i x)) (set->list s))";
"     (let loop ([ss (cdr ss)] [i i])";
"       (cond";
"         [(null? ss) i]";
"         [(= (set-count i) 0) i]";
"         [else";
"          (define s (car ss))";
"          (define i* (make-set))";
"          (for-each (lambda (x)";
"                      (when (set-member? s x)";
"                        (set-add! i* x)))";
"                    (set->list i))";
"          (loop (cdr ss) i*)]))]))";
"";
"(define (set-subtract st0 . sts)";
"  (for-each";
"    (lambda (s)";
"      (unless (set? s)";
"        (not-set-error 'set-subtract s)))";
"    (cons st0 sts))";
"  (define diff (set-copy st0))";
"  (let loop ([sts sts])";
"    (cond";
"      [(null? sts) diff]";
"      [else";
"       (define st (car sts))";
"       (set-for-each";
"         (lambda (x)";
"           (when (set-member? st x)";
"             (set-remove! diff x)))";
"         diff)";
"       (loop (cdr sts))])))";
"";
"(define (set-symmetric-difference st0 . sts)";
"  (for-each";
"    (lambda (s)";
"      (unless (set? s)";
"        (not-set-error 'set-symmetric-difference s)))";
"    (cons st0 sts))";
"  (define diff (set-copy st0))";
"  (let loop ([sts sts])";
"    (cond";
"      [(null? sts) diff]";
"      [else";
"       (define st (car sts))";
"       (set-for-each";
"         (lambda (x)";
"           (if (set-member? diff x)";
"               (set-remove! diff x)";
"               (set-add! diff x)))";
"         st)";
"       (loop (cdr sts))])))";
""].

(** src/library/private/string.min 1-26 *)
Definition string_min : list string := [
";;;";
";;; Strings";
";;;";
"";
"(import ""pre-base.min"")";
"(export substring)";
"";
"(define (substring str start end)";
"  (define len (string-length str))";
"  (unless (string? str)";
"    (raise-argument-error 'substring ""string?"" str))";
"  (unless (non-negative-integer? start)";
"    (raise-argument-error 'substring ""non-negative-integer?"" start))";
"  (unless (non-negative-integer? end)";
"    (raise-argument-error 'substring ""non-negative-integer?"" end))";
"  (unless (<= end len)";
"    (raise-range-error 'substring str ""end"" 0 (+ len 1) end))";
"  (unless (<= start end)";
"    (raise-range-error 'substring str ""start"" 0 end))";
"  (define sstr (make-string (- end start)))";
"  (let loop ([i 0] [n start])";
"    (cond";
"      [(= n end) sstr]";
"      [else";
"       (string-set! sstr i (string-ref str n))";
"       (loop (+ i 1) (+ n 1))])))";
""].

(** src/library/private/stx.min 1-136 *)
Definition stx_min : list string := [
";;;";
";;; Additional syntax handling";
";;;";
"";
"(export identifier? free-identifier=?";
"        stx-null? stx-pair? stx-list? stx-vector?";
"        stx-car stx-cdr stx-vector-ref";
"        stx-null/#f cons/#f";
"        append/#f map/#f";
"        stx->list split-stx-list)";
"";
"(define-values (identifier?)";
"  (lambda (t)";
"    (if (syntax? t)";
"        (symbol? (syntax-e t))";
"        #f)))";
"";
";; TODO: this clearly should not be here";
"(define-values (free-identifier=?)";
"  (lambda (a b)";
"    (if (not (identifier? a))";
"        (raise-argument-error 'free-identifier=? ""identifier?"" a)";
"        (if (not (identifier? b))";
"            (raise-argument-error 'free-identifier=? ""identifier?"" b)";
"            (eq? (syntax-e a) (syntax-e b))))))";
"";
"(define-values (stx-null?)";
"  (lambda (t)";
"    (if (null? t)";
"        #t";
"        (if (syntax? t)";
"            (null? (syntax-e t))";
"            #f))))";
"";
"(define-values (stx-pair?)";
"  (lambda (t)";
"    (if (pair? t)";
"        #t";
"        (if (syntax? t)";
"            (pair? (syntax-e t))";
"            #f))))";
"";
"(define-values (stx-list?)";
"  (lambda (t)";
"    (if (list? t)";
"        #t";
"        (if (syntax? t)";
"            (list? (syntax-e t))";
"            #f))))";
"";
"(define-values (stx-vector?)";
"  (lambda (t)";
"    (if (vector? t)";
"        #t";
"        (if (syntax? t)";
"            (vector? (syntax-e t))";
"            #f))))";
"";
"(define-values (stx-car)";
"  (lambda (t)";
"    (if (pair? t)";
"        (car t)";
"        (car (syntax-e t)))))";
"";
"(define-values (stx-cdr)";
"  (lambda (t)";
"    (if (pair? t)";
"        (cdr t)";
"        (cdr (syntax-e t)))))";
"";
"(define-values (stx-vector-ref)";
"  (lambda (s i)";
"    (vector-ref (syntax-e s) i)))";
"";
"(define-values (stx-null/#f)";
"  (lambda (t)";
"    (if (null? t)";
"        null";
"        (if (syntax? t)";
"            (if (null? (syntax-e t))";
"                null";
"                #f)";
"            #f))))";
"";
"(define-values (cons/#f)";
"  (lambda (x1 x2)";
"    (if x2";
"        (cons x1 x2)";
"        #f)))";
"";
"(define-values (append/#f)";
"  (lambda (l1 l2)";
"    (if l1";
"        (if l2";
"            (if (null? l2)";
"                l1";
"                (append l1 l2))";
"            #f)";
"        #f)))";
"";
"(define-values (map/#f)";
"  (lambda (fn x . xs)";
"    (let-values ([(lsts) (cons x xs)])";
"      (if (andmap (lambda (x) x) lsts)";
"          (apply map fn lsts)";
"          #f))))";
"";
"(define-values (stx->list)";
"  (lambda (t)";
"    (if (syntax? t)";
"        (if (stx-list? t)";
"            (syntax-e t)";
"            #f)";
"        (if (list? t)";
"            (if (andmap (lambda (x) (syntax? x)) t)";
"                t";
"                #f)";
"            #f))))";
"";
"(define-values (split-stx-list)";
"  (lambda (s n prop?)";
"    (let-values ([(pre post m)";
"                  (letrec-values ([(loop)";
"                                   (lambda (s)";
"                                     (if (stx-pair? s)";
"                                         (let-values ([(pre post m) (loop (stx-cdr s))])";
"                                           (if (< m n)";
"                                               (values null s (+ m 1))";
"                                               (values (cons (stx-car s) pre) post m)))";
"                                         (values null s (if prop?";
"                                                            (if (stx-null? s)";
"                                                                0";
"                                                                -1)   ; -inf.0";
"                                                            1))))])";
"                    (loop s))])";
"    (values pre post (= m n)))))";
""].

(** src/library/expander.min 1-757 *)
Definition expander_min : list string := [
";;;";
";;;   Expander for syntax macros";
";;;   ";
"";
";; Transforms ""xforms"" are procedures of one argument that";
";; take a syntax object as input and returns a syntax object.";
";; Transforms are introduced into scope via `define-syntaxes`";
";; in a top-level context and `let-syntaxes` in an";
";; expression-level context.";
";;";
";; This expander stores xforms as a mapping";
";;  <name> -> (<proc>, <xforms-in-scope>)";
";;";
"";
"(import ""base.min"")";
"(export expand";
"        expand/module";
"        $base-env";
"        $base-scope";
"        $base-stx-env";
"        make-base-scope";
"        scope-extend";
"        scope-add!";
"        scope-names";
"        scope-contains?";
"        merge-xforms)";
"";
";;";
";;  scope";
";;";
"";
"(define-record-type scope";
"  (fields (mutable bound) (mutable prev)))";
"";
"(define (make-base-scope)";
"  (define bound (make-set))";
"  (for-each (lambda (n) (set-add! bound n)) (environment-symbols $base-env))";
"  (make-scope bound #f))";
"";
"(define (scope-extend prev)";
"  (make-scope (make-set) prev))";
"";
"(define (scope-add! scope name)";
"  (set-add! (scope-bound scope) name))";
"";
"(define (scope-names scope)";
"  (define names (make-set))";
"  (let loop ([scope scope])";
"    (when scope";
"      (for-each (lambda (n) (set-add! names n))";
"                (set->list (scope-bound scope)))";
"      (loop (scope-prev scope))))";
"  names)";
"";
"(define (scope-contains? scope name)";
"  (let loop ([scope scope])";
"    (cond [(not scope) #f]";
"          [(set-member? (scope-bound scope) name) #t]";
"          [else (loop (scope-prev scope))])))";
"";
";; Base environment when loading modules";
"(define $base-env (make-base-environment))";
"(define $base-scope (make-base-scope))";
"";
";;";
";;  xforms";
";;";
"";
"(define (lookup-xform maybe-id xforms)";
"  (and (identifier? maybe-id)";
"       (let ([entry (assoc (syntax-e maybe-id) xforms)])";
"         (and entry (cdr entry)))))";
"";
"(define (merge-xforms xforms new-xforms)";
"  (let loop ([xforms xforms] [new-xforms new-xforms])";
"    (cond [(null? new-xforms) xforms]";
"          [(assoc (caar new-xforms) xforms) (loop xforms (cdr new-xforms))]";
"          [else (loop (cons (car new-xforms) xforms) (cdr new-xforms))])))";
"";
";;";
";;  syntax";
";;";
"";
"; checks if an expression is a syntactic form:";
";  <expr> = (<name> . <rest>)";
"(define ((_-form? form-name) expr)";
"  (and (stx-pair? expr)";
"       (let ([head (stx-car expr)])";
"          (and (identifier? head)";
"             (eq? (syntax-e head) form-name)))))";
"";
"(define define-values-form? (_-form? 'define-values))";
"(define define-syntaxes-form? (_-form? 'define-syntaxes))";
"(define let-values-form? (_-form? 'let-values))";
"(define letrec-values-form? (_-form? 'letrec-values))";
"(define let-syntaxes-form? (_-form? 'let-syntaxes))";
"(define set!-form? (_-form? 'set!))";
"(define quote-form? (_-form? 'quote))";
"(define quote-syntax-form? (_-form? 'quote-syntax))";
"(define lambda-form? (_-form? 'lambda))";
"(define case-lambda-form? (_-form? 'case-lambda))";
"(define begin-form? (_-form? 'begin))";
"(define if-form? (_-form? 'if))";
"";
"; syntax would parse into a self-evaluating expression";
"(define (stx-self-evaluating? stx)";
"  (define datum (syntax-e stx))";
"  (or (boolean? datum)";
"      (number? datum)";
"      (string? datum)";
"      (vector? datum)";
"      (box? datum)";
"      (char? datum)))";
"";
"; returns an symbol if it is a duplicate, else false";
"(define (duplicate-identifier ids new-ids)";
"  (define new-unique (make-set))";
"  (let loop ([new-ids new-ids])";
"    (cond";
"      [(null? new-ids) #f]";
"      [(set-member? ids (car new-ids)) (car new-ids)]";
"      [(set-member? new-unique (car new-ids)) (car new-ids)]";
"      [else";
"       (set-add! new-unique (car new-ids))";
"       (loop (cdr new-ids))])))";
"";
"; checks if a `define-syntaxes` / `define-values` form is valid";
"; assumes form is `(<name> . <rest>)";
"(define (check-define-syntaxes/values-form! name form)";
"  (define rib0 (stx-cdr form))";
"  (when (stx-null? rib0)";
"    (raise-syntax-error name ""bad syntax"" form))";
"  (define ids (syntax->list (stx-car rib0)))";
"  (define rib1 (stx-cdr rib0))";
"  (unless (and (list? ids) (andmap identifier? ids))";
"    (raise-syntax-error name ""not identifiers"" form ids))";
"  (when (stx-null? rib1)";
"    (raise-syntax-error name ""expected an expression after identifiers"" form))";
"  (define rib2 (stx-cdr rib1))";
"  (unless (stx-null? rib2)";
"    (raise-syntax-error name ""too many expressions"" form)))";
"";
"; checks if a `let-syntaxes` / `let-values` form is valid";
"; assumes form is `(<name> . <rest>)";
"(define (check-let-syntaxes/values-form! name form)";
"  (define rib (stx-cdr form))";
"  (when (stx-null? rib)";
"    (raise-syntax-error name ""bad syntax"" form))";
"  (define bindings (syntax->list (stx-car rib)))";
"  (define bind-rib (stx-cdr rib))";
"  (when (null? bind-rib)";
"    (raise-syntax-error name ""missing body"" form))";
"  (unless (or (list? bind-rib)";
"              (and (syntax? bind-rib)";
"                   (list? (syntax->list bind-rib))))";
"    (raise-syntax-error name ""not a sequence of bindings"" form bindings))";
"  (unless (list? bindings)";
"    (raise-syntax-error name ""expected a sequence of expressions after the bindings"" form))";
"  (let loop ([bindings bindings])";
"    (unless (null? bindings)";
"      (define bind (syntax->list (car bindings)))";
"      (unless (and (list? bind) (= (length bind) 2))";
"        (raise-syntax-error name ""expected a sequence of expressions after the bindings"" form))";
"      (define ids (syntax->list (car bind)))";
"      (unless (and (list? ids) (andmap identifier? ids))";
"        (raise-syntax-error name ""not identifiers"" form ids))";
"      (loop (cdr bindings)))))";
"";
"; checks if a `set!` form is valid";
"; assumes form is `(<name> . <rest>)";
"(define (check-set!-form! form)";
"  (define rib0 (stx-cdr form))";
"  (when (stx-null? rib0)";
"    (raise-syntax-error 'set! ""bad syntax"" form))";
"  (define id (stx-car rib0))";
"  (define rib1 (stx-cdr rib0))";
"  (unless (identifier? id)";
"    (raise-syntax-error 'set! ""not identifier"" form id))";
"  (when (stx-null? rib1)";
"    (raise-syntax-error 'set! ""expected an expression after identifier"" form))";
"  (define rib2 (stx-cdr rib1))";
"  (unless (stx-null? rib2)";
"    (raise-syntax-error 'set! ""too many expressions"" form)))";
"";
"; checks if a `lambda` form is valid";
"; assues form is `(lambda . <rest>)`";
"(define (check-lambda-form! form)";
"  (define rib0 (stx-cdr form))";
"  (when (stx-null? rib0)";
"    (raise-syntax-error #f ""missing formals"" form))";
"  (define formals (stx-car rib0))";
"  (define rib1 (stx-cdr rib0))";
"  (when (null? rib1)";
"    (raise-syntax-error #f ""missing expression after formals"" form))";
"  (define rib2 (stx-cdr rib1))";
"  (unless (or (list? rib2)";
"              (and (syntax? rib2)";
"                   (list? (syntax->list rib2))))";
"    (raise-syntax-error #f ""expected a sequence of expressions after formals"" form)))";
"";
"; checks if a `case-lambda` form is valid";
"; assues form is `(lambda . <rest>)`";
"(define (check-case-lambda-form! form)";
"  (define clauses (stx-cdr form))";
"  (let loop ([clauses clauses])";
"    (cond";
"      [(pair? clauses)";
"       (define clause (car clauses))";
"       (when (stx-null? clause)";
"         (raise-syntax-error #f ""missing formals"" form))";
"       (define formals (stx-car clause))";
"       (define rib1 (stx-cdr clause))";
"       (when (null? rib1)";
"         (raise-syntax-error #f ""missing expression after formals"" form))";
"       (define rib2 (stx-cdr rib1))";
"       (unless (or (list? rib2)";
"                   (and (syntax? rib2)";
"                       (list? (syntax->list rib2))))";
"         (raise-syntax-error #f ""expected a sequence of expressions after formals"" form))";
"       (loop (cdr clauses))]";
"      [(null? clauses)";
"       (void)]";
"      [else";
"       (raise-syntax-error #f ""bad syntax"" form)])))";
"";
"; checks if a `begin` form is valid";
"; assues form is `(<name> . <rest>)`";
"(define (check-begin-form! form)";
"  (unless (syntax->list form)";
"    (raise-syntax-error 'begin ""bad syntax"" form)))";
"";
"; checks if a unary form is valid, i.e. `(<name> <expr>)`.";
"(define (check-1ary-form! name form)";
"  (define rib0 (stx-cdr form))";
"  (when (stx-null? rib0)";
"    (raise-syntax-error name ""expected an expression"" form))";
"  (define rib1 (stx-cdr rib0))";
"  (unless (stx-null? rib1)";
"    (raise-syntax-error name ""too many expressions"" form)))";
"";
"; checks if an `if` form is valid, i.e. `(if <cond> <if-true> <if-false>)`.";
"(define (check-if-form! form)";
"  (define rib (stx-cdr form))";
"  (when (stx-null? rib)";
"    (raise-syntax-error 'if ""bad syntax"" form))";
"  (define cond-rib (stx-cdr rib))";
"  (when (stx-null? cond-rib)";
"    (raise-syntax-error 'if ""bad syntax"" form))";
"  (define ift-rib (stx-cdr cond-rib))";
"  (when (stx-null? ift-rib)";
"    (raise-syntax-error 'if ""missing an \""else\"" statement"" form))";
"  (define iff-rib (stx-cdr ift-rib))";
"  (unless (stx-null? iff-rib)";
"    (raise-syntax-error 'if ""too many expressions"" form)))";
"";
"; checks for a duplicate identifier, raising an exception if one is encountered";
"(define (check-duplicate-identifier! form name ids new-ids)";
"  (define dup (duplicate-identifier ids new-ids))";
"  (when dup";
"    (raise-syntax-error name";
"                  ""duplicate identifier""";
"                  form";
"                  (datum->syntax dup))))";
"";
";;";
";;  expander";
";;";
"";
"(define $expander-pattern-vars null)";
"";
";; Base environment when expanding modules";
"(define ($base-stx-env env)";
"  (let ([env (copy-environment env #f)])";
"    (environment-set!";
"      env";
"      'get-pattern-variable";
"      (lambda (k)";
"        (if (symbol? k)";
"            (letrec-values ([(loop)";
"                             (lambda (assoc)";
"                               (if (null? assoc)";
"                                   #f";
"                                   (if (eq? (caar assoc) k)";
"                                       (cadar assoc)";
"                                       (loop (cdr assoc)))))])";
"              (loop $expander-pattern-vars))";
"            (raise-argument-error 'get-pattern-variable ""symbol?"" k))))";
"    env))";
"";
"";
"; returns the identifiers of a `define-syntaxes` / `define-values` form";
"(define (define-syntaxes/values-identifiers form)";
"  (map syntax-e (syntax->list (stx-car (stx-cdr form)))))";
"";
"; returns the expr of a `define-syntaxes` / `define-values` form";
"(define (define-syntaxes/values-expr form)";
"  (stx-car (stx-cdr (stx-cdr form))))";
"";
";; Static analyzer for fully expanded modules";
";; Checks:";
";;  - unused variables";
"(define (check/module! path exprs scope)";
"  ;; scan top-level definitions";
"  (define (bind/define-values form)";
"    (for-each (lambda (id) (scope-add! scope id))";
"              (define-syntaxes/values-identifiers form)))";
"  ";
"  ;; checks a formal list";
"  (define (check/formals! scope formals expr)";
"    (let rec ([formals (syntax->datum formals)])";
"      (cond";
"        [(pair? formals)";
"         (scope-add! scope (car formals))";
"         (rec (cdr formals))]";
"        [(symbol? formals)";
"         (scope-add! scope formals)]";
"        [(null? formals)";
"         (void)]";
"        [else";
"         (error 'check/expr! ""malformed formals"" expr)])))";
"";
"  ;; recursively checks expressions";
"  (define (check/expr! expr0 scope)";
"    (let loop ([expr expr0])";
"      (cond";
"        [(lambda-form? expr)";
"         (define formals (car (stx-cdr expr)))";
"         (define body (cdr (stx-cdr expr)))";
"         (define scope* (scope-extend scope))";
"         (check/formals! scope* formals expr)";
"         (for-each (lambda (e) (check/expr! e scope*)) body)]";
"        [(case-lambda-form? expr)";
"         (for-each";
"           (lambda (clause)";
"             (define formals (stx-car clause))";
"             (define body (stx-cdr clause))";
"             (define scope* (scope-extend scope))";
"             (check/formals! scope* formals expr)";
"             (for-each (lambda (e) (check/expr! e scope*)) body))";
"           (stx-cdr expr))]";
"        [(or (let-values-form? expr) (letrec-values-form? expr))";
"         (define bindings (stx-car (stx-cdr expr)))";
"         (define body (stx-cdr (stx-cdr expr)))";
"";
"         (define scope* (scope-extend scope))";
"         (define rec-scope (if (let-values-form? expr) scope scope*))";
"         ";
"         ;; first: register all new identifiers";
"         (let rec ([bindings (syntax->list bindings)])";
"           (unless (null? bindings)";
"             (define binding (syntax->list (car bindings)))";
"             (define ids (syntax->datum (first binding)))";
"             (for-each (lambda (id) (scope-add! scope* id)) ids)";
"             (rec (cdr bindings))))";
"";
"         ;; second: check all let values";
"         (let rec ([bindings (syntax->list bindings)])";
"           (unless (null? bindings)";
"             (define binding (syntax->list (car bindings)))";
"             (define val (second binding))";
"             (check/expr! val rec-scope)";
"             (rec (cdr bindings))))";
"";
"         (for-each (lambda (e) (check/expr! e scope*)) body)]";
"        [(set!-form? expr)";
"         (loop (third (syntax->list expr)))]";
"        [(if-form? expr)";
"         (for-each loop (stx-cdr expr))]";
"        [(begin-form? expr)";
"         (for-each loop (stx-cdr expr))]";
"        [(or (quote-form? expr)";
"             (quote-syntax-form? expr)";
"             (stx-self-evaluating? expr))";
"         (void)]";
"        [(stx-pair? expr)";
"         (for-each loop (syntax->list expr))]";
"        [(identifier? expr)";
"         (define id (syntax-e expr))";
"         (unless (scope-contains? scope id)";
"           (printf ""~a: unknown variable `~a`\n"" path id)";
"           (printf ""  at: ~a\n"" (syntax->datum expr0))";
"           (exit 1))]";
"        [else";
"         (error 'check/expr! ""cannot check"" expr)])))";
"";
"  ;; top-level first";
"  (for-each";
"    (lambda (form)";
"      (when (define-values-form? form)";
"        (bind/define-values form)))";
"    exprs)";
"";
"  ;; now-recursively descend";
"  (for-each";
"    (lambda (form)";
"      (if (define-values-form? form)";
"          (check/expr! (define-syntaxes/values-expr form) scope)";
"          (check/expr! form scope)))";
"    exprs)";
"";
"  (void))";
"";
";; Expands a module (List of Expr, List of Xform, Env, Scope)";
"(define (expand/module path exprs xforms env scope)";
"  ; evaluates an expression in a given environment";
"  ; returning potentially multiple values.";
"  (define (eval/values expr env)";
"    (call-with-values";
"      (lambda () (eval expr env))";
"      (lambda results results)))";
"  ";
"  ; evaluates an expression in a given environment";
"  ; returning potentially multiple values.";
"  (define (eval/xform xform expr name)";
"    (define fn (car xform))";
"    (call-with-values";
"      (lambda () (fn expr))";
"      (lambda results";
"        (cond";
"          [(not (= (length results) 1)) ";
"           (error #f ""result arity mismatch"" ""expected 1"" ""received"" 2)]";
"          [(syntax? (car results))";
"           (car results)]";
"          [else";
"           (error name ""transformer produced something other than syntax"" (car results))]))))";
"";
"  ; expands sequence of expressions (body context)";
"  ; List of Expr [Length >= 1], List of Xform -> List of Expr";
"  (define (expand/body exprs xforms)";
"    (let loop ([expr0 (car exprs)] [rest (cdr exprs)] [defines '()])";
"      (define expr* (expand/expr expr0 xforms #f))";
"      (cond";
"        [(begin-form? expr*)";
"         ; begin forms are just spliced into the body";
"         ; they have the highest priority";
"         (define form (syntax->list expr*))";
"         (loop (cadr form) (append (cddr form) rest) defines)]";
"        [(define-syntaxes-form? expr*)";
"         ; this creates a break in the body:";
"         ; create a `letrec-values` for pending bindings";
"         ; create `let-syntaxes` for the current macro";
"         ; call `expand/body` on remaining expressions";
"         ; NOT allowed in the last position";
"         (when (null? rest)";
"           (error 'define-syntaxes ""last form is not an expression"" expr0))";
"";
"         (define form (syntax->list expr*))";
"         (define ids (second form))";
"         (define value (third form))";
"         (list ";
"           (datum->syntax";
"             (list (quote-syntax letrec-values)";
"                   (map (lambda (bind)";
"                          (list (car bind) (cdr bind)))";
"                        (reverse defines))";
"                   (expand/expr";
"                     (datum->syntax";
"                       (cons* (quote-syntax let-syntaxes)";
"                              (list (list ids value))";
"                              rest))";
"                     xforms";
"                     #t))))]";
"        [(define-values-form? expr*)";
"         ; the binding should be transformed into a `let-values`";
"         ; but these bindings are deferred until all adjacent";
"         ; `define-values` forms are collected";
"         ; NOT allowed in the last position";
"         (when (null? rest)";
"           (error 'define-values ""last form is not an expression"" expr0))";
"";
"         (define form (syntax->list expr*))";
"         (define ids (second form))";
"         (define value (expand/expr (third form) xforms #t))";
"         (loop (car rest) (cdr rest) (cons (cons ids value) defines))]";
"        [(not (null? rest))";
"         ; internal expression";
"         (cond";
"           [(null? defines)";
"            ; no variables bound, so we just keep expanding";
"            (cons* expr* (loop (car rest) (cdr rest) defines))]";
"           [else";
"            ; variables bound";
"            ; insert a let-values binding for previous definitions";
"            (define bind-expr";
"              (list (quote-syntax let-values)";
"                    '()";
"                    expr*";
"                    (list (quote-syntax values))))";
"            (loop (car rest) (cdr rest) (cons (cons '() bind-expr) defines))])]";
"        [(null? defines)";
"         ; last expression (no variables bound)";
"         ; so the result is just the last expression";
"         (list expr*)]";
"        [else";
"         ; last expression (variables bound)";
"         ; make a `let-values` form with the last expression as the body";
"         (list";
"           (datum->syntax";
"             (list (quote-syntax letrec-values)";
"                   (map (lambda (bind)";
"                          (list (car bind) (cdr bind)))";
"                        (reverse defines))";
"                   expr*)))])))";
"";
"  ; expands recursively (expression context)";
"  ; Expr, List of Xform -> Expr";
"  (define (expand/expr expr xforms recur-begin?)";
"    (define patterns (filter (lambda (e) (pattern-variable? (cadr e))) xforms))";
"    (set! $expander-pattern-vars patterns)";
"    (let loop ([expr expr])";
"      (cond";
"        [(stx-self-evaluating? expr)";
"         expr]";
"        [(identifier? expr)";
"         ; transform if xform";
"         (define id (syntax->datum expr))";
"         (define maybe-xform (lookup-xform expr xforms))";
"         (if maybe-xform (loop (eval/xform maybe-xform expr id)) expr)]";
"        [(or (define-values-form? expr) (define-syntaxes-form? expr))";
"         ; define-values/define-syntaxes form";
"         ; shouldn't be expanded in this context";
"         expr]";
"        [(let-syntaxes-form? expr)";
"         ; let-syntaxes form";
"         (check-let-syntaxes/values-form! 'let-syntaxes expr)";
"         (define form (syntax->list expr))";
"         (define body (cddr form))";
"         (define let-ids (make-set))";
"         (let rec ([bindings (syntax->list (cadr form))] [xforms xforms])";
"           (cond";
"             [(null? bindings)";
"              (datum->syntax";
"                 (cons* (quote-syntax let-values)";
"                        '()";
"                        (expand/body body xforms)))]";
"             [else";
"              (define binding (syntax->list (car bindings)))";
"              (define binding-ids (syntax->datum (car binding)))";
"              (check-duplicate-identifier! expr 'let-syntaxes let-ids binding-ids)";
"              (define rhs (expand/expr (cadr binding) xforms #t))";
"              (define results (eval/values (syntax->datum rhs) env))";
"              (unless (= (length binding-ids) (length results))";
"                (error 'let-syntaxes ""result arity mismatch""";
"                       ""expected"" (length binding-ids) ""received"" (length results)))";
"              (let bind-xforms ([ids binding-ids] [results results] [xforms xforms])";
"                (cond";
"                  [(null? ids)";
"                   (for-each (lambda (id) (set-add! let-ids id)) binding-ids)";
"                   (rec (cdr bindings) xforms)]";
"                  [else";
"                   (define id (car ids))";
"                   (define xform (car results))";
"                   (unless (or (procedure? xform) (pattern-variable? xform))";
"                     (raise-argument-error 'let-syntaxes ""rocedure?"" xform))";
"                   (define xform-entry (cons id (list xform xforms)))";
"                   (bind-xforms (cdr ids) (cdr results) (cons xform-entry xforms))]))]))]";
"        [(or (let-values-form? expr) (letrec-values-form? expr))";
"         (define name (if (let-values-form? expr) 'let-values 'letrec-values))";
"         (check-let-syntaxes/values-form! name expr)";
"         (define form (syntax->list expr))";
"         (define body (cddr form))";
"         (define ids (make-set))";
"         (datum->syntax";
"           (cons* (car form)";
"                  (map";
"                    (lambda (bind)";
"                      (define bind* (syntax->list bind))";
"                      (define bind-ids (syntax->datum (first bind*)))";
"                      (check-duplicate-identifier! expr name ids bind-ids)";
"                      (for-each (lambda (id) (set-add! ids id)) bind-ids)";
"                      (list (first bind*) (loop (second bind*))))";
"                    (syntax->list (cadr form)))";
"                  (expand/body body xforms)))]";
"        [(lambda-form? expr)";
"         (check-lambda-form! expr)";
"         (define head (stx-car expr))";
"         (define formals (stx-car (stx-cdr expr)))";
"         (define body (stx-cdr (stx-cdr expr)))";
"         (datum->syntax (cons* head formals (expand/body body xforms)))]";
"        [(case-lambda-form? expr)";
"         (check-case-lambda-form! expr)";
"         (define head (stx-car expr))";
"         (datum->syntax";
"           (cons";
"             head";
"             (map";
"               (lambda (clause)";
"                 (define formals (stx-car clause))";
"                 (cons formals (expand/body (stx-cdr clause) xforms)))";
"               (stx-cdr expr))))]";
"        [(if-form? expr)";
"         (check-if-form! expr)";
"         (define form (syntax->list expr))";
"         (datum->syntax";
"           (cons (first form)";
"                 (map loop (cdr form))))]";
"        [(begin-form? expr)";
"         (check-begin-form! expr)";
"         (define body (stx-cdr expr))";
"         (cond";
"           [(null? body)";
"            (datum->syntax '(void))]";
"           [recur-begin?";
"            (define body* (expand/body body xforms))";
"            (if (null? (cdr body*))";
"                (car body*)";
"                (datum->syntax (cons* 'begin body*)))]";
"           [else";
"            (datum->syntax (cons* 'begin (map loop body)))])]";
"        [(set!-form? expr)";
"         (check-set!-form! expr)";
"         (define form (syntax->list expr))";
"         (datum->syntax";
"           (list (first form)";
"                 (second form)";
"                 (loop (third form))))]";
"        [(quote-form? expr)";
"         (check-1ary-form! 'quote expr)";
"         expr]";
"        [(quote-syntax-form? expr)";
"         (check-1ary-form! 'quote-syntax expr)";
"         expr]";
"        [(stx-pair? expr)";
"         (define head (stx-car expr))";
"         (define maybe-xform (lookup-xform head xforms))";
"         (if maybe-xform";
"            (expand/expr (eval/xform maybe-xform expr (syntax-e head))";
"                         (merge-xforms xforms (cadr maybe-xform))";
"                         recur-begin?)";
"            (let ([stx-lst (syntax->list expr)])";
"              (if (list? stx-lst)";
"                  (datum->syntax (map loop stx-lst))";
"                  (error 'expand/expr ""invalid application"" expr))))]";
"        [else";
"         (raise-syntax-error 'expand/expr ""bad syntax"" expr)])))";
"";
"  ; module context";
"  ;  `define-values` => defers expansion until all definitions have been processed";
"  ;  `define-syntaxes` => expands and evaluates RHS and updates `xforms`";
"  ;  `begin` => splices sequence of expressions";
"  ;  <expr> => invokes top-level expander";
"  ; List of Expr, List of Xform -> List of Expr, List of Xform";
"  (define (expand/module* exprs xforms)";
"    ; Expr, List of Xform -> Expr, List of Xform";
"    (define (expand/top-level expr xforms)";
"      (cond";
"        [(define-syntaxes-form? expr) (values expr xforms)]";
"        [(define-values-form? expr) (values expr xforms)]";
"        [(begin-form? expr) (values expr xforms)]";
"        [(and (stx-pair? expr) (identifier? (stx-car expr)))";
"         (define head (stx-car expr))";
"         (define maybe-xform (lookup-xform head xforms))";
"         (cond";
"           [maybe-xform";
"            (expand/top-level";
"              (eval/xform maybe-xform expr (syntax-e head))";
"              (merge-xforms xforms (cadr maybe-xform)))]";
"           [else";
"            (values expr xforms)])]";
"        [else (values expr xforms)]))";
"";
"    ; List of Expr, List of Xform -> List of Expr, List of Xform";
"    (define (expand/non-define-values exprs xforms)";
"      ; mutatable state";
"      (define define-ids (make-set))";
"      (define xform-ids (make-set))";
"      ; for each expression";
"      (define exprs*";
"        (let loop ([exprs exprs])";
"          (cond";
"            [(null? exprs) null]";
"            [else";
"             (let with-scope ([exprs exprs] [in-scope0 xforms])";
"               (define-values (expr in-scope) (expand/top-level (car exprs) in-scope0))";
"               (cond";
"                 [(define-syntaxes-form? expr)";
"                  (check-define-syntaxes/values-form! 'define-syntaxes expr)";
"                  (define-values (ids rhs)";
"                    (let ([ids (define-syntaxes/values-identifiers expr)])";
"                      (check-duplicate-identifier! expr 'define-syntaxes xform-ids ids)";
"                      (values ids (define-syntaxes/values-expr expr))))";
"                  (define rhs* (expand/expr rhs in-scope #t))";
"                  (define results (eval/values (syntax->datum rhs*) env))";
"                  (unless (= (length ids) (length results))";
"                    (error 'define-syntaxes ""result arity mismatch""";
"                           ""expected"" (length ids) ""received"" (length results)))";
"                  (let rec ([ids ids] [results results])";
"                    (cond";
"                      [(null? ids) (loop (cdr exprs))]";
"                      [else";
"                       (define id (car ids))";
"                       (define xform (car results))";
"                       (unless (procedure? xform)";
"                         (raise-argument-error 'define-syntaxes ""procedure?"" xform))";
"                       (define binding (cons id (list xform null)))";
"                       (define xforms-in-scope (cons binding xforms))";
"                       (set-add! xform-ids id)";
"                       (set! xforms";
"                             (let loop ([xforms xforms-in-scope] [new-xforms '()])";
"                               (cond";
"                                 [(null? xforms) new-xforms]";
"                                 [else";
"                                  (define xform (first xforms))";
"                                  (define id (first xform))";
"                                  (define value (second xform))";
"                                  (define xform*";
"                                    (if (set-member? xform-ids id)";
"                                        (cons id (list value xforms-in-scope))";
"                                        xform))";
"                                  (loop (cdr xforms) (cons xform* new-xforms))])))";
"                       (rec (cdr ids) (cdr results))]))]";
"                 [(define-values-form? expr)";
"                  (check-define-syntaxes/values-form! 'define-values expr)";
"                  (define ids (define-syntaxes/values-identifiers expr))";
"                  (check-duplicate-identifier! expr 'define-values define-ids ids)";
"                  (for-each (lambda (id) (set-add! define-ids id)) ids)";
"                  (cons expr (loop (cdr exprs)))]";
"                 [(begin-form? expr)";
"                  (check-begin-form! expr)";
"                  (define forms (cdr (syntax->list expr)))";
"                  (if (null? forms)";
"                      (loop (cdr exprs))";
"                      (append (with-scope forms in-scope) (loop (cdr exprs))))]";
"                 [else";
"                  (cons (expand/expr expr in-scope #t) (loop (cdr exprs)))]))])))";
"      ; done";
"      (values exprs* xforms))";
"    ";
"    ; Any `define-values` form is deferred";
"    ; List of Expr, List of Xform -> List of Expr";
"    (define (expand/define-values exprs xforms)";
"      (let loop ([exprs exprs] [exprs* null])";
"        (cond";
"          [(null? exprs) (reverse exprs*)]";
"          [(define-values-form? (car exprs))";
"           (define form (syntax->list (car exprs)))";
"           (define form*";
"             (datum->syntax";
"               (list (first form)";
"                     (second form)";
"                     (expand/expr (third form) xforms #t))))";
"           (loop (cdr exprs) (cons form* exprs*))]";
"          [else (loop (cdr exprs) (cons (car exprs) exprs*))])))";
"";
"    (define-values (exprs* xforms*) (expand/non-define-values exprs xforms))";
"    (define exprs** (expand/define-values exprs* xforms*))";
"    (check/module! path exprs** scope)";
"    (values exprs** xforms*))";
"";
"  ; invoke the module-level expander";
"  (expand/module* exprs xforms))";
"";
";; Expands a single expression";
"(define (expand expr env xforms scope)";
"  (define-values (exprs* xforms*) (expand/module #f (list expr) xforms env scope))";
"  (cond [(null? exprs*) (values (quote-syntax (void)) xforms*)]";
"        [else (values (car exprs*) xforms*)]))";
""].

(** src/library/module.min 1-262 *)
Definition module_min : list string := [
";;;";
";;;   File reader for importing Minim files";
";;;";
"";
"(import ""base.min"" ""expander.min"" ""read.min"")";
"(export read/module)";
"";
"(define (writeln o)";
"  (write o)";
"  (newline))";
"";
";; Module caches";
";;  name -> (exporting xforms, exporting values)";
";;  name -> (expand env, eval env)";
";;  name -> (exprs, xforms, imports, exports, expand env, scope)";
"(define $module-table (make-hashtable))";
"(define $module-envs (make-hashtable))";
"(define $module-internals (make-hashtable))";
"";
";; Like `$load-module`, but does not check the cache";
"(define ($load-module path print-handler result-handler)";
"  ;; paths";
"  (define new-cwd (car (split-path path)))";
"";
"  ;; module information";
"  (define scope (scope-extend $base-scope))";
"  (define exported '())";
"  (define imported '())";
"  (define imported-xforms '())";
"  (define imported-modules '())";
"  (define stx-env #f)";
"  (define module-xforms '())";
"";
"  ;; read phase";
"  (define ($read)";
"    (define p (open-input-file path))";
"    (let loop ([exprs '()])";
"      (define datum (read p))";
"      (cond";
"        [(eof-object? datum)";
"         (close-input-port p)";
"         (reverse exprs)]";
"        [else";
"         (loop (cons datum exprs))])))";
"";
"  ;; import phase";
"  (define ($import exprs)";
"    (let loop ([exprs exprs] [evalable '()])";
"      (cond";
"        [(null? exprs)";
"         (reverse evalable)]";
"        [else";
"         (define expr (syntax-e (car exprs)))";
"         (cond";
"           [(and (pair? expr) (eq? (syntax-e (car expr)) 'import))";
"            (let loop2 ([imports (cdr expr)])";
"              (cond";
"                [(null? imports)";
"                 (loop (cdr exprs) evalable)]";
"                [(pair? imports)";
"                 (define maybe-import (syntax-e (car imports)))";
"                 (define path (build-path new-cwd maybe-import))";
"                 (cond";
"                   [(string? maybe-import)";
"                    ($load-or-import path print-handler result-handler)";
"                    (define from-module (hashtable-ref $module-table path))";
"                    (set! imported-modules (cons path imported-modules))";
"                    (set! imported-xforms (merge-xforms imported-xforms (car from-module)))";
"                    (set! imported (append (cdr from-module) imported)) ; TODO: dedup";
"                    (for-each (lambda (name) (scope-add! scope name)) (map car (cdr from-module)))";
"                    (loop2 (cdr imports))]";
"                   [else";
"                    (raise-syntax-error 'import ""bad import syntax"" (car exprs) (car imports))])]";
"                [else";
"                 (raise-syntax-error 'import ""bad import syntax"" (car exprs))]))]";
"           [(and (pair? expr) (eq? (syntax-e (car expr)) 'export))";
"            (let loop2 ([exports (cdr expr)])";
"              (cond";
"                [(null? exports)";
"                 (loop (cdr exprs) evalable)]";
"                [(pair? exports)";
"                 (define maybe-export (syntax-e (car exports)))";
"                 (cond";
"                   [(symbol? maybe-export)";
"                    (set! exported (cons maybe-export exported))";
"                    (loop2 (cdr exports))]";
"                   [(pair? maybe-export)";
"                    (cond";
"                      [(eq? (syntax-e (car maybe-export)) 'all)";
"                       (define module-name (syntax-e (cadr maybe-export)))";
"                       (define path (build-path new-cwd module-name))";
"                       (cond";
"                         [(and (string? module-name)";
"                               (null? (cddr maybe-export))";
"                               (member path imported-modules))";
"                          (define from-module (hashtable-ref $module-table path))";
"                          (set! exported (append (map car (car from-module))";
"                                                 (map car (cdr from-module))";
"                                                 exported))";
"                          (loop2 (cdr exports))]";
"                         [else (raise-syntax-error 'export ""bad export syntax"" (car exports))])]";
"                      [else (raise-syntax-error 'export ""bad export syntax"" (car exports))])]";
"                   [else";
"                    (raise-syntax-error 'export ""bad export syntax"" (car exports))])]";
"                [else";
"                 (raise-syntax-error 'export ""bad export syntax"" (car exports))]))]";
"           [else";
"            (loop (cdr exprs) (cons (car exprs) evalable))])])))";
"";
"  ;; expand phase";
"  (define ($expand exprs)";
"    ; setup environment";
"    (set! stx-env ($base-stx-env ($eval-environment $base-env imported)))";
"    ; testing";
"    (define-values (exprs* xforms*) (expand/module path exprs imported-xforms stx-env scope))";
"    ; update";
"    (set! module-xforms xforms*)";
"    exprs*)";
"";
"  ;; apply non-eval phases";
"  (define raw-exprs ($read))";
"  (define non-import-exprs ($import raw-exprs))";
"  (define expanded-exprs ($expand non-import-exprs))";
"";
"  ;; return result";
"  (values expanded-exprs module-xforms imported exported stx-env scope))";
"";
";; prepares the evaluation environment given";
";; an association list of additional values";
"(define ($eval-environment env imports)";
"  (define env* (copy-environment env #f))";
"  (let loop ([imports imports])";
"    (cond";
"      [(null? imports) env*]";
"      [else";
"       (define name (caar imports))";
"       (define value (cdar imports))";
"       (environment-set! env* name value)";
"       (loop (cdr imports))])))";
"";
";; evaluates a set of expressions under a given environment";
"(define ($eval-exprs exprs env print-handler)";
"  (let loop ([exprs exprs] [result (void)])";
"    (cond";
"      [(null? exprs) result]";
"      [else";
"       (define expr (syntax->datum (car exprs)))";
"       (call-with-values";
"         (lambda () (eval expr env))";
"         (lambda results";
"           (let loop2 ([results results] [prev (void)])";
"             (cond";
"               [(null? results)";
"                (loop (cdr exprs) prev)]";
"               [else";
"                (unless (void? (car results))";
"                  (writeln (car results)))";
"                (loop2 (cdr results) (car results))]))))])))";
"";
"(define ($load-or-import-no-check path print-handler result-handler)";
"  ;; load expressions";
"  (define-values (exprs module-xforms imports exports stx-env scope)";
"    ($load-module path print-handler result-handler))";
"  ;; evaluate";
"  (define env ($eval-environment $base-env imports))";
"  (define last ($eval-exprs exprs env print-handler))";
"  ;; handle exports";
"  (define export-values '())";
"  (define export-xforms '())";
"  (let loop ([exports exports])";
"    (cond";
"      [(null? exports) (void)]";
"      [else";
"       (define export (car exports))";
"       (define maybe-xform (assoc export module-xforms))";
"       (cond";
"         [maybe-xform";
"          (define xform (cdr maybe-xform))";
"          (set! export-xforms (cons (cons export xform) export-xforms))]";
"         [else";
"          (define value";
"            (environment-ref env";
"                             export";
"                            (lambda () (error 'export ""undefined export"" export))))";
"          (set! export-values (cons (cons export value) export-values))])";
"       (loop (cdr exports))]))";
"";
"  ;; update module table";
"  (hashtable-set! $module-table path (cons export-xforms export-values))";
"  (hashtable-set! $module-envs path (cons stx-env env))";
"  (hashtable-set! $module-internals path (list exprs module-xforms imports exports stx-env scope))";
"";
"  ;; and done";
"  (when result-handler";
"    (result-handler last)))";
"";
";; REPL with env";
"(define ($repl env stx-env xforms scope)";
"  (let loop ([xforms xforms])";
"    ; read";
"    (display ""> "")";
"    (define expr (read))";
"    (when (eof-object? expr) (exit))";
"    ; expand";
"    (define-values (expr* xforms*) (expand expr stx-env xforms scope))";
"    ;; evaluate and display";
"    (call-with-values";
"      (lambda () (eval (syntax->datum expr*) env))";
"      (lambda results";
"        (for-each (lambda (result)";
"                    (unless (void? result)";
"                      (writeln result)))";
"                  results)))";
"    ; loop";
"    (loop xforms*)))";
"";
"(define ($load-or-import name print-handler result-handler)";
"  ;; resolve path";
"  (define path";
"    (if (is-absolute-path? name)";
"        name";
"        (build-path (current-directory) name)))";
"  ;; check cache first";
"  (unless (hashtable-contains? $module-table path)";
"    ($load-or-import-no-check path print-handler result-handler)))";
"";
"(define (read/module name)";
"  ;; resolve path";
"  (define path";
"    (if (is-absolute-path? name)";
"        name";
"        (build-path (current-directory) name)))";
"  ($load-module path #f #f))";
"";
";; imports a file";
"(define (import name)";
"  ($load-or-import name (lambda (o) (writeln o)) #f))";
"";
";; loads a file";
"(define (load name)";
"  (define result ($load-or-import name #f (lambda (o) o)))";
"  (unless (void? result) (writeln result))";
"  (enter! name))";
"";
"(define (enter! name)";
"  ;; resolve path";
"  (define path";
"    (if (is-absolute-path? name)";
"        name";
"        (build-path (current-directory) name)))";
"  ;; set up environments";
"  (unless (hashtable-contains? $module-envs path)";
"    (error 'enter! ""unknown module"" name))";
"  (define envs (hashtable-ref $module-envs path))";
"  (define internals (hashtable-ref $module-internals path))";
"  (define xforms (second internals))";
"  (define scope (sixth internals))";
"  ;; REPL";
"  ($repl (copy-environment (car envs) #f)";
"         (copy-environment (cdr envs))";
"         xforms";
"         scope))";
""].

(** src/library/read.min 1-443 *)
Definition read_min : list string := [
";;;";
";;;   Redefines read functions";
";;;   Overwrites primitive functions";
";;;";
"";
"(import ""base.min"")";
"";
"(export read)";
"";
";; Reader";
"(define read";
"  (case-lambda";
"    [()";
"     (read (current-input-port))]";
"    [(p)";
"     (unless (input-port? p)";
"       (raise-argument-error 'read ""input-port?"" p))";
" ";
"     ;; Character";
" ";
"     (define oparen (integer->char 40))";
"     (define cparen (integer->char 41))";
"     (define obrack (integer->char 91))";
"     (define cbrack (integer->char 93))";
"     (define obrace (integer->char 123))";
"     (define cbrace (integer->char 125))";
" ";
"     (define (space? c)";
"       (or (eq? c #\space)";
"           (eq? c #\newline)))";
" ";
"     (define (delimeter? c)";
"       (or (eof-object? c) (space? c)";
"           (eq? c oparen) (eq? c obrack) (eq? c obrace)";
"           (eq? c cparen) (eq? c cbrack) (eq? c cbrace)";
"           (eq? c #\"") (eq? c #\;)))";
" ";
"     (define (symbol-char? c)";
"       (not (delimeter? c)))";
" ";
"     (define (digit? c)";
"       (define 0-char (char->integer #\0))";
"       (define 9-char (char->integer #\9))";
"       (define i (char->integer c))";
"       (<= 0-char i 9-char))";
" ";
"     (define (hex-digit? c)";
"       (define i (char->integer c))";
"       (or (<= (char->integer #\0) i (char->integer #\9))";
"           (<= (char->integer #\a) i (char->integer #\f))";
"           (<= (char->integer #\A) i (char->integer #\F))))";
" ";
"     (define (digit-prefix? c)";
"       (or (digit? c)";
"           (and (or (eq? c #\-) (eq? c #\+))";
"                (digit? (peek-char p)))))";
" ";
"     ;; Errors";
" ";
"     (define (assert-not-eof! c)";
"       (if (eof-object? c)";
"           (error 'read ""unexpected end of input"")";
"           (void)))";
" ";
"     (define (assert-matching-parens! open close)";
"       (if (or (and (eq? open oparen) (eq? close cparen))";
"               (and (eq? open obrack) (eq? close cbrack))";
"               (and (eq? open obrace) (eq? close cbrace)))";
"           (void)";
"           (errorf 'read ""parenthesis mismatch, expected ~a"" close)))";
" ";
"     (define (assert-delimeter! c)";
"       (if (not (delimeter? c))";
"           (error 'read ""expected a delimeter"")";
"           (void)))";
" ";
"     ;; Whitespace reading";
" ";
"     (define (skip-comment!)";
"       (define c (peek-char p))";
"       (cond";
"         [(eof-object? c)   (void)]";
"         [(eq? c #\newline) (void)]";
"         [else";
"          (read-char p)";
"          (skip-comment!)]))";
" ";
"     (define (skip-block-comment!)";
"       (let loop ([block-level 1])";
"         (cond";
"           [(= block-level 0) (void)]";
"           [else";
"            (define c (read-char p))";
"            (cond";
"              [(eq? c #\#)";
"               (define c (peek-char p))";
"               (assert-not-eof! c)";
"               (cond";
"                 [(eq? c #\|)";
"                  (read-char p)";
"                  (loop (+ block-level 1))]";
"                 [else";
"                  (loop block-level)])]";
"                 [(eq? c #\|)";
"                  (define c (peek-char p))";
"                  (assert-not-eof! c)";
"                  (cond";
"                    [(eq? c #\#)";
"                     (read-char p)";
"                     (loop (- block-level 1))]";
"                    [else";
"                     (loop block-level)])]";
"                 [else";
"                   (loop block-level)])])))";
" ";
"     (define (skip-until-token!)";
"       (define c (peek-char p))";
"       (cond";
"         [(space? c)";
"          (read-char p)";
"          (skip-until-token!)]";
"         [(eq? c #\;)";
"          (read-char p)";
"          (skip-comment!)";
"          (skip-until-token!)]";
"         [else";
"          (void)]))";
" ";
"     (define (check-expected-string! s)";
"       (define len (string-length s))";
"       (let loop ([i 0])";
"         (cond";
"           [(< i len)";
"            (define c (read-char p))";
"            (cond";
"              [(eof-object? c)";
"               (error 'read ""unexpected end of input"")]";
"              [(eq? c (string-ref s i))";
"               (loop (+ i 1))]";
"              [else";
"               (errorf 'read ""unexpected character ~a"" c)])]";
"           [else";
"            (void)])))";
" ";
"     ; pair reader";
"     (define (read-pair open)";
"       (skip-until-token!)";
"       (define c (peek-char p))";
"       (assert-not-eof! c)";
" ";
"       (cond";
"         [(or (eq? c cparen) (eq? c cbrack) (eq? c cbrace))";
"          (assert-matching-parens! open c)";
"          (read-char p)";
"          '()]";
"         [else";
"          (define car (read-loop))";
"          ;; possibly a dot";
"          (let loop ([car car])";
"            (skip-until-token!)";
"            (define c (peek-char p))";
"            (assert-not-eof! c)";
"            (cond";
"              [(eq? c #\.)";
"               ; maybe a pair";
"               (define maybe-dot (read-loop))";
"               (cond";
"                 [(eq? (syntax-e maybe-dot) '.)";
"                  ; pair";
"                  (define cdr (read-loop))";
" ";
"                  (skip-until-token!)";
"                  (define c (peek-char p))";
"                  (assert-not-eof! c)";
" ";
"                  (cond";
"                    [(or (eq? c cparen) (eq? c cbrack) (eq? c cbrace))";
"                     (assert-matching-parens! open c)";
"                     (read-char p)";
"                     (cons car cdr)]";
"                    [else";
"                     (error 'read ""missing closing parenthesis"")])]";
"                 [else";
"                  ; oops, just kidding";
"                  (cons car (loop maybe-dot))])]";
"              [else";
"               (define cdr (read-pair open))";
"               (cons car cdr)]))]))";
" ";
"     ; vector reader";
"     (define (read-vector)";
"       (let loop ([elems '()])";
"         (skip-until-token!)";
"         (define c (peek-char p))";
"         (cond";
"           [(eq? c cparen)";
"            (read-char p)";
"            (list->vector (reverse elems))]";
"           [else";
"            (loop (cons (read-loop) elems))])))";
" ";
"     ; character reader";
"     (define (read-character)";
"       (define c (read-char p))  ";
"       (if (eof-object? c)";
"           (error 'read ""incomplete character literal"")";
"           (void))";
"   ";
"       ; check for special values";
"       (cond";
"         [(eq? c #\s)";
"          (define cn (peek-char p))";
"          (cond";
"            [(eq? cn #\p)";
"             (check-expected-string! ""pace"")";
"             #\space]";
"            [else";
"             (assert-delimeter! (peek-char p))";
"             c])]";
"         [(eq? c #\n)";
"          (define cn (peek-char p))";
"          (cond";
"            [(eq? cn #\e)";
"             (check-expected-string! ""ewline"")";
"             #\newline]";
"            [else";
"             (assert-delimeter! (peek-char p))";
"             c])]";
"         [else";
"          (assert-delimeter! (peek-char p))";
"          c]))";
" ";
"     ; decimal number reader";
"     (define (read-number)";
"       ; if we encounter a non-digit, the token is a symbol";
"       ; so we need to track characters that we read";
"       (define 0-char (char->integer #\0))";
"       (define chars '())";
"       (define num 0)";
" ";
"       ; magnitude";
"       (let read-digit! ()";
"         (define c (peek-char p))";
"         (set! chars (cons c chars))";
"         (cond";
"           [(digit? c)";
"            (read-char p)";
"            (set! num (+ (* 10 num) (- (char->integer c) 0-char)))";
"            (read-digit!)]";
"           [(symbol-char? c)";
"            (read-char p)";
"            (read-symbol chars)]";
"           [else";
"            (assert-delimeter! (peek-char p))";
"            num])))";
" ";
"     ; hexidecimal number reader";
"     (define (read-hex-number c)";
"       ; if we encounter a non-digit, the token is a symbol";
"       ; so we need to track characters that we read";
"       (define chars '())";
" ";
"       ; optional sign";
"       (define sign";
"         (cond";
"           [(eq? c #\-)";
"            (read-char p)";
"            (set! chars (cons c chars))";
"            -1]";
"           [(eq? c #\+)";
"            (read-char p)";
"            (set! chars (cons c chars))";
"            1]";
"           [else";
"            1]))";
" ";
"       (define 0-char (char->integer #\0))";
"       (define a-char (char->integer #\a))";
"       (define A-char (char->integer #\A))";
" ";
"       ; magnitude";
"       (define num 0)";
"       (let read-digit! ()";
"         (define c (peek-char p))";
"         (set! chars (cons c chars))";
"         (cond";
"           [(hex-digit? c)";
"            (read-char p)";
"            (define i (char->integer c))";
"            (cond";
"              [(digit? c)";
"               (set! num (+ (* 16 num) (- i 0-char)))]";
"              [(>= i a-char)";
"               (set! num (+ (* 16 num) (+ 10 (- i a-char))))]";
"              [else";
"               (set! num (+ (* 16 num) (+ 10 (- i A-char))))])";
"            (read-digit!)]";
"           [(symbol-char? c)";
"            (read-char p)";
"            (read-symbol chars)]";
"           [else";
"            (assert-delimeter! (peek-char p))";
"            (* num sign)])))";
" ";
"     ; string reader";
"     (define (read-string)";
"       (let loop ([acc '()])";
"         (define c (peek-char p))";
"         (cond";
"           [(eof-object? c)";
"            (error 'read ""non-terminated string literal"")";
"            (void)]";
"           [(eq? c #\\)";
"            ; escape character";
"            (read-char p)";
"            (define c (peek-char p))";
"            (cond";
"              [(eq? c #\n)";
"               (read-char p)";
"               (loop (cons #\newline acc))]";
"              [(eq? c #\\)";
"               (read-char p)";
"               (loop (cons #\\ acc))]";
"              [(eq? c #\"")";
"               (read-char p)";
"               (loop (cons #\"" acc))]";
"              [else";
"               (errorf 'read ""unknown escape character ~a"" c)])]";
"           [(eq? c #\"")";
"            (read-char p)";
"            (reverse acc)]";
"           [else";
"            (read-char p)";
"            (loop (cons c acc))])))";
" ";
"     ;; symbol reader";
"     (define (read-symbol acc)";
"       (let loop ([acc acc])";
"         (define c (peek-char p))";
"         (cond";
"           [(symbol-char? c)";
"            (loop (cons (read-char p) acc))]";
"           [else";
"            (assert-delimeter! (peek-char p))";
"            (string->symbol (apply string (reverse acc)))])))";
" ";
"     ;; Main loop";
" ";
"     (define (read-loop)";
"       ; read and branch";
"       (skip-until-token!)";
"       (define c (peek-char p))";
"       (cond";
"         [(eof-object? c)";
"          (read-char p)";
"          c]";
"         [(eq? c #\#)";
"          (read-char p)";
"          ; special values";
"          (define c (peek-char p))";
"          (cond";
"            [(eq? c #\t)";
"             ; true";
"             (read-char p)";
"             (datum->syntax #t)]";
"            [(eq? c #\f)";
"             ; false";
"             (read-char p)";
"             (datum->syntax #f)]";
"            [(eq? c #\\)";
"             ; character";
"             (read-char p)";
"             (datum->syntax (read-character))]";
"            [(eq? c #\')";
"             ; quoted syntax";
"             (read-char p)";
"             (datum->syntax (list 'syntax (read-loop)))]";
"            [(eq? c oparen)";
"             ; vector";
"             (read-char p)";
"             (datum->syntax (read-vector))]";
"            [(eq? c #\&)";
"             ; box";
"             (read-char p)";
"             (datum->syntax (box (read-loop)))]";
"            [(eq? c #\x)";
"             ; hex number";
"             (read-char p)";
"             (datum->syntax (read-hex-number (peek-char p)))]";
"            [(eq? c #\;)";
"             ; datum comment";
"             (read-char p)";
"             (skip-until-token!)";
"             (define c (peek-char p))";
"             (assert-not-eof! c)";
"             ; read and ignore, then actually read";
"             (read-loop)";
"             (read-loop)]";
"            [(eq? c #\|)";
"             ; block comment";
"             (read-char p)         ";
"             (skip-block-comment!)";
"             (datum->syntax (read-loop))]";
"            [else";
"             ; unknown";
"             (errorf 'read ""unknown special character ~a"" c)])]";
"         [(or (eq? c #\+) (eq? c #\-))";
"          ; number or symbol";
"          (read-char p)";
"          (define n (peek-char p))";
"          (cond";
"            [(digit? n)";
"             ; optional sign";
"             (define pos-num (read-number))";
"             (if (eq? c #\-)";
"                 (datum->syntax (- pos-num))";
"                 (datum->syntax pos-num))]";
"            [else";
"             (datum->syntax (read-symbol (list c)))])]";
"         [(digit? c)";
"          ; number";
"          (datum->syntax (read-number))]";
"         [(eq? c #\"")";
"          ; string";
"          (read-char p)";
"          (define str-chars (read-string))";
"          (assert-delimeter! (peek-char p))";
"          (datum->syntax (apply string str-chars))]";
"         [(or (eq? c oparen) (eq? c obrack) (eq? c obrace))";
"          ; pair";
"          (read-char p)";
"          (datum->syntax (read-pair c))]";
"         [(eq? c #\')";
"          ; quoted form";
"          (read-char p)";
"          (datum->syntax (list 'quote (read-loop)))]";
"         [(symbol-char? c)";
"          ; symbol";
"          (datum->syntax (read-symbol '()))]";
"         [else";
"          (errorf 'read ""unexpected input: ~a"" c)]))";
" ";
"     (read-loop)]))";
""].

