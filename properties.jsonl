{"id": "C01", "title": "FASL machine words round-trip and are self-delimiting", "statement": "Every unsigned 64-bit word written by the variable-length word encoder of fasl-write is read back as the same word by fasl-read's decoder, and the decoder stops exactly at the end of the encoding, whatever bytes follow.", "quantifier": "every word 0 <= u < 2^64 and every byte sequence following it", "why_tests_cant": "2^64 words times arbitrary trailing bytes cannot be enumerated; the property is a universally quantified inverse law.", "anchors": ["src/core/c/fasl.c: read_fasl_uptr, write_fasl_uptr"]}
{"id": "C02", "title": "fasl-write then fasl-read returns an equal object", "statement": "For every acyclic datum built from the empty list, booleans, eof, void, interned symbols, NUL-free strings, fixnums, characters, pairs, vectors, record type descriptors and records, (fasl-write x p) succeeds and (fasl-read p) on those bytes returns a datum of the same structure and leaves the port positioned just after them.", "quantifier": "every serializable datum (unbounded size and depth) and every byte sequence following its encoding", "why_tests_cant": "data are unboundedly large and nested; tests exercise a dozen literals.", "anchors": ["src/core/c/fasl.c: read_fasl, write_fasl and helpers", "src/core/s/prelude.min: fasl-read, fasl-write"]}
{"id": "C03", "title": "Several objects written to one FASL port are read back in order", "statement": "Writing any sequence of serializable data to one port and then calling fasl-read that many times returns the data in the order they were written and then sits at the end of the port.", "quantifier": "every finite sequence of serializable data", "why_tests_cant": "sequence length and contents are unbounded.", "anchors": ["src/core/c/fasl.c: read_fasl, write_fasl"]}
{"id": "C04", "title": "fasl-write rejects exactly the data it cannot represent", "statement": "fasl-write terminates with 'object not serializable' if and only if the datum contains, at some position, a procedure, port, box, environment, hashtable store, syntax object or other unsupported value; otherwise it produces output.", "quantifier": "every datum", "why_tests_cant": "needs a recursive argument over arbitrary nesting.", "anchors": ["src/core/c/fasl.c: write_fasl"]}
{"id": "C05", "title": "Hashtables behave as finite maps under every history", "statement": "After any sequence of hashtable-set!, hashtable-delete!, hashtable-update! and hashtable-clear! calls on a table made by make-custom-hashtable whose equivalence is an equivalence relation compatible with its hash function, hashtable-ref, hashtable-contains? and hashtable-size answer exactly as the finite map obtained by applying the same operations, including across every automatic growth and shrink of the table.", "quantifier": "every finite operation history, every key/value type, every hash function compatible with the equivalence", "why_tests_cant": "growth and shrink thresholds interact with collisions and arbitrary histories; finite tests reach few table states.", "anchors": ["src/core/s/prelude.min: make-custom-hashtable, hashtable-ref, hashtable-set!, hashtable-update!, hashtable-delete!, hashtable-clear!", "src/core/c/hashtable.c: Mhashtable, hashtable_ref, hashtable_set, hashtable_cells, hashtable_clear"]}
{"id": "C06", "title": "hashtable-copy gives an independent table", "statement": "After hashtable-copy, any sequence of operations applied to either table leaves the contents observable through the other one unchanged.", "quantifier": "every table reachable by a history and every later history on either table", "why_tests_cant": "isolation is about all later interleavings of operations on two tables sharing memory.", "anchors": ["src/core/c/hashtable.c: hashtable_copy2", "src/core/s/prelude.min: hashtable-copy"]}
{"id": "C07", "title": "hashtable-keys, hashtable-vals and hashtable-entries enumerate every binding exactly once", "statement": "For every table state, the vectors returned have hashtable-size elements and, position by position, list each binding of the table once with no duplicates and nothing missing.", "quantifier": "every table state reachable by a history", "why_tests_cant": "enumeration order depends on bucket layout reached through arbitrary histories.", "anchors": ["src/core/s/prelude.min: hashtable-entries, hashtable-keys, hashtable-vals", "src/core/c/hashtable.c: hashtable_cells"]}
{"id": "C08", "title": "Symbols with the same name are eq? and symbols with different names are not", "statement": "Interning (string->symbol, read, fasl-read) the same name at any two points of a run yields eq? symbols, and different names yield non-eq? symbols.", "quantifier": "every history of interned names", "why_tests_cant": "depends on hash collisions and on the table growing in between.", "anchors": ["src/core/c/symbol.c: intern_symbol, intern_table_resize"]}
{"id": "C09", "title": "gensym always returns a fresh symbol", "statement": "A symbol returned by gensym is not eq? to any symbol obtained before or after it by gensym, string->symbol or read.", "quantifier": "every history of gensym and intern calls", "why_tests_cant": "freshness is a statement about all other symbols of the run.", "anchors": ["src/core/c/symbol.c: Mgensym, Msymbol, intern_symbol"]}
{"id": "C10", "title": "Top-level environments behave as finite maps under every history", "statement": "After any sequence of definitions, assignments and environment-set! calls, looking a name up returns the most recently stored value for that name, names never stored are reported missing, and a reference obtained to a variable's location stays valid and sees later assignments even if the table has been rehashed since.", "quantifier": "every finite history of definitions, assignments and lookups, every assignment of hash codes to symbols", "why_tests_cant": "rehashing happens at data-dependent points and locations are shared with compiled closures.", "anchors": ["src/core/c/env.c: Mtop_env, top_env_insert, top_env_find, top_env_resize, environment_variable_ref, environment_variable_set", "src/core/c/eval.c: tl_env_bind, tl_env_rebind, tl_env_lookup"]}
{"id": "C11", "title": "copy-environment isolates the copy", "statement": "copy-environment returns an environment holding exactly the current bindings of the requested names, and later changes to either environment are invisible through the other.", "quantifier": "every environment, every list of requested names, every later history on either environment", "why_tests_cant": "isolation quantifies over all later operations on both.", "anchors": ["src/core/c/env.c: top_env_copy, top_env_copy2, copy_environment"]}
{"id": "C12", "title": "Fixnum arithmetic is exact whenever the result fits", "statement": "For all fixnums, +, - and * (any number of arguments) return the mathematical result whenever every intermediate result fits in 64-bit two's complement, and (/ x y), remainder return truncated quotient and remainder for y /= 0.", "quantifier": "every list of fixnum arguments", "why_tests_cant": "2^64 values per argument and arbitrary argument counts.", "anchors": ["src/core/c/number.c: fx2_add, fx2_sub, fx2_mul, fx2_div, fx_remainder", "src/core/s/prelude.min: + - * / remainder"]}
{"id": "C13", "title": "modulo returns the residue with the sign of the divisor", "statement": "For all fixnums x and y /= 0, (modulo x y) is the unique r with x - r divisible by y, |r| < |y| and r zero or of the sign of y.", "quantifier": "every pair of fixnums with nonzero divisor", "why_tests_cant": "the failing cases are sign/divisibility combinations.", "anchors": ["src/core/c/number.c: fx_modulo", "src/core/s/prelude.min: modulo"]}
{"id": "C14", "title": "Numeric comparisons are chains over consecutive arguments", "statement": "For every comparison operator among = < > <= >= and every list of at least two fixnums the result is #t iff the relation holds between every two neighbours.", "quantifier": "every list of at least two fixnums", "why_tests_cant": "argument counts are unbounded.", "anchors": ["src/core/s/prelude.min: = > < >= <=", "src/core/c/number.c: fx2_eq, fx2_gt, fx2_lt, fx2_ge, fx2_le"]}
{"id": "C15", "title": "equal? decides structural equality and is an equivalence relation on data", "statement": "On acyclic data made of atoms, strings, pairs, vectors and boxes, equal? returns #t iff both arguments have the same structure with eq?-equal leaves, so it is reflexive, symmetric and transitive, and eq? implies equal?.", "quantifier": "every pair (triple) of acyclic data", "why_tests_cant": "data are unboundedly nested.", "anchors": ["src/core/c/object.c: minim_eqp, minim_equalp", "src/core/s/prelude.min: equal?"]}
{"id": "C16", "title": "equal? keys have equal hashes", "statement": "If two data are equal? then equal-hash returns the same fixnum for both, so they address the same bucket of every equal?-based table.", "quantifier": "every pair of acyclic data", "why_tests_cant": "hash/equality compatibility must hold for every pair of keys.", "anchors": ["src/core/s/prelude.min: equal-hash, equal?", "src/core/c/hashtable.c: equal_hash_proc, eq_hash, hash_bytes"]}
{"id": "C17", "title": "List primitives satisfy the list algebra and never modify their arguments", "statement": "length, append, reverse, list->vector/vector->list, map, for-each order, andmap, ormap, iota, enumerate, filter, foldl, foldr, remove, remove*, assoc, member, list-ref, list-set, index-of return what their list specifications say, and the argument lists are unchanged afterwards.", "quantifier": "every list (and every procedure argument)", "why_tests_cant": "lists are unboundedly long; the destructive implementation style can alias.", "anchors": ["src/core/c/list.c: list_append2, list_reverse, copy_list, list_length, make_list", "src/core/s/prelude.min: append, map, for-each, andmap, ormap, iota, enumerate", "src/library/private/list.min"]}
{"id": "C18", "title": "Vector operations obey the array laws and are always in bounds", "statement": "vector-ref after vector-set! at the same index returns the stored element, other indices are unaffected, vector-length never changes, and for every index argument (any value) the checked operations either act inside the vector or raise an error without touching memory outside it.", "quantifier": "every vector, index value and element", "why_tests_cant": "in-boundness must hold for every index including negative and huge ones.", "anchors": ["src/core/c/vector.c", "src/core/s/prelude.min: vector-ref, vector-set!, make-vector, vector-fill!"]}
{"id": "C19", "title": "String operations obey the array laws", "statement": "string-append is concatenation, substring is the sub-sequence, string-ref after string-set! returns the stored character, list->string of a NUL-free character list has that length and those characters, and all checked accesses are in bounds.", "quantifier": "every string, index and character", "why_tests_cant": "strings and indices are unbounded.", "anchors": ["src/core/c/string.c", "src/core/s/prelude.min: string-append, string-ref, string-set!, list->string, string->list", "src/library/private/string.min: substring"]}
{"id": "C20", "title": "number->string and string->number are inverse", "statement": "(string->number (number->string n)) is n for every fixnum n.", "quantifier": "every fixnum", "why_tests_cant": "2^64 values; the failure is a width limit.", "anchors": ["src/core/c/string.c: number_to_string, string_to_number"]}
{"id": "C21", "title": "sort returns a sorted, stable permutation and leaves its input intact", "statement": "For every list and every strict weak order less?, (sort lst less?) returns a permutation of lst that is ordered by less? and keeps the order of equivalent elements, and the pairs of the argument list are unchanged.", "quantifier": "every list and every strict weak order", "why_tests_cant": "list length unbounded; the algorithm destructively relinks pairs, so aliasing errors appear only for particular shapes.", "anchors": ["src/library/private/sort.min: merge!, sort!, sort"]}
{"id": "C22", "title": "Set operations implement finite-set algebra", "statement": "set-union, set-intersect, set-subtract, set-symmetric-difference, subset?, set=?, set-add!, set-remove!, set-member?, set-count agree with mathematical finite sets for every history of sets, and the non-destructive operations do not change their arguments.", "quantifier": "every collection of sets reachable by a history", "why_tests_cant": "needs all combinations of sets of unbounded size.", "anchors": ["src/library/private/set.min"]}
{"id": "C23", "title": "What write prints, read reads back", "statement": "For every datum made of symbols with readable names, fixnums, booleans, characters, strings, proper and improper lists and vectors, reading the text produced by write gives an equal? datum and consumes exactly that text (up to the following delimiter).", "quantifier": "every printable datum and every following text starting with a delimiter", "why_tests_cant": "data are unboundedly nested; printing and parsing must agree on all of them.", "anchors": ["src/core/c/print.c: write_object2, write_pair", "src/core/c/read.c: read_object, read_pair, read_vector, read_char", "src/core/s/prelude.min: write"]}
{"id": "C24", "title": "The reader skips whitespace and comments without changing what is read", "statement": "Inserting whitespace or line comments before a datum does not change the datum read nor the remaining input.", "quantifier": "every input text and every whitespace/comment prefix", "why_tests_cant": "unbounded texts.", "anchors": ["src/core/c/read.c: skip_whitespace, read_object"]}
{"id": "C25", "title": "The reader accepts only matching brackets", "statement": "Whenever read returns a list datum, the closing bracket that ended it is of the same kind as the opening one; a mismatch is always reported as an error.", "quantifier": "every input text", "why_tests_cant": "unbounded texts with arbitrary nesting.", "anchors": ["src/core/c/read.c: read_pair, assert_matching_paren"]}
{"id": "C26", "title": "syntax->datum undoes datum->syntax", "statement": "(syntax->datum (datum->syntax x)) is structurally equal to x for every datum without syntax objects, and syntax->list of a syntax list has the elements of the list.", "quantifier": "every acyclic datum", "why_tests_cant": "unbounded nesting.", "anchors": ["src/core/c/syntax.c: to_syntax, strip_syntax, syntax_to_list"]}
{"id": "C27", "title": "The syntax checker accepts only well-formed core forms", "statement": "If the checker run before evaluation accepts an expression whose sub-forms it inspects, then every core form in it (if, let-values, letrec-values, lambda, case-lambda, begin, set!, define-values, quote) has the shape the compiler destructures, so compilation never takes the car or cdr of a non-pair.", "quantifier": "every expression", "why_tests_cant": "unbounded nesting and malformed inputs.", "anchors": ["src/core/c/check.c: check_expr", "src/core/c/jitcompile.c"]}
{"id": "C28", "title": "Every jump in generated code lands on an instruction of the same code object", "statement": "For every accepted expression, each branch and continuation target in the code produced by the compiler denotes an instruction position inside that code object, namely the first real instruction after the label's occurrence.", "quantifier": "every expression the compiler accepts", "why_tests_cant": "code shape grows with the expression.", "anchors": ["src/core/c/jitcommon.c: resolve_refs, next_non_label", "src/core/c/jit.c: write_code, remove_labels"]}
{"id": "C29", "title": "Local variable slots are always inside the run-time frame", "statement": "For every accepted expression, each local-variable instruction (lookup, assignment, binding, cell capture) of the generated code addresses a slot smaller than the size of the run-time environment created for the enclosing procedure or top-level expression.", "quantifier": "every expression the compiler accepts", "why_tests_cant": "slot numbers depend on nesting of binders and free variables.", "anchors": ["src/core/c/jitcompile.c: compile_lambda_clause, compile_mvlet, compile_lookup", "src/core/c/jitanalyze.c: jit_free_vars, jit_bound_vars", "src/core/c/jitcommon.c: scope_cenv_ref"]}
{"id": "C30", "title": "A closure captures exactly the variables free in it", "statement": "The free-variable analysis used to build closures returns, for every procedure expression, exactly the variables that occur free in it according to lexical scoping.", "quantifier": "every expression", "why_tests_cant": "unbounded nesting of binders and shadowing.", "anchors": ["src/core/c/jitanalyze.c: jit_free_vars"]}
{"id": "C31", "title": "Compiled code computes what the source expression means", "statement": "For every core expression of the modelled fragment and every environment, if the expression evaluates to a value (or to an error) under the language's call-by-value, left-to-right semantics, then running the generated code on the virtual machine terminates with the same value, the same store effects and the same error.", "quantifier": "every expression of the fragment, every environment and store, every evaluation", "why_tests_cant": "compiler correctness quantifies over programs and inputs.", "anchors": ["src/core/c/jitcompile.c: compile_expr2", "src/core/c/eval.c: eval_istream", "src/core/c/jit.c: compile_expr"]}
{"id": "C32", "title": "Optimizer passes preserve meaning", "statement": "The normalisation and optimisation passes applied before compilation (letrec-values to let-values, let-values to call-with-values, multiple-value and immediate-application rewriting) do not change the value, effects or error of an expression.", "quantifier": "every expression and environment", "why_tests_cant": "quantifies over programs.", "anchors": ["src/core/c/jitopt.c: jit_opt_L0, jit_opt_L1, jit_opt_L2"]}
{"id": "C33", "title": "Tail calls do not grow the continuation", "statement": "When a procedure body calls another procedure in tail position, the chain of saved continuation frames has the same length after the call as when the body was entered, so loops by tail calls run in bounded continuation space.", "quantifier": "every procedure body and every number of iterations", "why_tests_cant": "unbounded iteration counts.", "anchors": ["src/core/c/jitcompile.c: compile_app", "src/core/c/eval.c: eval_istream (apply, save-cc), push_frame"]}
{"id": "C34", "title": "A procedure call selects the first clause accepting the argument count", "statement": "Calling a case-lambda procedure with n arguments runs the first clause that takes n arguments, binds the required parameters to the arguments in order and the rest parameter to the list of the remaining ones, and reports an arity error iff no clause takes n arguments.", "quantifier": "every clause list and every argument list", "why_tests_cant": "unbounded clause and argument counts.", "anchors": ["src/core/c/jitcompile.c: compile_case_lambda2, compile_lambda_clause", "src/core/c/eval.c: do_rest, branchlt, branchne, do-arity-error"]}
{"id": "C35", "title": "procedure-arity describes the accepted argument counts", "statement": "For every case-lambda procedure, n is included in its procedure-arity iff calling it with n arguments does not raise an arity error.", "quantifier": "every clause list and every n", "why_tests_cant": "depends on the order and overlap of arbitrarily many clauses.", "anchors": ["src/core/c/jitcompile.c: update_arity", "src/core/s/prelude.min: procedure-arity"]}
{"id": "C36", "title": "apply spreads its last argument", "statement": "(apply f a1 ... ak lst) calls f with exactly the arguments a1 ... ak followed by the elements of lst, in order, for lists of any length; if the last argument is not a list an error is raised.", "quantifier": "every argument list and every spread list", "why_tests_cant": "list length unbounded, interacts with stack growth.", "anchors": ["src/core/c/eval.c: do_apply", "src/core/c/jitprims.c: compile_apply"]}
{"id": "C37", "title": "Multiple values are delivered intact", "statement": "The values produced by (values v1 ... vn) reach the consumer of call-with-values as exactly n arguments in order, and reach the names of let-values/define-values iff their number is n, otherwise an error is raised.", "quantifier": "every n and every value list", "why_tests_cant": "n unbounded.", "anchors": ["src/core/c/eval.c: do_values, values_to_args, env_bind_values, tl_env_bind_values"]}
{"id": "C38", "title": "Deep recursion neither loses nor overwrites stack frames", "statement": "Pushing any number of arguments and frames and returning from them yields each frame's arguments unchanged in last-in first-out order, even when the stack is moved to new segments in between, and no write falls outside the current stack segment.", "quantifier": "every sequence of pushes, calls and returns", "why_tests_cant": "segment boundaries are hit only at particular depths.", "anchors": ["src/core/c/eval.c: grow_stack, reserve_stack, push_frame, pop_arg, restore_frame"]}
{"id": "C39", "title": "The collector never frees or alters a reachable block", "statement": "After any sequence of allocations, registrations, frees and collections, every block reachable from registered roots or from the scanned stack through block contents is still registered with its size, finalizer and contents unchanged.", "quantifier": "every heap graph (including cycles), every root set, every history", "why_tests_cant": "reachability over arbitrary graphs.", "anchors": ["src/gc/minim-gc/gc-impl.c: gc_mark, gc_mark_ptr, gc_sweep, gc_collect"]}
{"id": "C40", "title": "The collector frees every unreachable block exactly once", "statement": "A collection removes every registered block that is not reachable from the roots or the stack, runs its finalizer exactly once, and does not touch it again.", "quantifier": "every heap graph, root set and history", "why_tests_cant": "double frees or leaks need particular graph shapes and table layouts.", "anchors": ["src/gc/minim-gc/gc-impl.c: gc_sweep, gc_collect, gc_destroy"]}
{"id": "C41", "title": "GC accounting is exact", "statement": "At every point GC_get_allocated equals the total size of the live blocks, and the number of registered blocks equals the number of table entries, through any history including table growth and shrink; GC_get_reachable equals the total size of the reachable blocks and GC_get_collectable the difference.", "quantifier": "every history of allocator calls", "why_tests_cant": "invariant over histories.", "anchors": ["src/gc/minim-gc/gc-impl.c: gc_add_record, gc_remove, gc_sweep, gc_get_allocated, gc_get_reachable, gc_get_collectable"]}
{"id": "C42", "title": "Registered roots stay roots until freed", "statement": "A block registered with GC_register_root survives every collection, keeps being a root through table growth, shrink and reallocation, and freeing or reallocating one block never changes whether another block is a root.", "quantifier": "every history", "why_tests_cant": "depends on bucket neighbourhood and rehash history.", "anchors": ["src/gc/minim-gc/gc-impl.c: gc_register_root, gc_remove, gc_resize, gc_realloc_record"]}
{"id": "C43", "title": "Paused collection never collects automatically", "statement": "Between GC_pause and GC_resume no allocation, whatever the amount, triggers a collection; outside, an allocation collects first iff more than the threshold has been allocated since the last collection.", "quantifier": "every history", "why_tests_cant": "history-dependent threshold.", "anchors": ["src/gc/minim-gc/gc.c", "src/gc/minim-gc/gc-impl.h: gc_collect_if_needed"]}
{"id": "C44", "title": "String ports hold exactly the text written", "statement": "get-output-string on an output string port returns the concatenation of everything written to it so far, in order, and reading characters from open-input-string yields the characters of the string in order followed by eof; peek-char never consumes.", "quantifier": "every sequence of port operations", "why_tests_cant": "operation histories unbounded.", "anchors": ["src/core/c/io.c: open_output_string, get_output_string, put_char, put_string, read_char_proc, peek_char"]}
{"id": "C45", "title": "Record accessors and mutators respect inheritance", "statement": "For every record type hierarchy, accessor i of a type applied to an instance of that type or of a subtype returns the value last stored in that field, fields of parent and child never overlap, the predicate holds exactly for instances of the type and its subtypes, and accessors reject all other values.", "quantifier": "every finite hierarchy depth, field count and mutation history", "why_tests_cant": "hierarchy depth and field counts unbounded.", "anchors": ["src/core/s/prelude.min: record-constructor, record-predicate, record-accessor, record-mutator", "src/core/c/record.c"]}
{"id": "C46", "title": "Promises run their body at most once when forced again", "statement": "For every sequence of force and lazy calls, the producer of a promise that has completed once is never run again and every later force returns the cached result; (delay e ...) makes a promise of the procedure without parameters with body e ....", "quantifier": "every history of forcing, every producer", "why_tests_cant": "history-dependent.", "anchors": ["src/library/private/promise.min: force, lazy, delay"]}
{"id": "C47", "title": "build-path undoes path->list on relative paths", "statement": "For every path string without empty components, joining the components returned by path->list with build-path gives the path back.", "quantifier": "every path string", "why_tests_cant": "unbounded strings.", "anchors": ["src/library/private/path.min: path->list, build-path, split-path"]}
{"id": "C48", "title": "The code object decompiler inverts the code writer", "statement": "Listing the instructions of a code object with the label table gives back the resolved instruction sequence it was written from.", "quantifier": "every resolved instruction list", "why_tests_cant": "unbounded code.", "anchors": ["src/core/c/jit.c: write_code, code_to_instrs"]}
{"id": "C49", "title": "format consumes exactly its arguments", "statement": "format/printf output the format text with each ~a/~s directive replaced by the display/write form of the next argument and each ~% by a newline, and raise an error iff the number of directives differs from the number of arguments.", "quantifier": "every format string and argument list", "why_tests_cant": "unbounded format strings.", "anchors": ["src/core/s/prelude.min: fmt-args, check-format!, do-format, format"]}
{"id": "C50", "title": "Errors reach the installed handler", "statement": "raise (and every primitive error after the prelude is loaded) calls the installed error handler with the raised object, and the handler runs in place of the failing continuation.", "quantifier": "every raised object, every machine state", "why_tests_cant": "all machine states.", "anchors": ["src/core/c/eval.c: do_raise", "src/core/c/error.c: do_error", "src/core/s/prelude.min: current-error-handler, raise-argument-error"]}
{"id": "C51", "title": "Character and symbol conversions are inverse", "statement": "(integer->char (char->integer c)) is c for every character; (char->integer (integer->char n)) is n exactly when n is representable; (string->symbol (symbol->string s)) is s and (symbol->string (string->symbol t)) has the characters of t.", "quantifier": "every character, integer, interned symbol and string", "why_tests_cant": "ranges over all symbols and strings.", "anchors": ["src/core/c/char.c: char_to_integer, integer_to_char", "src/core/c/string.c: symbol_to_string, string_to_symbol", "src/core/s/prelude.min: char->integer, integer->char, symbol->string, string->symbol"]}
{"id": "C52", "title": "Pair accessors and mutators do what their names say", "statement": "Each of car, cdr, caar ... cddddr returns the component spelt by its name when the argument has it and otherwise raises an argument error naming the accessor and its argument, without changing anything; set-car! and set-cdr! change exactly that component of exactly that pair.", "quantifier": "every accessor and every value, including cyclic structures", "why_tests_cant": "values are unbounded and may share structure.", "anchors": ["src/core/s/prelude.min: car ... cddddr, set-car!, set-cdr!"]}
{"id": "C53", "title": "The library's reader reads what the built-in reader reads", "statement": "For every text that uses the notation common to both readers, read of the library (used for modules and the REPL) returns a syntax object for the datum that the built-in reader returns and consumes the same characters; what write prints is read back as syntax of the same datum; reading is a function of the text, consumes a prefix of it, ignores blanks in front, and closes every list with the bracket that matches its opening bracket.", "quantifier": "every text: data of any size and nesting, comments of all kinds, anything that may follow the datum", "why_tests_cant": "texts are unbounded, and the two readers are separate programs that can differ on any of them.", "anchors": ["src/library/read.min: read, read-pair, read-vector, read-character, read-number, read-hex-number, read-string, read-symbol, skip-until-token!, skip-block-comment!", "src/core/c/read.c: read_object", "src/core/s/prelude.min: write"]}
{"id": "C54", "title": "Modules are evaluated once, after their imports", "statement": "Importing a module evaluates it at most once in the life of the program, after every module it imports; it starts in an environment where each name has the value exported by the first import that exports it, else its base value; it exports exactly the names it lists, with the transformers and values they have when the body has finished; an import runs only modules it reaches, a successful one has run all of them, a failed one keeps what was completed and is tried again later; imports without cycles end, and a module on an import cycle is never loaded.", "quantifier": "every file system, every history of imports, every expander and evaluator", "why_tests_cant": "import graphs and histories of successful and failed imports are unbounded.", "anchors": ["src/library/module.min: $load-module, $load-or-import, $load-or-import-no-check, $eval-environment, enter!, import, load, read/module", "src/library/expander.min: merge-xforms"]}
{"id": "C55", "title": "Macro expansion and unknown variables", "statement": "A module is accepted by the expander's final check exactly when every variable its expanded forms read is bound around the use, defined at the top level of the module (earlier or later), or in scope from its imports; the check always ends; expansion gives one result; code in which no macro is used is left as it is; a macro defined under a fresh name is found from then on and leaves the others as they were; malformed core forms, malformed definitions and modules that define a variable twice are refused; begin among the forms of a module is the same as its forms in its place; a macro sees the macros of its definition wherever it is used; and fully expanded code passes the compiler's own syntax check.", "quantifier": "every module, every set of transformers (arbitrary functions), every scope", "why_tests_cant": "expressions nest to any depth and transformers are arbitrary functions.", "anchors": ["src/library/expander.min: expand/module, expand/expr, expand/body, check/module!, expand", "src/core/c/check.c: check_expr"]}
{"id": "C57", "title": "Definitions inside bodies", "statement": "A body made of definitions and expressions (macros expanded, begin forms spliced in place) that ends in an expression runs its parts in the order written: all the variables it defines exist from its start without a value, each definition stores its values when it is reached, expressions in between run for their effects, the last expression gives the result; reading a variable before its definition has run is an error even if an outer variable has the same name; a body that ends in a definition is refused.", "quantifier": "every body, every set of macros, every environment and store", "why_tests_cant": "bodies mix definitions, expressions and begin forms in any order and to any depth.", "anchors": ["src/library/expander.min: expand/body", "src/core/c/check.c: check_expr", "src/core/c/eval.c: eval_istream"]}
{"id": "C56", "title": "Derived forms of the standard library", "statement": "and, or, cond, when, unless, let, let*, letrec, named let, do, case and define, written with any parts that compile, expand and compile, and evaluating the result does what the form is documented to do with those parts: and and or stop at the first false or true value, cond and case run the first clause that applies, let evaluates its expressions before binding any variable, let* binds one variable after another, letrec makes all variables visible first, a named let is a procedure called with the initial values, define binds a value or a (curried) procedure. A use of any other shape (no body, a malformed binding, an else clause that is not last, and so on) is an error, as an expression and at top level, and never expands to something.", "quantifier": "every form, every parts, every scope in which the form's name is the library's macro, every environment, store and behaviour of primitives", "why_tests_cant": "forms nest in each other and take any number of parts.", "anchors": ["src/library/private/and-or.min", "src/library/private/cond.min", "src/library/private/when-unless.min", "src/library/private/let.min", "src/library/private/define.min", "src/library/private/case.min", "src/library/private/do.min", "src/library/expander.min: expand/expr, expand/top-level"]}
{"id": "C58", "title": "Patterns of syntax-case", "statement": "syntax-case matches the value against the patterns of its clauses in order and selects the first clause whose pattern matches and whose fender is true; a pattern matches exactly the values of its shape (variables match anything, literals themselves, a repeated pattern any number of elements, the patterns after an ellipsis the last elements), in only one way, each variable is bound to the part it stands for, nested in as many lists as it is under ellipses; a value that does not match makes the next clause be tried, and only the datum of the value matters; a pattern with a misplaced ellipsis (first in its list or vector, or a second one) is an error.", "quantifier": "every pattern, every list of literals, every value and every list of clauses with any fenders", "why_tests_cant": "patterns and values are trees of any depth and width; a test fixes one of each, and a wrong answer at some depth or length of repetition looks like a correct one at others.", "anchors": ["src/library/private/stxcase.min: syntax-case", "src/library/private/stx.min: stx-pair?, stx-list?, stx->list", "src/core/c/syntax.c: to_syntax"]}
{"id": "C59", "title": "Templates", "statement": "A `syntax` template (written #'...) evaluates to its text with every pattern variable replaced by what it was bound to, a subtemplate before an ellipsis repeated once for each element of its variables, in order and in step, at every nesting of ellipses; templates with variables under too few ellipses, or with an ellipsis after something without variables, are refused when they are expanded; and the text of a pattern used as a template gives back the form that the pattern matched.", "quantifier": "every template, every binding of the pattern variables (any depths, any lists), every pattern and every form it matches", "why_tests_cant": "templates nest ellipses to any depth, with lists of any length; the substitution is compiled to operations that look right on small templates whichever way they are composed.", "anchors": ["src/library/private/template-utils.min: do-template, template-subst, template-vector", "src/library/private/template.min: syntax", "src/library/private/stxcase.min: syntax-case"]}
{"id": "C60", "title": "Enumerations", "statement": "An enumeration set holds symbols of the universe it was made from and lists them in the order of that universe; union, intersection, difference and complement are those of sets within the universe (double complement and De Morgan's laws are equalities), subset and equality compare universes and elements, the constructor keeps the given symbols that are in the universe and makes a set again from its list, projection keeps the symbols that are in the other universe, the indexer gives positions in the universe; operations on sets of two enumerations, even with the same symbols, and on other values, are refused; define-enumeration defines the enumeration, a constructor macro and a name macro that accepts exactly its symbols, and refuses every malformed definition.", "quantifier": "every enumeration and every set that any sequence of calls can make from any number of enumerations", "why_tests_cant": "the sets are made by arbitrary chains of operations on any number of universes; a test checks particular chains.", "anchors": ["src/library/private/enum.min: make-enumeration, enum-set->list, enum-set-universe, enum-set-constructor, enum-set-indexer, enum-set-member?, enum-set-subset?, enum-set=?, enum-set-union, enum-set-intersect, enum-set-difference, enum-set-complement, enum-set-projection, define-enumeration", "src/library/private/list.min: index-of"]}
{"id": "C61", "title": "Generic interfaces", "statement": "After any sequence of calls of record-type-add-generic!, the accessor of a method applied to a record type returns the procedure given for that method by the last accepted call for this type and this interface, whatever was given to other types or interfaces (even of the same name), and raises an error if there was none; gen:NAME? holds exactly of the types given the interface; a call is accepted exactly when it gives one procedure per method with the arity of the formals, so that a method returned accepts exactly the numbers of arguments that the interface says; define-generics makes an interface with the methods in the order of the clauses and refuses anything else.", "quantifier": "every sequence of calls with any arguments, every interface, record type and method", "why_tests_cant": "the table of implementations is global and grows with every call; a test checks particular interfaces and orders of registration.", "anchors": ["src/library/private/generics.min: record-type-add-generic!, generics-accessor, generic-instance?, define-generics, $generics-type-method-names", "src/library/private/list.min: index-of, assoc"]}
{"id": "C62", "title": "define-record-type", "statement": "define-record-type accepts exactly a name (or a name with names for the constructor and the predicate) and clauses of the documented kinds, at most one of each kind and one methods clause per interface, and defines the documented names. In any program that uses records through such definitions: a definition succeeds exactly when its parent is #f or a type that is not sealed, and makes a new type; the constructor takes an argument for each field, inherited fields first, and makes a new record; the predicate holds of exactly the records of the type and of types derived from it; accessors return the initial value or the one last given to the mutator of that field for that record, whatever happened in between; a field without mutator never changes; anything that is not a record of the type is refused without effect; no type is ever derived from a sealed one; record? is false exactly of the records of opaque types.", "quantifier": "every form and every sequence of definitions, calls of the defined procedures and other allocations", "why_tests_cant": "the hierarchy of types, the clauses and the histories of records are unbounded; a test checks particular records.", "anchors": ["src/library/private/record.min: define-record-type", "src/core/s/prelude.min: make-record-type-descriptor, record-constructor, record-predicate, record-accessor, record-mutator, record-type-sealed?"]}
{"id": "C63", "title": "Exceptions and their report", "statement": "The prelude defines six exception types, five of them derived from &exn, and they stay those types whatever programs do. error, errorf, raise-argument-error, raise-arity-error, raise-range-error, raise-missing-error and raise-syntax-error, given arguments of the documented kinds, raise a new exception of exactly the right type whose fields are the arguments and the documented message; given anything else they raise an argument exception that names the procedure, what was expected and what was given; nothing else in the program changes. procedure-arity? accepts exactly counts and strictly increasing lists of counts (ending in () or #f) and always ends. An exception that nothing handles is reported to the error port as documented for its type (who, message, then the lines for its fields; uncaught exception for other values) and the process ends with status 1, also when fields hold unexpected values.", "quantifier": "every argument, state of the program (records, other objects, ports) and raised value", "why_tests_cant": "exceptions are raised with arbitrary values in arbitrary states, lists may be long or cyclic; a test sees a few messages.", "anchors": ["src/core/s/prelude.min: error, errorf, raise-argument-error, raise-arity-error, raise-range-error, raise-missing-error, raise-syntax-error, default-error-handler, procedure-arity?"]}
{"id": "C64", "title": "Loading files and the current directory", "statement": "load evaluates the forms of the file one after the other, in the directory of the file, whatever files these load in turn and whatever directories they move to; afterwards the process is again in the directory in which load was called, and (current-directory) answers its path; the value is that of the last form. (current-directory path) moves to the directory that path means or fails and changes nothing, and what (current-directory) answers leads back to the directory. A file that cannot be opened, or a form that is refused, is an error and leaves the directory as it was.", "quantifier": "every file system, program, chain of loads and directory changes", "why_tests_cant": "directories depend on the whole history of loads and changes, files load each other to any depth, and evaluation happens inside evaluation.", "anchors": ["src/core/c/system.c: load_file, get_file_dir, set_current_dir, load_proc, current_directory_proc, current_directory_set_proc", "src/core/c/eval.c: eval_istream, eval_expr", "src/core/s/prelude.min: load, current-directory"]}
{"id": "C65", "title": "The command line and the prompt", "statement": "minim takes the options -i/--interactive, -q/--quiet and --no-libs up to the first argument that does not start with a dash, or up to --, which is dropped; any other dashed argument is reported and the process ends with status 1 without evaluating anything. The remaining arguments are, in order and unchanged, what (command-line) answers; the first of them is imported, or loaded with -i or --no-libs. With -i, or when there is nothing to run, the prompt follows: the forms of the input are evaluated in order, each in the state the one before left, their results are written unless void, and at the end of the input the process ends with status 0.", "quantifier": "every list of arguments, every input at the prompt, every behaviour of the evaluated code", "why_tests_cant": "the argument lists are unbounded strings in any order, and a session at the prompt is an unbounded history of forms.", "anchors": ["src/boot/c/minim.c: handle_flags, unknown_flag_exn, main", "src/core/c/system.c: command_line_proc"]}
{"id": "C66", "title": "Equality and hashing of records", "statement": "equal? compares two records with the equality procedure of their types: the last one installed for the type, or else the one its parent had when the type was made. Records whose types do not have the same procedure are compared by the default procedure, and without one by identity. When the procedures compare parts of the records with the equal? they are given, equal? decides sameness of data of any nesting of pairs, vectors, boxes, strings and records, is an equivalence, and equal? data have the same equal-hash, provided that the hash procedures look at nothing but the compared parts.", "quantifier": "every history of type definitions and installations, every procedure of the described kind, all acyclic data without hashtables", "why_tests_cant": "user procedures and equal? call each other to any depth, and which procedure applies depends on the whole history of the types.", "anchors": ["src/core/s/prelude.min: equal?, equal-hash, record-equal-procedure, record-hash-procedure, record-type-equal-procedure, record-type-hash-procedure, default-record-equal-procedure, default-record-hash-procedure, make-record-type-descriptor", "src/core/c/record.c: default_record_equal_proc, default_record_hash_proc"]}
{"id": "C67", "title": "Macros defined by rules", "statement": "(syntax-rules (lit ...) ((k . p) t) ...) is accepted exactly in that shape, with symbols as literals and keywords, and defines the transformer whose clauses are the rules. A use of the macro is rewritten by the first rule whose pattern it matches, to the instance of the template of that rule with the parts of the use; the keyword plays no part in the match. A use that no rule matches is a bad-syntax error. with-syntax binds the variables of each of its patterns to the parts of the corresponding value, or is an error. Variables that a template introduces do not capture the variables of the use.", "quantifier": "every list of literals, every number of rules, every pattern and template of any nesting, every use", "why_tests_cant": "the choice of the rule and the instance depend on patterns, templates and uses of any size, nesting and number of repetitions.", "anchors": ["src/library/private/stxcase-extra.min: syntax-rules, with-syntax", "src/library/private/stxcase.min: syntax-case", "src/library/private/template.min: syntax", "src/library/expander.min: expand/expr"]}
{"id": "C68", "title": "Environments as values of a program", "statement": "For every history of calls of make-empty-environment, environment-ref, environment-set!, environment-symbols, copy-environment and current-environment, mixed with definitions and references to variables in the current environment, each environment behaves as its own table: environment-ref returns the value last set or defined, and if there is none it returns the third argument, or calls it when it is a procedure, or reports the missing name; environment-symbols lists every name once; a copy starts with the (named) variables of the original and is separate from it; a definition goes to the current environment; a wrong argument is an argument error about that argument.", "quantifier": "every history of calls of any length, with any arguments", "why_tests_cant": "the answer depends on the whole history of writes, copies and changes of the current environment.", "anchors": ["src/core/s/prelude.min: environment-ref, environment-set!, copy-environment, environment-symbols, current-environment", "src/core/c/env.c: top_env_find, environment_variable_set, current_environment"]}
{"id": "C69", "title": "Programs that do not end", "statement": "If the evaluation of a program, by the rules of the language, goes on for ever (calls nest, or follow one another in tail position, without bound), then the compiled program neither delivers results nor an error: the machine can always take another step.  Conversely, unless a program reaches a point where the C code has no defined behaviour, what the machine delivers is what the rules say, and the machine runs for ever only if the rules do.  Evaluation is deterministic: an expression yields one outcome, goes on for ever or goes wrong, and no two of these.", "quantifier": "every program over the core forms, every behaviour of the primitives, every number of steps", "why_tests_cant": "non-termination is a statement about every number of steps; a test can only observe that nothing has happened yet.", "anchors": ["src/core/c/eval.c: eval_istream, push_frame", "src/core/c/jitcompile.c: compile_app, compile_expr"]}
{"id": "C70", "title": "From program text to printed output", "statement": "A text that is a sequence of data, each a core expression, denotes one sequence of expressions; feeding the text to the main program prints exactly what evaluating those expressions by the rules of the language displays: for each form nothing if its value is void, the written form of its value and a newline otherwise, and a line for each of several values; up to the first error, which ends the session.  A datum that is not a core expression is reported before it is evaluated, and the forms before it have been evaluated and printed.  A text that cannot be read ends the session in the same way.", "quantifier": "every text, every program, every behaviour of the primitives, every set of system procedures", "why_tests_cant": "the claim composes reader, checker, optimiser, compiler, machine and printer, for all programs and all texts; each test runs one program.", "anchors": ["src/boot/c/minim.c: main", "src/core/c/read.c: read_object", "src/core/c/check.c: check_expr", "src/core/c/print.c: write_object", "src/core/c/jitcompile.c: compile_expr2", "src/core/c/eval.c: eval_expr"]}
{"id": "C71", "title": "Temporary names in expanded code", "statement": "Each call of gen-temp-id, with which the library's macros name the variables they introduce, returns an identifier whose name is the given name followed by a numeral and that no other call returns.", "quantifier": "every sequence of calls with any names", "why_tests_cant": "a clash depends on the names and the numbers of calls made before, over a whole session.", "anchors": ["src/library/private/gen-temp.min: gen-temp-id"]}
{"id": "C72", "title": "Names of procedures", "statement": "A procedure is named after the first variable that a definition or let binds to it, until procedure-rename gives it another name; procedure-name, write and arity errors show that name. procedure-rename returns a procedure that does the same under the new name and leaves its argument as it was. Programs that do not ask for names do the same whatever the names are.", "quantifier": "every history of bindings and renamings, every machine state, every procedure expression", "why_tests_cant": "the name depends on everything that happened to the procedure before, and on how the optimiser rewrote the form that bound it.", "anchors": ["src/core/c/eval.c: SET_NAME_IF_CLOSURE, tl_env_bind_values, env_bind_values, arity_mismatch_exn", "src/core/c/procedure.c: procedure_name_proc, procedure_rename_proc, Mclosure", "src/core/c/print.c: write_closure", "src/core/s/prelude.min: procedure-name, procedure-rename"]}
{"id": "C73", "title": "What a program error prints", "statement": "An error that the machine meets (a variable without value, the application of something that is not a procedure, a wrong number of arguments or results, apply of something that is not a list) that nothing handles ends the process with status 1 after a report on the error port that says what happened: the name of the procedure, if it has one, the message, and each object concerned as write prints it, on lines of their own. Outside any call the report is the short one of the runtime, with the same name, message and objects.", "quantifier": "every machine state at an error, every name, message and number of objects, every top-level expression whose meaning is an error", "why_tests_cant": "the report is put together by the machine, a handler in the prelude, error, formatted output and the default handler, in whatever state and depth of calls the error happens.", "anchors": ["src/core/c/eval.c: arity_mismatch_exn, result_arity_exn, bad_type_exn, do_apply", "src/core/c/error.c: do_error2", "src/core/s/prelude.min: error, c-error-handler"]}
{"id": "C74", "title": "Files", "statement": "While a file is open for output through one port, it holds at every moment the beginning of the text put into that port since it was opened, whatever else the program does and whenever the C library writes out its buffers; after flush-output-port, close-output-port or exit it holds all of the text put so far, and later text comes after it. Reading a file nobody writes to gives its characters in order, then the end-of-file object, and peek-char and char-ready? take nothing. No call changes or creates any other file, and open-input-file of a file that is not there fails.", "quantifier": "every world of files and ports, every history of calls on any number of ports, every schedule of buffer writes and fetches, every moment of it (crash point)", "why_tests_cant": "what is in a file at a crash depends on when buffers are written out, and on all interleavings of calls on all ports.", "anchors": ["src/core/c/io.c: open_input_file, open_output_file, close_output_port, put_string_proc, flush_output_proc, peek_char_proc", "src/core/s/prelude.min: open-output-file, put-string, flush-output-port"]}
{"id": "C75", "title": "Arguments of the port procedures", "statement": "Every procedure on ports checks its arguments before it does anything: if one is not what is asked (a string, an open input or output port, a character, a natural number) the call raises an error and changes neither files nor ports, and the error names the procedure, what was asked and the first wrong argument; if all are as asked, it complains of none. put-string with a start and a count writes that part of the string if it lies inside, and is a range error otherwise. write-char writes the character.", "quantifier": "every procedure on ports, all arguments of any type, every world of ports and files", "why_tests_cant": "the checks are written out by hand in every procedure and each combination of wrong arguments takes its own path.", "anchors": ["src/core/s/prelude.min: put-char, put-string, write-char, newline, open-input-string, close-input-port, get-output-string"]}
{"id": "C76", "title": "eval", "statement": "(eval e) continues with the code of e in place of the call, in the current top-level environment; (eval e env) runs it with env as the top-level environment and returns the values it returns. Either way the values and the changes to memory are those that e means, and an error of e is an error of the call. Definitions made by e go to that environment and change no other; afterwards the top-level environment is what it was before the call. eval with any other number of arguments is an arity error.", "quantifier": "all expressions, all environments, all machine states from which eval is called, runs of any length", "why_tests_cant": "eval switches the environment of the whole thread and must switch it back whatever code runs in between.", "anchors": ["src/core/c/jitprims.c: compile_eval", "src/core/c/eval.c: set_arg_symbol, get_tenv_symbol, set_tenv_symbol, do_eval_symbol", "src/core/c/env.c: current_environment, current_environment_set", "src/core/c/jit.c: compile_expr"]}
{"id": "C77", "title": "Which variables can be reported as used before initialisation", "statement": "When the evaluation of a program ends with 'cannot use before initialization', the variable named is either bound by a letrec-values of the program that binds something other than procedures, or is read outside of every form that binds it and is no defined global variable at that moment. Parameters of procedures, variables of let-values and mutually recursive procedures are never reported; a program whose forms only read variables defined beforehand or by earlier forms, and whose letrec-values bind only procedures, never ends with this error.", "quantifier": "All programs of core expressions, all initial stores without closures, all primitives that do not invent the internal mark of uninitialised variables, all evaluations that end", "why_tests_cant": "A test runs some programs; that no program whatever can observe an uninitialised parameter or let variable needs an invariant over all closures, cells and stores that evaluation can reach.", "anchors": ["src/core/c/eval.c: tl_env_lookup_value, env_lookup_value", "src/core/c/jitopt.c: jit_opt_L0_letrec_values, letrec_set_expr", "src/core/s/prelude.min: write-char, make-string, non-negative-integer?"]}
{"id": "C78", "title": "A program's definitions do not change the library, nor the library the program's variables", "statement": "A global variable changes only if an expression that is evaluated, or a procedure that is called, contains a set! or a define-values of it in the same environment. After the library is loaded and the program's environment is created as a copy of the base environment, every name has the library's value in it; from then on, whatever the program defines, redefines or assigns in its environments, the variables of the library that no library procedure assigns keep their values, so the library's procedures go on calling each other and not the program's replacements; and a variable of one environment changes only through code evaluated in that environment.", "quantifier": "All libraries and programs of core expressions, all environments and their interleavings, all stores without closures to begin with, all primitives over the heap, all evaluations that end (with a value or an error)", "why_tests_cant": "A test redefines a few names and calls a few procedures; that no redefinition whatever reaches the library needs an invariant over every closure, environment and store that evaluation can reach.", "anchors": ["src/core/c/system.c: load_prelude", "src/core/c/env.c: top_env_copy, top_env_insert", "src/core/c/eval.c: tl_env_bind_values, tl_env_lookup_cell, tl_env_rebind, env_rebind"]}
{"id": "C79", "title": "The library's list procedures, read and evaluated from their own text, do what their names say", "statement": "When the interpreter reads and evaluates the text that it loads at start-up for car, cdr, reverse, cons*, first, second to tenth, list-ref, member, remove, remove*, filter, foldl, foldr, assoc, index-of and list-set, evaluation succeeds, defines those variables and changes no other. From then on, as long as the variables of the library keep their values: car and cdr take pairs apart and raise an error for anything else; reverse reverses lists and raises an error for chains of pairs that are no list; second to tenth return the element at their position, and raise an error for lists that are too short and for chains that are no list; cons* puts its arguments in front of the last one; list-ref returns the element at a position (also of a chain that is no list), and raises an error for positions past the end and for indices that are no non-negative integer; list-set returns a new list with one element replaced, or raises an error; member returns the first element equal to the key (not the rest of the list), or #f, remove a new list without the elements equal to it, and both raise an error on reaching the end of a chain that is no list; remove* a new list without the elements equal to one of the keys; index-of the number of elements before the first equal one, or #f; assoc the first entry whose key is equal, or #f; filter calls its procedure once for each element from the left and returns the elements for which it returned a true value; foldl and foldr call it from the left with (accumulator element), from the right with (result element). Calls of procedures that return only add to the store: no existing object, variable or procedure changes, except what the procedure given to filter, foldl and foldr changes.", "quantifier": "All stores in which the built-in procedures behave as described (pair?, null?, list?, cons, $car, $cdr, $reverse, not, void, equal?, =, +, -, append, caar, non-negative-integer?, raise-argument-error, errorf), all later stores in which the library's variables keep their values, all lists and chains of pairs of any length (below 2^62 where positions are counted), all keys, indices and values, every equality that does not depend on what is allocated in the meantime, all procedures given to filter, foldl and foldr with whatever state of their own", "why_tests_cant": "The tests call these procedures on short literal lists. That the text in boot.min, after reading, compiling and binding its local loops, means this for every list, in every store the program can produce, is a statement about the text and the evaluator together.", "anchors": ["src/boot/s/boot.min: cons*, first, second, tenth, list-ref, member, remove, remove*, filter, foldl, foldr, assoc, index-of, list-set", "src/core/s/prelude.min: car, cdr, reverse", "src/library/private/list.min: member, remove, foldl, foldr", "src/boot/c/minim.c: load_library"]}
{"id": "C80", "title": "The boot file is byte for byte what gen-boot makes of the library's sources", "statement": "gen-boot reads each module of the library with the library's reader, expands it, and writes one line for each definition, in order, leaving out the definitions whose first name is excluded and every form that is no definition. When the definitions consist of data that write prints faithfully, loading the file finds exactly these forms. What a module expands to does not depend on further names in scope. The committed src/boot/s/boot.min is, byte for byte, this file for the ten committed modules. Loading it finds the definitions of the modules and nothing else, no name twice, with the two variables 0-char and 9-char of read.min renamed to 00-char and 99-char by the built-in reader; its first 21 forms are the texts that C79 is about.", "quantifier": "All modules, scopes and lists of excluded names for which gen-boot writes a file; for boot.min, all scopes that have the names the modules use", "why_tests_cant": "Nothing in the tests compares boot.min with the sources: a boot file that is out of date, or an expander that translates a form wrongly, only shows as misbehaviour later. The statements about what is written and read back are for all modules.", "anchors": ["src/library/gen-boot.min: boot-info, module-definitions, write-module-definitions, main", "src/boot/s/boot.min: cons*, foldl", "src/library/module.min: read/module", "src/library/expander.min: expand/module", "src/library/read.min: 0-char, 9-char", "src/library/private/set.min: gen:equal+hash", "src/core/c/system.c: load_file"]}
{"id": "C81", "title": "The path procedures do what paths are for, from their own text", "statement": "When the text of is-absolute-path?, path->list, build-path and split-path (lines 22-25 of boot.min) is read, compiled and evaluated: is-absolute-path? tells whether a path begins with a slash; path->list returns a new list of the elements of a path (a leading slash, and the slash of an empty component, are elements; other separators are not); build-path joins its parts, leaves out empty ones and puts one slash between two parts unless the part before it ends in one; split-path returns the pair of all elements but the last, joined, or #f if there are none, and the last. Anything that is no string is complained about by path->list and split-path. split-path of the empty path is a complaint of cdr, and build-path raises an error when its first part is empty and another one is not. The calls assign no variable and change no object that existed before. Joining the elements of a path gives the path back, unless it ends in a separator.", "quantifier": "All paths without NUL shorter than 2^62 bytes, all numbers of parts, all later stores in which the global variables the texts use have not been assigned, all built-in procedures that do what their contracts say", "why_tests_cant": "The tests run a handful of paths through the procedures. The statements are for every path and every number of parts, and for the text that the interpreter loads, with its loops and internal definitions.", "anchors": ["src/boot/s/boot.min: is-absolute-path?, build-path, split-path, path->list", "src/library/private/path.min: is-absolute-path?, build-path, split-path, path->list, string-terminates-with-/?", "src/core/c/eval.c: eval_expr"]}
{"id": "C82", "title": "substring from its own text, and the path procedures on top of it", "statement": "When the text of substring (line 62 of boot.min) is read, compiled and evaluated: with a string and indices 0 <= start <= end <= length it returns a new string of the characters from start up to end, and changes no object that existed before, although it fills the new string with string-set!. A start or an end that is no non-negative integer is complained about by substring, an end behind the string's end is a range error of substring. What is no string is complained about by string-length, and a start behind the end is an arity error of raise-range-error. The path procedures do what C81 says when substring is this text.", "quantifier": "All strings without NUL shorter than 2^62 bytes (for the range error, one byte less), all indices, all later stores in which the global variables the texts use have not been assigned, all built-in procedures that do what their contracts say", "why_tests_cant": "Tests take a few substrings. The statement is for every string and all indices, and says that the side effects stay in the new string.", "anchors": ["src/boot/s/boot.min: substring", "src/library/private/string.min: substring", "src/core/s/prelude.min: raise-range-error, make-string, string-set!"]}
{"id": "C83", "title": "The procedures for syntax objects from their own text", "statement": "When the texts of identifier?, free-identifier=?, stx-null?, stx-pair?, stx-list?, stx-car, stx-cdr, cons/#f and append/#f are read, compiled and evaluated: identifier? is true of exactly the syntax objects around a symbol; free-identifier=? says whether two identifiers have the same symbol, and complains about the first argument that is no identifier; stx-null?, stx-pair? and stx-list? say what null?, pair? and list? say of the object or of what is in the syntax object; stx-car and stx-cdr return the parts of a pair or of the pair in a syntax object, and complain about everything else; cons/#f and append/#f are cons and append unless the tail, or a list, is #f, and #f then; append/#f of an object and the empty list is that object itself, list or not. No call changes an object that existed before.", "quantifier": "All objects of all later stores in which the global variables the texts use have not been assigned, all lists of any length, all built-in procedures that do what their contracts say", "why_tests_cant": "Tests take a few syntax objects. The statement is for every object in every later store, with every outcome including which argument a complaint names.", "anchors": ["src/boot/s/boot.min: identifier?, free-identifier=?, stx-null?, stx-pair?, stx-list?, stx-car, stx-cdr, cons/#f, append/#f", "src/library/private/stx.min: identifier?, free-identifier=?, stx-null?, stx-pair?, stx-list?, stx-car, stx-cdr, cons/#f, append/#f", "src/core/s/prelude.min: syntax-e"]}
{"id": "C84", "title": "split-stx-list from its own text", "statement": "When the text of split-stx-list is read, compiled and evaluated, a call with an object, a number n and a flag follows the object through pairs and syntax objects around pairs and cuts it: it returns three values, a new list of the elements before the cut, the object after the cut itself, and whether what follows the cut counts n. What follows has as many elements as n minus what the end counts for (1 without the flag; with it 0 for an empty end and -1 for any other), or all or none of them if that is more than there are or negative. A proper list with at least n elements is so cut before its last n. No object that existed before is changed.", "quantifier": "All objects whose chain of pairs ends, of any length and with any mix of pairs and syntax objects, all n below 2^62, all flags, all later stores in which the global variables the texts use have not been assigned, all built-in procedures that do what their contracts say", "why_tests_cant": "Tests split a few lists. The statement is for every length and every n, and the recursion returns three values from every level.", "anchors": ["src/boot/s/boot.min: split-stx-list", "src/library/private/stx.min: split-stx-list", "src/core/c/env.c: null"]}
{"id": "C85", "title": "stx->list, stx-vector? and stx-null/#f from their own text", "statement": "When the texts of stx-vector?, stx-null/#f and stx->list are read, compiled and evaluated: stx-vector? says whether an object, or what is in a syntax object, is a vector; stx-null/#f returns the empty list for it and for a syntax object around it, and #f for everything else; stx->list returns the list in a syntax object itself, and a list of nothing but syntax objects itself, and #f for a list with another element, for a chain of pairs that is no list, in a syntax object or not, and for what is no pair. No call changes an object that existed before.", "quantifier": "All objects of all later stores in which the global variables the texts use have not been assigned, all lists of any length, all built-in procedures that do what their contracts say", "why_tests_cant": "Tests take a few objects. The statement is for every object and lists of every length.", "anchors": ["src/boot/s/boot.min: stx-vector?, stx-null/#f, stx->list", "src/library/private/stx.min: stx-vector?, stx-null/#f, stx->list", "src/core/s/prelude.min: andmap, andmap1"]}
{"id": "C86", "title": "scope-contains? from its own text", "statement": "When the text of scope-contains? is read, compiled and evaluated, it returns #t for a scope and a name if the name is in the set of the scope or of one of the scopes around it, and #f otherwise; so a name that is not in the innermost scope is found exactly if it is found in the scope around it. No object that existed before is changed.", "quantifier": "All chains of scopes of any depth that end with #f, all names, all sets whose members are not changed by new objects, all later stores in which the global variables the text uses have not been assigned, all built-in procedures that do what their contracts say", "why_tests_cant": "Tests nest a few scopes. The statement is for every depth.", "anchors": ["src/boot/s/boot.min: scope-contains?", "src/library/expander.min: scope-contains?, scope"]}
