# Formal model of bksaiki/Minim in Rocq (Coq 8.16.1)

`/repo` is read as text only. Nothing in it is built, run or changed. The model
is Gallina under `rocq/theories` (logical name `Verif`). Every definition cites
the file and lines it models.

## Conventions

* A C function becomes a total Gallina function. C memory is either a finite map
  from addresses to objects (where aliasing or mutation is what the property is
  about) or a tree (where the code only reads acyclic data).
* Undefined behaviour, aborts and errors are separate outcomes of the model, never
  silently a value.
* `long`/`uintptr_t` are `Z`/`N` with explicit `mod 2^64` where the code can wrap.
* External procedures (`less?`, hash functions, equality, record procedures) are
  function arguments or Section variables that end up as explicit quantifiers.
* `X.v` is the model, `XProofs.v` holds lemmas, `XThm.v` only final theorems,
  the examples that show their hypotheses are met, and `Print Assumptions`.
* A property that is false of the code is kept in full, with a `_refuted`
  theorem (concrete witness) and the strongest true `_partial` theorem.

## Plan per property

| id | model | proof |
|----|-------|-------|
| C01 | `write_fasl_uptr` / `read_fasl_uptr` over byte lists, 64-bit words | strong induction on the word |
| C02 | `write_fasl` / `read_fasl` over trees; reader with fuel, `OutOfFuel` excluded by the statement | induction on the datum |
| C03 | same, iterated | induction on the list |
| C04 | `write_fasl` returns an error outcome | induction on the datum, independent "serializable" predicate |
| C05 | bucket array of association lists with the prelude's `incr-size!`, `adjust!`, `decr-size!` | refinement to a finite map, invariant over op lists |
| C06 | heap of cells, buckets share cells as in C | separation invariant |
| C07 | `$hashtable-cells` order | permutation against the bindings of the spec map |
| C08 | intern table with `idx` computed before the resize as in the code | refuted (a name that triggers growth); partial between growths |
| C09 | allocation counter | injectivity, invariant |
| C10 | bucket array of cells, cells are heap locations | refinement, cell stability |
| C11 | `top_env_copy2` | separation of cells |
| C12-C14 | `long` arithmetic mod 2^64 with UB outcomes, prelude variadics | arithmetic, induction over argument lists |
| C15-C16 | trees with object identities | structural induction |
| C17 | heap of pairs, C loops | heap predicates `lseg`, framing |
| C18-C20 | heap arrays/strings with bounds outcome | case analysis, induction |
| C21 | heap of pairs, `merge!`, `sort!` | separation invariants, list-level merge sort spec |
| C22 | library `set.min` over the hash table model | from C05 |
| C23-C25 | byte-level reader and printer | induction on the datum with explicit delimiter context |
| C26 | trees with syntax nodes | structural induction |
| C27 | `check_expr` over s-expressions with UB outcome for car/cdr of non-pairs | induction |
| C28,C48 | instruction lists, labels, `resolve_refs`, `write_code`, `code_to_instrs` | induction over code |
| C29-C32 | source s-expressions, analyses, optimizer, compiler, VM | simulation |
| C33,C38 | VM with stack segments | invariant |
| C34-C37 | clause dispatch code, arity computation, `do_rest`, `do_apply`, `do_values` | induction |
| C39-C43 | record hash table of the mark/sweep collector | reachability, invariant over op lists |
| C44 | stream with position | history invariant, `get-output-string` resets the position |
| C45 | record vectors and parent chains | induction over the chain |
| C46 | promise boxes | history invariant |
| C47 | component lists and strings | induction |
| C49 | format string scanner | induction |
| C50 | VM `do_raise` / `do_error2` | case analysis |
| C51 | `char.c`, `symbol->string` over the intern table | case analysis |
| C52 | table of the accessors of the prelude over the heap of pairs | induction over the access path |
| C53 | reader of `read.min` over lists of characters | a grammar accepted by both readers, by induction over its derivations; refutations by computation |
| C54 | the loader of `module.min` with file system, expander and evaluator as parameters and a log of events | invariant on the log (each event is justified by the events before it) by induction over the depth of imports; cycles excluded because recorded modules are well-founded |
| C55 | the expander of `expander.min` on data, transformers and their evaluation as parameters, and its check for unknown variables | the check equals an independent free-variable relation by induction over the grammar of expanded code; fuel monotonicity gives determinism; identity on macro-free code by induction |
| C57 | the body expander of `expander.min` followed by the compiler and the semantics of C21 | the items of a body are an independent relation; the expander's loop is shown to produce one letrec-values form whose evaluation equals running the items, in both directions |
| C56 | the transformers of the library's derived forms, run by the expander model (C55) and compiled (C20) | one evaluation rule per form stated over the compiled parts; expansion computed step by step, then equivalence of evaluation and rule in both directions by induction on the parts |
| C58 | the matcher, variable collector and clause selector that `stxcase.min` generates, with fuel for nested patterns | an independent relation between pattern trees, values and bindings; the generated matcher on the syntax of a pattern tree equals a function by recursion on the tree, which is sound and complete for the relation |
| C59 | the template parser, the pass that moves constants and the operations it emits, run on the values of the variables, with fuel for nested templates | an independent substitution by recursion on template trees and environments; the compiled template on the syntax of a tree equals it; round trip with the matcher of C58 |
| C60 | the procedures of `enum.min`, with types identified by a number and the inner sets as lists used only for membership (C22) | an invariant over all sets that calls can make, by induction on the calls; each law from the invariant |
| C61 | the procedures and the macro of `generics.min`, with record types, interfaces and procedures known by identity and the hashtable as a finite map (C05) | induction over the sequence of calls; the arities through the model of C35 |
| C62 | the macro on data (the clauses it accepts, the names and definitions it makes), run on the records of C45 | the form by induction over the clauses; programs by an invariant on top of C45 (every type comes from a definition, its parent is not sealed, the tables are empty) |
| C63 | the exception types on the records of C45, the raising procedures and the default handler on the ports and format of C39 and C49; display, write and syntax->datum as parameters | direct proofs over the record invariant; the arity check by induction with the set of pairs met; the report by a small logic of silent and printing steps |
| C64 | a file system as a tree of positions, the lookup of paths, programs as trees of actions with arbitrary continuations, load_file with the strings it computes; evaluation inside evaluation on the machine of C31 and C50 | soundness by induction on steps against a big-step meaning on positions, completeness by mutual induction, an invariant of the machine for inner evaluations |
| C65 | handle_flags and main function by function, evaluation as parameters | induction over the arguments against a grammar of command lines; induction over the input against a big-step session |
| C66 | equal? and equal-hash with the tables of C45, user procedures as functions of the recursive procedure they are given | induction over the depth of the data against an inductive sameness relation; induction over it for hashing; invariant of the tables over histories |
| C67 | syntax-rules as the macro it is, written with the matcher of C58 and the templates of C59; the transformer its text stands for | the instance of its template for any number of rules by induction, the text of patterns and templates reads back, then C58 and C59 for the uses |
| C68 | the environment section of the prelude over the environments of C10, and the current environment | tables as functions from names; refinement step by step over the refinement of C10, by induction on the history |
| C69 | which calls an evaluation comes to, as relations beside those of Sem.v, and an interpreter with an outcome for 'still going' and one for 'undefined' | the interpreter yields, goes on or goes wrong exactly as the relations say (induction on expressions and on the depth of calls); every call the rules come to is a call the machine comes to (simulation as in C31), each costing at least one step |
| C70 | the loop of the main program over the models of reader, checker, optimiser, compiler, machine and printer, with data in the heap | a relation from data in memory to expressions, written from the grammar of the language; parsing computes it (induction on data); C25, C27, C31 and C32 composed, with the heap of the program's data in the store they start from |
| C71 | the counter and the name built from it | a numeral determines its number and a name that does not end in a digit can be told from the numeral after it |
| C72 | the machine of C31 with a table of names beside its closures | induction over runs against a history of bindings and renamings; programs run by the kernel for the refutations |
| C73 | the messages of the machine's errors, composed with the handlers of C50, the names of C72 and the reports of C63 | symbolic execution to the call of error (C50, C33), then the theorems of C63 with any number of objects |
| C74 | files by name with contents, ports as C streams with a buffer and a position, writing out of buffers as events | every call has one of six effects; an invariant for the sole writer of a file, one for its reader and one for a file at rest, by induction over histories |
| C75 | the checks of the prelude's procedures, a table of contracts as specification | case analysis against the table |
| C76 | the machine of C31 with the thread's top-level environment and the hand-written code of eval; environments as disjoint sets of global names | symbolic execution of the code of eval around an arbitrary run; the machine without eval is embedded step by step, so that the simulation of C31 gives the meaning |
| C77 | Over the semantics of Sem.v (which C31 and C32 relate to the machine): an invariant that gives every cell a name, says that a cell holds the mark only if its name is bound by a letrec-values that binds not only procedures, and that closures capture the names their code reads; by induction over evaluation. Letrec-values of procedures are handled apart, since their right-hand sides read no variable. |
| C78 | Over the semantics of Sem.v (which C31 and C32 relate to the machine): for one variable, an invariant that no closure of the store assigns it, kept by every evaluation (mutual induction); code that runs may assign it, code that is stored in closures may not. Evaluation in another environment is the expression with its free global names qualified by the environment's number, as the machine of C76 does with the instructions on top-level variables; a lemma shows that an expression so qualified assigns only names of its environment. |
| C79 | The verbatim lines of boot.min and prelude.min as strings; the reader model (Reader.v) and the compiler's view of forms (Check.v) turn them into core expressions inside the proof (by computation); the semantics Sem.v says what they do. Contracts describe procedures in a store and all later ones; each loop is proved by induction on the list, with facts relative to the store at the start of the call. |
| C80 | The sources and boot.min as verbatim lines of text (LibSource.v, LibBoot.v); gen_boot composes the models of the library's reader, the derived forms, define-record-type, define-generics, syntax-rules, the expander, and write. General theorems by induction on the modules; boot.min itself by computation inside the kernel, carried over to every larger scope by monotonicity of the expander's check. |
| C81 | The four lines verbatim (PathText.v), compiled by the models of the reader and the compiler, evaluated by the relational semantics of Sem.v. The built-in procedures are any that meet a contract each; the loops by induction on the rest of the path, on the position in it and on the list of parts. The elements of a path are those of C47. |
| C82 | As C81. The loop by induction on the number of characters left, with the invariant that the new string consists of the characters copied so far and the rest of what make-string put there; string-set! is described by what it overwrites, and since the string is newer than the call's start, the store has only grown when the loop ends. |
| C83 | As C81: the texts are compiled by Check and run by Sem in any later store; the built-in procedures are described by contracts. C83_list_of_tails_refuted shows that stx-list? is false of a pair whose tail is a syntax object around the empty list, although stx-cdr returns that tail and stx-null? is true of it. |
| C84 | On top of C83. The loop by induction on the chain, with lemmas for values and for let-values with three variables. C84_demands_proper_refuted: the claim that with the flag only proper lists are reported as matching is false. |
| C85 | As C83; andmap is described for predicates that answer by #t and #f and only add to the store, and the lambda that stx->list makes is shown to be one. C85_list_of_syntax_refuted: the claim that stx->list returns lists of syntax objects only is false. |
| C86 | As C83, the loop by induction on the chain of scopes. Sets are described by a function that says whether they have a member; scope-bound and scope-prev by the fields of the record. |

## What is modelled

Each file of the model, the code it follows, and the properties it serves. Line
numbers are in the comments of the definitions.

| model | code in /repo | properties |
|-------|---------------|------------|
| Base, Outcome, Heap, HeapM | object layout and tags of `minim.h`, the error procedures of the prelude as outcomes | all |
| Fasl | `fasl.c` | C01-C04 |
| Hashtable | `hashtable.c`, hashtable section of `prelude.min` | C05-C07 |
| Symbol | `symbol.c` | C08, C09, C51 |
| Env | `env.c` (top-level environments) | C10, C11 |
| Arith, Decimal | `number.c`, arithmetic section of `prelude.min` | C12-C14, C20 |
| Equal | `object.c`, `equal?` and `equal-hash` of `prelude.min`, `hashtable.c` hashing | C15, C16 |
| Lists | `list.c`, list sections of `prelude.min`, `list.min` | C17 |
| Vectors | `vector.c`, `box.c`, vector section of `prelude.min` | C18 |
| Strings | `string.c`, `char.c`, string section of `prelude.min`, `string.min` | C19, C20, C51 |
| Sort | `sort.min` | C21 |
| Sets | `set.min` | C22 |
| Reader | `read.c`, `print.c`, `write`/`display` of `prelude.min` | C23-C25 |
| Syntax | `syntax.c` | C26 |
| Check | `check.c` | C27 |
| Ast, FreeVars | `jitanalyze.c` | C30 |
| Code | `jitcommon.c`, `jit.c` (writing and listing of code) | C28, C48 |
| Compile, CompRel | `jitcompile.c`, `jitprims.c` | C28, C29 |
| Vm | the interpreter loop of `eval.c` with an unbounded stack | C31, C33, C34, C36, C37 |
| Stack | stack segments of `eval.c`, `thread.c`, `frame.c` | C36-C38 |
| Raise | `error.c`, `do_raise`, `do_error2` of `eval.c`, handlers of `prelude.min` | C50 |
| Opt | `jitopt.c` | C32 |
| Sem | not code: big-step semantics of core expressions, the specification of C31 and C32. EvalFun proves it deterministic, EvalRun an interpreter sound for it | C31, C32 |
| Gc | `src/gc/minim-gc` | C39-C43 |
| Port | string ports of `io.c` and `prelude.min` | C44 |
| Records | `record.c`, record section of `prelude.min` | C45 |
| Promise | `promise.min` | C46 |
| Path | `path.min` | C47 |
| Format | `fprintf`/`format` of `prelude.min` | C49 |
| Pairs | pair section of `prelude.min` | C52 |
| LibRead | `read.min` | C53 |
| Modules | `module.min`, `merge-xforms` of `expander.min` | C54 |
| Expand | `expander.min` | C55 |
| BodyProofs | meaning of bodies with definitions | C57 |
| Derived | `private/{and-or,cond,let,when-unless,define,case,do}.min` | C56 |
| StxCase | `stxcase.min`, `stx.min`: matcher, pattern variables, clauses | C58 |
| Template | `template-utils.min`, `template.min`: parsing, operations, substitution | C59 |
| Enum | `enum.min`: procedures on enumeration sets | C60 |
| Generics | `generics.min`: interfaces, registration, accessors, `define-generics` | C61 |
| DefRecord | `record.min`: `define-record-type` (form, names, what the definitions do) | C62 |
| Exn | `prelude.min` 2430-2644: exception types, raising procedures, `default-error-handler`; `procedure-arity?` | C63 |
| Files | `system.c` 21-40, 66-120, 138-168: loading files, the current directory; evaluation started inside another one (`eval.c` 437-466) | C64 |
| Main | `src/boot/c/minim.c`: options, the command line, the prompt | C65 |
| RecEq | `prelude.min` 1722-1745, 1792-1813, 1837-1934, `record.c` 146-168: equal? and equal-hash with procedures of record types | C66 |
| SynRules | `private/stxcase-extra.min` 12-25, `private/stxcase.min` 9-50, 610-709: syntax-rules, with-syntax | C67 |
| DerivedStx | the text of the definitions in `private/{case,do}.min`, as rules of SynRules | C56 |
| EnvLib | `prelude.min` 2328-2388: the procedures on environments | C68 |
| Diverge | the calls of an evaluation, on its way to a result or not; interpreter bounded by the depth of calls (specification side of `eval.c`/`jitcompile.c`) | C69 |
| Pipe | `src/boot/c/minim.c` main loop; data made by `read.c` in memory, taking forms apart (`jitcompile.c`, `jitopt.c`) in memory, lines printed | C70 |
| GenTemp | `src/library/private/gen-temp.min` | C71, C60 |
| EnumMac | `src/library/private/enum.min` 191-231 (define-enumeration and the macros it defines) | C60 |
| Names | `src/core/c/eval.c` 7-13, 27-62, 268-305, 342-369 (names), `src/core/c/procedure.c` 11-57, `src/core/c/print.c` 60-67 | C72 |
| ErrText | `src/core/c/eval.c` 23-66, 206-212, 312-316, 704 (messages), `src/core/c/error.c` 5-17 | C73 |
| IO | `src/core/c/io.c` (ports and files, all procedures but read), `src/core/s/prelude.min` 1183-1217, 1939-2024, 2160-2167, `src/core/c/system.c` 131-134 | C74, C75 |
| EvalPrim | `src/core/c/jitprims.c` 98-166 (eval), `src/core/c/eval.c` 565-573, 581-583 (set-arg, get-tenv, set-tenv, do-eval), `src/core/c/env.c` 255-262, `src/core/c/jit.c` 153-188 | C76 |
| InitProofs, InitThm | no new model of C code: the semantics Sem.v of C31; `src/core/s/prelude.min` 563-564, 808-823, 2015-2027 (non-negative-integer?, make-string, write-char) | C77 |
| FrameProofs, FrameThm | `src/core/c/system.c` 118-128 (load_prelude: base environment, then a copy), `src/core/c/env.c` 28-62 (top_env_copy); evaluation by the semantics Sem.v of C31 | C78 |
| DerivedErrThm | `private/{and-or,cond,let,when-unless,define,case,do}.min` (which uses the transformers refuse) | C56 |
| LibText, LibTextProofs, LibTextRun, LibTextThm | `src/boot/s/boot.min` 1-21 and `src/core/s/prelude.min` 37-47, 935-939, as text read by the reader model, parsed and evaluated (Sem.v) | C79 |
| LibSource, LibBoot | the ten modules of `src/library/gen-boot.min` 12-22 and `src/boot/s/boot.min`, verbatim | C80 |
| LibBuild, LibBuildProofs, LibBuildThm | `src/library/gen-boot.min` 34-78, on top of LibRead, Expand, Derived, DefRecord, Generics, SynRules and Reader | C80 |
| PathText, PathTextProofs, PathTextRun, PathTextThm | `src/boot/s/boot.min` 22-25 (`src/library/private/path.min` 12-65) as text, on top of Reader, Check and Sem | C81 |
| SubText, SubTextProofs, SubTextThm | `src/boot/s/boot.min` 62 (`src/library/private/string.min` 8-26) as text, on top of Reader, Check and Sem | C82 |
| StxText, StxTextProofs, StxTextThm | `src/boot/s/boot.min` 63-67, 69, 70, 73, 74 (`src/library/private/stx.min` 12-49, 59-69, 85-100) as text, on top of Reader, Check and Sem | C83 |
| StxSplit, StxSplitProofs, StxSplitThm | `src/boot/s/boot.min` 77 (`src/library/private/stx.min` 120-136) as text, on top of Reader, Check, Sem and C83 | C84 |
| StxMore, StxMoreProofs, StxMoreThm | `src/boot/s/boot.min` 68, 72, 76 (`src/library/private/stx.min` 51-57, 75-83, 108-118) as text, on top of Reader, Check, Sem and C83 | C85 |
| ScopeText, ScopeTextProofs, ScopeTextThm | `src/boot/s/boot.min` 89 (`src/library/expander.min` 55-59) as text, on top of Reader, Check and Sem | C86 |

Simplifications are stated at each definition. The main ones:

* `Vm`: one unbounded array of stack slots; segments, their growth and the limits
  they impose are the subject of `Stack`, where the operations are abstract frames
  and not instructions. Registers, environments and the code are those of the C
  code; labels are positions.
* `Opt`, `Sem`, `Compile`: expressions are parsed trees (`Ast`), not S-expressions.
  That accepted S-expressions parse is C27.
* C primitives are arbitrary functions of their arguments and the heap (`prim`).
  C32 asks of them that they allocate, and do not depend on addresses.
* Procedures passed to list functions, `sort` and hashtables are functions in the
  model; the statement says what effects they may have.
* `Gc`: the conservative scan of the stack is a list of words given with each
  operation; `malloc` results are arbitrary fresh addresses or failure.
* Allocation by the other primitives does not fail and nothing is moved or freed
  (the default build uses a collector that does not move objects).

## Not modelled

`libc` (streams are byte sequences with a position, `tmpfile` never fails),
`setjmp`/`longjmp` (modelled as the control transfer it is used for), Boehm GC
(default build), symbolic links and changes of the file system, memory pages (`system.c` 42-64), allocation
failure, the bootstrap file `src/boot/s/boot.min` as a program, apart from the lines of C79 (that it is what the sources expand to is C80; the library is otherwise modelled from its sources in `src/library`).

## Findings

Parts of the listed properties that are false of the code. Each has a `_refuted`
theorem with a concrete witness.

* C02: gensyms, strings with NUL and truncated input do not survive the FASL round trip.
* C08: `intern_symbol` computes the bucket before growing the table and uses it afterwards: a name interned at a growth point is interned twice.
* C11: `copy-environment` with duplicate names leaves stale cells; its mutability argument is ignored.
* C12, C13: `/` with three arguments subtracts, `/` by zero names an unbound variable, `*` blames the wrong argument, `remainder` and `modulo` by zero are undefined, `modulo -4 2` is 2.
* C14: comparisons of one argument return the argument.
* C15: `equal?` on hashtables is not symmetric.
* C18: `make-vector` wraps around for huge lengths and writes out of bounds.
* C19: `string-set!` with NUL shortens the string; one-argument `string-append` returns its argument; `string->list` adds a NUL.
* C20: `string->number` uses `atoi`.
* C23: empty vectors, control characters, the least fixnum, boxes, long tokens and odd symbols are not read back.
* C24, C25: a block comment before a closing bracket is an error; an unterminated vector loops; a quote at the end yields a null pointer.
* C27: operators, `call-with-values` and internal forms are not checked; the checker is undefined on `(begin)`, `(lambda)`.
* C30, C31: `define-values` inside a procedure hides free variables; `mv-values` in argument position counts pushed arguments.
* C32: the passes change programs with arity errors in immediate calls, multiple values as arguments, rebound `values`, rest parameters of consumers, consumers evaluated late, assigned globals.
* C35: `procedure-arity` is wrong when a later rest clause accepts fewer arguments.
* C36-C38: stack segments overflow for long `apply` lists, many values and deep recursion; growth loses the return address.
* C39-C43: reallocation during collection, finalizers skipped by `GC_free`, `GC_get_collectable`, roots after freeing a root, collection while paused when `malloc` fails.
* C44: `get-output-string` rewinds the port; closed ports are used.
* C45: sealed types can be extended, immutable fields mutated, types below a type with a writer cannot be made.
* C46: a producer that forces its own promise runs twice.
* C49: the directive `~~` is always an error.
* C50: errors outside of any call end the process whatever handler is installed.
* C51: `char->integer` is negative above 127.
* C53: the library's reader fails on a number at the end of the input, never returns from an unterminated block comment or vector, takes tabs for letters, puts the end-of-file object inside data, and reads `#'`, `#\\tab`, `\\t`, `#%car`, `12a`, `(a . (b))` differently from the built-in reader.
* C54: modules that import each other are read forever; a file is evaluated once per spelling of its path; `enter!` (and so `load`) passes the two environments in the wrong order, so the prompt does not see the module's definitions; an imported transformer is exported instead of the module's own variable of that name.
* C55: the variable assigned by set! is never looked up; formals that are not symbols pass the expander; `((begin quote) 1 2)` expands to a malformed quote form; a module's own macro is hidden by an imported one of the same name, or not, depending on the parity of the number of macros defined after it; a local variable does not shadow a macro; at the prompt only the first form of a begin is evaluated, yet the names the others define count as known; a definition in a body may have extra expressions, which are dropped, and may define the same variable twice.
* C57: a macro defined inside a body splits it: a procedure defined before it cannot call one defined after it, although the same body without the macro is accepted.
* C56: macros are not hygienic: or captures the variable or-t, case captures tmp, do captures loop, the initial expressions of a named let see the name of the loop, and a local variable named void changes what when, unless, cond and case return; a cond clause with only a test is refused.
* C58: a wildcard inside a list pattern, or a literal as its tail, makes the matcher raise an error instead of trying the next clause; a vector pattern with elements after an ellipsis matches them with the wrong patterns; an ellipsis does not match a list whose tail is wrapped in a syntax object.
* C59: a template with a tail after an ellipsis, `(x ... . tail)`, raises an error at run time; an ellipsis after a variable without ellipses in the pattern is accepted and then always fails; a second ellipsis is inserted as the symbol `...`.
* C60: `make-enumeration` keeps repeated symbols, so the list of a set may have a symbol twice and positions count the repetitions.
* C61: `define-generics` accepts two methods of one name, of which the second must be implemented but can never be obtained; the error of `generics-accessor` about a name that is no symbol shows the interface instead.
* C62: a type with `gen:custom-write` methods cannot be a parent: defining a child fails with an unbound identifier `v_`.
* C63: `raise-missing-error` complains about its arguments under the name `raise-argument-error`; an arity exception made with a cyclic list is reported forever.
* C64: a call of load whose value is used (not in tail position of a top-level form) ends in undefined behaviour as soon as the file has a form: the inner evaluation overwrites the return address of its frame with NULL; a directory is loaded as an empty file; after (current-directory "sub") the answer "sub" leads nowhere; an error in the first form, when handled, leaves the process in the directory of the file.
* C65: options without a file (minim -q) neither run anything nor prompt; -ixyz is taken as -i; a form with several values writes also the void ones.
* C66: default-record-hash-procedure without argument answers the default equality procedure: a default hash procedure is never used, and with a default equality procedure equal-hash calls that with a record and equal-hash; with a default procedure equal? is not transitive.
* C67: macros are not hygienic: the variables of a template capture those of the use; the name of a rule macro used alone is an error of car and not bad syntax; syntax-rules without rules cannot be used as a definition.
* C68: environment-ref of a missing name without a third argument is an arity error, since the procedure for that case has two parameters and is called with none; a wrong argument of environment-ref raises an undefined-variable error (raise-arugment-error); for a variable that code mentions but nobody defined the internal marker is returned; a variable whose value is the third argument counts as missing.
* C12: a zero divisor of / is reported, wherever it stands, as the unbound variable division-0-error, and a divisor that is not a number as an error of - (C12_div_zero_anywhere_refuted, C12_div_name_refuted).
* C18: the error of vector-fill! for a value that is not a vector names vector->list (C18_vector_fill_name_refuted).
* C71: gen-temp-id can return the same symbol for different names: (gen-temp-id x1) as the first call and (gen-temp-id x) as the eleventh both give x11; and the symbols are interned, so a program can use the same name (C71_distinct_refuted, C71_program_name_refuted).
* C60: two define-enumeration forms of one module can define the same hidden variable, named a1 first and a eleventh (C60_two_enumerations_refuted).
* C72: procedure-rename changes the name of its argument and returns it: the copy it makes is dropped. A procedure bound by letrec-values, or by let-values with two or more bindings, is named after a temporary of the optimiser (t0, t1, ...) and keeps that name when a variable is defined with it; the accessors and mutators of record types are such procedures, so their errors name the temporary. An arity error of a procedure with several clauses says expected between and prints the rest of the arity list instead of a bound..
* C73: apply reports a first argument that is not a procedure as not being a list, even when it is a list. The counts in a report about the number of results are converted to short: 65537 results where one is wanted are reported as 1 where 1 is wanted..
* C74: Two open output ports on one file overwrite each other (the file is opened with mode w, not in append mode): the text of a port that was flushed can be lost..
* C75: open-input-string of something that is not a string refers to a variable name that does not exist. put-char with a wrong port reports the character. put-string with a wrong count reports the start, and with a range outside the string refers to a variable str that does not exist. write-char refers to a primitive $write-char that does not exist and never works. close-input-port and close-output-port report as close-input-file and close-output-file. newline asks for an output port?..
* C76: The instruction set-arg ignores its register operand and stores the result register, which holds the expression. So (eval e env) does not save the top-level environment: when it returns, the environment of the thread is the expression e. (current-environment) then returns e, and the next lookup of a global variable at the top level treats e as an environment (undefined behaviour). After an error inside (eval e env) the environment stays env..
* C77: Procedures of the library read variables nobody defines. write-char calls $write-char, which is no primitive, so it fails for every character (C77_write_char_refuted); make-string reports its bad arguments through the undefined variables len and init (C77_make_string_refuted). The same holds of prelude.min:858 (s, string-append), 1762 and 1818 (v_), 1924 (hashtable->list), 1981-1982 (str), 2192 (xs) and 2365-2366 (raise-arugment-error)..
* C78: The copy that load_prelude makes passes mutablep = 0, but no code reads the flag (TODO in env.c): a program can redefine and assign every library name in its own environment. What protects the library is only that the copy has cells of its own (C78_without_copy shows the same definition in the base environment changing a library procedure's result)..
* C79: member returns the element that is equal to the key, not the rest of the list that begins with it: for a list that contains #f, (member #f lst) returns #f whether or not #f is in it. first of the empty list complains in the name of car. remove* returns its second argument unchanged, whatever it is, when there are no keys, and raises an error for a chain that is no list only if there is a key..
* C80: gen-boot drops every form that is no definition. set.min registers methods for comparing, hashing and printing sets with such forms (they are in its expansion), so in a system started from boot.min sets have none of them (C80_registrations_refuted). Loading boot.min does not give back exactly the definitions that were written: the built-in reader reads the variable 0-char of read.min as 00-char (C80_read_back_refuted); nothing breaks because all uses are renamed alike. The symbol of one dot in read.min survives only because a parenthesis, not a space, follows it..
* C81: The slashes in what path->list and split-path return are the literal in the procedure's own text: after string-set! on one of them, path->list returns the changed string for every path from then on (C81_fresh_slash_refuted). split-path of the empty path complains about cdr of '(), and build-path with an empty first part and another non-empty one fails in string-ref with the index -1, an error that names neither procedure..
* C82: substring calls raise-range-error with five arguments instead of six when start is behind end, so the program gets an arity error about raise-range-error. It takes the string's length before checking that it is a string, so its own check can never fail: the complaint comes from string-length..
* C83: free-identifier=? compares symbols and no bindings, so identifiers of one name in different scopes are the same for it. stx-car and stx-cdr never complain in their own name: the complaint comes from syntax-e, or from car or cdr about the datum. stx-list? is false of lists with a tail that is a syntax object, although stx-pair?, stx-cdr and stx-null? walk them to the end..
* C84: With the flag, split-stx-list is to report a match for proper lists only. The end of an improper list counts for -1 where the comment in the source says minus infinity, so that every improper list with more than n pairs is reported as a match, with one element too many after the cut: (split-stx-list '(1 2 . 3) 0 #t) returns (1), (2 . 3) and #t (C84_demands_proper_refuted, split_improper_example)..
* C85: stx->list checks the elements of a list, but not those of a list in a syntax object, and returns that list whatever its elements are (C85_list_of_syntax_refuted, more_objects_example). Where a syntax object holds a list whose tail is a syntax object, it returns #f..

## Trusted base

* Coq 8.16.1's kernel (and `coqchk`).
* That the definitions of the model say what the cited C and Minim code does: the
  comments give the lines; nothing connects the two mechanically.
* The specifications: the statements in the `*Thm.v` files and the definitions
  they mention.
* No axioms: `Print Assumptions` prints "Closed under the global context" for each
  of the 735 theorems below. No standard library axiom is used either.

| property | file | theorems (all closed under the global context) |
|---|---|---|
| C01 | FaslThm | `uptr_prefix_free`, `uptr_roundtrip`, `uptr_size` |
| C02 | FaslThm | `fasl_injective`, `fasl_roundtrip`, `fuel_irrelevant`, `gensym_refuted`, `nul_string_refuted`, `truncated_input_refuted` |
| C03 | FaslThm | `fasl_sequence` |
| C04 | FaslThm | `fasl_write_rejects` |
| C05 | HashtableThm | `hashtable_refines_map`, `spec_get_delete`, `spec_get_set` |
| C06 | HashtableThm | `copy_independent`, `isolation`, `observation_exists` |
| C07 | HashtableThm | `entries_enumerate` |
| C08 | SymbolThm | `different_names`, `history_completes`, `same_name_partial`, `same_name_refuted`, `same_name_small` |
| C09 | SymbolThm | `gensym_fresh`, `gensym_name`, `gensym_names` |
| C10 | EnvThm | `capture_reads`, `capture_writes`, `environment_refines_map`, `get_after_set`, `new_empty` |
| C11 | EnvThm | `copy_all_contents`, `copy_contents_partial`, `duplicate_names_refuted`, `immutable_copy_refuted`, `isolation` |
| C12 | ArithThm | `add1`, `add1_type_error`, `add_exact`, `add_total`, `add_type_error`, `div_name_refuted`, `div_partial`, `div_variadic_refuted`, `div_zero_anywhere_refuted`, `div_zero_refuted`, `mul_exact`, `mul_total`, `mul_type_error`, `mul_type_error_refuted`, `neg_total`, `remainder`, `remainder_type_error`, `remainder_zero_refuted`, `sub1`, `sub_exact`, `sub_total`, `sub_type_error` |
| C13 | ArithThm | `modulo_partial`, `modulo_refuted`, `modulo_type_error`, `modulo_unique` |
| C14 | ArithThm | `eq_chain`, `eq_short_circuit`, `eq_type_error`, `ge_chain`, `ge_short_circuit`, `ge_type_error`, `gt_chain`, `gt_short_circuit`, `gt_type_error`, `le_chain`, `le_short_circuit`, `le_type_error`, `lt_chain`, `lt_short_circuit`, `lt_type_error`, `one_argument_refuted` |
| C15 | EqualThm | `c_equal_decides_structure`, `eq_implies_equal`, `equal_decides_structure`, `equivalence`, `hashtable_symmetry_refuted` |
| C16 | EqualThm | `equal_data_same_hash`, `hash_is_fixnum` |
| C17 | ListErrThm | `append_rejects`, `assoc_no_pair`, `assoc_rejects`, `assq_ref`, `assq_set`, `filter_rejects`, `foldl_rejects`, `foldr_rejects`, `index_of_rejects`, `list_ref_rejects`, `list_set_rejects`, `map_lengths`, `map_rejects`, `member_rejects`, `rejects_improper`, `rejects_indices`, `remove_rejects`, `remove_star_rejects` |
| C17 | ListsThm | `andmap`, `append`, `assoc`, `calls_keep_arguments`, `cons_star`, `copy_list`, `enumerate`, `filter`, `foldl`, `foldr`, `for_each`, `index_of`, `iota`, `length`, `list_ref`, `list_set`, `make_list`, `map`, `member`, `ormap`, `remove`, `remove_star`, `reverse` |
| C17 | VectorsThm | `list_to_vector`, `vector_to_list` |
| C18 | VectorsThm | `boxes`, `make_vector_partial`, `make_vector_refuted`, `make_vector_rejects`, `ref_after_set`, `vector`, `vector_fill`, `vector_fill_name_refuted`, `vector_length`, `vector_ref`, `vector_set` |
| C19 | StringsThm | `append_fresh_refuted`, `append_rejects`, `conversions_reject`, `list_to_string`, `list_to_string_inverse`, `make_string`, `make_string_rejects`, `make_string_rejects_fill`, `ref_after_set`, `set_nul_refuted`, `string_append`, `string_length`, `string_ref`, `string_set`, `string_to_list_partial`, `string_to_list_refuted`, `substring`, `substring_rejects` |
| C20 | StringsThm | `decimal_text`, `number_to_string`, `rejects`, `round_trip_partial`, `round_trip_refuted` |
| C21 | SortThm | `any_less`, `not_a_sequence`, `sort_list`, `sort_vector` |
| C22 | SetsThm | `arguments_unchanged`, `count_unique`, `sets_refine_finite_sets` |
| C23 | WriteThm | `box_refuted`, `control_characters_refuted`, `dot_refuted`, `empty_vector_refuted`, `least_fixnum_refuted`, `long_string_refuted`, `odd_symbol_refuted`, `print_quote_refuted`, `print_read_partial`, `string_text`, `write_injective_partial`, `write_read_partial`, `write_sequence_partial` |
| C24 | ReaderThm | `blank_in_list`, `blank_in_vector`, `blank_prefix`, `block_comment`, `comment_before_bracket_refuted`, `datum_comment`, `last_comment` |
| C25 | ReaderThm | `digit_values`, `digits`, `end_of_input_is_an_error`, `grammar`, `list_ends_with_matching_bracket`, `mismatch_is_an_error`, `quote_at_end_refuted`, `stray_bracket`, `unterminated_vector_refuted`, `vector_ends_with_bracket` |
| C26 | SyntaxThm | `datum_to_syntax`, `list_elements`, `not_syntax_is_an_error`, `round_trip`, `syntax_of_syntax`, `syntax_to_datum`, `syntax_to_list` |
| C27 | CheckThm | `accepted_parses_partial`, `call_with_values_refuted`, `checker_accepts_core`, `checker_returns`, `checker_undefined_refuted`, `internal_form_refuted`, `operator_unchecked_refuted`, `rejects_others` |
| C28 | CodeThm | `jumps_land_after_their_label`, `writing_succeeds` |
| C28 | CompThm | `compilation_succeeds`, `compiled_jumps`, `primitives_jump`, `targets_in_range` |
| C29 | CompThm | `slots_in_frame` |
| C30 | CompThm | `define_hides_refuted`, `free_variables_partial`, `no_spurious_variable` |
| C31 | SimThm | `inner_definition_refuted`, `programs_partial`, `programs_unique_partial`, `values_in_argument_refuted` |
| C32 | OptThm | `assignment_value_refuted`, `atomic_results_partial`, `consumer_order_refuted`, `dropped_argument_refuted`, `missing_argument_refuted`, `nested_values_refuted`, `optimised_execution_partial`, `optimised_programs_partial`, `optimiser_result_unique`, `optimiser_terminates`, `rebound_values_refuted`, `rest_consumer_refuted`, `values_as_arguments_refuted` |
| C33 | SimThm | `tail_calls_constant_continuation`, `top_level_loop` |
| C34 | SimThm | `arity_error`, `clause_selected` |
| C35 | CompThm | `arity_partial`, `arity_refuted`, `not_an_arity_refuted`, `primitive_arity` |
| C36 | SimThm | `apply_arity`, `apply_rejects`, `apply_spreads_partial` |
| C36 | StackThm | `list_moves_to_new_segment`, `long_list_refuted` |
| C37 | SimThm | `consumer_receives_partial`, `define_values_partial`, `let_values_partial`, `values_returns` |
| C37 | StackThm | `many_values_refuted` |
| C38 | StackThm | `deep_recursion_refuted`, `frames_preserved_partial`, `grown_segment_holds_arguments`, `return_address_lost_refuted` |
| C39 | GcThm | `collection_keeps_reachable`, `reachable_kept_partial`, `realloc_refuted`, `total` |
| C40 | GcThm | `final_before_free`, `finalize_frees_all`, `finalize_total`, `free_finalizer_refuted`, `no_second_free`, `only_registered_freed`, `reachable_not_freed`, `unreachable_freed_once` |
| C41 | GcThm | `allocated`, `collectable_partial`, `collectable_refuted`, `reachable`, `registered_blocks` |
| C42 | GcThm | `free_root_refuted`, `others_partial`, `realloc`, `root_persists` |
| C43 | GcThm | `alloc_collects_iff_partial`, `calloc_collects_iff_partial`, `others_never_collect`, `paused_refuted` |
| C44 | PortThm | `defined_without_close`, `get_output_string_partial`, `get_twice_refuted`, `ports_are_queues_partial`, `read_string`, `use_after_close_refuted` |
| C45 | RecordsThm | `constructor`, `field_names`, `field_names_refuted`, `immutable_refuted`, `initial_value`, `last_store`, `never_undefined`, `no_overlap`, `predicate`, `rejects`, `sealed_refuted`, `writer_refuted` |
| C46 | PromiseMacThm | `delay_macro` |
| C46 | PromiseThm | `cached_result_partial`, `force_returns_last_result`, `lazy_forces_completely`, `never_called_again`, `not_a_promise`, `reentrant_refuted` |
| C47 | PathThm | `absolute`, `build_path_undoes_path_list`, `elements_unique`, `empty_components_ignored`, `empty_path`, `path_list_elements`, `split_path`, `trailing_separator_dropped` |
| C48 | CodeThm | `listing_exact`, `listing_inverts_writing` |
| C49 | FormatThm | `argument_count`, `error_iff_partial`, `format_partial`, `fprintf_partial`, `not_a_port`, `tilde_refuted` |
| C50 | RaiseThm | `c_error_becomes_error_partial`, `c_error_calls_handler_partial`, `handler_installed`, `program_error_partial`, `raise_calls_handler`, `raise_without_handler`, `top_level_refuted` |
| C51 | StringsThm | `char_round_trip`, `integer_round_trip`, `nonnegative_refuted`, `rejects`, `string_round_trip`, `symbol_round_trip` |
| C52 | PairsThm | `accessors`, `names`, `set_car`, `set_cdr` |
| C53 | LibReadThm | `blanks_ignored`, `both_readers_agree`, `brackets_match`, `comment_before_closing_refuted`, `eof_inside_datum_refuted`, `number_at_end_refuted`, `outcomes_exclusive`, `read_consumes_a_prefix`, `read_deterministic`, `readers_differ_refuted`, `syntax_keeps_the_datum`, `tab_is_a_letter_refuted`, `unterminated_comment_hangs_refuted`, `unterminated_vector_hangs_refuted`, `write_read_partial` |
| C54 | ModulesThm | `acyclic_import_ends`, `cycle_never_loaded`, `cyclic_import_hangs_refuted`, `evaluated_once`, `expander_input`, `exports`, `failed_import`, `import_again`, `import_deterministic`, `import_loads_all`, `import_runs_only_imports`, `imports_first`, `one_evaluation_per_file_refuted`, `own_definition_exported_refuted`, `prompt_sees_definitions_refuted`, `starting_environment` |
| C55 | ExpandFormsThm | `begin_spliced`, `improper_refused`, `local_macro_scope`, `macros_at_use`, `malformed_definition_refused`, `malformed_refused`, `module_macro_scope`, `redefinition_refused` |
| C55 | ExpandThm | `accepted_module`, `assigned_unknown_refuted`, `check_answers`, `duplicate_definition_refuted`, `expanded_code_compiles`, `expansion_deterministic`, `extra_expression_dropped_refuted`, `formals_unchecked_refuted`, `local_shadows_macro_refuted`, `macro_recorded`, `module_variables`, `operator_becomes_keyword_refuted`, `own_macro_shadowed_refuted`, `plain_code_unchanged`, `prompt_begin_refuted`, `prompt_macro`, `unknown_variables`, `unknown_variables_rejected` |
| C56 | DerivedErrThm | `accepted`, `refused` |
| C56 | DerivedStxThm | `case_else_macro`, `case_macro`, `case_test_macro`, `do_macro` |
| C56 | DerivedThm | `and`, `case`, `case_captures_refuted`, `case_without_else`, `cond`, `cond_test_only_refuted`, `define_procedure`, `define_top`, `define_variable`, `do`, `do_captures_refuted`, `let`, `let_star`, `letrec`, `named_let`, `named_let_scope_refuted`, `one_meaning`, `or_captures_refuted`, `or_partial`, `scope_entry`, `unless`, `when`, `when_void_refuted` |
| C57 | BodyThm | `definitions_around_macro_refuted`, `early_use`, `ends_in_definition_rejected`, `internal_definitions`, `lambda_body`, `one_meaning` |
| C58 | StxCaseThm | `datum_flat`, `ellipsis_refused`, `first_clause`, `match`, `match_partial`, `match_sound`, `tail_literal_refuted`, `unique`, `variables`, `vector_ellipsis_refuted`, `wildcard_error_refuted`, `wrapped_tail_refuted` |
| C59 | TemplateThm | `extra_ellipsis_refuted`, `instance`, `refused`, `roundtrip`, `second_ellipsis_refuted`, `tail_refuted`, `template_partial` |
| C60 | EnumMacThm | `constructor_macro`, `define_enumeration`, `define_enumeration_refuses`, `macro_text`, `name_macro`, `two_enumerations_refuted` |
| C60 | EnumThm | `arguments_checked`, `complement`, `constructor`, `de_morgan`, `equal`, `equal_lists`, `indexer`, `list`, `list_partial`, `make`, `operations`, `order`, `projection`, `repeated_symbol_refuted`, `roundtrip`, `subset`, `types_apart` |
| C61 | GenericsThm | `accepted`, `define`, `error_value_refuted`, `implementable`, `in_bounds`, `instance`, `instance_other`, `lambda`, `method`, `method_arity`, `repeated_method_refuted` |
| C62 | DefRecordThm | `accessor`, `attributes`, `constructor`, `custom_write_parent_refuted`, `define`, `form`, `full_form`, `history`, `immutable`, `mutator`, `opaque`, `other_forms`, `predicate`, `rejects`, `sealed` |
| C63 | ExnThm | `always_exits`, `argument_error`, `argument_error_refused`, `arity_error`, `arity_error_refused`, `cyclic_arity_refuted`, `error`, `error_refused`, `error_to_exit`, `errorf`, `errorf_refused`, `kinds`, `missing_error`, `missing_error_name_refuted`, `missing_error_refused`, `range_error`, `range_error_refused`, `report`, `syntax_error`, `syntax_error_refused`, `types`, `types_stay` |
| C64 | FilesThm | `bottom_evaluation`, `change_directory`, `directory_loaded_refuted`, `directory_not_restored_refuted`, `file_directory`, `inner_evaluation`, `inner_evaluation_refuted`, `load_complete_partial`, `load_partial`, `missing_file`, `nested_load_partial`, `nested_load_refuted`, `reported_directory_partial`, `reported_directory_refuted`, `result_unique` |
| C65 | MainThm | `arguments_complete`, `main`, `no_prompt_refuted`, `options`, `prompt`, `unknown_option`, `unknown_option_exits` |
| C66 | RecEqThm | `default_hash_refuted`, `default_transitivity_refuted`, `different_procedures`, `equal_decides_partial`, `equivalence_partial`, `hash_partial`, `inherited`, `installed` |
| C67 | SynRulesThm | `accepted`, `bare_use_refuted`, `definition`, `hygiene_refuted`, `keyword`, `no_rules_refuted`, `text`, `use_partial`, `with_syntax` |
| C68 | EnvLibThm | `copy_is_separate`, `default_value_refuted`, `missing_key_always`, `missing_key_refuted`, `refines_partial`, `set_then_ref`, `undefined_variable_refuted`, `wrong_argument_refuted` |
| C69 | DivergeThm | `deterministic`, `diverges`, `endless_programs_run_on`, `ends_or_runs_on`, `exclusive`, `progress`, `results_are_the_meaning`, `running_programs_are_endless`, `state_is_the_meaning`, `yields` |
| C70 | PipeThm | `denotation_unique`, `ill_formed_partial`, `text_to_output_partial` |
| C71 | GenTempThm | `distinct_partial`, `distinct_refuted`, `identifier`, `program_name_refuted`, `same_name` |
| C72 | NamesThm | `arity_report_partial`, `arity_report_refuted`, `defined_procedure`, `let_refuted`, `letrec_refuted`, `names_do_not_matter`, `names_from_history`, `names_stay`, `procedure_name`, `rename_keeps_argument_refuted`, `rename_partial`, `rename_refuted`, `written_name` |
| C73 | ErrTextThm | `apply_partial`, `apply_refuted`, `arity`, `error_ends`, `error_to_exit`, `no_value`, `not_a_procedure`, `program_partial`, `results_partial`, `results_refuted` |
| C74 | IOThm | `complete`, `durable`, `missing`, `others_unchanged`, `prefix`, `read`, `round_trip`, `two_ports_refuted` |
| C75 | IOThm | `accepted`, `range_partial`, `range_refuted`, `refused`, `reported_partial`, `reported_refuted`, `write_char_refuted` |
| C76 | EvalPrimThm | `arity`, `captured`, `current_environment`, `define`, `environment_refuted`, `error_partial`, `meaning_partial`, `no_expression`, `one_argument`, `set`, `two_arguments_partial`, `variable` |
| C77 | InitThm | `error_names`, `in_order`, `machine_partial`, `make_string_refuted`, `no_error`, `write_char_refuted` |
| C78 | FrameThm | `copy_same`, `library_kept`, `only_assigned`, `program_kept` |
| C79 | LibTextThm | `assoc`, `car`, `cdr`, `cons_star`, `eighth`, `fifth`, `filter`, `first`, `foldl`, `foldr`, `fourth`, `index_of`, `list_ref`, `list_set`, `member`, `member_of_false`, `ninth`, `only_outcome`, `remove`, `remove_star`, `reverse`, `second`, `seventh`, `sixth`, `tenth`, `texts_define`, `texts_load`, `texts_read`, `third` |
| C80 | LibBuildThm | `boot_file`, `boot_min`, `boot_min_definitions`, `boot_min_names`, `file_data_unique`, `kept`, `list_min`, `list_texts`, `more_scope`, `read_back_refuted`, `registrations_refuted` |
| C81 | PathTextThm | `build_path`, `fresh_slash_refuted`, `is_absolute`, `joined_elements`, `path_list`, `split_path`, `texts`, `texts_read` |
| C82 | SubTextThm | `build_path`, `is_absolute`, `path_list`, `split_path`, `substring`, `text`, `text_read` |
| C83 | StxTextThm | `append_f`, `cons_f`, `free_identifier`, `identifier`, `list_of_tails_refuted`, `stx_car`, `stx_cdr`, `stx_list`, `stx_null`, `stx_pair`, `texts`, `texts_read` |
| C84 | StxSplitThm | `demands_proper_refuted`, `proper`, `split`, `text_read`, `texts` |
| C85 | StxMoreThm | `list_of_syntax_refuted`, `stx_null_f`, `stx_to_list`, `stx_vector`, `texts`, `texts_read` |
| C86 | ScopeTextThm | `around`, `contains`, `text`, `text_read` |
