(** Model of src/library/private/gen-temp.min: the names of temporaries in the code that
    the library's macros write.

    Simplification: the counter is an integer; it does not reach the largest fixnum. *)
From Coq Require Import ZArith NArith Bool Ascii String List.
From Verif Require Import Base Decimal.
Import ListNotations.
Local Open Scope list_scope.

(** gen-temp.min 7-13: (set! counter (+ counter 1)), then the symbol whose name is the
    given name followed by the numeral of the counter; the answer and the counter
    afterwards. *)
Definition gen_temp (name : list byte) (counter : N) : obj * N :=
  let c := (counter + 1)%N in (OSyntax (OSym (name ++ print_long (Z.of_N c))) OFalse, c).
(** Calls one after another *)
Fixpoint gen_temps (names : list (list byte)) (counter : N) : list obj * N :=
  match names with
  | [] => ([], counter)
  | n :: r => let '(x, c) := gen_temp n counter in let '(xs, c') := gen_temps r c in (x :: xs, c')
  end.
(** gen-temp.min 7 *)
Definition counter0 : N := 0.
