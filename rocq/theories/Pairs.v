(** Model of the pair accessors [car] ... [cddddr] and of [set-car!], [set-cdr!]:
    src/core/s/prelude.min:37-515 (with $car etc. from src/core/c/list.c). *)
From Coq Require Import ZArith NArith Bool Ascii String List Lia.
From Verif Require Import Base Heap HeapM.
Import ListNotations.
Local Open Scope string_scope.
Local Open Scope list_scope.

Inductive step_op := Car | Cdr.

(** All the accessors have the same shape: test [pair?], apply $car or $cdr, bind the
    result to [t] and go on; [oops!] blames the argument the accessor was called
    with. *)
Fixpoint walk (who : string) (x : val) (ops : list step_op) (t : val) : M val := fun h =>
  match ops with
  | [] => HOk t h
  | op :: r =>
      match pair_at h t with
      | Some (a, d) => walk who x r (match op with Car => a | Cdr => d end) h
      | None => HErr (EArg who x) h
      end
  end.

(** The accessors in the order of the file, with the $car/$cdr of each body from
    the first to the last executed: prelude.min:37-503. *)
Definition accessors : list (string * list step_op) :=
  [("car", [Car]);
   ("cdr", [Cdr]);
   ("caar", [Car; Car]);
   ("cadr", [Cdr; Car]);
   ("cdar", [Car; Cdr]);
   ("cddr", [Cdr; Cdr]);
   ("caaar", [Car; Car; Car]);
   ("caadr", [Cdr; Car; Car]);
   ("cadar", [Car; Cdr; Car]);
   ("caddr", [Cdr; Cdr; Car]);
   ("cdaar", [Car; Car; Cdr]);
   ("cdadr", [Cdr; Car; Cdr]);
   ("cddar", [Car; Cdr; Cdr]);
   ("cdddr", [Cdr; Cdr; Cdr]);
   ("caaaar", [Car; Car; Car; Car]);
   ("caaadr", [Cdr; Car; Car; Car]);
   ("caadar", [Car; Cdr; Car; Car]);
   ("caaddr", [Cdr; Cdr; Car; Car]);
   ("cadaar", [Car; Car; Cdr; Car]);
   ("cadadr", [Cdr; Car; Cdr; Car]);
   ("caddar", [Car; Cdr; Cdr; Car]);
   ("cadddr", [Cdr; Cdr; Cdr; Car]);
   ("cdaaar", [Car; Car; Car; Cdr]);
   ("cdaadr", [Cdr; Car; Car; Cdr]);
   ("cdadar", [Car; Cdr; Car; Cdr]);
   ("cdaddr", [Cdr; Cdr; Car; Cdr]);
   ("cddaar", [Car; Car; Cdr; Cdr]);
   ("cddadr", [Cdr; Car; Cdr; Cdr]);
   ("cdddar", [Car; Cdr; Cdr; Cdr]);
   ("cddddr", [Cdr; Cdr; Cdr; Cdr])].
Definition p_access (acc : string * list step_op) (x : val) : M val := walk (fst acc) x (snd acc) x.

(** [set-car!], [set-cdr!], prelude.min:505-515. *)
Definition p_set_car (p x : val) : M val := fun h =>
  if pairp h p then match m_set_car p x h with HOk _ h' => HOk VVoid h' | HErr e h' => HErr e h' | HUndef => HUndef | HFuel => HFuel end
  else HErr (EArg "set-car!" p) h.
Definition p_set_cdr (p x : val) : M val := fun h =>
  if pairp h p then match m_set_cdr p x h with HOk _ h' => HOk VVoid h' | HErr e h' => HErr e h' | HUndef => HUndef | HFuel => HFuel end
  else HErr (EArg "set-cdr!" p) h.
