(** Model of src/library/private/path.min on the contents of strings.

    A string is the list of its characters; substring and string-append are
    list operations here, which is what C19 proves about them for the indices
    used (0 <= start <= end <= length).  [None] is a raised error. *)
From Coq Require Import Ascii String List Arith Bool.
Import ListNotations.
Local Open Scope list_scope.

Notation str := (list ascii).
Definition slash : ascii := "/"%char.
Definition substr (s : str) (a b : nat) : str := firstn (b - a) (skipn a s).

(** is-absolute-path?, path.min:12-14 *)
Definition is_absolute (s : str) : bool :=
  match s with
  | [] => false
  | c :: _ => Ascii.eqb c slash
  end.

(** string-terminates-with-/?, path.min:18-20.  On the empty string the index
    is -1 and string-ref raises. *)
Definition ends_slash (s : str) : option bool :=
  match nth_error s (List.length s - 1) with
  | Some c => Some (Ascii.eqb c slash)
  | None => None
  end.

(** The loop of build-path, path.min:21-27: the pieces in reverse order. *)
Fixpoint build_loop (paths : list str) (accum : list str) : option (list str) :=
  match paths with
  | [] => Some (rev accum)
  | p :: r =>
      if List.length p =? 0 then build_loop r accum
      else match accum with
           | a :: _ =>
               match ends_slash a with
               | Some true => build_loop r (p :: accum)
               | Some false => build_loop r (p :: [slash] :: accum)
               | None => None
               end
           | [] => None
           end
  end.

(** build-path, path.min:17-28 *)
Definition build_path (base : str) (subs : list str) : option str :=
  match build_loop subs [base] with
  | Some ps => Some (List.concat ps)
  | None => None
  end.
(** [(apply build-path xs)]: an arity error on the empty list *)
Definition apply_build_path (xs : list str) : option str :=
  match xs with
  | [] => None
  | b :: r => build_path b r
  end.

(** loop2 of path->list, path.min:51-65: the index of the first slash from [i],
    [None] when [i] reaches the length. *)
Fixpoint find_slash (fuel : nat) (s : str) (i : nat) : option nat :=
  match fuel with
  | O => None
  | S f => match nth_error s i with
           | Some c => if Ascii.eqb c slash then Some i else find_slash f s (S i)
           | None => None
           end
  end.

(** The outer loop of path->list, path.min:45-65.  [None]: out of fuel. *)
Fixpoint list_loop (fuel : nat) (path : str) (accum : list str) : option (list str) :=
  if List.length path =? 0 then Some (rev accum)
  else match fuel with
       | O => None
       | S f =>
           let len := List.length path in
           match find_slash (S len) path 0 with
           | None => list_loop f [] (path :: accum)
           | Some i =>
               if i =? 0 then list_loop f (substr path 1 len) ([slash] :: accum)
               else list_loop f (substr path (i + 1) len) (substr path 0 i :: accum)
           end
       end.
(** path->list, path.min:42-65 *)
Definition path_list (path : str) : option (list str) := list_loop (List.length path) path [].

(** split-path, path.min:30-40: (directory or #f . last element). *)
Definition split_path (path : str) : option (option str * str) :=
  match path_list path with
  | Some es =>
      match rev es with
      | [] => None                       (* (cdr '()) raises *)
      | [e] => Some (None, e)
      | e :: rest => match apply_build_path (rev rest) with
                     | Some d => Some (Some d, e)
                     | None => None
                     end
      end
  | None => None
  end.
