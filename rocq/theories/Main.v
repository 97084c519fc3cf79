(** The command line and the prompt: src/boot/c/minim.c:15-125, src/core/c/system.c:132-153,
    src/core/c/thread.c:27.

    Evaluation is a parameter ([None]: the process ended during it); the input is the list
    of the data that read_object returns; write_object is a parameter of the examples. *)
From Coq Require Import ZArith NArith Bool Ascii String List Arith Lia.
From Verif Require Import Path.
Import ListNotations.
Local Open Scope list_scope.
Local Open Scope nat_scope.

Definition txt (s : string) : str := list_ascii_of_string s.
Definition str_eqb (a b : str) : bool := if list_eq_dec ascii_dec a b then true else false.

(** The flags, minim.c:15-17. *)
Record opts : Type := Opts { o_interactive : bool; o_library : bool; o_quiet : bool }.
Definition no_opts : opts := Opts false true false.
Definition set_interactive (o : opts) : opts := Opts true (o_library o) (o_quiet o).
Definition set_no_library (o : opts) : opts := Opts (o_interactive o) false (o_quiet o).
Definition set_quiet (o : opts) : opts := Opts (o_interactive o) (o_library o) true.
Inductive parsed : Type :=
| PUnknown (flag : str)                    (* unknown_flag_exn, minim.c:19-22 *)
| POk (o : opts) (rest : list str).        (* the arguments from argi on *)

(** handle_flags, minim.c:24-53; [args] are argv[1], argv[2], ...  A string ends where its
    characters do: argv[i][1] of a string of one character is NUL. *)
Fixpoint handle_flags (o : opts) (args : list str) : parsed :=
  match args with
  | [] => POk o []
  | a :: r =>
      match a with
      | c :: t =>
          if Ascii.eqb c "-" then
            match t with
            | d :: u =>
                if Ascii.eqb d "-" then
                  match u with
                  | [] => POk o r
                  | _ => if str_eqb a (txt "--interactive") then handle_flags (set_interactive o) r
                         else if str_eqb a (txt "--no-libs") then handle_flags (set_no_library o) r
                         else if str_eqb a (txt "--quiet") then handle_flags (set_quiet o) r
                         else PUnknown a
                  end
                else if Ascii.eqb d "i" then handle_flags (set_interactive o) r
                else if Ascii.eqb d "q" then handle_flags (set_quiet o) r
                else PUnknown a
            | [] => PUnknown a
            end
          else POk o args
      | [] => POk o args
      end
  end.

Section Main.
  Variables S F V : Type.            (* states of the system, forms, values *)
  Variable voidp : V -> bool.
  (** load_prelude and load_library, minim.c:55-60, 76-79; the two forms built for the file,
      minim.c:84-98; eval_expr after check_expr, minim.c:108-109. *)
  Variable prelude : option S.
  Variable library : S -> option S.
  Variable import_ : S -> str -> option S.
  Variable load_ : S -> str -> option S.
  Variable eval : S -> F -> option (list V * S).
  (** tc_command_line, minim.h:813. *)
  Variable set_command_line : S -> list str -> S.

  Inductive out : Type :=
  | OBanner                          (* Minim v... *)
  | OUnknown (flag : str)            (* on the error port *)
  | OPrompt                          (* "> " *)
  | OValue (v : V).                  (* write_object, then a newline *)
  (** How the process ends: exit with a status, or during an evaluation. *)
  Inductive ending : Type := EExit (code : nat) (s : option S) | EInside.

  (** minim.c:110-121: multiple values are all written; one value unless it is void. *)
  Definition show (vs : list V) : list out :=
    match vs with
    | [v] => if voidp v then [] else [OValue v]
    | _ => map OValue vs
    end.
  (** The prompt, minim.c:101-123. *)
  Fixpoint prompt (s : S) (input : list F) : list out * ending :=
    match input with
    | [] => ([OPrompt], EExit 0 (Some s))
    | x :: r =>
        match eval s x with
        | None => ([OPrompt], EInside)
        | Some (vs, s') => let '(o, e) := prompt s' r in (OPrompt :: show vs ++ o, e)
        end
    end.
  (** The loop that makes the command line, minim.c:81-82: from the last argument. *)
  Fixpoint command_line (n : nat) (rest : list str) (acc : list str) : list str :=
    match n with
    | O => acc
    | Datatypes.S i => command_line i rest (nth i rest [] :: acc)
    end.

  (** main, minim.c:62-125. *)
  Definition bind (x : option S) (k : S -> list out * ending) : list out * ending :=
    match x with Some s => k s | None => ([], EInside) end.
  Definition main (args : list str) (input : list F) : list out * ending :=
    match handle_flags no_opts args with
    | PUnknown f => ([OUnknown f], EExit 1 None)
    | POk o rest =>
        let '(out1, e) :=
          bind prelude (fun s =>
          bind (if o_library o then library s else Some s) (fun s =>
          let s := set_command_line s (command_line (List.length rest) rest []) in
          bind (match rest with
                | f :: _ => if negb (o_interactive o) && o_library o then import_ s f else load_ s f
                | [] => Some s
                end) (fun s =>
          if (List.length args =? 0) || o_interactive o then prompt s input else ([], EExit 0 (Some s))))) in
        ((if o_quiet o then [] else [OBanner]) ++ out1, e)
    end.
End Main.
