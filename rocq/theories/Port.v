(** Model of string ports: src/core/c/io.c:20-36,102-227 and the wrappers
    src/core/s/prelude.min:1195-1217,1939-2008.

    A string port is backed by a temporary file (io.c:107-118,126-133).  The C
    stream is modelled by the bytes of the file and the position; tmpfile is
    assumed to succeed.  Using a stream after fclose is undefined behaviour and
    is a distinct outcome. *)
From Coq Require Import ZArith NArith Bool Ascii String List Arith.
From Verif Require Import Base Hashtable.
Import ListNotations.
Local Open Scope list_scope.

(** ** C streams *)

Record stream := mkstream { data : list byte; pos : nat }.

(** putc: overwrites at the position or extends the file. *)
Definition putc (c : byte) (s : stream) : stream :=
  mkstream (firstn (pos s) (data s) ++ c :: skipn (S (pos s)) (data s)) (S (pos s)).
(** getc: [None] is EOF. *)
Definition getc (s : stream) : option byte * stream :=
  match nth_error (data s) (pos s) with
  | Some c => (Some c, mkstream (data s) (S (pos s)))
  | None => (None, s)
  end.
(** ungetc of what getc returned; ungetc(EOF) does nothing. *)
Definition ungetc (c : option byte) (s : stream) : stream :=
  match c with
  | Some _ => mkstream (data s) (pos s - 1)
  | None => s
  end.
(** fputs of a C string. *)
Fixpoint fputs (b : list byte) (s : stream) : stream :=
  match b with
  | [] => s
  | c :: r => if Ascii.eqb c NUL then s else fputs r (putc c s)
  end.
(** fseek to the start, rewind. *)
Definition to_start (s : stream) : stream := mkstream (data s) 0.
(** fread of one item of [n] bytes; [None]: fewer bytes were there. *)
Definition fread (n : nat) (s : stream) : option (list byte) * stream :=
  if n <=? List.length (data s) - pos s
  then (Some (firstn n (skipn (pos s) (data s))), mkstream (data s) (pos s + n))
  else (None, mkstream (data s) (List.length (data s))).

(** ** Ports *)

Record port := mkport { input : bool; is_open : bool; strm : stream }.

(** What a string object shows of its buffer: the bytes up to the first NUL
    (minim.h:213-220; see Strings.v). *)
Definition shown (b : list byte) : list byte := cstr b.

Inductive pop : Type :=
| POpenIn (s : list byte)                    (* open-input-string *)
| POpenOut                                   (* open-output-string *)
| PPutChar (i : nat) (c : byte)
| PPutString (i : nat) (s : list byte)       (* put-string p s *)
| PPutSub (i : nat) (s : list byte) (start n : nat)    (* put-string p s start n *)
| PNewline (i : nat)
| PGet (i : nat)                             (* get-output-string *)
| PRead (i : nat)
| PPeek (i : nat)
| PReady (i : nat)
| PClose (i : nat).                          (* close-input-port, close-output-port *)

Inductive pres : Type :=
| PVoid
| PPort (i : nat)
| PStr (s : list byte)
| PChar (c : byte)
| PEof
| PBool (b : bool)
| PError                                     (* an error is raised *)
| PUndef.                                    (* undefined behaviour *)

Definition set_stream (i : nat) (p : port) (s : stream) (ps : list port) : list port :=
  upd i (mkport (input p) (is_open p) s) ps.

(** The wrappers check the direction of the port (prelude.min:1939-2008), not
    that it is open. *)
Definition on_port (want_input : bool) (ps : list port) (i : nat) (f : port -> list port * pres) : list port * pres :=
  match nth_error ps i with
  | Some p => if Bool.eqb (input p) want_input
              then (if is_open p then f p else (ps, PUndef))
              else (ps, PError)
  | None => (ps, PError)
  end.

Fixpoint putcs (b : list byte) (s : stream) : stream :=
  match b with
  | [] => s
  | c :: r => putcs r (putc c s)
  end.

Definition pstep (ps : list port) (o : pop) : list port * pres :=
  match o with
  | POpenIn s =>                             (* io.c:102-119 *)
      (ps ++ [mkport true true (to_start (fputs s (mkstream [] 0)))], PPort (List.length ps))
  | POpenOut =>                              (* io.c:121-135 *)
      (ps ++ [mkport false true (mkstream [] 0)], PPort (List.length ps))
  | PPutChar i c =>                          (* io.c:200-204 *)
      on_port false ps i (fun p => (set_stream i p (putc c (strm p)) ps, PVoid))
  | PPutString i s =>                        (* prelude.min:1982-1987 *)
      on_port false ps i (fun p => (set_stream i p (putcs s (strm p)) ps, PVoid))
  | PPutSub i s start n =>                   (* prelude.min:1974-1981, io.c:212-221 *)
      on_port false ps i (fun p =>
        if (start <=? List.length s) && (start + n <=? List.length s)
        then (set_stream i p (putcs (firstn n (skipn start s)) (strm p)) ps, PVoid)
        else (ps, PError))
  | PNewline i =>                            (* io.c:223-227 *)
      on_port false ps i (fun p => (set_stream i p (putc (ascii_of_nat 10) (strm p)) ps, PVoid))
  | PGet i =>                                (* io.c:151-173 *)
      on_port false ps i (fun p =>
        let len := pos (strm p) in
        if len =? 0 then (ps, PStr [])
        else match fread len (to_start (strm p)) with
             | (Some b, s') => (set_stream i p (to_start s') ps, PStr (shown b))
             | (None, s') => (set_stream i p s' ps, PError)
             end)
  | PRead i =>                               (* io.c:180-184 *)
      on_port true ps i (fun p =>
        let '(c, s') := getc (strm p) in
        (set_stream i p s' ps, match c with Some c => PChar c | None => PEof end))
  | PPeek i =>                               (* io.c:186-191 *)
      on_port true ps i (fun p =>
        let '(c, s') := getc (strm p) in
        (set_stream i p (ungetc c s') ps, match c with Some c => PChar c | None => PEof end))
  | PReady i =>                              (* io.c:193-198 *)
      on_port true ps i (fun p =>
        let '(c, s') := getc (strm p) in
        (set_stream i p (ungetc c s') ps, PBool (match c with Some _ => true | None => false end)))
  | PClose i =>                              (* io.c:137-149 *)
      match nth_error ps i with
      | Some p => if is_open p then (upd i (mkport (input p) false (strm p)) ps, PVoid) else (ps, PUndef)
      | None => (ps, PError)
      end
  end.

Fixpoint pruns (ps : list port) (os : list pop) : list port * list pres :=
  match os with
  | [] => (ps, [])
  | o :: r => let '(ps1, x) := pstep ps o in
              let '(ps2, xs) := pruns ps1 r in (ps2, x :: xs)
  end.
