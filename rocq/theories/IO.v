(** Files and the procedures on ports: src/core/c/io.c and the wrappers
    src/core/s/prelude.min:1183-1217, 1939-2024, 2160-2167.

    String ports are those of Port.v.  A port on a file is a C stream with a buffer:
    output goes to the buffer, and the C library writes a part of the buffer to the file
    whenever it likes ([Spill], an event of the history); input is fetched in pieces, the
    size of which is up to the C library as well.  Files are known by name; names are
    apart (no links), no other process touches them, and writing to a file that is open
    does not fail.  Whether the system lets a file be opened is up to the history. *)
From Coq Require Import ZArith NArith Bool Ascii String List Arith.
From Verif Require Import Base Hashtable Port.
Import ListNotations.
Local Open Scope list_scope.
Local Open Scope nat_scope.

(** ** Files *)
(** The files there are, by name, and their contents. *)
Definition filename := list byte.
Definition name_dec : forall a b : filename, {a = b} + {a <> b} := list_eq_dec ascii_dec.
Definition disk := list (filename * list byte).
Fixpoint contents (n : filename) (d : disk) : option (list byte) :=
  match d with
  | [] => None
  | (m, b) :: r => if name_dec n m then Some b else contents n r
  end.
Definition store_file (n : filename) (b : list byte) (d : disk) : disk := (n, b) :: d.
(** write(2) at a position: what lies between the end and the position is filled with 0. *)
Definition write_at (off : nat) (b file : list byte) : list byte :=
  match b with
  | [] => file
  | _ => firstn off (file ++ repeat NUL (off - List.length file)) ++ b ++ skipn (off + List.length b) file
  end.

(** ** Ports *)
(** Where a port reads or writes: the temporary file of a string port (Port.v), or a file,
    the position in it and the buffer (what is not yet written, or fetched and not yet
    read). *)
Inductive chan : Type :=
| CMem (s : stream)
| CFile (n : filename) (off : nat) (buf : list byte).
(** io.c:20-36, the flags of minim.h:292-294 *)
Record iport : Type := mkio { i_read : bool; i_open : bool; i_str : bool; i_chan : chan }.
Record io : Type := IO { i_disk : disk; i_ports : list iport }.

(** Arguments: strings, ports, characters, integers and everything else. *)
Inductive arg : Type :=
| AStr (b : list byte) | APort (i : nat) | AChar (c : byte) | AInt (z : Z) | AElse (n : nat).

(** Results.  [IArg who expected given]: raise-argument-error; [IRange who]:
    raise-range-error; [IUnbound x]: a variable that has no value; [IFail who]: an error of
    C code; [IUndef]: undefined behaviour. *)
Inductive ires : Type :=
| IVoid | IPort (i : nat) | IStr (b : list byte) | IChar (c : byte) | IEof | IBool (b : bool)
| IArg (who expected : string) (given : arg) | IRange (who : string) | IUnbound (x : string) | IFail (who : string) | IUndef.

(** The calls; [ok]: whether the system opens the file; [k]: how many bytes are fetched if
    the buffer is empty. *)
Inductive iop : Type :=
| OpenInFile (name : arg) (ok : bool) | OpenOutFile (name : arg) (ok : bool)
| OpenInStr (s : arg) | OpenOutStr
| CloseIn (p : arg) | CloseOut (p : arg) | GetOut (p : arg)
| ReadChar (p : arg) (k : nat) | PeekChar (p : arg) (k : nat) | CharReady (p : arg) (k : nat)
| PutChar (p c : arg) | PutString (p s : arg) | PutString3 (p s start : arg) | PutString4 (p s start n : arg)
| Flush (p : arg) | WriteChar (c p : arg) | Newline (p : arg)
| Spill (i n : nat)                        (* the C library writes a part of a buffer *)
| Exit.                                    (* exit, system.c:131-134 *)

Definition port_of (ps : list iport) (a : arg) : option (nat * iport) :=
  match a with APort i => match nth_error ps i with Some p => Some (i, p) | None => None end | _ => None end.
(** input-port?, output-port?, string-port?: minim.h:299-301 *)
Definition in_port (ps : list iport) (a : arg) : option (nat * iport) :=
  match port_of ps a with Some (i, p) => if i_read p then Some (i, p) else None | None => None end.
Definition out_port_ (ps : list iport) (a : arg) : option (nat * iport) :=
  match port_of ps a with Some (i, p) => if i_read p then None else Some (i, p) | None => None end.

Definition with_chan (p : iport) (c : chan) : iport := mkio (i_read p) (i_open p) (i_str p) c.
Definition set_port (i : nat) (p : iport) (w : io) : io := IO (i_disk w) (upd i p (i_ports w)).
Definition new_port (p : iport) (w : io) : io * ires := (IO (i_disk w) (i_ports w ++ [p]), IPort (List.length (i_ports w))).

(** Write the first [n] bytes of the buffer of port [i] to its file. *)
Definition spill (i n : nat) (w : io) : io :=
  match nth_error (i_ports w) i with
  | Some p =>
      match i_chan p with
      | CFile f off buf =>
          if i_read p then w
          else match contents f (i_disk w) with
               | Some b => IO (store_file f (write_at off (firstn n buf) b) (i_disk w))
                              (upd i (with_chan p (CFile f (off + List.length (firstn n buf)) (skipn n buf))) (i_ports w))
               | None => w
               end
      | CMem _ => w
      end
  | None => w
  end.
(** fflush: all of it *)
Definition flush (i : nat) (w : io) : io :=
  match nth_error (i_ports w) i with
  | Some p => match i_chan p with CFile _ _ buf => spill i (List.length buf) w | CMem _ => w end
  | None => w
  end.
Fixpoint flush_all (n : nat) (w : io) : io :=
  match n with
  | O => w
  | S k => let w1 := flush_all k w in
           match nth_error (i_ports w1) k with
           | Some p => if i_open p then flush k w1 else w1
           | None => w1
           end
  end.
(** putc to a stream *)
Definition chan_put (b : list byte) (c : chan) : chan :=
  match c with
  | CMem s => CMem (putcs b s)
  | CFile f off buf => CFile f off (buf ++ b)
  end.
(** getc: the character and the stream after it *)
Definition chan_get (d : disk) (k : nat) (c : chan) : option byte * chan :=
  match c with
  | CMem s => let '(x, s') := getc s in (x, CMem s')
  | CFile f off [] =>
      match contents f d with
      | Some b =>
          match firstn (S k) (skipn off b) with
          | [] => (None, CFile f off [])
          | x :: r => (Some x, CFile f (off + S (List.length r)) r)
          end
      | None => (None, CFile f off [])
      end
  | CFile f off (x :: r) => (Some x, CFile f off r)
  end.
(** ungetc of what getc gave *)
Definition chan_unget (x : option byte) (c : chan) : chan :=
  match c with
  | CMem s => CMem (ungetc x s)
  | CFile f off buf => match x with Some a => CFile f off (a :: buf) | None => c end
  end.

(** What a procedure does with a port: undefined if the stream has been closed. *)
Definition on (p : nat * iport) (w : io) (f : nat -> iport -> io * ires) : io * ires :=
  if i_open (snd p) then f (fst p) (snd p) else (w, IUndef).
Definition put (b : list byte) (w : io) (i : nat) (p : iport) : io * ires := (set_port i (with_chan p (chan_put b (i_chan p))) w, IVoid).
Definition get (peek : bool) (k : nat) (w : io) (i : nat) (p : iport) (f : option byte -> ires) : io * ires :=
  let '(x, c) := chan_get (i_disk w) k (i_chan p) in
  (set_port i (with_chan p (if peek then chan_unget x c else c)) w, f x).
Definition char_or_eof (x : option byte) : ires := match x with Some c => IChar c | None => IEof end.
(** close_input_port, close_output_port: io.c:137-149 *)
Definition close (w : io) (i : nat) (p : iport) : io * ires :=
  let w1 := flush i w in
  (match nth_error (i_ports w1) i with
   | Some q => set_port i (mkio (i_read q) false (i_str q) (i_chan q)) w1
   | None => w1
   end, IVoid).
(** put-string with a range, prelude.min:1974-1982; the procedure that reports a wrong
    range refers to a variable that does not exist. *)
Definition put_range (w : io) (q : nat * iport) (s : list byte) (start n : Z) : io * ires :=
  let len := Z.of_nat (List.length s) in
  if (start <=? len)%Z then
    if (start + n <=? len)%Z then on q w (put (firstn (Z.to_nat n) (skipn (Z.to_nat start) s)) w) else (w, IUnbound "str")
  else (w, IUnbound "str").
Definition nat_arg (a : arg) : option Z := match a with AInt z => if (0 <=? z)%Z then Some z else None | _ => None end.

Definition istep (w : io) (o : iop) : io * ires :=
  let ps := i_ports w in
  match o with
  | OpenInFile a ok =>                       (* prelude.min:1183-1187, io.c:72-85 *)
      match a with
      | AStr b =>
          match contents (cstr b) (i_disk w) with
          | Some _ => if ok then new_port (mkio true true false (CFile (cstr b) 0 [])) w else (w, IFail "open-input-file")
          | None => (w, IFail "open-input-file")
          end
      | _ => (w, IArg "open-input-file" "string?" a)
      end
  | OpenOutFile a ok =>                      (* prelude.min:1189-1193, io.c:87-100; mode w empties the file *)
      match a with
      | AStr b =>
          if ok then new_port (mkio false true false (CFile (cstr b) 0 [])) (IO (store_file (cstr b) [] (i_disk w)) ps)
          else (w, IFail "open-output-file")
      | _ => (w, IArg "open-output-file" "string?" a)
      end
  | OpenInStr a =>                           (* prelude.min:1195-1199, io.c:102-119 *)
      match a with
      | AStr b => new_port (mkio true true true (CMem (to_start (fputs b (mkstream [] 0))))) w
      | _ => (w, IUnbound "name")
      end
  | OpenOutStr =>                            (* io.c:121-135 *)
      new_port (mkio false true true (CMem (mkstream [] 0))) w
  | CloseIn a =>                             (* prelude.min:1201-1205 *)
      match in_port ps a with Some q => on q w (close w) | None => (w, IArg "close-input-file" "input-port?" a) end
  | CloseOut a =>                            (* prelude.min:1207-1211 *)
      match out_port_ ps a with Some q => on q w (close w) | None => (w, IArg "close-output-file" "output-port?" a) end
  | GetOut a =>                              (* prelude.min:1213-1217, io.c:151-173 *)
      match out_port_ ps a with
      | Some (i, p) =>
          if i_str p then
            on (i, p) w (fun i p =>
              match i_chan p with
              | CMem s =>
                  if pos s =? 0 then (w, IStr [])
                  else match fread (pos s) (to_start s) with
                       | (Some b, s') => (set_port i (with_chan p (CMem (to_start s'))) w, IStr (shown b))
                       | (None, s') => (set_port i (with_chan p (CMem s')) w, IFail "get-output-string")
                       end
              | CFile _ _ _ => (w, IUndef)   (* not reached: string ports are CMem *)
              end)
          else (w, IArg "get-output-string" "(and output-port? string-port?)" a)
      | None => (w, IArg "get-output-string" "(and output-port? string-port?)" a)
      end
  | ReadChar a k =>                          (* prelude.min:1939-1953, io.c:180-184 *)
      match in_port ps a with
      | Some q => on q w (fun i p => get false k w i p char_or_eof)
      | None => (w, IArg "read-char" "input-port?" a)
      end
  | PeekChar a k =>                          (* io.c:186-191 *)
      match in_port ps a with
      | Some q => on q w (fun i p => get true k w i p char_or_eof)
      | None => (w, IArg "peek-char" "input-port?" a)
      end
  | CharReady a k =>                         (* io.c:193-198 *)
      match in_port ps a with
      | Some q => on q w (fun i p => get true k w i p (fun x => IBool (match x with Some _ => true | None => false end)))
      | None => (w, IArg "char-ready?" "input-port?" a)
      end
  | PutChar a c =>                           (* prelude.min:1958-1964, io.c:200-204 *)
      match out_port_ ps a with
      | Some q => match c with AChar x => on q w (put [x] w) | _ => (w, IArg "put-char" "char?" c) end
      | None => (w, IArg "put-char" "output-port?" c)
      end
  | PutString a s =>                         (* prelude.min:1984-1989, io.c:212-221 *)
      match out_port_ ps a with
      | Some q => match s with AStr b => on q w (put (cstr b) w) | _ => (w, IArg "put-string" "string?" s) end
      | None => (w, IArg "put-string" "output-port?" a)
      end
  | PutString3 a s start =>                  (* prelude.min:1990-1997 *)
      match out_port_ ps a with
      | Some q =>
          match s with
          | AStr b => match nat_arg start with
                      | Some z => put_range w q (cstr b) z (Z.of_nat (List.length (cstr b)) - z)
                      | None => (w, IArg "put-string" "integer?" start)
                      end
          | _ => (w, IArg "put-string" "string?" s)
          end
      | None => (w, IArg "put-string" "output-port?" a)
      end
  | PutString4 a s start n =>                (* prelude.min:1998-2007 *)
      match out_port_ ps a with
      | Some q =>
          match s with
          | AStr b => match nat_arg start with
                      | Some z => match nat_arg n with
                                  | Some m => put_range w q (cstr b) z m
                                  | None => (w, IArg "put-string" "integer?" start)
                                  end
                      | None => (w, IArg "put-string" "integer?" start)
                      end
          | _ => (w, IArg "put-string" "string?" s)
          end
      | None => (w, IArg "put-string" "output-port?" a)
      end
  | Flush a =>                               (* prelude.min:2009-2013, io.c:206-210 *)
      match out_port_ ps a with
      | Some q => on q w (fun i p => (flush i w, IVoid))
      | None => (w, IArg "flush-output-port" "output-port?" a)
      end
  | WriteChar c a =>                         (* prelude.min:2015-2026: there is no $write-char *)
      match c with
      | AChar x => match out_port_ ps a with
                   | Some q => (w, IUnbound "$write-char")
                   | None => (w, IArg "write-char" "output-port?" a)
                   end
      | _ => (w, IArg "write-char" "char?" c)
      end
  | Newline a =>                             (* prelude.min:2160-2167, io.c:223-227 *)
      match out_port_ ps a with
      | Some q => on q w (put [ascii_of_nat 10] w)
      | None => (w, IArg "newline" "output port?" a)
      end
  | Spill i n => (match nth_error ps i with Some p => if i_open p then spill i n w else w | None => w end, IVoid)
  | Exit => (flush_all (List.length ps) w, IVoid)   (* fclose by GC_finalize (io.c:11-18) or by exit *)
  end.
Fixpoint iruns (w : io) (os : list iop) : io * list ires :=
  match os with
  | [] => (w, [])
  | o :: r => let '(w1, x) := istep w o in let '(w2, xs) := iruns w1 r in (w2, x :: xs)
  end.
