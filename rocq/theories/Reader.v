(** The reader (src/core/c/read.c) and the two printers: [write_object] of
    src/core/c/print.c and [write] of src/core/s/prelude.min 2028-2158.

    The input is the list of the bytes that are left in the FILE.  Objects are
    trees; interning and allocation are modelled elsewhere (Symbol.v, Heap.v). *)
From Coq Require Import ZArith NArith Bool Ascii String List Lia.
From Verif Require Import Base Decimal.
Import ListNotations.
Local Open Scope list_scope.
Local Open Scope N_scope.

(** The byte 0xFF: converted to [char] it equals EOF. *)
Definition xFF : byte := Ascii.Ascii true true true true true true true true.
Definition beq (a b : byte) : bool := Ascii.eqb a b.

(** The C library's [isspace] and [isxdigit] in the C locale. *)
Definition is_space (c : byte) : bool := let n := N_of_ascii c in ((9 <=? n) && (n <=? 13)) || (n =? 32).
Definition is_xdigit (c : byte) : bool :=
  let n := N_of_ascii c in is_digit c || ((65 <=? n) && (n <=? 70)) || ((97 <=? n) && (n <=? 102)).
(** read.c 5-11, for a character that is not EOF. *)
Definition is_delim (c : byte) : bool :=
  is_space c || beq c "(" || beq c ")" || beq c "[" || beq c "]" || beq c "{" || beq c "}" || beq c """" || beq c ";".
(** read.c 13-15, for a [char]: 0xFF is EOF and hence a delimiter. *)
Definition is_symc (c : byte) : bool := negb (is_delim c) && negb (beq c xFF).
(** [assert_delimeter (peek_char in)], read.c 23-27, 42-45. *)
Definition delim_ahead (s : list byte) : bool := match s with [] => true | c :: _ => negb (is_symc c) end.

(** minim.h 43 *)
Definition buffer_size : N := 4096.

(** The errors of read.c, by message. *)
Inductive rerr : Type :=
| EEof | EDelim (c : byte) | EParen (closed open : byte) | ENamed | ETerm (c : byte) | ESpecial | EEscape | ELong | EInput (c : byte).
(** [RUndef]: write outside of the buffer, or overflow of a signed long.
    [RFuel]: the fuel of the model ran out. *)
Inductive rres (A : Type) : Type :=
| ROk (a : A) (rest : list byte) | RErr (e : rerr) | RUndef | RFuel.
Arguments ROk {A} _ _. Arguments RErr {A} _. Arguments RUndef {A}. Arguments RFuel {A}.

(** skip_whitespace, read.c 56-73.  [com]: inside a line comment; the newline
    that ends the comment is put back and skipped as whitespace by the code. *)
Fixpoint skip (com : bool) (s : list byte) : list byte :=
  match s with
  | [] => []
  | c :: q =>
      if com then (if beq c "010" then skip false q else skip true q)
      else if is_space c then skip false q
      else if beq c ";" then skip true q
      else s
  end.

(** read_named_char, read.c 75-83, followed by peek_expected_delimeter. *)
Fixpoint read_named (name s : list byte) (v : byte) : rres obj :=
  match name, s with
  | [], [] => ROk (OChar v) s
  | [], c :: _ => if delim_ahead s then ROk (OChar v) s else RErr (EDelim c)
  | _ :: _, [] => RErr ENamed
  | n :: ns, c :: q => if beq n c then read_named ns q v else RErr ENamed
  end.
(** The table of read.c 85-187: first character, second character, remaining
    name from the second character on, value. *)
Definition char_names : list (byte * list byte * byte) :=
  [("a"%char, s2b "larm", "007"%char); ("b"%char, s2b "ackspace", "008"%char); ("d"%char, s2b "elete", "127"%char);
   ("e"%char, s2b "sc", "027"%char); ("l"%char, s2b "inefeed", "010"%char); ("n"%char, s2b "ewline", "010"%char);
   ("n"%char, s2b "ul", "000"%char); ("p"%char, s2b "age", "012"%char); ("r"%char, s2b "eturn", "013"%char);
   ("s"%char, s2b "pace", " "%char); ("t"%char, s2b "ab", "009"%char); ("v"%char, s2b "tab", "011"%char)].
Fixpoint find_name (tbl : list (byte * list byte * byte)) (c nc : byte) : option (list byte * byte) :=
  match tbl with
  | [] => None
  | ((c1, n), v) :: q =>
      if beq c c1 && match n with n1 :: _ => beq nc n1 | [] => false end then Some (n, v) else find_name q c nc
  end.
(** read_char, read.c 85-187 *)
Definition read_char (s : list byte) : rres obj :=
  match s with
  | [] => RErr EEof
  | c :: q =>
      if beq c xFF then RErr EEof
      else match (match q with nc :: _ => find_name char_names c nc | [] => None end) with
           | Some (n, v) => read_named n q v
           | None => match q with
                     | d :: _ => if delim_ahead q then ROk (OChar c) q else RErr (EDelim d)
                     | [] => ROk (OChar c) q
                     end
           end
  end.

(** The longest prefix of characters satisfying [p], and the rest. *)
Fixpoint span (p : byte -> bool) (s : list byte) : list byte * list byte :=
  match s with
  | [] => ([], [])
  | c :: q => if p c then let (a, b) := span p q in (c :: a, b) else ([], s)
  end.
(** [ungetc] of a [char]: 0xFF cannot be put back. *)
Definition unget_char (s : list byte) : list byte :=
  match s with c :: q => if beq c xFF then q else s | [] => [] end.
Definition lenN {A} (l : list A) : N := N.of_nat (List.length l).

(** read_symbol, read.c 434-455, with [buf] already in the buffer and the current
    character in front of [s].  The terminating NUL of a name of 4096 characters
    is written outside of the buffer. *)
Definition read_symbol (buf s : list byte) : rres obj :=
  let (tok, rest) := span is_symc s in
  let n := lenN (buf ++ tok) in
  if buffer_size <? n then RErr ELong
  else if n =? buffer_size then RUndef
  else ROk (OSym (cstr (buf ++ tok))) (unget_char rest).

(** Numbers, read.c 329-360 and 361-395.  [c]: the first character, [None] for
    EOF; [s]: what follows.  After an optional sign the digits are collected;
    the first digit (or, for [#x], any first character) is stored in the buffer
    twice.  Overflow of [num] is undefined. *)
Definition number_tail (sign : Z) (buf digits rest : list byte) (value : N) : rres obj :=
  if buffer_size <? lenN (buf ++ digits) then RUndef
  else if 2 ^ 63 <=? value then RUndef
  else match rest with
       | c :: _ => if is_symc c then read_symbol (buf ++ digits) rest
                   else ROk (OFix (sign * Z.of_N value)) (unget_char rest)
       | [] => ROk (OFix (sign * Z.of_N value)) []
       end.
Definition sign_of (c : option byte) : Z := match c with Some x => if beq x "-" then (-1)%Z else 1%Z | None => 1%Z end.
Definition buf_of (c : option byte) : list byte :=
  match c with Some x => if beq x "+" then [] else [x] | None => [xFF] end.
Definition unsigned_of (c : option byte) (s : list byte) : list byte :=
  match c with Some x => if beq x "-" || beq x "+" || beq x xFF then s else x :: s | None => s end.
Definition read_dec (c : byte) (s : list byte) : rres obj :=
  let (ds, rest) := span is_digit (unsigned_of (Some c) s) in
  number_tail (sign_of (Some c)) (buf_of (Some c)) ds rest (digits_value ds).
Definition xdigit_value (c : byte) : N :=
  let n := N_of_ascii c in
  if (65 <=? n) && (n <=? 70) then 10 + (n - 65)
  else if (97 <=? n) && (n <=? 102) then 10 + (n - 97)
  else n - 48.
Definition xdigits_value (l : list byte) : N := fold_left (fun a c => 16 * a + xdigit_value c) l 0.
Definition read_hex (s : list byte) : rres obj :=
  let (c, s1) := match s with [] => (None, []) | x :: q => (Some x, q) end in
  let (ds, rest) := span is_xdigit (unsigned_of c s1) in
  number_tail (sign_of c) (buf_of c) ds rest (xdigits_value ds).

(** Strings, read.c 396-427, with [n] characters in the buffer. *)
Definition escape (c : byte) : option byte :=
  if beq c "n" then Some "010"%char else if beq c "t" then Some "009"%char
  else if beq c "\" || beq c "'" || beq c """" then Some c else None.
Fixpoint read_string (buf s : list byte) : rres obj :=
  match s with
  | [] => RErr EEof
  | c :: q =>
      if beq c """" then (if lenN buf =? buffer_size then RUndef else ROk (OStr (cstr buf)) q)
      else if beq c xFF then RErr EEof
      else if beq c "\" then
        match q with
        | [] => RErr EEscape
        | e :: q' => match escape e with
                     | Some x => if buffer_size <=? lenN buf then RErr ELong else read_string (buf ++ [x]) q'
                     | None => RErr EEscape
                     end
        end
      else if buffer_size <=? lenN buf then RErr ELong else read_string (buf ++ [c]) q
  end.

(** Block comments, read.c 300-322; [lvl]: block_level - 1. *)
Fixpoint block (lvl : nat) (s : list byte) : rres unit :=
  match s with
  | [] => RErr EEof
  | c :: q =>
      if beq c xFF then RErr EEof
      else if beq c "#" || beq c "|" then
        match q with
        | [] => RErr EEof
        | d :: q' =>
            if beq d xFF then RErr EEof
            else if beq c "#" then block (if beq d "|" then S lvl else lvl) q'
            else if beq d "#" then match lvl with O => ROk tt q' | S l => block l q' end
            else block lvl q'
        end
      else block lvl q
  end.

(** assert_matching_paren, read.c 29-35 *)
Definition matching (open closed : byte) : bool :=
  (beq open "(" && beq closed ")") || (beq open "[" && beq closed "]") || (beq open "{" && beq closed "}").
Definition is_open (c : byte) : bool := beq c "(" || beq c "[" || beq c "{".
Definition is_close (c : byte) : bool := beq c ")" || beq c "]" || beq c "}".

(** The null pointer, returned by read_object at the end of the input. *)
Definition no_object : obj := OOther 255.

Definition quote_form (name : string) (o : obj) : obj := OPair (OSym (s2b name)) (OPair o ONull).

(** read_object, read.c 257-464; read_pair, read.c 189-232; read_vector, read.c
    234-255, with the elements read so far, last first. *)
Fixpoint read_object (f : nat) (s : list byte) : rres obj :=
  match f with
  | O => RFuel
  | S f =>
      match skip false s with
      | [] => ROk no_object []
      | c :: q =>
          if beq c "#" then
            match q with
            | [] => RErr ESpecial
            | d :: q' =>
                if beq d "%" then read_symbol [] (c :: q)
                else if beq d "t" then ROk OTrue q'
                else if beq d "f" then ROk OFalse q'
                else if beq d "\" then read_char q'
                else if beq d "'" then
                  match read_object f q' with ROk o r => ROk (quote_form "quote-syntax" o) r | e => e end
                else if beq d "(" then read_vector f [] q'
                else if beq d "&" then
                  match read_object f q' with ROk o r => ROk (OBox o) r | e => e end
                else if beq d "x" then read_hex q'
                else if beq d ";" then
                  match skip false q' with
                  | [] => RErr EEof
                  | (x :: _) as r0 =>
                      if beq x xFF then RErr EEof
                      else match read_object f r0 with ROk _ r => read_object f r | e => e end
                  end
                else if beq d "|" then
                  match block 0 q' with ROk _ r => read_object f r | RErr e => RErr e | RUndef => RUndef | RFuel => RFuel end
                else RErr ESpecial
            end
          else if is_digit c || ((beq c "-" || beq c "+") && match q with d :: _ => is_digit d | [] => false end) then read_dec c q
          else if beq c """" then read_string [] q
          else if is_open c then read_pair f c q
          else if beq c "'" then
            match read_object f q with ROk o r => ROk (quote_form "quote" o) r | e => e end
          else if is_symc c then read_symbol [] (c :: q)
          else if beq c xFF then ROk no_object q
          else RErr (EInput c)
      end
  end
with read_pair (f : nat) (open : byte) (s : list byte) : rres obj :=
  match f with
  | O => RFuel
  | S f =>
      match skip false s with
      | [] => RErr EEof
      | c :: q =>
          if beq c xFF then RErr EEof
          else if is_close c then (if matching open c then ROk ONull q else RErr (EParen c open))
          else match read_object f (c :: q) with
               | ROk a r =>
                   match skip false r with
                   | [] => RErr EEof
                   | d :: r' =>
                       if beq d xFF then RErr EEof
                       else if beq d "." && match r' with e :: _ => is_space e | [] => false end then
                         match read_object f r' with
                         | ROk b r2 =>
                             match skip false r2 with
                             | [] => RErr EEof
                             | e :: r3 =>
                                 if beq e xFF then RErr EEof
                                 else if is_close e then (if matching open e then ROk (OPair a b) r3 else RErr (EParen e open))
                                 else RErr (ETerm e)
                             end
                         | e => e
                         end
                       else match read_pair f open (d :: r') with ROk b r2 => ROk (OPair a b) r2 | e => e end
                   end
               | e => e
               end
      end
  end
with read_vector (f : nat) (acc : list obj) (s : list byte) : rres obj :=
  match f with
  | O => RFuel
  | S f =>
      let s1 := skip false s in
      match s1 with
      | c :: q =>
          if beq c ")" then
            match read_char s1 with
            | ROk _ r => ROk (match acc with [] => OEmptyVec | _ => OVec (rev acc) end) r
            | e => e
            end
          else match read_object f s1 with ROk o r => read_vector f (o :: acc) r | e => e end
      | [] => match read_object f s1 with ROk o r => read_vector f (o :: acc) r | e => e end
      end
  end.

(** What [read] returns: [None] at the end of the input (the end-of-file object
    is made by the callers, src/core/c/io.c). *)
Definition reads (s : list byte) (o : obj) (rest : list byte) : Prop := exists f, read_object f s = ROk o rest.
Definition read_fails (s : list byte) (e : rerr) : Prop := exists f, read_object f s = RErr e.
Definition read_undef (s : list byte) : Prop := exists f, read_object f s = RUndef.

(** ** Printers *)

(** write_char, print.c 5-21; wrchar, prelude.min 2057-2071 (the same names; both
    compare the character with each in turn). *)
Definition char_text (c : byte) : list byte :=
  if beq c "000" then s2b "nul" else if beq c "007" then s2b "alarm" else if beq c "008" then s2b "backspace"
  else if beq c "009" then s2b "tab" else if beq c "010" then s2b "newline" else if beq c "011" then s2b "vtab"
  else if beq c "012" then s2b "page" else if beq c "013" then s2b "return" else if beq c "027" then s2b "esc"
  else if beq c " " then s2b "space" else if beq c "127" then s2b "delete" else [c].
(** wrstring, prelude.min 2073-2091 *)
Definition esc_text (c : byte) : list byte :=
  if beq c "007" then s2b "\a" else if beq c "008" then s2b "\b" else if beq c "010" then s2b "\n"
  else if beq c "012" then s2b "\f" else if beq c "013" then s2b "\r" else if beq c "009" then s2b "\t"
  else if beq c "011" then s2b "\v" else if beq c """" then ["\"%char; """"%char] else if beq c "\" then s2b "\\" else [c].

(** The objects whose text is not modelled (records, syntax objects, procedures,
    ports, environments, ...): some text that starts with the characters #<. *)
Definition other_text : list byte := s2b "#<object>".

(** put-datum and write, prelude.min 2028-2158 ([d?] is #f); wrpair 2093-2108,
    wrvector 2110-2123.  Boxes have no case of their own. *)
Fixpoint write (o : obj) : list byte :=
  let fix tail (o : obj) : list byte :=
    match o with
    | OPair a d => " "%char :: write a ++ tail d
    | ONull => []
    | x => s2b " . " ++ write x
    end in
  let fix elems (sep : byte) (l : list obj) : list byte :=
    match l with
    | [] => []
    | x :: q => sep :: write x ++ elems " "%char q
    end in
  match o with
  | OSym n => cstr n
  | OGensym n _ => cstr n
  | OPair a d => "("%char :: write a ++ tail d ++ [")"%char]
  | OFix z => print_long z
  | ONull => s2b "()"
  | OTrue => s2b "#t"
  | OFalse => s2b "#f"
  | OChar c => s2b "#\" ++ char_text c
  | OStr b => """"%char :: flat_map esc_text (cstr b) ++ [""""%char]
  | OEmptyVec => s2b "#" ++ elems "("%char [] ++ [")"%char]
  | OVec l => s2b "#" ++ elems "("%char l ++ [")"%char]
  | OEof => s2b "#<eof>"
  | OVoid => s2b "#<void>"
  | OBox _ => s2b "#<garbage>"
  | OBaseRtd | ORec _ _ | OSyntax _ _ | OOther _ => other_text
  end.

(** write_object, print.c 77-103; write_pair 23-39, write_vector 41-53, write_box
    55-58. *)
Fixpoint c_write (o : obj) : list byte :=
  let fix tail (o : obj) : list byte :=
    match o with
    | OPair a d => " "%char :: c_write a ++ tail d
    | ONull => []
    | x => s2b " . " ++ c_write x
    end in
  let fix more (l : list obj) : list byte :=
    match l with
    | [] => []
    | x :: q => " "%char :: c_write x ++ more q
    end in
  match o with
  | OSym n => cstr n
  | OGensym n _ => cstr n
  | OPair a d => "("%char :: c_write a ++ tail d ++ [")"%char]
  | OFix z => print_long z
  | ONull => s2b "()"
  | OTrue => s2b "#t"
  | OFalse => s2b "#f"
  | OChar c => s2b "#\" ++ char_text c
  | OStr b => """"%char :: cstr b ++ [""""%char]
  | OEmptyVec => s2b "#()"
  | OVec [] => s2b "#()"
  | OVec (x :: q) => s2b "#(" ++ c_write x ++ more q ++ [")"%char]
  | OEof => s2b "#<eof>"
  | OVoid => s2b "#<void>"
  | OBox x => s2b "#&" ++ c_write x
  | OBaseRtd | ORec _ _ | OSyntax _ _ | OOther _ => other_text
  end.
