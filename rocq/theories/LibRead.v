(** The reader of the library: [read] of src/library/read.min, used for modules
    and by the REPL (src/library/module.min 31-41, 205-226).

    The input is the list of the characters that are left in the port; peek-char
    and read-char return the end-of-file object when it is empty.  Recursion is
    not limited by the stack (see Stack.v). *)
From Coq Require Import ZArith NArith Bool Ascii String List Lia.
From Verif Require Import Base Decimal Reader.
Import ListNotations.
Local Open Scope list_scope.
Local Open Scope N_scope.

(** datum->syntax and syntax->datum on trees, syntax.c 16-48, 75-106; that the C
    code computes them is C26.  Vectors are copied: the shared empty vector
    becomes a new one. *)
Fixpoint to_stx (o : obj) : obj :=
  let fix tail (o : obj) : obj :=
    match o with
    | OPair a d => OPair (to_stx a) (tail d)
    | ONull => ONull
    | x => to_stx x
    end in
  match o with
  | OSyntax _ _ => o
  | OPair a d => OSyntax (OPair (to_stx a) (tail d)) OFalse
  | OVec l => OSyntax (OVec (map to_stx l)) OFalse
  | OEmptyVec => OSyntax (OVec []) OFalse
  | OBox x => OSyntax (OBox (to_stx x)) OFalse
  | x => OSyntax x OFalse
  end.
Fixpoint strip (o : obj) : obj :=
  match o with
  | OSyntax e _ => strip e
  | OPair a d => OPair (strip a) (strip d)
  | OBox x => OBox (strip x)
  | OVec l => OVec (map strip l)
  | OEmptyVec => OVec []
  | x => x
  end.

(** read.min 29-39 *)
Definition lspace (c : byte) : bool := beq c " " || beq c "010".
Definition ldelim (c : byte) : bool :=
  lspace c || beq c "(" || beq c "[" || beq c "{" || beq c ")" || beq c "]" || beq c "}" || beq c """" || beq c ";".
Definition lsymc (c : byte) : bool := negb (ldelim c).
(** [(assert-delimeter! (peek-char p))], read.min 74-77 *)
Definition ldelim_ahead (s : list byte) : bool := match s with [] => true | c :: _ => ldelim c end.

(** The errors, by message.  [LNotChar]: char->integer of the end-of-file object;
    [LNotNumber]: the negation of a symbol. *)
Inductive lerr : Type :=
| LEof | LParen (closed : byte) | LDelim | LIncomplete | LString | LEscape (c : option byte)
| LSpecial (c : option byte) | LInput (c : byte) | LChar (c : byte) | LClosing | LNotChar | LNotNumber.
(** [LUndef]: overflow of a fixnum.  [LFuel]: not returned within the fuel of the
    model. *)
Inductive lres (A : Type) : Type :=
| LOk (a : A) (rest : list byte) | LErr (e : lerr) | LUndef | LFuel.
Arguments LOk {A} _ _. Arguments LErr {A} _. Arguments LUndef {A}. Arguments LFuel {A}.

Definition lbind {A B} (r : lres A) (g : A -> list byte -> lres B) : lres B :=
  match r with LOk a k => g a k | LErr e => LErr e | LUndef => LUndef | LFuel => LFuel end.

(** skip-comment! and skip-until-token!, read.min 81-88, 118-129.  [com]: inside a
    line comment; the newline that ends it is left and skipped as a space. *)
Fixpoint lskip (com : bool) (s : list byte) : list byte :=
  match s with
  | [] => []
  | c :: q =>
      if com then (if beq c "010" then lskip false q else lskip true q)
      else if lspace c then lskip false q
      else if beq c ";" then lskip true q
      else s
  end.

(** skip-block-comment!, read.min 90-116; [lvl]: block-level - 1.  At the end of
    the input [read-char] returns the end-of-file object for ever: the loop does
    not end. *)
Fixpoint lblock (lvl : nat) (s : list byte) : lres unit :=
  match s with
  | [] => LFuel
  | c :: q =>
      if beq c "#" then
        match q with
        | [] => LErr LEof
        | d :: q' => if beq d "|" then lblock (S lvl) q' else lblock lvl q
        end
      else if beq c "|" then
        match q with
        | [] => LErr LEof
        | d :: q' => if beq d "#" then match lvl with O => LOk tt q' | S l => lblock l q' end else lblock lvl q
        end
      else lblock lvl q
  end.

(** check-expected-string!, read.min 131-145 *)
Fixpoint expect (name s : list byte) (v : byte) : lres obj :=
  match name, s with
  | [], _ => LOk (OChar v) s
  | _ :: _, [] => LErr LEof
  | n :: ns, c :: q => if beq c n then expect ns q v else LErr (LChar c)
  end.
(** read-character, read.min 200-227: no delimiter is asked for after the two
    names. *)
Definition lread_char (s : list byte) : lres obj :=
  match s with
  | [] => LErr LIncomplete
  | c :: q =>
      let plain := if ldelim_ahead q then LOk (OChar c) q else LErr LDelim in
      if beq c "s" then match q with d :: _ => if beq d "p" then expect (s2b "pace") q " " else plain | [] => plain end
      else if beq c "n" then match q with d :: _ => if beq d "e" then expect (s2b "ewline") q "010" else plain | [] => plain end
      else plain
  end.

(** read-symbol, read.min 327-335, with the characters [acc] read before. *)
Definition lread_symbol (acc s : list byte) : lres obj :=
  let (tok, rest) := span lsymc s in LOk (OSym (cstr (acc ++ tok))) rest.

(** The loops of read-number and read-hex-number, read.min 238-253, 279-300:
    [acc], the characters read before; [z], the sign.  The arithmetic overflows
    at the first digit with which the number does not fit. *)
Definition lnumber (p : byte -> bool) (value : list byte -> N) (acc : list byte) (z : Z) (s : list byte) : lres obj :=
  let (ds, rest) := span p s in
  if 2 ^ 63 <=? value ds then LUndef
  else match rest with
       | [] => LErr LNotChar
       | c :: q => if lsymc c then lread_symbol (acc ++ ds ++ [c]) q else LOk (OFix (Z.of_N (value ds) * z)) rest
       end.
Definition lread_number (s : list byte) : lres obj := lnumber is_digit digits_value [] 1 s.
Definition lread_hex (s : list byte) : lres obj :=
  match s with
  | c :: q => if beq c "-" then lnumber is_xdigit xdigits_value [c] (-1) q
              else if beq c "+" then lnumber is_xdigit xdigits_value [c] 1 q
              else lnumber is_xdigit xdigits_value [] 1 s
  | [] => lnumber is_xdigit xdigits_value [] 1 []
  end.

(** read-string, read.min 302-324, with the characters read so far. *)
Fixpoint lread_string (acc s : list byte) : lres (list byte) :=
  match s with
  | [] => LErr LString
  | c :: q =>
      if beq c "\" then
        match q with
        | [] => LErr (LEscape None)
        | e :: q' =>
            if beq e "n" then lread_string (acc ++ ["010"%char]) q'
            else if beq e "\" then lread_string (acc ++ [e]) q'
            else if beq e """" then lread_string (acc ++ [e]) q'
            else LErr (LEscape (Some e))
        end
      else if beq c """" then LOk acc q
      else lread_string (acc ++ [c]) q
  end.

(** [(list name o)], as syntax. *)
Definition lquote (name : string) (o : obj) : obj := to_stx (OPair (OSym (s2b name)) (OPair o ONull)).
Definition l_is_dot (o : obj) : bool :=
  match o with OSyntax (OSym n) _ => match n with [c] => beq c "." | _ => false end | _ => false end.

(** read-loop, read.min 339-441; read-pair, read.min 148-187, and its inner loop
    158-187 ([a]: the element read last); read-vector, read.min 190-198. *)
Fixpoint lread (f : nat) (s : list byte) : lres obj :=
  match f with
  | O => LFuel
  | S f =>
      match lskip false s with
      | [] => LOk OEof []
      | c :: q =>
          if beq c "#" then
            match q with
            | [] => LErr (LSpecial None)
            | d :: q' =>
                if beq d "t" then LOk (to_stx OTrue) q'
                else if beq d "f" then LOk (to_stx OFalse) q'
                else if beq d "\" then lbind (lread_char q') (fun o k => LOk (to_stx o) k)
                else if beq d "'" then lbind (lread f q') (fun o k => LOk (lquote "syntax" o) k)
                else if beq d "(" then lbind (lread_vector f [] q') (fun o k => LOk (to_stx o) k)
                else if beq d "&" then lbind (lread f q') (fun o k => LOk (to_stx (OBox o)) k)
                else if beq d "x" then lbind (lread_hex q') (fun o k => LOk (to_stx o) k)
                else if beq d ";" then
                  match lskip false q' with
                  | [] => LErr LEof
                  | r0 => lbind (lread f r0) (fun _ k => lread f k)
                  end
                else if beq d "|" then lbind (lblock 0 q') (fun _ k => lbind (lread f k) (fun o k => LOk (to_stx o) k))
                else LErr (LSpecial (Some d))
            end
          else if beq c "+" || beq c "-" then
            match q with
            | [] => LErr LNotChar
            | n :: _ =>
                if is_digit n then
                  lbind (lread_number q) (fun o k =>
                    if beq c "-" then match o with OFix z => LOk (to_stx (OFix (- z))) k | _ => LErr LNotNumber end
                    else LOk (to_stx o) k)
                else lbind (lread_symbol [c] q) (fun o k => LOk (to_stx o) k)
            end
          else if is_digit c then lbind (lread_number (c :: q)) (fun o k => LOk (to_stx o) k)
          else if beq c """" then
            lbind (lread_string [] q) (fun b k => if ldelim_ahead k then LOk (to_stx (OStr b)) k else LErr LDelim)
          else if is_open c then lbind (lread_pair f c q) (fun o k => LOk (to_stx o) k)
          else if beq c "'" then lbind (lread f q) (fun o k => LOk (lquote "quote" o) k)
          else if lsymc c then lbind (lread_symbol [] (c :: q)) (fun o k => LOk (to_stx o) k)
          else LErr (LInput c)
      end
  end
with lread_pair (f : nat) (open : byte) (s : list byte) : lres obj :=
  match f with
  | O => LFuel
  | S f =>
      match lskip false s with
      | [] => LErr LEof
      | c :: q =>
          if is_close c then (if matching open c then LOk ONull q else LErr (LParen c))
          else lbind (lread f (c :: q)) (fun a k => lread_rest f open a k)
      end
  end
with lread_rest (f : nat) (open : byte) (a : obj) (s : list byte) : lres obj :=
  match f with
  | O => LFuel
  | S f =>
      match lskip false s with
      | [] => LErr LEof
      | c :: q =>
          if beq c "." then
            lbind (lread f (c :: q)) (fun m k =>
              if l_is_dot m then
                lbind (lread f k) (fun b k =>
                  match lskip false k with
                  | [] => LErr LEof
                  | d :: r => if is_close d then (if matching open d then LOk (OPair a b) r else LErr (LParen d)) else LErr LClosing
                  end)
              else lbind (lread_rest f open m k) (fun b k => LOk (OPair a b) k))
          else lbind (lread_pair f open (c :: q)) (fun b k => LOk (OPair a b) k)
      end
  end
with lread_vector (f : nat) (acc : list obj) (s : list byte) : lres obj :=
  match f with
  | O => LFuel
  | S f =>
      let s1 := lskip false s in
      match s1 with
      | c :: q => if beq c ")" then LOk (match acc with [] => OEmptyVec | _ => OVec (rev acc) end) q
                  else lbind (lread f s1) (fun o k => lread_vector f (o :: acc) k)
      | [] => lbind (lread f s1) (fun o k => lread_vector f (o :: acc) k)
      end
  end.

(** [(read p)] *)
Definition lreads (s : list byte) (o : obj) (rest : list byte) : Prop := exists f, lread f s = LOk o rest.
Definition lread_fails (s : list byte) (e : lerr) : Prop := exists f, lread f s = LErr e.
Definition lread_hangs (s : list byte) : Prop := forall f, lread f s = LFuel.
