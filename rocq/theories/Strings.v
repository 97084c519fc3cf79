(** Model of strings and characters: src/core/c/string.c, char.c,
    src/core/s/prelude.min:777-916 and src/library/private/string.min.

    A string cell holds the buffer without its final NUL; the buffer may contain
    NULs, every operation sees the bytes before the first one ([cstr]).
    Allocation is assumed to succeed. *)
From Coq Require Import ZArith NArith Bool Ascii String List Lia.
From Verif Require Import Base Outcome Arith Decimal Heap HeapM Equal Lists Vectors.
Import ListNotations.
Local Open Scope string_scope.
Local Open Scope list_scope.
Local Open Scope m_scope.

(** [string?] with the buffer. *)
Definition str_at (h : heap) (v : val) : option (list byte) :=
  match cell_of h v with Some (CStr b) => Some b | _ => None end.
Definition stringp (h : heap) (v : val) : bool := match str_at h v with Some _ => true | None => false end.

(** Mstring2, string.c:21-34; [len + 1] must be a C [long]. *)
Definition c_make_string (n : Z) (c : byte) : M val :=
  if (n + 1 <? 2 ^ 63)%Z then m_alloc (CStr (repeat c (Z.to_nat n))) else fun _ => HUndef.
(** string_length, string.c:49-52: strlen. *)
Definition c_string_length (s : val) : M Z := fun h =>
  match str_at h s with Some b => HOk (Z.of_nat (length (cstr b))) h | None => HUndef end.
(** string_ref, string.c:54-57: any byte of the buffer including the final NUL. *)
Definition c_string_ref (s : val) (i : Z) : M val := fun h =>
  match str_at h s with
  | Some b => if (0 <=? i)%Z
              then match nth_error (b ++ [NUL]) (Z.to_nat i) with Some c => HOk (VChar c) h | None => HUndef end
              else HUndef
  | None => HUndef
  end.
(** string_set, string.c:59-63; overwriting the final NUL counts as undefined
    behaviour here (the string would run on into the memory after it). *)
Definition c_string_set (s : val) (i : Z) (c : byte) : M unit := fun h =>
  match s, str_at h s with
  | VPtr l, Some b => if ((0 <=? i) && (i <? Z.of_nat (length b)))%Z
                      then HOk tt (upd_cell l (CStr (upd_nth (Z.to_nat i) c b)) h) else HUndef
  | _, _ => HUndef
  end.

(** number_to_string, string.c:65-70: a buffer of 24 NULs and the final one,
    overwritten by sprintf. *)
Definition c_number_to_string (z : Z) : M val :=
  let ds := print_long z in
  if Nat.leb (length ds) 24 then m_alloc (CStr (ds ++ repeat NUL (24 - length ds))) else fun _ => HUndef.

(** [isspace] of the C locale. *)
Definition is_space (c : byte) : bool :=
  let n := N_of_ascii c in (n =? 32)%N || ((9 <=? n) && (n <=? 13))%N.
Fixpoint skip_space (s : list byte) : list byte :=
  match s with
  | c :: r => if is_space c then skip_space r else s
  | [] => []
  end.
Fixpoint take_digits (s : list byte) : list byte :=
  match s with
  | c :: r => if is_digit c then c :: take_digits r else []
  | [] => []
  end.
(** strtol with base 10: the value is clamped to [long]. *)
Definition clamp_long (z : Z) : Z := Z.max (- 2 ^ 63) (Z.min z (2 ^ 63 - 1)).
Definition strtol (s : list byte) : Z :=
  let s := skip_space s in
  match s with
  | c :: r =>
      if Ascii.eqb c "-" then clamp_long (- Z.of_N (digits_value (take_digits r)))
      else if Ascii.eqb c "+" then clamp_long (Z.of_N (digits_value (take_digits r)))
      else clamp_long (Z.of_N (digits_value (take_digits s)))
  | [] => 0
  end.
(** atoi, as glibc does it: strtol truncated to a 32-bit [int].  (The C standard
    leaves values outside [int] undefined.) *)
Definition wrap_int (z : Z) : Z := ((z + 2 ^ 31) mod 2 ^ 32 - 2 ^ 31)%Z.
Definition atoi (s : list byte) : Z := wrap_int (strtol s).
(** string_to_number, string.c:72-75. *)
Definition c_string_to_number (s : val) : M val := fun h =>
  match str_at h s with Some b => HOk (VFix (atoi (cstr b))) h | None => HUndef end.

(** symbol_to_string, string_to_symbol, string.c:77-85; [intern] is the name
    itself here (Symbol.v says when). *)
Definition c_symbol_to_string (s : val) : M val :=
  match s with
  | VSym n | VGensym n _ => m_alloc (CStr (cstr n))
  | _ => fun _ => HUndef
  end.
Definition c_string_to_symbol (s : val) : M val := fun h =>
  match str_at h s with Some b => HOk (VSym (cstr b)) h | None => HUndef end.

(** The loop of list_to_string, string.c:94-97. *)
Fixpoint take_chars (n : nat) (xs : val) : M (list byte) :=
  match n with
  | O => ret []
  | S m => a <- m_car xs ;;
           match a with
           | VChar c => d <- m_cdr xs ;; r <- take_chars m d ;; ret (c :: r)
           | _ => fun _ => HUndef
           end
  end.
(** list_to_string, string.c:87-101. *)
Definition c_list_to_string (fuel : nat) (xs : val) : M val :=
  n <- list_length fuel xs 0 ;; cs <- take_chars (Z.to_nat n) xs ;; m_alloc (CStr cs).
(** string_to_list, string.c:103-109: from index strlen, the final NUL, down to 0. *)
Fixpoint str_to_list_loop (b : list byte) (i : nat) (lst : val) : M val :=
  match nth_error (b ++ [NUL]) i with
  | Some c => p <- m_cons (VChar c) lst ;;
              match i with O => ret p | S j => str_to_list_loop b j p end
  | None => fun _ => HUndef
  end.
Definition c_string_to_list (s : val) : M val := fun h =>
  match str_at h s with Some b => str_to_list_loop b (length (cstr b)) VNull h | None => HUndef end.

(** char_to_integer, char.c:22-24: C's [char] is signed (x86-64).
    integer_to_char, char.c:26-28: the [int] argument and then the [char] store
    keep the low 8 bits. *)
Definition c_char_to_integer (c : byte) : Z :=
  let n := Z.of_N (N_of_ascii c) in if (n <? 128)%Z then n else (n - 256)%Z.
Definition c_integer_to_char (z : Z) : byte := ascii_of_N (Z.to_N (z mod 256)).

(** ** The prelude *)

Definition if_str (who : string) (s : val) (m : M val) : M val := fun h =>
  if stringp h s then m h else HErr (EArg who s) h.
Definition p_char_to_integer (x : val) : M val :=
  match x with VChar c => ret (VFix (c_char_to_integer c)) | _ => fail (EArg "char->integer" x) end.
Definition p_integer_to_char (x : val) : M val :=
  match x with VFix z => ret (VChar (c_integer_to_char z)) | _ => fail (EArg "integer->char" x) end.

(** [check-arg!] and [string], [list->string], prelude.min:795-810. *)
Definition check_char (who : string) : proc := fun args =>
  match args with
  | [VChar _] => ret VVoid
  | [x] => fail (EArg who x)
  | _ => fail (EArity who)
  end.
Definition p_list_to_string (fuel : nat) (xs : val) : M val :=
  p_for_each fuel (check_char "list->string") xs [] ;;; c_list_to_string fuel xs.

(** [make-string], prelude.min:812-826.  Its error branches refer to variables
    that do not exist. *)
Definition p_make_string (n : val) (fill : option val) : M val :=
  let fill := match fill with Some c => c | None => VChar "a" end in
  match n with
  | VFix z =>
      if (0 <=? z)%Z then
        match fill with VChar c => c_make_string z c | _ => fail (EUnbound "init") end
      else fail (EUnbound "len")
  | _ => fail (EUnbound "len")
  end.

(** [string-length], [string-ref], [string-set!], prelude.min:828-858. *)
Definition p_string_length (s : val) : M val :=
  if_str "string-length" s (n <- c_string_length s ;; ret (VFix n)).
Definition p_string_ref (s i : val) : M val :=
  if_str "string-ref" s
    (if_index "string-ref" i (fun z =>
       n <- c_string_length s ;; if (n <=? z)%Z then fail (ERange "string-ref" i) else c_string_ref s z)).
Definition p_string_set (s i c : val) : M val :=
  if_str "string-set!" s
    (if_index "string-set!" i (fun z =>
       n <- c_string_length s ;;
       if (n <=? z)%Z then fail (ERange "string-set!" i)
       else match c with
            | VChar b => c_string_set s z b ;;; ret VVoid
            | _ => fail (EArg "string-set!" c)
            end)).

(** [string-append], prelude.min:860-894.  [args] is the argument list;
    [check-args!] blames an unbound variable. *)
Fixpoint check_strings (args : list val) : M unit := fun h =>
  match args with
  | [] => HOk tt h
  | x :: r => if stringp h x then check_strings r h else HErr (EUnbound "s") h
  end.
Fixpoint sum_lengths (args : list val) (n : Z) : M Z :=
  match args with
  | [] => ret n
  | x :: r => k <- c_string_length x ;; sum_lengths r (n + k)
  end.
Fixpoint string_append_loop (fuel : nat) (s : val) (xs : list val) (i j : Z) : M val :=
  match xs with
  | [] => ret s
  | x :: r =>
      match fuel with
      | O => fun _ => HFuel
      | S f =>
          n <- c_string_length x ;;
          if (n <=? j)%Z then string_append_loop f s r i 0
          else (c <- p_string_ref x (VFix j) ;; p_string_set s (VFix i) c ;;;
                string_append_loop f s xs (i + 1) (j + 1))
      end
  end.
Definition p_string_append (fuel : nat) (args : list val) : M val :=
  match args with
  | [] => m_alloc (CStr [])     (* a string literal; its identity does not matter, it has no bytes *)
  | [x] => check_strings [x] ;;; ret x
  | _ => check_strings args ;;;
         n <- sum_lengths args 0 ;; s <- c_make_string n "0" ;; string_append_loop fuel s args 0 0
  end.

Definition p_number_to_string (n : val) : M val :=
  match n with VFix z => c_number_to_string z | _ => fail (EArg "number->string" n) end.
Definition p_string_to_number (s : val) : M val := if_str "string->number" s (c_string_to_number s).
Definition p_symbol_to_string (s : val) : M val :=
  match s with VSym _ | VGensym _ _ => c_symbol_to_string s | _ => fail (EArg "symbol->string" s) end.
Definition p_string_to_symbol (s : val) : M val := if_str "string->symbol" s (c_string_to_symbol s).
Definition p_string_to_list (s : val) : M val := if_str "string->list" s (c_string_to_list s).

(** [substring], string.min:8-26.  The length is taken first, so a non-string is
    blamed by [string-length]; the error for [start > end] is itself a call with
    the wrong number of arguments. *)
Fixpoint substring_loop (fuel : nat) (str sstr : val) (i n e : Z) : M val :=
  if (n =? e)%Z then ret sstr
  else match fuel with
       | O => fun _ => HFuel
       | S f => c <- p_string_ref str (VFix n) ;; p_string_set sstr (VFix i) c ;;;
                substring_loop f str sstr (i + 1) (n + 1) e
       end.
Definition l_substring (fuel : nat) (str start stop : val) : M val :=
  l <- p_string_length str ;;
  match start, stop, l with
  | VFix a, VFix b, VFix len =>
      if (a <? 0)%Z then fail (EArg "substring" start)
      else if (b <? 0)%Z then fail (EArg "substring" stop)
      else if (len <? b)%Z then fail (ERange "substring" stop)
      else if (b <? a)%Z then fail (EArity "raise-range-error")
      else s <- p_make_string (VFix (b - a)) None ;; substring_loop fuel str s 0 a b
  | VFix a, _, _ => if (a <? 0)%Z then fail (EArg "substring" start) else fail (EArg "substring" stop)
  | _, _, _ => fail (EArg "substring" start)
  end.
