(** Model of the FASL serializer: src/core/c/fasl.c. *)
From Coq Require Import ZArith NArith List Bool Ascii Lia.
From Verif Require Import Base.
Import ListNotations.
Local Open Scope N_scope.

(** ** Writing *)

(** [write_fasl_uptr] (fasl.c:232-247): a [do]-[while] loop that emits the low
    seven bits shifted left once, with the low bit set while bits remain.  A
    64-bit word is exhausted after at most ten rounds, the recursion argument
    only makes the loop structural. *)
Fixpoint write_uptr_loop (rounds : nat) (u : N) : list byte :=
  match rounds with
  | O => []
  | S r =>
      let b := N.land u 127 in
      let u' := N.shiftr u 7 in
      let b' := N.lor (N.shiftl b 1) (if u' =? 0 then 0 else 1) in
      ascii_of_N b' :: (if u' =? 0 then [] else write_uptr_loop r u')
  end.

Definition write_uptr (u : N) : list byte := write_uptr_loop 10 u.

(** Tags of the FASL format, in the order of [fasl_type] (src/core/minim.h,
    enum fasl_type; same order as the switch in fasl.c:185-215). *)
Definition FASL_NULL := 0.   Definition FASL_TRUE := 1.  Definition FASL_FALSE := 2.
Definition FASL_EOF := 3.    Definition FASL_VOID := 4.  Definition FASL_SYMBOL := 5.
Definition FASL_STRING := 6. Definition FASL_FIXNUM := 7. Definition FASL_CHAR := 8.
Definition FASL_PAIR := 9.   Definition FASL_EMPTY_VECTOR := 10.
Definition FASL_VECTOR := 11. Definition FASL_BASE_RTD := 12. Definition FASL_RECORD := 13.

(** [write_fasl_type] / [write_fasl_byte] (fasl.c:227-228). *)
Definition tag (t : N) : byte := ascii_of_N t.

(** [write_fasl_symbol] (fasl.c:250-254) and [write_fasl_string]
    (fasl.c:257-261): [strlen] and then the bytes before the NUL. *)
Definition write_cstr (b : list byte) : list byte :=
  write_uptr (N.of_nat (length (cstr b))) ++ cstr b.

(** [list_length] (list.c:47-51) on trees: number of pairs on the cdr chain. *)
Fixpoint obj_list_length (o : obj) : N :=
  match o with OPair _ d => N.succ (obj_list_length d) | _ => 0 end.

(** Concatenation of optional outputs; [None] is the [exit(1)] of fasl.c:338. *)
Definition oapp (a b : option (list byte)) : option (list byte) :=
  match a, b with Some x, Some y => Some (x ++ y) | _, _ => None end.

(** [write_fasl] (fasl.c:294-340) with [write_fasl_pair] (264-274),
    [write_fasl_vector] (277-284) and [write_fasl_record] (287-292).  [None]
    means the process exits with the "object not serializable" message.
    [write_fasl_pair]'s loop over the cdr chain is the inner fixpoint [chain]. *)
Fixpoint write_fasl (o : obj) : option (list byte) :=
  match o with
  | ONull => Some [tag FASL_NULL]
  | OTrue => Some [tag FASL_TRUE]
  | OFalse => Some [tag FASL_FALSE]
  | OEof => Some [tag FASL_EOF]
  | OVoid => Some [tag FASL_VOID]
  | OSym n => Some (tag FASL_SYMBOL :: write_cstr n)
  | OGensym n _ => Some (tag FASL_SYMBOL :: write_cstr n)
  | OStr b => Some (tag FASL_STRING :: write_cstr b)
  | OFix z => Some (tag FASL_FIXNUM :: write_uptr (u64_of_long z))
  | OChar c => Some [tag FASL_CHAR; c]
  | OPair a d =>
      let fix chain (it : obj) : option (list byte) :=
        match it with
        | OPair a' d' => oapp (write_fasl a') (chain d')
        | _ => write_fasl it
        end in
      oapp (Some (tag FASL_PAIR :: write_uptr (u64_of_long (Z.of_N (obj_list_length o)))))
           (oapp (write_fasl a) (chain d))
  | OEmptyVec => Some [tag FASL_EMPTY_VECTOR]
  | OVec l =>
      let fix elts (l : list obj) : option (list byte) :=
        match l with [] => Some [] | x :: r => oapp (write_fasl x) (elts r) end in
      oapp (Some (tag FASL_VECTOR :: write_uptr (N.of_nat (length l)))) (elts l)
  | OBaseRtd => Some [tag FASL_BASE_RTD]
  | ORec rtd l =>
      let fix elts (l : list obj) : option (list byte) :=
        match l with [] => Some [] | x :: r => oapp (write_fasl x) (elts r) end in
      oapp (Some (tag FASL_RECORD :: write_uptr (N.of_nat (length l))))
           (oapp (write_fasl rtd) (elts l))
  | OBox _ | OSyntax _ _ | OOther _ => None
  end.

(** ** Reading *)

(** A port positioned in a byte stream. [fgetc] at the end returns EOF = -1,
    which the cast to [mbyte] turns into 255 (fasl.c:75-76): the reader never
    notices the end of the stream. *)
Definition get_byte (s : list byte) : N * list byte :=
  match s with
  | [] => (255, [])
  | c :: r => (N_of_ascii c, r)
  end.

Inductive res (A : Type) : Type :=
| ROk (x : A) (rest : list byte)
| RMalformed               (* exit(1) of fasl.c:217-218 *)
| RUndefined               (* shift by 64 or more, fasl.c:92 *)
| RFuel.                   (* model ran out of fuel: excluded by every theorem *)
Arguments ROk {A}. Arguments RMalformed {A}. Arguments RUndefined {A}. Arguments RFuel {A}.

Definition rbind {A B} (r : res A) (k : A -> list byte -> res B) : res B :=
  match r with
  | ROk x rest => k x rest
  | RMalformed => RMalformed
  | RUndefined => RUndefined
  | RFuel => RFuel
  end.

(** [read_fasl_uptr] (fasl.c:80-97).  [rounds] is the number of shifts still
    defined (offsets 0,7,...,63); an eleventh byte would shift by 70, which is
    undefined behaviour in C. *)
Fixpoint read_uptr_loop (rounds : nat) (u offset : N) (s : list byte) : res N :=
  match rounds with
  | O => RUndefined
  | S r =>
      let '(b, s') := get_byte s in
      let c := N.land b 1 in
      let b' := N.shiftr b 1 in
      let u' := N.lor u (N.shiftl b' offset mod word_mod) in
      if c =? 0 then ROk u' s' else read_uptr_loop r u' (offset + 7) s'
  end.

Definition read_uptr (s : list byte) : res N := read_uptr_loop 10 0 0 s.

(** The byte loops of [read_fasl_symbol] / [read_fasl_string]
    (fasl.c:104-107, 117-120); [len] is a [long], a negative one reads nothing. *)
Fixpoint read_bytes (fuel : nat) (len : Z) (s : list byte) : res (list byte) :=
  match fuel with
  | O => RFuel
  | S f =>
      if (len <=? 0)%Z then ROk [] s
      else let '(b, s') := get_byte s in
           rbind (read_bytes f (len - 1)%Z s')
                 (fun bs s'' => ROk (ascii_of_N b :: bs) s'')
  end.

(** [read_fasl] (fasl.c:181-221) with [read_fasl_symbol] (100-111, which
    interns), [read_fasl_string] (113-124), [read_fasl_fixnum] (126),
    [read_fasl_char] (130), [read_fasl_pair] (134-154), [read_fasl_vector]
    (156-166) and [read_fasl_record] (168-179).  [read_fasl_pair] always reads
    one element before looking at the length, hence [Z.max 1].  Allocation with
    an absurd length (fasl.c:161,174) is not modelled. *)
Fixpoint read_fasl (fuel : nat) (s : list byte) : res obj :=
  match fuel with
  | O => RFuel
  | S f =>
      let '(t, s) := get_byte s in
      if t =? FASL_NULL then ROk ONull s
      else if t =? FASL_TRUE then ROk OTrue s
      else if t =? FASL_FALSE then ROk OFalse s
      else if t =? FASL_EOF then ROk OEof s
      else if t =? FASL_VOID then ROk OVoid s
      else if t =? FASL_SYMBOL then
        rbind (read_uptr s) (fun len s =>
        rbind (read_bytes f (long_of_u64 len) s) (fun bs s =>
        ROk (OSym (cstr bs)) s))
      else if t =? FASL_STRING then
        rbind (read_uptr s) (fun len s =>
        rbind (read_bytes f (long_of_u64 len) s) (fun bs s =>
        ROk (OStr (cstr bs)) s))
      else if t =? FASL_FIXNUM then
        rbind (read_uptr s) (fun u s => ROk (OFix (long_of_u64 u)) s)
      else if t =? FASL_CHAR then
        let '(b, s) := get_byte s in ROk (OChar (ascii_of_N b)) s
      else if t =? FASL_PAIR then
        rbind (read_uptr s) (fun len s =>
        rbind (read_seq f (Z.max 1 (long_of_u64 len)) s) (fun xs s =>
        rbind (read_fasl f s) (fun tl s =>
        ROk (fold_right OPair tl xs) s)))
      else if t =? FASL_EMPTY_VECTOR then ROk OEmptyVec s
      else if t =? FASL_VECTOR then
        rbind (read_uptr s) (fun len s =>
        rbind (read_seq f (long_of_u64 len) s) (fun xs s => ROk (OVec xs) s))
      else if t =? FASL_BASE_RTD then ROk OBaseRtd s
      else if t =? FASL_RECORD then
        rbind (read_uptr s) (fun len s =>
        rbind (read_fasl f s) (fun rtd s =>
        rbind (read_seq f (long_of_u64 len) s) (fun xs s => ROk (ORec rtd xs) s)))
      else RMalformed
  end
(** The element loops (fasl.c:145-148, 162-163, 175-176). *)
with read_seq (fuel : nat) (n : Z) (s : list byte) : res (list obj) :=
  match fuel with
  | O => RFuel
  | S f =>
      if (n <=? 0)%Z then ROk [] s
      else rbind (read_fasl f s) (fun x s =>
           rbind (read_seq f (n - 1)%Z s) (fun xs s => ROk (x :: xs) s))
  end.
