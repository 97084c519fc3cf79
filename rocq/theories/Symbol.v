(** Model of symbol interning and gensym: src/core/c/symbol.c:73-206.

    A symbol object is identified by its allocation number; its name is a C
    string.  [eq?] on symbols is equality of these numbers. *)
From Coq Require Import ZArith NArith Bool Ascii String List Lia.
From Verif Require Import Base Decimal Hashtable.
Import ListNotations.

Definition name := list byte.
Fixpoint name_eqb (a b : name) : bool :=
  match a, b with
  | [], [] => true
  | x :: r, y :: s => Ascii.eqb x y && name_eqb r s
  | _, _ => false
  end.

(** [char] is signed: the value added by symbol.c:95. *)
Definition schar (c : byte) : Z :=
  let n := Z.of_N (N_of_ascii c) in if (n <? 128)%Z then n else (n - 256)%Z.

(** hash_bytes, symbol.c:90-98, in uint32_t. *)
Definition hash_bytes (s : name) : N :=
  fold_left (fun h c => Z.to_N ((Z.of_N h * 33 + schar c) mod 2 ^ 32)) s 5381%N.

(** The interning table (symbol.c:134-141): position in [bucket_sizes], the
    bucket chains (the head of a list is the most recently pushed entry) and the
    number of entries; plus all symbols allocated so far and the gensym counter. *)
Record symtab := mksymtab {
  names : list name;               (* name of symbol number i *)
  alloc_ptr : nat;
  chains : list (list nat);
  entries : N;
  counter : Z }.

Definition name_of (st : symtab) (i : nat) : name := nth i (names st) [].

(** make_intern_table, symbol.c:134-141: starts at [bucket_sizes[9]]. *)
Definition sym_init : symtab :=
  mksymtab [] 9 (repeat [] (N.to_nat (nth 9 bucket_sizes 0%N))) 0 0.

Definition slot (s : name) (alloc : nat) : nat := N.to_nat (hash_bytes s mod N.of_nat alloc).

(** new_bucket, symbol.c:83-88. *)
Definition push_chain (i : nat) (x : nat) (cs : list (list nat)) : list (list nat) :=
  upd i (x :: nth i cs []) cs.

(** The two nested loops of intern_table_resize, symbol.c:110-121. *)
Definition move_chain (nm : nat -> name) (new_alloc : nat) (cs : list (list nat)) (b : list nat)
  : list (list nat) :=
  fold_left (fun acc x => push_chain (slot (nm x) new_alloc) x acc) b cs.
Definition move_all (nm : nat -> name) (new_alloc : nat) (old : list (list nat)) : list (list nat) :=
  fold_left (move_chain nm new_alloc) old (repeat [] new_alloc).

(** intern_table_resize, symbol.c:100-126.  [None]: the size pointer runs past
    the sizes (the terminating 0 makes the modulo undefined). *)
Definition resize (st : symtab) : option symtab :=
  match nth_error bucket_sizes (S (alloc_ptr st)) with
  | Some a =>
      Some (mksymtab (names st) (S (alloc_ptr st))
              (move_all (name_of st) (N.to_nat a) (chains st)) (entries st) (counter st))
  | None => None
  end.

(** symbol.c:75-82.  The comparison [size / alloc > 0.75] is done in doubles in C;
    the exact comparison used here agrees with it for tables below 2^50 entries. *)
Definition overloaded (st : symtab) : bool :=
  (3 * N.of_nat (length (chains st)) <? 4 * entries st)%N.

(** Msymbol, symbol.c:180-190: allocates a symbol object. *)
Definition new_symbol (st : symtab) (s : name) : symtab :=
  mksymtab (names st ++ [s]) (alloc_ptr st) (chains st) (entries st) (counter st).

(** intern_symbol, symbol.c:143-178.  The bucket index is computed before the
    table may grow and is used after it.  (The pointer comparison of line 157 is a
    shortcut for the comparison of contents that follows it.) *)
Definition intern (st : symtab) (buf : list byte) : option (symtab * nat) :=
  let s := cstr buf in
  let idx := slot s (length (chains st)) in
  match find (fun x => name_eqb (name_of st x) s) (nth idx (chains st) []) with
  | Some x => Some (st, x)
  | None =>
      let x := length (names st) in
      let st1 := new_symbol st s in
      match (if overloaded st1 then resize st1 else Some st1) with
      | Some st2 =>
          Some (mksymtab (names st2) (alloc_ptr st2) (push_chain idx x (chains st2))
                  (entries st2 + 1) (counter st2), x)
      | None => None
      end
  end.

(** Mgensym, symbol.c:192-206; the prefix is a C string.  The object is not put
    into the table.  [None]: the counter overflows. *)
Definition gensym (st : symtab) (prefix : list byte) : option (symtab * nat) :=
  let nc := (counter st + 1)%Z in
  if is_longb nc then
    Some (mksymtab (names st ++ [cstr prefix ++ print_long (counter st)]) (alloc_ptr st)
            (chains st) (entries st) nc, length (names st))
  else None.

(** Histories of symbol-creating calls. *)
Inductive sop := Intern (buf : list byte) | Gensym (prefix : list byte).
Definition sstep (st : symtab) (o : sop) : option (symtab * nat) :=
  match o with Intern b => intern st b | Gensym p => gensym st p end.
Fixpoint srun (st : symtab) (os : list sop) : option (symtab * list nat) :=
  match os with
  | [] => Some (st, [])
  | o :: r =>
      match sstep st o with
      | Some (st1, x) =>
          match srun st1 r with Some (st2, xs) => Some (st2, x :: xs) | None => None end
      | None => None
      end
  end.
