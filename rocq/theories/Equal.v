(** Model of structural equality and hashing: src/core/c/object.c:95-131,
    src/core/c/hashtable.c:11-41, 230-247 and src/core/s/prelude.min:1837-1934. *)
From Coq Require Import ZArith NArith Bool Ascii String List Lia.
From Verif Require Import Base Outcome Arith Hashtable Symbol Heap.
Import ListNotations.

(** The cell behind a value; the shared empty vector is a vector object of
    length 0 (global.c:102). *)
Definition cell_of (h : heap) (v : val) : option cell :=
  match v with
  | VPtr l => nth_error h l
  | VEmptyVec => Some (CVec [])
  | _ => None
  end.

(** Element loops of object.c:99-102 and prelude.min:1846-1850 (there the loop is
    an [andmap] over [(iota n)]). *)
Fixpoint all_equal (eq : val -> val -> option bool) (xs ys : list val) : option bool :=
  match xs, ys with
  | x :: r, y :: s =>
      match eq x y with
      | Some true => all_equal eq r s
      | Some false => Some false
      | None => None
      end
  | _, _ => Some true
  end.

(** minim_equalp, object.c:107-131 ([$equal?]).  [None]: out of fuel (cyclic
    data make the C code recurse forever). *)
Fixpoint equal_c (fuel : nat) (h : heap) (a b : val) : option bool :=
  match fuel with
  | O => None
  | S f =>
      if eqp a b then Some true
      else match cell_of h a, cell_of h b with
           | Some (CStr s), Some (CStr t) => Some (bytes_eqb (cstr s) (cstr t))
           | Some (CPair a1 d1), Some (CPair a2 d2) =>
               match equal_c f h a1 a2 with
               | Some true => equal_c f h d1 d2
               | r => r
               end
           | Some (CVec xs), Some (CVec ys) =>
               if Nat.eqb (length xs) (length ys) then all_equal (equal_c f h) xs ys else Some false
           | Some (CBox x), Some (CBox y) => equal_c f h x y
           | _, _ => Some false
           end
  end.

Section Prelude.
(** [equal?] on two hashtables (prelude.min:1853-1868) or two records
    (1888-1896), which call user procedures. *)
Variable ext_equal : nat -> nat -> option bool.

(** [equal?], prelude.min:1837-1897. *)
Fixpoint equal_p (fuel : nat) (h : heap) (a b : val) : option bool :=
  match fuel with
  | O => None
  | S f =>
      if eqp a b then Some true
      else match cell_of h a with
           | Some (CStr _) => equal_c f h a b
           | Some (CPair a1 d1) =>
               match cell_of h b with
               | Some (CPair a2 d2) =>
                   match equal_p f h a1 a2 with
                   | Some true => equal_p f h d1 d2
                   | r => r
                   end
               | _ => Some false
               end
           | Some (CVec xs) =>
               match cell_of h b with
               | Some (CVec ys) =>
                   if Nat.eqb (length xs) (length ys) then all_equal (equal_p f h) xs ys
                   else Some false
               | _ => Some false
               end
           | Some (CBox x) =>
               match cell_of h b with
               | Some (CBox y) => equal_p f h x y
               | _ => Some false
               end
           | Some (CHash _) =>
               match a, b, cell_of h b with
               | VPtr l, VPtr m, Some (CHash _) => ext_equal l m
               | _, _, _ => Some false
               end
           | Some (CRec _ _) =>
               match a, b, cell_of h b with
               | VPtr l, VPtr m, Some (CRec _ _) => ext_equal l m
               | _, _, _ => Some false
               end
           | Some (CSyntax _ _) | Some (COther _) | None => equal_c f h a b
           end
  end.
End Prelude.

(** hash_bytes of hashtable.c:13-25 in size_t; the result keeps 62 bits. *)
Definition ht_hash_bytes (s : list byte) : N :=
  N.shiftr (fold_left (fun h c => Z.to_N ((Z.of_N h * 65 + schar c) mod 2 ^ 64)) s 5381%N) 2.

(** The eight bytes of a machine word, little endian (x86-64, arm64). *)
Fixpoint le_bytes (n : nat) (u : N) : list byte :=
  match n with O => [] | S m => ascii_of_N (u mod 256) :: le_bytes m (u / 256) end.

Section Hash.
(** Where objects live in memory. *)
Variable address : val -> N.
(** The hash of a hashtable or record (errors out or calls user procedures). *)
Variable ext_hash : nat -> outcome Z.

(** eq_hash, hashtable.c:27-41. *)
Definition eq_hash (v : val) : N :=
  match v with
  | VFix z => ht_hash_bytes (le_bytes 8 (u64_of_long z))
  | VChar c => ht_hash_bytes [c]
  | _ => ht_hash_bytes (le_bytes 8 (address v))
  end.

(** [$equal-hash] as the prelude calls it: on symbols and strings
    (hashtable.c:235-247). *)
Definition name_hash (s : list byte) : Z := Z.of_N (ht_hash_bytes (cstr s)).

(** [hash-vector]'s loop, prelude.min:1905-1911. *)
Fixpoint hash_all (rec : val -> Z -> option (outcome Z)) (xs : list val) (hc : Z) : option (outcome Z) :=
  match xs with
  | [] => Some (Val hc)
  | x :: r => match rec x hc with
              | Some (Val hc') => hash_all rec r hc'
              | o => o
              end
  end.

(** The [loop] of [equal-hash], prelude.min:1914-1934: leaves ignore the
    accumulated hash code.  The inner [None] is fuel; [Undef] is overflow of the
    fixnum addition for boxes. *)
Fixpoint hash_loop (fuel : nat) (h : heap) (x : val) (hc : Z) : option (outcome Z) :=
  match fuel with
  | O => None
  | S f =>
      match x with
      | VSym n | VGensym n _ => Some (Val (name_hash n))
      | _ =>
          match cell_of h x with
          | Some (CStr s) => Some (Val (name_hash s))
          | Some (CPair a d) =>
              match hash_loop f h a hc with
              | Some (Val hc') => hash_loop f h d hc'
              | o => o
              end
          | Some (CVec xs) => hash_all (hash_loop f h) xs hc
          | Some (CBox v) =>
              match clong (hc + 410225874) with
              | Val hc' => hash_loop f h v hc'
              | Err e => Some (Err e)
              | Undef => Some Undef
              end
          | Some (CHash _) | Some (CRec _ _) =>
              match x with VPtr l => Some (ext_hash l) | _ => Some Undef end
          | Some (CSyntax _ _) | Some (COther _) | None => Some (Val (Z.of_N (eq_hash x)))
          end
      end
  end.

(** [equal-hash], prelude.min:1899-1934. *)
Definition equal_hash (fuel : nat) (h : heap) (x : val) : option (outcome Z) :=
  hash_loop fuel h x 523658599.
End Hash.

(** [equal-hashtable?] on the table model, prelude.min:1853-1868, for two tables
    with the same hash and equivalence procedures.  Only the bindings of the
    first table are looked at.  [None]: undefined access or an unused slot in the
    entry vectors (does not happen, C07). *)
Section HashtableEqual.
Variables K V : Type.
Variable hash : K -> Z.
Variable equiv : K -> K -> bool.
Variable veq : V -> V -> bool.
Fixpoint bindings_in (h : Hashtable.heap K V) (b : table) (l : list (option (K * V))) : option bool :=
  match l with
  | [] => Some true
  | Some (k, v) :: r =>
      match ht_ref K V hash equiv h b k with
      | Some (Some v') => if veq v v' then bindings_in h b r else Some false
      | Some None => Some false
      | None => None
      end
  | None :: _ => None
  end.
Definition equal_hashtable (h : Hashtable.heap K V) (a b : table) : option bool :=
  match ht_entries K V h a with
  | Some l => bindings_in h b l
  | None => None
  end.
End HashtableEqual.
