(** Enumerations: src/library/private/enum.min.

    Symbols are numbers (interned symbols are eq? exactly when they are the same).
    Simplifications: the sets (set.min) that the records hold are lists of which only
    membership is used: C22 shows that a set built by make-set has the elements it
    was given; the sets are not reachable from outside and never mutated.  A record
    of enum-set-type is identified by a number, fresh for each make-enumeration: the
    records are compared with eq?.  The macro define-enumeration is not modelled. *)
From Coq Require Import NArith Bool List Arith Lia.
Import ListNotations.
Local Open Scope list_scope.

(** symbols, and everything else that may be passed *)
Inductive val : Type := VSym (n : nat) | VOther (n : nat).
Definition val_dec : forall a b : val, {a = b} + {a <> b}.
Proof. decide equality; apply Nat.eq_dec. Defined.
Definition symbolv (v : val) : bool := match v with VSym _ => true | VOther _ => false end.

(** set.min: make-set, set-member?, subset? *)
Definition make_set (l : list val) : list val := l.
Definition set_member (s : list val) (x : val) : bool := if in_dec val_dec x s then true else false.
Definition subset (s t : list val) : bool := forallb (set_member t) s.

(** the records, enum.min 27-51 *)
Record etype : Type := mkType { tid : nat; tuniverse : list val; tset : list val }.
Definition make_type (id : nat) (univ : list val) : etype := mkType id univ (make_set univ).
Record eset : Type := mkSet { etyp : etype; evals : list val; eset_ : list val }.
Definition make_eset (t : etype) (l : list val) : eset := mkSet t l (make_set l).

(** results: a value, or a raised error *)
Inductive eres (A : Type) : Type := EOk (a : A) | EErr.
Arguments EOk {A} _. Arguments EErr {A}.
Definition ebind {A B} (r : eres A) (k : A -> eres B) : eres B := match r with EOk a => k a | EErr => EErr end.

(** arguments that should be enumeration sets *)
Inductive arg : Type := ASet (e : eset) | AOther.
(** the checks [(unless (enum-set? e) ...)] *)
Definition want (a : arg) : eres eset := match a with ASet e => EOk e | AOther => EErr end.

(** make-enumeration, enum.min 65-72; [id] is the identity of the new type *)
Definition make_enumeration (id : nat) (xs : list val) : eres eset :=
  if forallb symbolv xs then EOk (make_eset (make_type id xs) xs) else EErr.
(** enum-set->list, enum.min 74-77 *)
Definition enum_to_list (a : arg) : eres (list val) := ebind (want a) (fun e => EOk (evals e)).
(** enum-set-universe, enum.min 79-83 *)
Definition enum_universe (a : arg) : eres eset := ebind (want a) (fun e => EOk (make_eset (etyp e) (tuniverse (etyp e)))).
(** the loop of the constructor, enum.min 96-101 *)
Fixpoint cons_loop (xs : list val) (ys acc : list val) : list val :=
  match ys with
  | [] => rev acc
  | y :: r => if set_member xs y then cons_loop xs r (y :: acc) else cons_loop xs r acc
  end.
(** enum-set-constructor applied to a set and then to a list, enum.min 85-101 *)
Definition enum_constructor (a : arg) (xs : list val) : eres eset :=
  ebind (want a) (fun e =>
    if forallb symbolv xs then EOk (make_eset (etyp e) (cons_loop (make_set xs) (tuniverse (etyp e)) [])) else EErr).
(** index-of, list.min 119-124 *)
Fixpoint index_of (k : val) (l : list val) (i : nat) : option nat :=
  match l with
  | [] => None
  | x :: r => if val_dec k x then Some i else index_of k r (S i)
  end.
(** enum-set-indexer applied to a set and then to a value, enum.min 103-111; [None]
    is #f *)
Definition enum_indexer (a : arg) (x : val) : eres (option nat) :=
  ebind (want a) (fun e => if symbolv x then EOk (index_of x (tuniverse (etyp e)) 0) else EErr).
(** enum-set-member?, enum.min 113-119 *)
Definition enum_member (x : val) (a : arg) : eres bool := ebind (want a) (fun e => EOk (set_member (eset_ e) x)).
(** $enum-set-subset?, enum.min 124-128 *)
Definition subset_ (e1 e2 : eset) : bool := subset (tset (etyp e1)) (tset (etyp e2)) && subset (eset_ e1) (eset_ e2).
(** enum-set-subset?, enum.min 130-135 *)
Definition enum_subset (a b : arg) : eres bool := ebind (want a) (fun e1 => ebind (want b) (fun e2 => EOk (subset_ e1 e2))).
(** enum-set=?, enum.min 137-142 *)
Definition enum_equal (a b : arg) : eres bool := ebind (want a) (fun e1 => ebind (want b) (fun e2 => EOk (subset_ e1 e2 && subset_ e2 e1))).
(** enum-set-merger, enum.min 144-155 *)
Definition merger (keep : list val -> list val -> val -> bool) (a b : arg) : eres eset :=
  ebind (want a) (fun e1 => ebind (want b) (fun e2 =>
    if tid (etyp e1) =? tid (etyp e2)
    then EOk (make_eset (etyp e1) (filter (keep (eset_ e1) (eset_ e2)) (tuniverse (etyp e1))))
    else EErr)).
(** enum.min 157-170 *)
Definition enum_union := merger (fun s t x => set_member s x || set_member t x).
Definition enum_intersect := merger (fun s t x => set_member s x && set_member t x).
Definition enum_difference := merger (fun s t x => set_member s x && negb (set_member t x)).
(** enum-set-complement, enum.min 172-179 *)
Definition enum_complement (a : arg) : eres eset :=
  ebind (want a) (fun e => EOk (make_eset (etyp e) (filter (fun x => negb (set_member (eset_ e) x)) (tuniverse (etyp e))))).
(** enum-set-projection, enum.min 181-191 *)
Definition enum_projection (a b : arg) : eres eset :=
  ebind (want a) (fun e1 => ebind (want b) (fun e2 =>
    enum_constructor b (filter (set_member (tset (etyp e2))) (evals e1)))).
