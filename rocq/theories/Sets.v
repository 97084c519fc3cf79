(** Model of src/library/private/set.min over the pointer-level hashtables of
    Hashtable.v.

    A set is a record whose only field, [store], is a hashtable that maps every
    element to #f (set.min:36-51); the model identifies a set with the number of
    its table.  Keys are compared with a fixed equivalence and hashed with a
    fixed hash function, so elements that are mutated while in a set are not
    modelled.  The record itself, its printer and its equal?/hash methods
    (set.min:45-51) are not modelled. *)
From Coq Require Import ZArith NArith Bool List.
From Verif Require Import Base Hashtable.
Import ListNotations.

Section Sets.
Variable K : Type.
Variable hash : K -> Z.
Variable equiv : K -> K -> bool.

Notation world := (world K unit).

(** Computations over the world of tables; [None] is a dangling pointer,
    divergence or a result of the wrong kind. *)
Definition SM (A : Type) : Type := world -> option (world * A).
Definition sret {A} (a : A) : SM A := fun w => Some (w, a).
Definition sbind {A B} (c : SM A) (f : A -> SM B) : SM B := fun w =>
  match c w with
  | Some (w', a) => f a w'
  | None => None
  end.
Local Notation "'do' x <- a ; b" := (sbind a (fun x => b)) (at level 60, x pattern, a at level 59, right associativity).

Definition prim (o : op K unit) : SM (out K unit) := fun w => step K unit hash equiv w o.

(** [make-hashtable] *)
Definition new_table : SM nat :=
  do r <- prim (OMake _ _); match r with RTable _ _ i => sret i | _ => fun _ => None end.

(** set-add!, set.min:84-87 *)
Definition set_add (st : nat) (v : K) : SM unit :=
  do r <- prim (OSet _ _ st v tt); match r with RVoid _ _ => sret tt | _ => fun _ => None end.

(** set-remove!, set.min:89-92 *)
Definition set_remove (st : nat) (v : K) : SM unit :=
  do r <- prim (ODelete _ _ st v); match r with RVoid _ _ => sret tt | _ => fun _ => None end.

(** set-clear!, set.min:94-97 *)
Definition set_clear (st : nat) : SM unit :=
  do r <- prim (OClear _ _ st); match r with RVoid _ _ => sret tt | _ => fun _ => None end.

(** set-member?, set.min:62-65 *)
Definition set_member (st : nat) (v : K) : SM bool :=
  do r <- prim (ORef _ _ st v);
  match r with RRef _ _ (Some _) => sret true | RRef _ _ None => sret false | _ => fun _ => None end.

(** set-count, set.min:72-75 *)
Definition set_count (st : nat) : SM Z :=
  do r <- prim (OSize _ _ st); match r with RSize _ _ z => sret z | _ => fun _ => None end.

(** set-empty?, set.min:67-70 *)
Definition set_empty (st : nat) : SM bool := do n <- set_count st; sret (n =? 0)%Z.

(** The keys of [hashtable-keys]; a slot that was never filled would hold #f,
    here the whole call fails. *)
Fixpoint keys_of (l : list (option (K * unit))) : option (list K) :=
  match l with
  | [] => Some []
  | Some (k, _) :: r => match keys_of r with Some ks => Some (k :: ks) | None => None end
  | None :: _ => None
  end.

(** set->list, set.min:99-102 *)
Definition set_to_list (st : nat) : SM (list K) :=
  do r <- prim (OEntries _ _ st);
  match r with
  | REntries _ _ l => match keys_of l with Some ks => sret ks | None => fun _ => None end
  | _ => fun _ => None
  end.

(** [for-each], prelude.min:967-1006, on one list *)
Fixpoint for_each {A} (f : A -> SM unit) (xs : list A) : SM unit :=
  match xs with
  | [] => sret tt
  | x :: r => do _ <- f x; for_each f r
  end.

(** make-set: the protocol of the record type, set.min:40-45 *)
Definition make_set (xs : list K) : SM nat :=
  do h <- new_table; do _ <- for_each (set_add h) xs; sret h.

(** set-copy, set.min:77-82 *)
Definition set_copy (st : nat) : SM nat :=
  do cp <- make_set [];
  do xs <- set_to_list st;
  do _ <- for_each (set_add cp) xs;
  sret cp.

(** subset?, set.min:108-117 *)
Fixpoint subset_loop (st2 : nat) (elts : list K) : SM bool :=
  match elts with
  | [] => sret true
  | x :: r => do b <- set_member st2 x; if b then subset_loop st2 r else sret false
  end.
Definition subset (st st2 : nat) : SM bool := do xs <- set_to_list st; subset_loop st2 xs.

(** proper-subset?, set.min:119-124 *)
Definition proper_subset (st st2 : nat) : SM bool :=
  do b <- subset st st2;
  if b then (do c <- subset st2 st; sret (negb c)) else sret false.

(** set=?, set.min:126-131 *)
Definition set_eq (st st2 : nat) : SM bool :=
  do b <- subset st st2; if b then subset st2 st else sret false.

(** set-union, set.min:151-173; the one-argument branch is a copy. *)
Definition add_all (u s : nat) : SM unit := do xs <- set_to_list s; for_each (set_add u) xs.
Definition set_union (ss : list nat) : SM nat :=
  match ss with
  | [] => make_set []
  | [s] => do c <- make_set []; do _ <- add_all c s; sret c
  | _ => do u <- make_set []; do _ <- for_each (add_all u) ss; sret u
  end.

(** The loop of set-intersect, set.min:193-204 *)
Fixpoint intersect_loop (ss : list nat) (i : nat) : SM nat :=
  match ss with
  | [] => sret i
  | s :: r =>
      do n <- set_count i;
      if (n =? 0)%Z then sret i
      else
        do i' <- make_set [];
        do xs <- set_to_list i;
        do _ <- for_each (fun x => do b <- set_member s x; if b then set_add i' x else sret tt) xs;
        intersect_loop r i'
  end.

(** set-intersect, set.min:175-204 *)
Definition set_intersect (ss : list nat) : SM nat :=
  match ss with
  | [] => make_set []
  | [s] => do c <- make_set []; do _ <- add_all c s; sret c
  | s :: r => do i <- make_set []; do _ <- add_all i s; intersect_loop r i
  end.

(** set-subtract, set.min:206-223; [set-for-each] takes the list of elements
    before the first removal (set.min:142-145). *)
Fixpoint subtract_loop (diff : nat) (sts : list nat) : SM nat :=
  match sts with
  | [] => sret diff
  | st :: r =>
      do xs <- set_to_list diff;
      do _ <- for_each (fun x => do b <- set_member st x; if b then set_remove diff x else sret tt) xs;
      subtract_loop diff r
  end.
Definition set_subtract (st0 : nat) (sts : list nat) : SM nat :=
  do diff <- set_copy st0; subtract_loop diff sts.

(** set-symmetric-difference, set.min:225-243 *)
Fixpoint symdiff_loop (diff : nat) (sts : list nat) : SM nat :=
  match sts with
  | [] => sret diff
  | st :: r =>
      do xs <- set_to_list st;
      do _ <- for_each (fun x => do b <- set_member diff x; if b then set_remove diff x else set_add diff x) xs;
      symdiff_loop diff r
  end.
Definition set_symdiff (st0 : nat) (sts : list nat) : SM nat :=
  do diff <- set_copy st0; symdiff_loop diff sts.

(** ** Histories

    A program refers to the sets it has created by their creation number;
    a number that is too large stands for a value that is not a set, on which
    every procedure raises (set.min:59-60) before doing anything. *)

Inductive sop : Type :=
| SMake (xs : list K)
| SCopy (i : nat)
| SAdd (i : nat) (x : K)
| SRemove (i : nat) (x : K)
| SClear (i : nat)
| SMember (i : nat) (x : K)
| SEmpty (i : nat)
| SCount (i : nat)
| SToList (i : nat)                 (* also the list traversed by set-map and set-for-each *)
| SSubset (i j : nat)
| SProper (i j : nat)
| SEq (i j : nat)
| SUnion (is : list nat)
| SIntersect (is : list nat)
| SSubtract (i : nat) (js : list nat)
| SSymdiff (i : nat) (js : list nat).

Inductive sres : Type :=
| SVoid
| SSet (i : nat)
| SBool (b : bool)
| SNum (z : Z)
| SList (l : list K)
| SNotASet.                         (* raise-argument-error *)

Record sworld := mksworld { sw : world; handles : list nat }.
Definition sworld0 : sworld := mksworld (world0 K unit) [].

(** The tables of the arguments, [None] when some argument is not a set. *)
Fixpoint args (hs : list nat) (is : list nat) : option (list nat) :=
  match is with
  | [] => Some []
  | i :: r => match nth_error hs i, args hs r with
              | Some t, Some ts => Some (t :: ts)
              | _, _ => None
              end
  end.

(** A call that returns a fresh set. *)
Definition fresh (s : sworld) (c : SM nat) : option (sworld * sres) :=
  match c (sw s) with
  | Some (w, t) => Some (mksworld w (handles s ++ [t]), SSet (length (handles s)))
  | None => None
  end.
Definition plain {A} (s : sworld) (c : SM A) (f : A -> sres) : option (sworld * sres) :=
  match c (sw s) with
  | Some (w, a) => Some (mksworld w (handles s), f a)
  | None => None
  end.

Definition sstep (s : sworld) (o : sop) : option (sworld * sres) :=
  let on1 i f := match args (handles s) [i] with Some [t] => f t | _ => Some (s, SNotASet) end in
  let on2 i j f := match args (handles s) [i; j] with Some [t; u] => f t u | _ => Some (s, SNotASet) end in
  let onn is f := match args (handles s) is with Some ts => f ts | None => Some (s, SNotASet) end in
  let on1n i js f := match args (handles s) (i :: js) with Some (t :: ts) => f t ts | _ => Some (s, SNotASet) end in
  match o with
  | SMake xs => fresh s (make_set xs)
  | SCopy i => on1 i (fun t => fresh s (set_copy t))
  | SAdd i x => on1 i (fun t => plain s (set_add t x) (fun _ => SVoid))
  | SRemove i x => on1 i (fun t => plain s (set_remove t x) (fun _ => SVoid))
  | SClear i => on1 i (fun t => plain s (set_clear t) (fun _ => SVoid))
  | SMember i x => on1 i (fun t => plain s (set_member t x) SBool)
  | SEmpty i => on1 i (fun t => plain s (set_empty t) SBool)
  | SCount i => on1 i (fun t => plain s (set_count t) SNum)
  | SToList i => on1 i (fun t => plain s (set_to_list t) SList)
  | SSubset i j => on2 i j (fun t u => plain s (subset t u) SBool)
  | SProper i j => on2 i j (fun t u => plain s (proper_subset t u) SBool)
  | SEq i j => on2 i j (fun t u => plain s (set_eq t u) SBool)
  | SUnion is => onn is (fun ts => fresh s (set_union ts))
  | SIntersect is => onn is (fun ts => fresh s (set_intersect ts))
  | SSubtract i js => on1n i js (fun t ts => fresh s (set_subtract t ts))
  | SSymdiff i js => on1n i js (fun t ts => fresh s (set_symdiff t ts))
  end.

Fixpoint srun (s : sworld) (os : list sop) : option (sworld * list sres) :=
  match os with
  | [] => Some (s, [])
  | o :: r => match sstep s o with
              | Some (s1, x) => match srun s1 r with
                                | Some (s2, xs) => Some (s2, x :: xs)
                                | None => None
                                end
              | None => None
              end
  end.

End Sets.
