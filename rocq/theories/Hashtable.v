(** Pointer-level model of hashtables: src/core/c/hashtable.c:49-228 and
    src/core/s/prelude.min:1454-1716.

    A bucket is a linked list of spine pairs; each spine pair points to a cell,
    the pair (key . value).  Both kinds of pairs are mutable and live in a heap,
    so sharing between tables is visible in the model. *)
From Coq Require Import ZArith NArith Bool Ascii String List Lia.
From Verif Require Import Base.
Import ListNotations.

(** symbol.c:11-72 without the terminating 0. *)
Definition bucket_sizes : list N := [
  13; 29; 59; 113; 257; 509; 1031; 2053; 4099; 8209; 16411; 32771; 65537; 131101;
  262147; 524309; 1048583; 2097169; 4194319; 8388617; 16777259; 33554467; 67108879;
  134217757; 268435459; 536870923; 1073741827; 2147483659; 4294967311; 8589934609;
  17179869209; 34359738421; 68719476767; 137438953481; 274877906951; 549755813911;
  1099511627791; 2199023255579; 4398046511119; 8796093022237; 17592186044423;
  35184372088891; 70368744177679; 140737488355333; 281474976710677; 562949953421381;
  1125899906842679; 2251799813685269; 4503599627370517; 9007199254740997;
  18014398509482143; 36028797018963971; 72057594037928017; 144115188075855881;
  288230376151711813; 576460752303423619; 1152921504606847009; 2305843009213693967;
  4611686018427388039]%N.

(** hashtable.c:53-54: first size that is not below the hint.  [None]: the scan
    runs past the terminating 0 of the array (undefined behaviour). *)
Definition alloc_for (hint : N) : option N := find (fun b => (hint <=? b)%N) bucket_sizes.

Fixpoint upd {A} (i : nat) (x : A) (l : list A) : list A :=
  match l, i with
  | [], _ => []
  | _ :: r, O => x :: r
  | y :: r, S j => y :: upd j x r
  end.

Section Table.
Variables K V : Type.
Variable hash : K -> Z.              (* the table's hash procedure; returns a fixnum *)
Variable equiv : K -> K -> bool.     (* the table's equivalence procedure *)

(** The pairs used by tables: [cells] are (key . value) pairs, [nodes] spine
    pairs (cell . next). *)
Record heap := mkheap {
  cells : nat -> option (K * V);
  ncell : nat;
  nodes : nat -> option (nat * option nat);
  nnode : nat }.

(** A store (minim.h:412-418): the bucket vector (its length is
    [minim_hashtable_alloc]) and the count. *)
Record table := mktable { buckets : list (option nat); count : Z }.

Definition fset {A} (f : nat -> option A) (i : nat) (x : A) : nat -> option A :=
  fun j => if Nat.eqb j i then Some x else f j.

Definition new_cell (h : heap) (k : K) (v : V) : heap * nat :=
  (mkheap (fset (cells h) (ncell h) (k, v)) (S (ncell h)) (nodes h) (nnode h), ncell h).
Definition new_node (h : heap) (c : nat) (nx : option nat) : heap * nat :=
  (mkheap (cells h) (ncell h) (fset (nodes h) (nnode h) (c, nx)) (S (nnode h)), nnode h).
(** [set-cdr!] on a cell. *)
Definition set_cell (h : heap) (c : nat) (v : V) : option heap :=
  match cells h c with
  | Some (k, _) => Some (mkheap (fset (cells h) c (k, v)) (ncell h) (nodes h) (nnode h))
  | None => None
  end.
(** [set-cdr!] on a spine pair. *)
Definition set_next (h : heap) (n : nat) (nx : option nat) : option heap :=
  match nodes h n with
  | Some (c, _) => Some (mkheap (cells h) (ncell h) (fset (nodes h) n (c, nx)) (nnode h))
  | None => None
  end.

(** Mhashtable, hashtable.c:49-62. *)
Definition make_table (hint : N) : option table :=
  match alloc_for hint with
  | Some a => Some (mktable (repeat None (N.to_nat a)) 0)
  | None => None
  end.

(** The bucket of a hash code: hashtable.c:189,195 ([long % size_t] is computed
    on the unsigned representation). *)
Definition index (h : Z) (alloc : nat) : nat := N.to_nat (u64_of_long h mod N.of_nat alloc)%N.
Definition kindex (k : K) (t : table) : nat := index (hash k) (length (buckets t)).

(** [1/hashtable-cell-ref], prelude.min:1583-1594.  [None]: dangling pointer or
    out of fuel; [Some None]: no such key. *)
Fixpoint find_cell (fuel : nat) (h : heap) (p : option nat) (k : K) : option (option nat) :=
  match p with
  | None => Some None
  | Some n =>
      match fuel with
      | O => None
      | S f =>
          match nodes h n with
          | Some (c, nx) =>
              match cells h c with
              | Some (k', _) => if equiv k' k then Some (Some c) else find_cell f h nx k
              | None => None
              end
          | None => None
          end
      end
  end.

Definition cell_ref (h : heap) (t : table) (k : K) : option (option nat) :=
  match nth_error (buckets t) (kindex k t) with
  | Some p => find_cell (S (nnode h)) h p k
  | None => None
  end.

(** The cells of one bucket in order (inner loop of hashtable_cells). *)
Fixpoint walk (fuel : nat) (h : heap) (p : option nat) : option (list nat) :=
  match p with
  | None => Some []
  | Some n =>
      match fuel with
      | O => None
      | S f =>
          match nodes h n with
          | Some (c, nx) =>
              match walk f h nx with Some l => Some (c :: l) | None => None end
          | None => None
          end
      end
  end.

(** hashtable_cells, hashtable.c:200-209: accumulates by consing. *)
Fixpoint cells_of (h : heap) (bs : list (option nat)) (acc : list nat) : option (list nat) :=
  match bs with
  | [] => Some acc
  | p :: r =>
      match walk (S (nnode h)) h p with
      | Some l => cells_of h r (rev l ++ acc)
      | None => None
      end
  end.

(** [($hashtable-set! store h (cons a ($hashtable-ref store h)))]. *)
Definition push (h : heap) (t : table) (k : K) (c : nat) : option (heap * table) :=
  let i := kindex k t in
  match nth_error (buckets t) i with
  | Some p => let '(h', n) := new_node h c p in
              Some (h', mktable (upd i (Some n) (buckets t)) (count t))
  | None => None
  end.

(** The [for-each] of [adjust!] (prelude.min:1575-1579). *)
Fixpoint rehash (h : heap) (t : table) (cs : list nat) : option (heap * table) :=
  match cs with
  | [] => Some (h, t)
  | c :: r =>
      match cells h c with
      | Some (k, _) =>
          match push h t k c with
          | Some (h', t') => rehash h' t' r
          | None => None
          end
      | None => None
      end
  end.

(** [adjust!], prelude.min:1571-1581. *)
Definition adjust (h : heap) (t : table) (n2 : Z) : option (heap * table) :=
  match make_table (Z.to_N n2), cells_of h (buckets t) [] with
  | Some t2, Some cs =>
      match rehash h t2 cs with
      | Some (h', t') => Some (h', mktable (buckets t') (count t))
      | None => None
      end
  | _, _ => None
  end.

(** [incr-size!], prelude.min:1555-1562. *)
Definition incr_size (h : heap) (t : table) : option (heap * table) :=
  let size := (count t + 1)%Z in
  let t' := mktable (buckets t) size in
  if (size >? Z.of_nat (length (buckets t)))%Z then adjust h t' size else Some (h, t').

(** [decr-size!], prelude.min:1563-1570, with [min-size] 13 (line 1548). *)
Definition decr_size (h : heap) (t : table) : option (heap * table) :=
  let size := (count t - 1)%Z in
  let t' := mktable (buckets t) size in
  if ((size <? Z.quot (Z.of_nat (length (buckets t))) 4) && (size >? 13))%Z
  then adjust h t' size else Some (h, t').

(** Insertion of a fresh cell: prelude.min:1638-1642. *)
Definition insert (h : heap) (t : table) (k : K) (v : V) : option (heap * table * nat) :=
  let '(h1, c) := new_cell h k v in
  match push h1 t k c with
  | Some (h2, t2) => match incr_size h2 t2 with
                     | Some (h3, t3) => Some (h3, t3, c)
                     | None => None
                     end
  | None => None
  end.

(** [1/hashtable-set!] and [1/hashtable-cell], prelude.min:1632-1647. *)
Definition ht_set (h : heap) (t : table) (k : K) (v : V) : option (heap * table) :=
  match cell_ref h t k with
  | Some (Some c) => match set_cell h c v with Some h' => Some (h', t) | None => None end
  | Some None =>
      match insert h t k v with
      | Some (h', t', c) => match set_cell h' c v with Some h'' => Some (h'', t') | None => None end
      | None => None
      end
  | None => None
  end.

(** [1/hashtable-update!], prelude.min:1649-1660.  The updater is a pure
    function here.  [dflt = None] is the three-argument form, whose default
    raises: the result is then [inr tt] and nothing has changed. *)
Definition ht_update (h : heap) (t : table) (k : K) (f : V -> V) (dflt : option V)
  : option (heap * table + unit) :=
  match cell_ref h t k with
  | Some (Some c) =>
      match cells h c with
      | Some (_, v) => match set_cell h c (f v) with Some h' => Some (inl (h', t)) | None => None end
      | None => None
      end
  | Some None =>
      match dflt with
      | Some d => match insert h t k (f d) with
                  | Some (h', t', _) => Some (inl (h', t'))
                  | None => None
                  end
      | None => Some (inr tt)
      end
  | None => None
  end.

(** The [loop] of [1/hashtable-cell-delete!], prelude.min:1602-1613. [prev] is
    [p], [Some n] the spine pair before. Result: new heap and new bucket head,
    or [inr tt] when the key is not found. *)
Fixpoint del_loop (fuel : nat) (h : heap) (hd : option nat) (p prev : option nat) (k : K)
  : option (heap * option nat + unit) :=
  match p with
  | None => Some (inr tt)
  | Some n =>
      match fuel with
      | O => None
      | S f =>
          match nodes h n with
          | Some (c, nx) =>
              match cells h c with
              | Some (k', _) =>
                  if equiv k' k then
                    match prev with
                    | Some pn => match set_next h pn nx with
                                 | Some h' => Some (inl (h', hd))
                                 | None => None
                                 end
                    | None => Some (inl (h, nx))
                    end
                  else del_loop f h hd nx p k
              | None => None
              end
          | None => None
          end
      end
  end.

(** [1/hashtable-cell-delete!], prelude.min:1596-1614. *)
Definition ht_delete (h : heap) (t : table) (k : K) : option (heap * table) :=
  let i := kindex k t in
  match nth_error (buckets t) i with
  | Some p =>
      match del_loop (S (nnode h)) h p p None k with
      | Some (inl (h', p')) => decr_size h' (mktable (upd i p' (buckets t)) (count t))
      | Some (inr _) => Some (h, t)
      | None => None
      end
  | None => None
  end.

(** [1/hashtable-ref] (prelude.min:1622-1630) and [hashtable-contains?]
    (1616-1620): [Some None] means that the default is used. *)
Definition ht_ref (h : heap) (t : table) (k : K) : option (option V) :=
  match cell_ref h t k with
  | Some (Some c) => match cells h c with Some (_, v) => Some (Some v) | None => None end
  | Some None => Some None
  | None => None
  end.

(** hashtable_clear, hashtable.c:222-228. *)
Definition ht_clear : option table := make_table 0.

(** One bucket of hashtable_copy2 (hashtable.c:74-86): fresh cells and fresh
    spine, same order. *)
Fixpoint copy_bucket (h : heap) (cs : list nat) : option (heap * option nat) :=
  match cs with
  | [] => Some (h, None)
  | c :: r =>
      match cells h c with
      | Some (k, v) =>
          match copy_bucket h r with
          | Some (h1, p) =>
              let '(h2, c') := new_cell h1 k v in
              let '(h3, n) := new_node h2 c' p in
              Some (h3, Some n)
          | None => None
          end
      | None => None
      end
  end.

(** hashtable_copy2, hashtable.c:64-90.  The model allocates the pairs of a
    bucket back to front (the C loop goes front to back); addresses are not
    observable. *)
Fixpoint copy_buckets (h : heap) (bs : list (option nat)) : option (heap * list (option nat)) :=
  match bs with
  | [] => Some (h, [])
  | p :: r =>
      match walk (S (nnode h)) h p with
      | Some cs =>
          match copy_bucket h cs with
          | Some (h1, p') =>
              match copy_buckets h1 r with
              | Some (h2, r') => Some (h2, p' :: r')
              | None => None
              end
          | None => None
          end
      | None => None
      end
  end.

Definition ht_copy (h : heap) (t : table) : option (heap * table) :=
  match copy_buckets h (buckets t) with
  | Some (h', bs) => Some (h', mktable bs (count t))
  | None => None
  end.

(** [hashtable-entries], [hashtable-keys], [hashtable-vals]
    (prelude.min:1491-1537): vectors of length [size] filled in the order of
    [$hashtable-cells].  [None] also when the number of cells exceeds the
    vector ([vector-set!] raises); slots left over would hold #f, modelled by
    [None] entries. *)
Fixpoint lookups (h : heap) (cs : list nat) : option (list (K * V)) :=
  match cs with
  | [] => Some []
  | c :: r => match cells h c, lookups h r with
              | Some kv, Some l => Some (kv :: l)
              | _, _ => None
              end
  end.

Definition ht_entries (h : heap) (t : table) : option (list (option (K * V))) :=
  match cells_of h (buckets t) [] with
  | Some cs =>
      match lookups h cs with
      | Some l => if (Z.of_nat (length l) <=? count t)%Z
                  then Some (map Some l ++ repeat None (Z.to_nat (count t) - length l))
                  else None
      | None => None
      end
  | None => None
  end.

(** ** Worlds with any number of tables, and histories *)

Record world := mkworld { hp : heap; tabs : list table }.

Inductive op : Type :=
| OMake                                   (* make-custom-hashtable *)
| OCopy (i : nat)
| OSet (i : nat) (k : K) (v : V)
| OUpdate (i : nat) (k : K) (f : V -> V) (d : option V)
| ODelete (i : nat) (k : K)
| OClear (i : nat)
| ORef (i : nat) (k : K)
| OSize (i : nat)
| OEntries (i : nat).

Inductive out : Type :=
| RVoid
| RTable (i : nat)
| RRef (v : option V)          (* [None]: not contained, the default is used *)
| RSize (z : Z)
| REntries (l : list (option (K * V)))
| RMissing                     (* the missing-key error of hashtable-update! *)
| RNoTable.                    (* no such table: not a call a program can make *)

Definition empty_heap : heap := mkheap (fun _ => None) 0 (fun _ => None) 0.
Definition world0 : world := mkworld empty_heap [].

Definition put (w : world) (i : nat) (r : option (heap * table)) : option (world * out) :=
  match r with
  | Some (h, t) => Some (mkworld h (upd i t (tabs w)), RVoid)
  | None => None
  end.

Definition step (w : world) (o : op) : option (world * out) :=
  match o with
  | OMake => match make_table 0 with
             | Some t => Some (mkworld (hp w) (tabs w ++ [t]), RTable (length (tabs w)))
             | None => None
             end
  | OCopy i =>
      match nth_error (tabs w) i with
      | Some t => match ht_copy (hp w) t with
                  | Some (h, t') => Some (mkworld h (tabs w ++ [t']), RTable (length (tabs w)))
                  | None => None
                  end
      | None => Some (w, RNoTable)
      end
  | OSet i k v =>
      match nth_error (tabs w) i with
      | Some t => put w i (ht_set (hp w) t k v)
      | None => Some (w, RNoTable)
      end
  | OUpdate i k f d =>
      match nth_error (tabs w) i with
      | Some t => match ht_update (hp w) t k f d with
                  | Some (inl r) => put w i (Some r)
                  | Some (inr _) => Some (w, RMissing)
                  | None => None
                  end
      | None => Some (w, RNoTable)
      end
  | ODelete i k =>
      match nth_error (tabs w) i with
      | Some t => put w i (ht_delete (hp w) t k)
      | None => Some (w, RNoTable)
      end
  | OClear i =>
      match nth_error (tabs w) i with
      | Some t => match ht_clear with
                  | Some t' => put w i (Some (hp w, t'))
                  | None => None
                  end
      | None => Some (w, RNoTable)
      end
  | ORef i k =>
      match nth_error (tabs w) i with
      | Some t => match ht_ref (hp w) t k with Some r => Some (w, RRef r) | None => None end
      | None => Some (w, RNoTable)
      end
  | OSize i =>
      match nth_error (tabs w) i with
      | Some t => Some (w, RSize (count t))
      | None => Some (w, RNoTable)
      end
  | OEntries i =>
      match nth_error (tabs w) i with
      | Some t => match ht_entries (hp w) t with Some l => Some (w, REntries l) | None => None end
      | None => Some (w, RNoTable)
      end
  end.

Fixpoint run (w : world) (os : list op) : option (world * list out) :=
  match os with
  | [] => Some (w, [])
  | o :: r =>
      match step w o with
      | Some (w1, x) => match run w1 r with
                        | Some (w2, xs) => Some (w2, x :: xs)
                        | None => None
                        end
      | None => None
      end
  end.

(** ** Specification: finite maps as association lists *)

Definition amap := list (K * V).
Fixpoint aget (m : amap) (k : K) : option V :=
  match m with
  | [] => None
  | (k', v) :: r => if equiv k' k then Some v else aget r k
  end.
Definition aset (m : amap) (k : K) (v : V) : amap :=
  match aget m k with
  | Some _ => map (fun kv => if equiv (fst kv) k then (fst kv, v) else kv) m
  | None => (k, v) :: m
  end.
Definition adel (m : amap) (k : K) : amap := filter (fun kv => negb (equiv (fst kv) k)) m.

Definition astep (ms : list amap) (o : op) : list amap * out :=
  match o with
  | OMake => (ms ++ [[]], RTable (length ms))
  | OCopy i => match nth_error ms i with
               | Some m => (ms ++ [m], RTable (length ms))
               | None => (ms, RNoTable)
               end
  | OSet i k v => match nth_error ms i with
                  | Some m => (upd i (aset m k v) ms, RVoid)
                  | None => (ms, RNoTable)
                  end
  | OUpdate i k f d =>
      match nth_error ms i with
      | Some m => match aget m k, d with
                  | Some v, _ => (upd i (aset m k (f v)) ms, RVoid)
                  | None, Some v => (upd i (aset m k (f v)) ms, RVoid)
                  | None, None => (ms, RMissing)
                  end
      | None => (ms, RNoTable)
      end
  | ODelete i k => match nth_error ms i with
                   | Some m => (upd i (adel m k) ms, RVoid)
                   | None => (ms, RNoTable)
                   end
  | OClear i => match nth_error ms i with
                | Some m => (upd i [] ms, RVoid)
                | None => (ms, RNoTable)
                end
  | ORef i k => match nth_error ms i with
                | Some m => (ms, RRef (aget m k))
                | None => (ms, RNoTable)
                end
  | OSize i => match nth_error ms i with
               | Some m => (ms, RSize (Z.of_nat (length m)))
               | None => (ms, RNoTable)
               end
  | OEntries i => match nth_error ms i with
                  | Some m => (ms, REntries (map Some m))
                  | None => (ms, RNoTable)
                  end
  end.

Fixpoint arun (ms : list amap) (os : list op) : list amap * list out :=
  match os with
  | [] => (ms, [])
  | o :: r => let '(ms1, x) := astep ms o in
              let '(ms2, xs) := arun ms1 r in (ms2, x :: xs)
  end.

End Table.
