(** Model of the garbage collector: src/gc/minim-gc/gc-types.h, gc-impl.h,
    gc-impl.c and gc.c.

    Block headers are [rec] values; the C library's allocator, the custom
    markers and the contents of fresh or freed memory are parameters.  The
    machine stack and registers scanned by a collection are given as a list of
    words with the operation.  Not modelled: the C stack consumed by the
    recursive marking, headers being overwritten by the program, finalizers or
    custom markers that call the collector or write to its blocks. *)
From Coq Require Import ZArith NArith Bool Ascii String List Lia.
From Verif Require Import Base Hashtable.
Import ListNotations.
Local Open Scope N_scope.
Local Open Scope list_scope.

(** The third field of a record's callbacks: no marker (NULL), GC_atomic_mrk, or
    a user's marker (identified by a number). *)
Inductive marker := Conservative | Atomic | Custom (i : nat).

(** gc_record_t, gc-types.h:19-25.  The address handed to the program
    ([gc_record_ptr], line 39) is 32 bytes past the record; the two flag bits kept
    in [next] (lines 6-7, 41) are fields; [next] itself is the position in the
    bucket's list. *)
Record rec := mkrec {
  rptr : N;
  rsize : N;
  rdtor : option nat;
  rmrk : marker;
  rmark : bool;
  rroot : bool }.

Definition with_mark (b : bool) (r : rec) : rec :=
  mkrec (rptr r) (rsize r) (rdtor r) (rmrk r) b (rroot r).
Definition with_root (b : bool) (r : rec) : rec :=
  mkrec (rptr r) (rsize r) (rdtor r) (rmrk r) (rmark r) b.
Definition with_dtor (d : option nat) (r : rec) : rec :=
  mkrec (rptr r) (rsize r) d (rmrk r) (rmark r) (rroot r).
Definition with_mrk (k : marker) (r : rec) : rec :=
  mkrec (rptr r) (rsize r) (rdtor r) k (rmark r) (rroot r).

(** gc_t, gc-types.h:28-35, with the contents of memory (bytes by address). *)
Record gc := mkgc {
  buckets : list (list rec);
  ap : nat;                        (* alloc_ptr - bucket_sizes *)
  gsize : N;
  allocs : N;
  dirty : N;
  collecting : bool;               (* flags & GC_COLLECT *)
  mem : N -> N }.

Definition blocks (g : gc) : list rec := concat (buckets g).

(** What the collector runs on. *)
Record genv := mkgenv {
  lo : N;                          (* address of gc_mark_ptr, gc-impl.c:135 *)
  hi : N;                          (* stack_bottom *)
  junk : N -> N;                   (* bytes found in fresh or freed memory *)
  custom : nat -> list N -> N -> list N;     (* the pointers a custom marker reports,
                                                given the bytes of its block *)
  malloc : nat -> gc -> N -> option N;       (* address for a request of so many bytes *)
  realloc : nat -> gc -> N -> N -> option N }.

(** bucket_sizes, gc-impl.c:13-65: symbol.c's table from 8209 on. *)
Definition gc_sizes : list N := skipn 9 bucket_sizes.

Definition two64 : N := 2 ^ 64.
Definition header : N := 32.

(** [gc_hash(p) % gc->alloc], gc-types.h:46. *)
Definition hidx (p : N) (alloc : nat) : nat := N.to_nat (N.shiftr p 3 mod N.of_nat alloc).

(** insert_record, gc-impl.c:75-84. *)
Definition insert_record (r : rec) (bs : list (list rec)) : list (list rec) :=
  let i := hidx (rptr r) (length bs) in upd i (r :: nth i bs []) bs.

(** gc_resize, gc-impl.c:86-108.  [None]: the size pointer is at the terminating
    0, so that the next modulo is undefined. *)
Definition move_bucket (bs b : list (list rec)) : list (list rec) :=
  fold_left (fun acc r => insert_record r acc) (concat b) bs.
Definition gc_resize (g : gc) (n : nat) : option gc :=
  match nth_error gc_sizes n with
  | Some a =>
      Some (mkgc (move_bucket (repeat [] (N.to_nat a)) (buckets g)) n (gsize g) (allocs g)
              (dirty g) (collecting g) (mem g))
  | None => None
  end.

(** gc_expand_if_needed, gc-impl.c:110-115.  The comparison
    [size / alloc > 0.75] is done in doubles in C; the exact comparison used here
    agrees with it below 2^50 blocks. *)
Definition gc_expand_if_needed (g : gc) : option gc :=
  if 3 * N.of_nat (length (buckets g)) <? 4 * gsize g then gc_resize g (S (ap g)) else Some g.

(** gc_shrink_if_needed, gc-impl.c:117-126. *)
Fixpoint ideal (n : nat) (size : N) : nat :=
  match n with
  | O => O
  | S k => if (4 * size) mod two64 <? nth n gc_sizes 0 then ideal k size else n
  end.
Definition gc_shrink_if_needed (g : gc) : option gc :=
  let n := ideal (ap g) (gsize g) in
  if Nat.eqb n (ap g) then Some g else gc_resize g n.

(** gc_get_record, gc-impl.c:390-401 (and the search loops of gc_mark_ptr and
    gc_remove). *)
Definition find_rec (bs : list (list rec)) (p : N) : option rec :=
  find (fun r => rptr r =? p) (nth (hidx p (length bs)) bs []).

(** Updating a record through a pointer to it: a record is identified by its
    address. *)
Definition upd_rec (p : N) (f : rec -> rec) (bs : list (list rec)) : list (list rec) :=
  map (map (fun r => if rptr r =? p then f r else r)) bs.

(** [ptr_arr_ref], gc-impl.c:71: the word at an address, little endian. *)
Definition word (m : N -> N) (a : N) : N :=
  m a + 256 * (m (a + 1) + 256 * (m (a + 2) + 256 * (m (a + 3) + 256 * (m (a + 4) +
    256 * (m (a + 5) + 256 * (m (a + 6) + 256 * m (a + 7))))))).

(** The contents of [n] bytes at [p]. *)
Definition bytes (m : N -> N) (p n : N) : list N :=
  map (fun k => m (p + N.of_nat k)) (seq 0 (N.to_nat n)).

(** The pointers visited from a block, gc-impl.c:150-155 and 187-192. *)
Definition points_to (E : genv) (m : N -> N) (r : rec) : list N :=
  match rmrk r with
  | Conservative =>
      map (fun k => word m (rptr r + 8 * N.of_nat k)) (seq 0 (N.to_nat (rsize r / 8)))
  | Atomic => []
  | Custom i => custom E i (bytes m (rptr r) (rsize r)) (rptr r)
  end.

Fixpoint ofold {A B} (f : A -> B -> option A) (a : A) (l : list B) : option A :=
  match l with
  | [] => Some a
  | x :: t => match f a x with Some a' => ofold f a' t | None => None end
  end.

(** gc_mark_ptr, gc-impl.c:128-160.  [None]: out of fuel. *)
Fixpoint mark_ptr (fuel : nat) (E : genv) (m : N -> N) (bs : list (list rec)) (p : N)
  : option (list (list rec)) :=
  match fuel with
  | O => None
  | S f =>
      if (p <? lo E) || (hi E <? p) then Some bs else
      match find_rec bs p with
      | None => Some bs
      | Some r =>
          if rmark r || rroot r then Some bs
          else ofold (mark_ptr f E m) (upd_rec p (with_mark true) bs) (points_to E m r)
      end
  end.

(** The body of the loop over roots, gc-impl.c:185-193. *)
Definition mark_root (fuel : nat) (E : genv) (m : N -> N) (bs : list (list rec)) (r : rec)
  : option (list (list rec)) :=
  ofold (mark_ptr fuel E m) (upd_rec (rptr r) (with_mark true) bs) (points_to E m r).

(** gc_mark, gc-impl.c:173-201, with gc_mark_stack, 162-171.  The root flags do
    not change while marking, so the roots are taken in table order up front. *)
Definition gc_mark (E : genv) (g : gc) (stk : list N) : option (list (list rec)) :=
  if gsize g =? 0 then Some (buckets g) else
  let fuel := S (length (blocks g)) in
  match ofold (mark_root fuel E (mem g)) (buckets g) (filter rroot (blocks g)) with
  | Some bs => ofold (mark_ptr fuel E (mem g)) bs stk
  | None => None
  end.

(** gc_unmark, gc-impl.c:203-209. *)
Definition gc_unmark (bs : list (list rec)) : list (list rec) := map (map (with_mark false)) bs.

(** What the program can see of the collector's actions. *)
Inductive event := ECollect | EFinal (d : nat) (p : N) | EFree (p : N).

Definition free_events (r : rec) : list event :=
  match rdtor r with Some d => [EFinal d (rptr r); EFree (rptr r)] | None => [EFree (rptr r)] end.

(** free: the bytes of the record and of its block become arbitrary. *)
Definition clobber (E : genv) (r : rec) (m : N -> N) : N -> N :=
  fun a => if (rptr r - header <=? a) && (a <? rptr r + rsize r) then junk E a else m a.

Definition sub64 (a b : N) : N := (a + two64 - b mod two64) mod two64.

(** gc_sweep, gc-impl.c:211-243: one pass over the buckets. *)
Definition sweep_one (E : genv) (st : N * N * (N -> N) * list event) (r : rec)
  : N * N * (N -> N) * list event :=
  let '(al, sz, m, ev) := st in
  if rmark r then st
  else (sub64 al (rsize r), sub64 sz 1, clobber E r m, ev ++ free_events r).
Definition gc_sweep (E : genv) (g : gc) : option (gc * list event) :=
  let '(al, sz, m, ev) := fold_left (sweep_one E) (blocks g) (allocs g, gsize g, mem g, []) in
  match gc_shrink_if_needed
          (mkgc (gc_unmark (map (filter rmark) (buckets g))) (ap g) sz al 0 (collecting g) m) with
  | Some g' => Some (g', ev)
  | None => None
  end.

(** gc_collect, gc-impl.c:416-420. *)
Definition gc_collect (E : genv) (g : gc) (stk : list N) : option (gc * list event) :=
  match gc_mark E g stk with
  | Some bs =>
      match gc_sweep E (mkgc bs (ap g) (gsize g) (allocs g) (dirty g) (collecting g) (mem g)) with
      | Some (g', ev) => Some (g', ECollect :: ev)
      | None => None
      end
  | None => None
  end.

(** gc_create, gc-impl.c:247-260. *)
Definition gc_create (m : N -> N) : gc :=
  mkgc (repeat [] (N.to_nat (nth 0 gc_sizes 0))) 0 0 0 0 true m.

(** gc_destroy, gc-impl.c:262-276: the finalizers run and blocks freed. *)
Definition gc_destroy (E : genv) (g : gc) : option (list event) :=
  match gc_sweep E (mkgc (map (map (with_root false)) (buckets g)) (ap g) (gsize g) (allocs g)
                      (dirty g) (collecting g) (mem g)) with
  | Some (_, ev) => Some ev
  | None => None
  end.

(** [gc_record_next_set(pr, r->next)], gc-impl.c:305: [r->next] still carries the
    flag bits of [r]. *)
Definition or_flags (pr r : rec) : rec :=
  mkrec (rptr pr) (rsize pr) (rdtor pr) (rmrk pr) (rmark pr || rmark r) (rroot pr || rroot r).

(** The loop of gc_remove, gc-impl.c:295-315, on one bucket. *)
Fixpoint remove_chain (b : list rec) (p : N) : option (list rec * rec) :=
  match b with
  | [] => None
  | r :: t =>
      if rptr r =? p then Some (t, r) else
      match t with
      | [] => None
      | r2 :: t2 =>
          if rptr r2 =? p then Some (or_flags r r2 :: t2, r2) else
          match remove_chain t p with
          | Some (t', x) => Some (r :: t', x)
          | None => None
          end
      end
  end.

(** gc_remove, gc-impl.c:288-316, up to the call to free. *)
Definition gc_remove (g : gc) (p : N) : option (gc * rec) :=
  let i := hidx p (length (buckets g)) in
  match remove_chain (nth i (buckets g) []) p with
  | Some (b, r) =>
      Some (mkgc (upd i b (buckets g)) (ap g) (sub64 (gsize g) 1) (sub64 (allocs g) (rsize r))
              (dirty g) (collecting g) (mem g), r)
  | None => None
  end.

(** gc_add_record, gc-impl.c:403-414. *)
Definition gc_add_record (g : gc) (r : rec) : option gc :=
  match gc_expand_if_needed g with
  | Some g =>
      Some (mkgc (insert_record r (buckets g)) (ap g) ((gsize g + 1) mod two64)
              ((allocs g + rsize r) mod two64) ((dirty g + rsize r) mod two64) (collecting g) (mem g))
  | None => None
  end.

(** The contents of a fresh block: arbitrary after malloc, zero after calloc. *)
Definition fill (f : N -> N) (p size : N) (m : N -> N) : N -> N :=
  fun a => if (p <=? a) && (a <? p + size) then f a else m a.

(** gc_alloc_record, gc-impl.c:318-337, and gc_calloc_record, 339-359: collects
    and tries again when the allocator fails.  The inner [None] is the returned
    NULL. *)
Definition gc_alloc_record (E : genv) (f : N -> N) (g : gc) (size : N) (d : option nat) (k : marker)
  (t1 t2 : nat) (stk : list N) : option (gc * option rec * list event) :=
  let put g r := mkgc (buckets g) (ap g) (gsize g) (allocs g) (dirty g) (collecting g)
                   (fill f (r + header) size (mem g)) in
  let new r := mkrec (r + header) size d k false false in
  let req := (size + header) mod two64 in
  match malloc E t1 g req with
  | Some r => Some (put g r, Some (new r), [])
  | None =>
      match gc_collect E g stk with
      | Some (g, ev) =>
          match malloc E t2 g req with
          | Some r => Some (put g r, Some (new r), ev)
          | None => Some (g, None, ev)
          end
      | None => None
      end
  end.

(** GC_MIN_AUTO_COLLECT_SIZE, gc-impl.h:14. *)
Definition threshold : N := 8 * 1024 * 1024.

(** gc_collect_if_needed, gc-impl.h:52-57. *)
Definition gc_collect_if_needed (E : genv) (g : gc) (stk : list N) : option (gc * list event) :=
  if collecting g && (threshold <? dirty g) then gc_collect E g stk else Some (g, []).

(** GC_alloc_opt and GC_calloc_opt, gc.c:25-52.  [None] also stands for the
    dereference of NULL in gc_add_record when memory is exhausted. *)
Definition GC_alloc (E : genv) (f : N -> N) (g : gc) (size : N) (d : option nat) (k : marker)
  (t1 t2 : nat) (stk : list N) : option (gc * N * list event) :=
  match gc_collect_if_needed E g stk with
  | Some (g1, ev1) =>
      match gc_alloc_record E f g1 size d k t1 t2 stk with
      | Some (g2, Some r, ev2) =>
          match gc_add_record g2 r with
          | Some g3 => Some (g3, rptr r, ev1 ++ ev2)
          | None => None
          end
      | _ => None
      end
  | None => None
  end.

(** The memory after realloc moved a block of [old] bytes from [p] to [p']. *)
Definition moved (E : genv) (p old p' size : N) (m : N -> N) : N -> N :=
  fun a => if (p' <=? a) && (a <? p' + size)
           then (if a - p' <? old then m (p + (a - p')) else junk E a)
           else if (p - header <=? a) && (a <? p + old) then junk E a else m a.

(** gc_realloc_record, gc-impl.c:361-388. *)
Definition gc_realloc_record (E : genv) (g : gc) (o : rec) (size : N) (d : option nat) (k : marker)
  (t1 t2 : nat) (stk : list N) : option (gc * option rec * list event) :=
  let put g r := mkgc (buckets g) (ap g) (gsize g) (allocs g) (dirty g) (collecting g)
                   (moved E (rptr o) (rsize o) (r + header) size (mem g)) in
  let new r := mkrec (r + header) size d k false (rroot o) in
  let req := (size + header) mod two64 in
  match realloc E t1 g (rptr o - header) req with
  | Some r => Some (put g r, Some (new r), [])
  | None =>
      match gc_collect E g stk with
      | Some (g, ev) =>
          match realloc E t2 g (rptr o - header) req with
          | Some r => Some (put g r, Some (new r), ev)
          | None => Some (g, None, ev)
          end
      | None => None
      end
  end.

(** GC_free, gc.c:108-110: gc_remove with [destroy] set. *)
Definition GC_free (E : genv) (g : gc) (p : N) : gc * list event :=
  match gc_remove g p with
  | Some (g, r) =>
      (mkgc (buckets g) (ap g) (gsize g) (allocs g) (dirty g) (collecting g) (clobber E r (mem g)),
       [EFree p])
  | None => (g, [])
  end.

(** GC_realloc_opt, gc.c:54-82.  NULL is 0. *)
Definition GC_realloc (E : genv) (g : gc) (p size : N) (d : option nat) (k : marker)
  (t1 t2 : nat) (stk : list N) : option (gc * N * list event) :=
  if size =? 0 then let '(g', ev) := GC_free E g p in Some (g', 0, ev) else
  if p =? 0 then GC_alloc E (junk E) g size d k t1 t2 stk else
  match find_rec (buckets g) p with
  | Some _ =>
      match gc_remove g p with
      | Some (g1, o) =>
          match gc_realloc_record E g1 o size d k t1 t2 stk with
          | Some (g2, Some r, ev) =>
              match gc_add_record g2 r with
              | Some g3 => Some (g3, rptr r, ev)
              | None => None
              end
          | Some (g2, None, ev) => Some (g2, 0, ev)
          | None => None
          end
      | None => None
      end
  | None => GC_alloc E (junk E) g size d k t1 t2 stk
  end.

(** gc_get_reachable, gc-impl.c:450-464. *)
Definition gc_get_reachable (E : genv) (g : gc) (stk : list N) : option (gc * N) :=
  match gc_mark E g stk with
  | Some bs =>
      Some (mkgc (gc_unmark bs) (ap g) (gsize g) (allocs g) (dirty g) (collecting g) (mem g),
            fold_left (fun t r => if rmark r then (t + rsize r) mod two64 else t) (concat bs) 0)
  | None => None
  end.

(** ** The interface of gc.h *)
Inductive op :=
| OAlloc (size : N) (d : option nat) (k : marker) (t1 t2 : nat) (stk : list N)
| OCalloc (nmem size : N) (d : option nat) (k : marker) (t1 t2 : nat) (stk : list N)
| ORealloc (p size : N) (d : option nat) (k : marker) (t1 t2 : nat) (stk : list N)
| OFree (p : N)
| OCollect (stk : list N)
| ORegDtor (p : N) (d : option nat)
| ORegMrk (p : N) (k : marker)
| ORegRoot (p : N)
| OPause
| OResume
| OAllocated
| OReachable (stk : list N)
| OCollectable (stk : list N)
| OWrite (a b : N).                (* the program stores a byte *)

Definition set_buckets (g : gc) (bs : list (list rec)) : gc :=
  mkgc bs (ap g) (gsize g) (allocs g) (dirty g) (collecting g) (mem g).
Definition set_flag (g : gc) (b : bool) : gc :=
  mkgc (buckets g) (ap g) (gsize g) (allocs g) (dirty g) b (mem g).

(** gc-impl.c:422-443. *)
Definition register (g : gc) (p : N) (f : rec -> rec) : gc :=
  match find_rec (buckets g) p with
  | Some _ => set_buckets g (upd_rec p f (buckets g))
  | None => g
  end.

(** gc.c:9-137.  [None]: undefined behaviour. *)
Definition step (E : genv) (g : gc) (o : op) : option (gc * N * list event) :=
  match o with
  | OAlloc size d k t1 t2 stk => GC_alloc E (junk E) g size d k t1 t2 stk
  | OCalloc nmem size d k t1 t2 stk =>
      GC_alloc E (fun _ => 0) g ((nmem * size) mod two64) d k t1 t2 stk
  | ORealloc p size d k t1 t2 stk => GC_realloc E g p size d k t1 t2 stk
  | OFree p => let '(g', ev) := GC_free E g p in Some (g', 0, ev)
  | OCollect stk => match gc_collect E g stk with Some (g', ev) => Some (g', 0, ev) | None => None end
  | ORegDtor p d => Some (register g p (with_dtor d), 0, [])
  | ORegMrk p k => Some (register g p (with_mrk k), 0, [])
  | ORegRoot p => Some (register g p (with_root true), 0, [])
  | OPause => Some (set_flag g false, 0, [])
  | OResume => Some (set_flag g true, 0, [])
  | OAllocated => Some (g, allocs g, [])
  | OReachable stk =>
      match gc_get_reachable E g stk with Some (g', n) => Some (g', n, []) | None => None end
  | OCollectable stk =>            (* gc_get_collectable, gc-impl.c:466-469 *)
      match gc_get_reachable E g stk with
      | Some (g', n) => Some (g', sub64 (N.of_nat (length (buckets g))) n, [])
      | None => None
      end
  | OWrite a b =>
      Some (mkgc (buckets g) (ap g) (gsize g) (allocs g) (dirty g) (collecting g)
              (fun x => if x =? a then b else mem g x), 0, [])
  end.

Fixpoint run (E : genv) (g : gc) (os : list op) : option (gc * list (N * list event)) :=
  match os with
  | [] => Some (g, [])
  | o :: r =>
      match step E g o with
      | Some (g1, x, ev) =>
          match run E g1 r with
          | Some (g2, xs) => Some (g2, (x, ev) :: xs)
          | None => None
          end
      | None => None
      end
  end.
