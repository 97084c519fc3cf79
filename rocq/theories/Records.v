(** Records: src/core/c/record.c, src/core/minim.h:320-403 and
    src/core/s/prelude.min:1219-1449, 1743-1832.

    A record is a [CRec] cell.  A record type descriptor is a record whose type
    is the base descriptor [VBaseRtd]; its fields are name, parent, uid, sealed?,
    opaque?, protocol and then the field descriptors (minim.h:392-400). *)
From Coq Require Import ZArith NArith Bool Ascii String List Lia.
From Verif Require Import Base Heap HeapM.
Import ListNotations.

Definition rec_at (h : heap) (v : val) : option (val * list val) :=
  match v with
  | VPtr l => match nth_error h l with Some (CRec r fs) => Some (r, fs) | _ => None end
  | _ => None
  end.
Definition truthy (v : val) : bool := match v with VFalse => false | _ => true end.

(** record_rtdp, record.c:33-35.  The base descriptor itself is no descriptor:
    its own type is NULL (global.c:105). *)
Definition rtdp (h : heap) (v : val) : bool :=
  match rec_at h v with Some (r, _) => eqp r VBaseRtd | None => false end.
(** record_valuep, record.c:28-30.  (The base descriptor cannot be reached by
    programs, minim.h:372.) *)
Definition record_valuep (h : heap) (v : val) : bool :=
  match rec_at h v with Some (r, _) => negb (eqp r VBaseRtd) | None => false end.
(** Unchecked accesses: [minim_record_ref], [$record-rtd], [$record-type-parent],
    [$record-type-length] (record.c:74-102, minim.h:329, 393-399). *)
Definition rec_ref (h : heap) (v : val) (i : nat) : option val :=
  match rec_at h v with Some (_, fs) => nth_error fs i | None => None end.
Definition rec_rtd (h : heap) (v : val) : option val :=
  match rec_at h v with Some (r, _) => Some r | None => None end.
Definition rtd_parent (h : heap) (v : val) : option val := rec_ref h v 1.
Definition rtd_opaque (h : heap) (v : val) : option val := rec_ref h v 4.
(** The difference is taken in C int; a count below 6 does not occur (the invariant [good] of RecordsThm.v). *)
Definition rtd_length (h : heap) (v : val) : option nat :=
  match rec_at h v with Some (_, fs) => Some (length fs - 6) | None => None end.

(** Results: [ROk], an error, undefined behaviour, out of fuel. *)
Inductive rres (A : Type) : Type := ROk (a : A) | RErr (e : herr) | RUndef | RFuel.
Arguments ROk {A} _. Arguments RErr {A} _. Arguments RUndef {A}. Arguments RFuel {A}.
Definition rbind {A B} (r : rres A) (k : A -> rres B) : rres B :=
  match r with ROk a => k a | RErr e => RErr e | RUndef => RUndef | RFuel => RFuel end.
Definition need {A} (o : option A) : rres A := match o with Some a => ROk a | None => RUndef end.
Local Notation "'do' x <- r ; s" := (rbind r (fun x => s)) (at level 60, x pattern, r at level 50, s at level 60).

(** record-size, prelude.min:1365-1374.  Fixnum sums of field counts are sums of
    naturals. *)
Fixpoint record_size (f : nat) (h : heap) (rtd : val) (size : nat) : rres nat :=
  match f with
  | O => RFuel
  | S f =>
      do n <- need (rtd_length h rtd);
      do p <- need (rtd_parent h rtd);
      if truthy p then record_size f h p (size + n) else ROk (size + n)
  end.
(** The loop of record-value?, prelude.min:1375-1383. *)
Fixpoint instance_loop (f : nat) (h : heap) (rtd rec_rtd : val) : rres bool :=
  match f with
  | O => RFuel
  | S f =>
      if eqp rtd rec_rtd then ROk true
      else do p <- need (rtd_parent h rec_rtd);
           if truthy p then instance_loop f h rtd p else ROk false
  end.

(** record?, prelude.min:1385-1388 *)
Definition recordp (h : heap) (v : val) : rres bool :=
  if record_valuep h v then
    do r <- need (rec_rtd h v); do o <- need (rtd_opaque h r); ROk (negb (truthy o))
  else ROk false.
(** The procedures made by record-predicate, prelude.min:1406-1412. *)
Definition record_predicate (f : nat) (h : heap) (rtd v : val) : rres bool :=
  if rtdp h rtd then
    if record_valuep h v then do r <- need (rec_rtd h v); instance_loop f h rtd r else ROk false
  else RErr (EArg "record-predicate" rtd).
(** The procedures made by record-constructor, prelude.min:1393-1405, applied to
    [args]; make_record, record.c:104-117. *)
Definition record_construct (f : nat) (h : heap) (rtd : val) (args : list val) : rres (val * heap) :=
  if rtdp h rtd then
    do n <- record_size f h rtd 0;
    if Nat.eqb (length args) n then ROk (VPtr (length h), h ++ [CRec rtd args]) else RErr (EArity "make")
  else RErr (EArg "record-constructor" rtd).
(** The checks of record-accessor and record-mutator and the index that they
    compute, prelude.min:1413-1424 and 1432-1441. *)
Definition field_index (who : string) (f : nat) (h : heap) (rtd idx : val) : rres nat :=
  if rtdp h rtd then
    match idx with
    | VFix z =>
        if (0 <=? z)%Z then
          do n <- need (rtd_length h rtd);
          if (z <? Z.of_nat n)%Z then
            do p <- need (rtd_parent h rtd);
            if truthy p then do m <- record_size f h p 0; ROk (Z.to_nat z + m) else ROk (Z.to_nat z)
          else RErr (ERange who rtd)
        else RErr (EArg who idx)
    | _ => RErr (EArg who idx)
    end
  else RErr (EArg who rtd).
(** The accessor made for [rtd] and [idx] applied to [v], prelude.min:1425-1431. *)
Definition record_get (f : nat) (h : heap) (rtd idx v : val) : rres val :=
  do i <- field_index "record-accessor" f h rtd idx;
  do b <- record_predicate f h rtd v;
  if b : bool then need (rec_ref h v i) else RErr (EArg "accessor" v).
(** The mutator made for [rtd] and [idx] applied to [v] and [x],
    prelude.min:1442-1448; record_set_proc, record.c:129-133. *)
Definition record_put (f : nat) (h : heap) (rtd idx v x : val) : rres heap :=
  do i <- field_index "record-mutator" f h rtd idx;
  do b <- record_predicate f h rtd v;
  if b : bool then
    match v, rec_at h v with
    | VPtr l, Some (r, fs) =>
        if Nat.ltb i (length fs) then ROk (upd_cell l (CRec r (firstn i fs ++ x :: skipn (S i) fs)) h) else RUndef
    | _, _ => RUndef
    end
  else RErr (EArg "mutator" v).

(** The tables of record-type-equal-procedure, record-type-hash-procedure and
    record-writer, prelude.min:1743-1832, as maps (see C05-C07 for the tables). *)
Record tabs : Type := Tabs { tab_equal : val -> option val; tab_hash : val -> option val; tab_writer : val -> option val }.
Definition tput (t : val -> option val) (k v : val) : val -> option val := fun x => if eqp x k then Some v else t x.
(** Getters and setters, prelude.min:1768-1790, 1820-1832.  On a wrong first
    argument the error procedure refers to the unbound [v_] (1764, 1818).
    [procs]: which values are procedures. *)
Definition tab_ref (h : heap) (t : val -> option val) (rtd : val) : rres (option val) :=
  if rtdp h rtd then ROk (t rtd) else RErr (EUnbound "v_").
Definition tab_set (procs : val -> bool) (who : string) (h : heap) (t : val -> option val) (rtd proc : val) : rres (val -> option val) :=
  if rtdp h rtd then (if procs proc then ROk (tput t rtd proc) else RErr (EArg who proc)) else RErr (EUnbound "v_").

(** make-record-type-descriptor, prelude.min:1304-1323, and make_rtd,
    record.c:55-70: check-args! and check-fields! are defined but not called.
    [fields]: the elements of the vector of field descriptors.  The parent and the
    writer exist before the call, so that they are looked up in the heap before
    the allocation: an argument cannot be the descriptor that is being made. *)
Definition make_rtd (procs : val -> bool) (h : heap) (t : tabs) (name parent uid sealed opaque : val) (fields : list val) : rres (val * heap * tabs) :=
  let rtd := VPtr (length h) in
  let h' := h ++ [CRec VBaseRtd (name :: parent :: uid :: sealed :: opaque :: VFalse :: fields)] in
  if truthy parent then
    do pe <- tab_ref h (tab_equal t) parent;
    do ph <- tab_ref h (tab_hash t) parent;
    do pw <- tab_ref h (tab_writer t) parent;
    do te <- match pe with Some p => tab_set procs "record-type-equal-procedure" h' (tab_equal t) rtd p | None => ROk (tab_equal t) end;
    do th <- match ph with Some p => tab_set procs "record-type-hash-procedure" h' (tab_hash t) rtd p | None => ROk (tab_hash t) end;
    (* [(record-writer rec-writer)]: the getter, applied to the writer *)
    do _w <- match pw with Some p => tab_ref h (tab_writer t) p | None => ROk None end;
    ROk (rtd, h', Tabs te th (tab_writer t))
  else ROk (rtd, h', t).
(** record-type-field-names, prelude.min:1336-1346 and rtd_fields,
    record.c:95-101. *)
Fixpoint cadrs (h : heap) (l : list val) : rres (list val) :=
  match l with
  | [] => ROk []
  | f :: q =>
      do p <- need (pair_at h f); do d <- need (pair_at h (snd p)); do r <- cadrs h q; ROk (fst d :: r)
  end.
Definition field_names (h : heap) (rtd : val) : rres (list val) :=
  if rtdp h rtd then
    do fs <- need (match rec_at h rtd with Some (_, fs) => Some fs | None => None end);
    cadrs h (skipn 6 fs)
  else RErr (EArg "record-type-field-names" rtd).

(** ** Programs that use records *)
Inductive rop : Type :=
| RType (name parent uid sealed opaque : val) (fields : list val)
| RMake (rtd : val) (args : list val)
| RGet (rtd idx v : val)
| RPut (rtd idx v x : val)
| RIs (rtd v : val)
| RTab (which : nat) (rtd proc : val)   (* set an equal, hash or writer procedure *)
| RElse (c : cell).                     (* anything else allocates an object *)
Record rworld : Type := RW { rw_heap : heap; rw_tabs : tabs }.
Definition rworld0 : rworld := RW [] (Tabs (fun _ => None) (fun _ => None) (fun _ => None)).
Definition is_record (c : cell) : bool := match c with CRec _ _ => true | _ => false end.
Definition fuel_of (h : heap) : nat := S (length h).
(** One operation: its result and the new world.  After an error the world is as
    before: what had been allocated is unreachable. *)
Definition rstep (procs : val -> bool) (w : rworld) (o : rop) : rres val * rworld :=
  let h := rw_heap w in let t := rw_tabs w in let f := fuel_of h in
  match o with
  | RType n p u s q fs =>
      match make_rtd procs h t n p u s q fs with
      | ROk (v, h', t') => (ROk v, RW h' t')
      | RErr e => (RErr e, w) | RUndef => (RUndef, w) | RFuel => (RFuel, w)
      end
  | RMake r args =>
      match record_construct f h r args with
      | ROk (v, h') => (ROk v, RW h' t)
      | RErr e => (RErr e, w) | RUndef => (RUndef, w) | RFuel => (RFuel, w)
      end
  | RGet r i v => (record_get f h r i v, w)
  | RPut r i v x =>
      match record_put f h r i v x with
      | ROk h' => (ROk VVoid, RW h' t)
      | RErr e => (RErr e, w) | RUndef => (RUndef, w) | RFuel => (RFuel, w)
      end
  | RIs r v => (do b <- record_predicate f h r v; ROk (if b : bool then VTrue else VFalse), w)
  | RTab k r p =>
      match tab_set procs "record" h (match k with 0 => tab_equal t | 1 => tab_hash t | _ => tab_writer t end) r p with
      | ROk t' => (ROk VVoid, RW h (match k with 0 => Tabs t' (tab_hash t) (tab_writer t) | 1 => Tabs (tab_equal t) t' (tab_writer t) | _ => Tabs (tab_equal t) (tab_hash t) t' end))
      | RErr e => (RErr e, w) | RUndef => (RUndef, w) | RFuel => (RFuel, w)
      end
  | RElse c => if is_record c then (ROk VVoid, w) else (ROk (VPtr (length h)), RW (h ++ [c]) t)
  end.
Fixpoint rrun (procs : val -> bool) (w : rworld) (ops : list rop) : list (rres val) * rworld :=
  match ops with
  | [] => ([], w)
  | o :: q => let (r, w1) := rstep procs w o in let (rs, w2) := rrun procs w1 q in (r :: rs, w2)
  end.
