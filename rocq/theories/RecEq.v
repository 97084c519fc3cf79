(** equal? and equal-hash on data with records: src/core/s/prelude.min:1722-1745,
    1792-1813, 1837-1934, src/core/c/record.c:146-168.

    Procedures of the user are given by what they answer; they do not change the heap. *)
From Coq Require Import ZArith NArith Bool Ascii String List Arith Lia.
From Verif Require Import Base Outcome Arith Hashtable Symbol Heap HeapM Equal Records.
Import ListNotations.
Local Open Scope list_scope.
Local Open Scope nat_scope.
Local Notation "'do' x <- r ; s" := (rbind r (fun x => s)) (at level 60, x pattern, r at level 50, s at level 60).

Definition of_option {A} (o : option A) : rres A := match o with Some a => ROk a | None => RFuel end.
(** andmap over the indices of two vectors of one length, prelude.min:1846-1850. *)
Fixpoint all_r (eq : val -> val -> rres bool) (xs ys : list val) : rres bool :=
  match xs, ys with
  | x :: r, y :: s => do b <- eq x y; if b : bool then all_r eq r s else ROk false
  | _, _ => ROk true
  end.
(** The fixnum addition of the box case. *)
Definition add_r (hc : Z) : rres Z :=
  match clong (hc + 410225874) with Val z => ROk z | _ => RUndef end.

(** tc_record_equal and tc_record_hash of the thread, minim.h:814-815; #f at first. *)
Record defaults : Type := Defaults { d_equal : option val; d_hash : option val }.
Definition no_defaults : defaults := Defaults None None.

Section RecordEquality.
Variable h : heap.
Variable t : tabs.                       (* the tables, prelude.min:1743-1832 *)
Variable ds : defaults.
(** Applications [(p a b equal?)] and [(p x equal-hash)]. *)
Variable apply3 : val -> val -> val -> (val -> val -> rres bool) -> rres bool.
Variable apply2 : val -> val -> (val -> rres Z) -> rres Z.
(** Hashtables: prelude.min:1853-1868, 1925 (see Equal.v). *)
Variable ext_equal : nat -> nat -> rres bool.
Variable ext_hash : nat -> rres Z.
Variable address : val -> N.

(** default-record-equal-procedure and default-record-hash-procedure without argument,
    prelude.min:1722-1742: both ask for the equal procedure. *)
Definition default_equal : option val := d_equal ds.
Definition default_hash : option val := d_equal ds.
(** record-equal-procedure, prelude.min:1792-1805, of two record values. *)
Definition record_equal_procedure (a b : val) : rres (option val) :=
  if record_valuep h a then
    if record_valuep h b then
      do ra <- need (rec_rtd h a);
      do rb <- need (rec_rtd h b);
      do p <- tab_ref h (tab_equal t) ra;
      match p with
      | Some p =>
          do q <- tab_ref h (tab_equal t) rb;
          match q with
          | Some q => ROk (if eqp p q then Some p else None)
          | None => ROk None
          end
      | None => ROk None
      end
    else RErr (EArg "record-equal-procedure" b)
  else RErr (EArg "record-equal-procedure" a).
(** record-hash-procedure, prelude.min:1807-1812. *)
Definition record_hash_procedure (a : val) : rres (option val) :=
  if record_valuep h a then do r <- need (rec_rtd h a); tab_ref h (tab_hash t) r
  else RErr (EArg "record-equal-procedure" a).

(** equal?, prelude.min:1837-1897. *)
Fixpoint equal_r (fuel : nat) (a b : val) : rres bool :=
  match fuel with
  | O => RFuel
  | S f =>
      if eqp a b then ROk true
      else match cell_of h a with
           | Some (CStr _) => of_option (equal_c f h a b)
           | Some (CPair a1 d1) =>
               match cell_of h b with
               | Some (CPair a2 d2) => do x <- equal_r f a1 a2; if x : bool then equal_r f d1 d2 else ROk false
               | _ => ROk false
               end
           | Some (CVec xs) =>
               match cell_of h b with
               | Some (CVec ys) => if Nat.eqb (length xs) (length ys) then all_r (equal_r f) xs ys else ROk false
               | _ => ROk false
               end
           | Some (CBox x) => match cell_of h b with Some (CBox y) => equal_r f x y | _ => ROk false end
           | Some (CHash _) =>
               match a, b, cell_of h b with
               | VPtr l, VPtr m, Some (CHash _) => ext_equal l m
               | _, _, _ => ROk false
               end
           | Some (CRec _ _) =>
               if record_valuep h a then
                 if record_valuep h b then
                   do p <- record_equal_procedure a b;
                   match p with
                   | Some p => apply3 p a b (equal_r f)
                   | None => match default_equal with
                             | Some p => apply3 p a b (equal_r f)
                             | None => of_option (equal_c f h a b)
                             end
                   end
                 else ROk false
               else of_option (equal_c f h a b)
           | Some (CSyntax _ _) | Some (COther _) | None => of_option (equal_c f h a b)
           end
  end.

(** hash-vector's loop, prelude.min:1905-1911. *)
Fixpoint hash_all_r (rec : val -> Z -> rres Z) (xs : list val) (hc : Z) : rres Z :=
  match xs with
  | [] => ROk hc
  | x :: r => do hc' <- rec x hc; hash_all_r rec r hc'
  end.
(** The loop of equal-hash, prelude.min:1914-1934.  Hash procedures are taken to answer
    fixnums. *)
Fixpoint hash_r (fuel : nat) (x : val) (hc : Z) : rres Z :=
  match fuel with
  | O => RFuel
  | S f =>
      match x with
      | VSym n | VGensym n _ => ROk (name_hash n)
      | _ =>
          match cell_of h x with
          | Some (CStr s) => ROk (name_hash s)
          | Some (CPair a d) => do hc' <- hash_r f a hc; hash_r f d hc'
          | Some (CVec xs) => hash_all_r (hash_r f) xs hc
          | Some (CBox v) => do hc' <- add_r hc; hash_r f v hc'
          | Some (CHash _) => match x with VPtr l => ext_hash l | _ => RUndef end
          | Some (CRec _ _) =>
              if record_valuep h x then
                do p <- record_hash_procedure x;
                match p with
                | Some p => apply2 p x (fun y => hash_r f y 523658599)
                | None => match default_hash with
                          | Some p => apply2 p x (fun y => hash_r f y 523658599)
                          | None => ROk (Z.of_N (eq_hash address x))
                          end
                end
              else ROk (Z.of_N (eq_hash address x))
          | Some (CSyntax _ _) | Some (COther _) | None => ROk (Z.of_N (eq_hash address x))
          end
      end
  end.
(** equal-hash, prelude.min:1899-1934. *)
Definition equal_hash_r (fuel : nat) (x : val) : rres Z := hash_r fuel x 523658599.
End RecordEquality.
