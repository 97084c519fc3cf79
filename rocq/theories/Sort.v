(** Model of list sorting: src/library/private/sort.min.

    [less?] is an arbitrary heap program; the loops carry fuel. *)
From Coq Require Import ZArith NArith Bool Ascii String List Lia.
From Verif Require Import Base Outcome Arith Heap HeapM Equal Lists Vectors Pairs.
Import ListNotations.
Local Open Scope string_scope.
Local Open Scope list_scope.
Local Open Scope m_scope.

(** The checked accessors of the prelude (Pairs.v). *)
Definition s_car (v : val) : M val := p_access ("car", [Car]) v.
Definition s_cdr (v : val) : M val := p_access ("cdr", [Cdr]) v.
Definition s_cadr (v : val) : M val := p_access ("cadr", [Cdr; Car]) v.
Definition s_cddr (v : val) : M val := p_access ("cddr", [Cdr; Cdr]) v.

Section Sort.
Variable less : proc.

(** The [loop] of [merge!], sort.min:18-30. *)
Fixpoint merge_loop (fuel : nat) (r a b : val) : M unit :=
  match fuel with
  | O => fun _ => HFuel
  | S f =>
      y <- s_car b ;; x <- s_car a ;; t <- less [y; x] ;;
      if truthy t then
        (p_set_cdr r b ;;; d <- s_cdr b ;;
         if nullp d then (p_set_cdr b a ;;; ret tt)
         else (d <- s_cdr b ;; merge_loop f b a d))
      else
        (p_set_cdr r a ;;; d <- s_cdr a ;;
         if nullp d then (p_set_cdr a b ;;; ret tt)
         else (d <- s_cdr a ;; merge_loop f a d b))
  end.

(** [merge!], sort.min:17-43. *)
Definition merge (fuel : nat) (a b : val) : M val :=
  if nullp a then ret b
  else if nullp b then ret a
  else
    y <- s_car b ;; x <- s_car a ;; t <- less [y; x] ;;
    if truthy t then
      (d <- s_cdr b ;;
       (if nullp d then (p_set_cdr b a ;;; ret tt)
        else (d <- s_cdr b ;; merge_loop fuel b a d)) ;;;
       ret b)
    else
      (d <- s_cdr a ;;
       (if nullp d then (p_set_cdr a b ;;; ret tt)
        else (d <- s_cdr a ;; merge_loop fuel a d b)) ;;;
       ret a).

(** The [step] of [sort!], sort.min:54-78.  The captured variable [seq] is an
    argument and part of the result.  [(quotient n 2)] is the truncating fixnum
    division (sort.min:10 and Arith.v). *)
Fixpoint sort_step (fuel : nat) (n : Z) (seq : val) : M (val * val) :=
  match fuel with
  | O => fun _ => HFuel
  | S f =>
      if (n >? 2)%Z then
        let j := Z.quot n 2 in
        ra <- sort_step f j seq ;;
        let k := (n - j)%Z in
        rb <- sort_step f k (snd ra) ;;
        r <- merge f (fst ra) (fst rb) ;;
        ret (r, snd rb)
      else if (n =? 2)%Z then
        (x <- s_car seq ;; y <- s_cadr seq ;; seq' <- s_cddr seq ;;
         t <- less [y; x] ;;
         (if truthy t then (p_set_car seq y ;;; d <- s_cdr seq ;; p_set_car d x) else ret VVoid) ;;;
         d <- s_cdr seq ;; p_set_cdr d VNull ;;; ret (seq, seq'))
      else if (n =? 1)%Z then
        (seq' <- s_cdr seq ;; p_set_cdr seq VNull ;;; ret (seq, seq'))
      else ret (VNull, seq)
  end.

(** [sort!] on a list, sort.min:53 and 88. *)
Definition sort_bang (fuel : nat) (seq : val) : M val :=
  n <- p_length fuel seq ;;
  match n with
  | VFix z => r <- sort_step fuel z seq ;; ret (fst r)
  | _ => fun _ => HUndef
  end.

(** [sort], sort.min:93-96. *)
Definition p_sort (fuel : nat) (seq : val) : M val := fun h =>
  if vectorp h seq then
    (l <- p_vector_to_list seq ;; r <- sort_bang fuel l ;; p_list_to_vector fuel r) h
  else (l <- p_append fuel [seq; VNull] ;; sort_bang fuel l) h.
End Sort.
