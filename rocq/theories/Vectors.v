(** Model of vectors and boxes: src/core/c/vector.c, box.c and
    src/core/s/prelude.min:1104-1163.

    Allocation is assumed to succeed when the requested size does not wrap
    around. *)
From Coq Require Import ZArith NArith Bool Ascii String List Lia.
From Verif Require Import Base Outcome Arith Heap HeapM Equal Lists.
Import ListNotations.
Local Open Scope string_scope.
Local Open Scope list_scope.
Local Open Scope m_scope.

(** [vector?] (vectorp_proc, vector.c:23-26) with the elements; [cell_of] knows the
    shared empty vector. *)
Definition vec_at (h : heap) (v : val) : option (list val) :=
  match cell_of h v with Some (CVec xs) => Some xs | _ => None end.

Fixpoint upd_nth {A} (i : nat) (x : A) (l : list A) : list A :=
  match l, i with
  | [], _ => []
  | _ :: r, O => x :: r
  | y :: r, S j => y :: upd_nth j x r
  end.

(** [minim_vector_size(len)], minim.h:250, is [8 * (2 + len)] in 64-bit
    arithmetic.  When it wraps around, the fill loop of Mvector (vector.c:7-17)
    writes outside the object. *)
Definition vec_size_ok (n : Z) : bool := (8 * (2 + n) <? 2 ^ 64)%Z.
Definition m_alloc (c : cell) : M val := fun h => HOk (VPtr (length h)) (h ++ [c]).
(** make_vector, vector.c:28-31. *)
Definition c_make_vector (n : Z) (init : val) : M val :=
  if vec_size_ok n then m_alloc (CVec (repeat init (Z.to_nat n))) else fun _ => HUndef.
(** vector_length, vector_ref, vector_set, vector_fill, vector.c:33-54: no checks. *)
Definition c_vector_length (v : val) : M Z := fun h =>
  match vec_at h v with Some xs => HOk (Z.of_nat (length xs)) h | None => HUndef end.
Definition c_vector_ref (v : val) (i : Z) : M val := fun h =>
  match vec_at h v with
  | Some xs => if (0 <=? i)%Z then match nth_error xs (Z.to_nat i) with Some x => HOk x h | None => HUndef end
               else HUndef
  | None => HUndef
  end.
(** Writing the elements back; writing nothing to the shared empty vector. *)
Definition put_vec (v : val) (xs : list val) : M unit := fun h =>
  match v with
  | VPtr l => HOk tt (upd_cell l (CVec xs) h)
  | _ => HOk tt h
  end.
Definition c_vector_set (v : val) (i : Z) (x : val) : M unit := fun h =>
  match vec_at h v with
  | Some xs => if ((0 <=? i) && (i <? Z.of_nat (length xs)))%Z
               then put_vec v (upd_nth (Z.to_nat i) x xs) h else HUndef
  | None => HUndef
  end.
Definition c_vector_fill (v x : val) : M unit := fun h =>
  match vec_at h v with Some xs => put_vec v (repeat x (length xs)) h | None => HUndef end.

(** The loop of list_to_vector, vector.c:63-66. *)
Fixpoint take_list (n : nat) (it : val) : M (list val) :=
  match n with
  | O => ret []
  | S m => a <- m_car it ;; d <- m_cdr it ;; r <- take_list m d ;; ret (a :: r)
  end.
(** list_to_vector, vector.c:56-69. *)
Definition c_list_to_vector (fuel : nat) (lst : val) : M val :=
  n <- list_length fuel lst 0 ;; xs <- take_list (Z.to_nat n) lst ;; m_alloc (CVec xs).
(** The loop of vector_to_list, vector.c:74-75: indices downwards, consing. *)
Fixpoint vec_to_list_loop (xs : list val) (i : nat) (lst : val) : M val :=
  match i with
  | O => ret lst
  | S j => match nth_error xs j with
           | Some x => p <- m_cons x lst ;; vec_to_list_loop xs j p
           | None => fun _ => HUndef
           end
  end.
(** vector_to_list, vector.c:71-77. *)
Definition c_vector_to_list (v : val) : M val := fun h =>
  match vec_at h v with Some xs => vec_to_list_loop xs (length xs) VNull h | None => HUndef end.

(** ** The prelude *)

Definition vectorp (h : heap) (v : val) : bool := match vec_at h v with Some _ => true | None => false end.
Definition if_vec (who : string) (v : val) (m : M val) : M val := fun h =>
  if vectorp h v then m h else HErr (EArg who v) h.
(** The guard [non-negative-integer?]. *)
Definition if_index (who : string) (i : val) (k : Z -> M val) : M val :=
  match i with VFix z => if (0 <=? z)%Z then k z else fail (EArg who i) | _ => fail (EArg who i) end.

(** [vector], prelude.min:1104-1105; the rest argument list is [args]. *)
Definition p_vector (args : list val) : M val := m_alloc (CVec args).
(** [make-vector], prelude.min:1107-1119. *)
Definition p_make_vector (n : val) (fill : option val) : M val :=
  if_index "make-vector" n (fun z => c_make_vector z (match fill with Some v => v | None => VFix 0 end)).
(** [vector-length], [vector-ref], [vector-set!], [vector-fill!],
    prelude.min:1121-1151.  An index out of range calls [raise-range-error] with its
    value and description arguments swapped, so that [raise-range-error]
    (prelude.min:2599-2614) itself raises an argument error. *)
Definition p_vector_length (v : val) : M val :=
  if_vec "vector-length" v (n <- c_vector_length v ;; ret (VFix n)).
Definition p_vector_ref (v i : val) : M val :=
  if_vec "vector-ref" v
    (if_index "vector-ref" i (fun z =>
       n <- c_vector_length v ;; if (n <=? z)%Z then fail (EArg "raise-range-error" v) else c_vector_ref v z)).
Definition p_vector_set (v i x : val) : M val :=
  if_vec "vector-set!" v
    (if_index "vector-set!" i (fun z =>
       n <- c_vector_length v ;;
       if (n <=? z)%Z then fail (EArg "raise-range-error" v) else (c_vector_set v z x ;;; ret VVoid))).
Definition p_vector_fill (v x : val) : M val :=
  if_vec "vector->list" v (c_vector_fill v x ;;; ret VVoid).
(** [list->vector], [vector->list], prelude.min:1153-1163. *)
Definition p_list_to_vector (fuel : nat) (xs : val) : M val :=
  b <- m_listp fuel xs ;;
  if b : bool then c_list_to_vector fuel xs else fail (EArg "list->vector" xs).
Definition p_vector_to_list (v : val) : M val := if_vec "vector->list" v (c_vector_to_list v).

(** ** Boxes: box.c:7-37 and prelude.min:1165-1178 *)

Definition box_at (h : heap) (v : val) : option val :=
  match cell_of h v with Some (CBox x) => Some x | _ => None end.
Definition p_box (x : val) : M val := m_alloc (CBox x).
Definition p_unbox (b : val) : M val := fun h =>
  match box_at h b with Some x => HOk x h | None => HErr (EArg "unbox" b) h end.
Definition p_set_box (b x : val) : M val := fun h =>
  match b, box_at h b with
  | VPtr l, Some _ => HOk VVoid (upd_cell l (CBox x) h)
  | _, _ => HErr (EArg "set-box!" b) h
  end.
